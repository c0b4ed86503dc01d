(** * Properties C62-C64 and more of C52: formatting options, [Debug] texts. *)
From Verif Require Import Base Unicode Tokens Lexer SpecText Fallback LitNew SpecTree SpecLit SpecPrint SpecGrammar.
From Verif Require Import Debug SpecDebug DebugProofs DebugLossless.
Local Open Scope list_scope.

(** ** C52: on trees, with what a group contains *)
Theorem c52_tokens : forall t sp,
  at_span (set_span t sp) sp /\ moved t (set_span t sp) /\ (forall sp', at_span t sp' <-> token_span t = sp').
Proof. exact set_span_moves. Qed.
Print Assumptions c52_tokens.
Example c52_tokens_example :
  let inner := [TIdent (tag "x") true (mkspan 2 5)] in
  set_span (TGroup Brace inner (mkspan 1 6)) (mkspan 7 9) = TGroup Brace inner (mkspan 7 9) /\
  at_span (TGroup Brace inner (mkspan 1 6)) (mkspan 1 6) /\ ~ at_span (TGroup Brace inner (mkspan 1 6)) (mkspan 2 5).
Proof. split; [reflexivity|]. split; [constructor|]. intros H. inversion H. Qed.

(** ** C62: options of [Display] *)
Theorem c62_stream : forall f ts, stream_display f ts = stream_to_string ts.
Proof. exact stream_display_any. Qed.
Print Assumptions c62_stream.
Theorem c62_tree : forall f t,
  match t with
  | TGroup _ _ _ | TIdent _ _ _ => tree_display f t = tree_to_string t
  | TPunct c _ _ => forall x, tree_display f t = x <-> padded f [c] x
  | TLiteral repr _ => forall x, tree_display f t = x <-> padded f repr x
  end.
Proof. exact tree_display_options. Qed.
Print Assumptions c62_tree.
Theorem c62_without_options : forall f t, width f = None -> precision f = None -> tree_display f t = tree_to_string t.
Proof. exact tree_display_no_options. Qed.
Print Assumptions c62_without_options.
Example c62_example :
  let f := mkformat "-"%ch (Some ACenter) (Some 8) (Some 3) false in
  let number := TLiteral (tag "12345") call_site in
  tree_display f number = tag "--123---" /\ padded f (tag "12345") (tag "--123---") /\
  tree_display f (TIdent (tag "x") true call_site) = tag "r#x" /\
  tree_display f (TGroup Parenthesis [number] call_site) = tag "(12345)" /\
  tree_display f (TPunct "+"%ch Joint call_site) = tag "---+----".
Proof.
  cbn zeta. split; [reflexivity|]. split; [|repeat split].
  apply (literal_display _ _ call_site). reflexivity.
Qed.

(** ** C63: exact [Debug] texts *)
Theorem c63_line : forall U, unicode_ok U -> forall loc ts x, Forall made ts ->
  stream_debug loc false ts = x <-> stream_line loc ts x.
Proof. exact @stream_text_line. Qed.
Print Assumptions c63_line.
Theorem c63_layout : forall U, unicode_ok U -> forall loc ts, Forall made ts ->
  exists b, stream_layout loc ts b /\ (forall b', stream_layout loc ts b' -> b' = b) /\ stream_debug loc true ts = render b.
Proof. exact @stream_pretty. Qed.
Print Assumptions c63_layout.
(** A tree alone is written as in a stream. *)
Theorem c63_tree : forall U, unicode_ok U -> forall loc t, made t ->
  tree_line loc t (tree_debug loc false t) /\
  exists b, tree_layout loc t b /\ (forall b', tree_layout loc t b' -> b' = b) /\ tree_debug loc true t = render b.
Proof. exact @tree_debug_exact. Qed.
Print Assumptions c63_tree.
(** What the hypothesis says: everything constructors and parsing make. *)
Theorem c63_made : forall U, unicode_ok U -> forall start, (start < two32)%N ->
  (forall s raw sp, made (TIdent s raw sp) <->
     (if raw then ident_new_raw s sp else ident_new s sp) = Ok (TIdent s raw sp)) /\
  (forall c s sp, made (TPunct c s sp) <-> punct_new c s = Ok (TPunct c s call_site)) /\
  (forall t sp, made (TLiteral t sp) <->
     t = error_text \/ exists sp', literal_from_str start t = Ok (LitOk t sp')) /\
  (forall d ts sp, made (TGroup d ts sp) <-> Forall made ts).
Proof. exact @made_leaves. Qed.
Print Assumptions c63_made.
Theorem c63_parsed : forall U, unicode_ok U -> forall start src ts, (start < two32)%N -> valid_str src ->
  token_stream_from_str start src = Ok (Lexed ts) -> Forall made ts.
Proof. exact @parsed_made. Qed.
Print Assumptions c63_parsed.
(** Values on their own. *)
Theorem c63_ident : forall U, unicode_ok U -> forall s raw sp,
  ident_debug false false s raw sp = tag "Ident(" ++ shown_ident s raw ++ tag ")" /\
  (forall alt, ident_debug true alt s raw sp = tree_debug true alt (TIdent s raw sp)) /\
  (ident_valid s raw ->
   ident_debug false true s raw sp
   = render [(0, tag "Ident("); (1, shown_ident s raw ++ tag ","); (0, tag ")")]).
Proof. exact @ident_debug_exact. Qed.
Print Assumptions c63_ident.
Theorem c63_error : forall f sp x, span_text sp x ->
  lex_error_display f sp = tag "cannot parse string into token stream" /\
  lex_error_debug true false sp = tag "LexError { span: " ++ x ++ tag " }" /\
  lex_error_debug true true sp = render [(0, tag "LexError {"); (1, tag "span: " ++ x ++ tag ","); (0, tag "}")] /\
  lex_error_debug false false sp = tag "LexError { span: Span }" /\
  lex_error_debug false true sp = render [(0, tag "LexError {"); (1, tag "span: Span,"); (0, tag "}")].
Proof. exact lex_error_exact. Qed.
Print Assumptions c63_error.
Theorem c63_span : forall sp x, (span_debug true sp = x <-> span_text sp x) /\ span_debug false sp = tag "Span" /\
  (forall d ts, delim_span_debug true (TGroup d ts sp) = x <-> span_text sp x) /\
  (forall d ts, delim_span_debug false (TGroup d ts sp) = tag "Span").
Proof. exact span_debug_exact. Qed.
Print Assumptions c63_span.
Example c63_example :
  let ts := [TGroup Brace [TLiteral (tag "1") (mkspan 3 4); TPunct SQUOTE Joint call_site] (mkspan 2 10)] in
  @stream_debug sample_unicode true false ts
  = tag "TokenStream [Group { delimiter: Brace, stream: TokenStream [Literal { lit: 1, span: bytes(3..4) }, Punct { char: '\'', spacing: Joint }], span: bytes(2..10) }]" /\
  @stream_debug sample_unicode true true ts = tag
"TokenStream [
    Group {
        delimiter: Brace,
        stream: TokenStream [
            Literal {
                lit: 1,
                span: bytes(3..4),
            },
            Punct {
                char: '\'',
                spacing: Joint,
            },
        ],
        span: bytes(2..10),
    },
]" /\
  @stream_debug sample_unicode false false ts
  = tag "TokenStream [Group { delimiter: Brace, stream: TokenStream [Literal { lit: 1 }, Punct { char: '\'', spacing: Joint }] }]" /\
  Forall (@made sample_unicode) ts.
Proof.
  cbn zeta. split; [vm_compute; reflexivity|]. split; [vm_compute; reflexivity|]. split; [vm_compute; reflexivity|].
  assert (H : exists sp, @literal_from_str sample_unicode 0 (tag "1") = Ok (LitOk (tag "1") sp)) by (eexists; vm_compute; reflexivity).
  constructor; [|constructor]. constructor. constructor; [|constructor; [|constructor]].
  - apply (made_leaves sample_unicode_ok 0); [reflexivity|]. now right.
  - constructor. cbn. tauto.
Qed.

(** ** C64: nothing is lost *)
Theorem c64_with_locations : forall U, unicode_ok U -> forall alt ts ts', Forall made ts -> Forall made ts' ->
  stream_debug true alt ts = stream_debug true alt ts' -> ts = ts'.
Proof. exact @streams_decode. Qed.
Print Assumptions c64_with_locations.
Theorem c64_without_locations : forall U, unicode_ok U -> forall alt ts ts', Forall made ts -> Forall made ts' ->
  stream_debug false alt ts = stream_debug false alt ts' <-> map strip ts = map strip ts'.
Proof. exact @streams_decode_strips. Qed.
Print Assumptions c64_without_locations.
Theorem c64_prefix_free : forall U, unicode_ok U -> forall alt t t' r r', made t -> made t' ->
  tree_debug true alt t ++ r = tree_debug true alt t' ++ r' -> t = t' /\ r = r'.
Proof. exact @trees_prefix_free. Qed.
Print Assumptions c64_prefix_free.
(** Not so for [Display]: two streams with one text. *)
Example c64_example :
  let a := [TPunct "+"%ch Joint call_site; TIdent (tag "a") false call_site] in
  let b := [TPunct "+"%ch Joint call_site; TGroup DNone [TIdent (tag "a") false call_site] call_site] in
  stream_to_string a = stream_to_string b /\ a <> b /\
  @stream_debug sample_unicode true true a <> @stream_debug sample_unicode true true b.
Proof. cbn zeta. repeat split; discriminate. Qed.
