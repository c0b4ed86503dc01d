(** * Properties C03, C04, C15 and C28-C31: round trips, well formed streams,
    identifiers and puncts. *)
From Verif Require Import Base Unicode Tokens Lexer SpecText Fallback SpecTree SpecLit LitProofs SpecPrint SpecOrder
  PrintProofs.
From Verif Require Import SpecLex.
Import ListNotations.
Local Open Scope N_scope.

(** ** C03 *)
Theorem c03_roundtrip : forall U, unicode_ok U -> forall a b src ts,
  a < two32 -> b < two32 -> valid_str src -> token_stream_from_str a src = Ok (Lexed ts) ->
  exists ts', token_stream_from_str b (stream_to_string ts) = Ok (Lexed ts') /\ map strip ts' = map strip ts.
Proof. exact @parsed_roundtrip. Qed.
Print Assumptions c03_roundtrip.
Example c03_example :
  let src := tag "/// d
fn f<'a>(x:&'a u8)->u8{x<<=-1;'\''/**/}" in
  valid_str src /\ exists ts, @token_stream_from_str sample_unicode 0 src = Ok (Lexed ts) /\
  stream_to_string ts = tag "# [doc = "" d""] fn f <'a > (x :&'a u8) -> u8 { x <<=- 1 ;'\'' }".
Proof.
  cbn zeta. split; [apply Forall_forall, forallb_forall; reflexivity|].
  eexists. split; vm_compute; reflexivity.
Qed.

(** ** C04 *)
Theorem c04_roundtrip : forall U, unicode_ok U -> forall start ts, start < two32 ->
  printable (fun r => accepted start r \/ r = ERROR) ts ->
  exists ts', token_stream_from_str start (stream_to_string ts) = Ok (Lexed ts') /\
    map strip ts' = map strip ts /\ stream_to_string ts' = stream_to_string ts.
Proof. exact @built_roundtrip. Qed.
Print Assumptions c04_roundtrip.
(** The conditions are the weakest possible. *)
Theorem c04_exact : forall U, unicode_ok U -> forall start ts, start < two32 ->
  valid_str (stream_to_string ts) ->
  (exists ts', token_stream_from_str start (stream_to_string ts) = Ok (Lexed ts') /\ map strip ts' = map strip ts)
  <-> printable (fun r => accepted start r \/ r = ERROR) ts.
Proof. exact @built_roundtrip_iff. Qed.
Print Assumptions c04_exact.
Example c04_example :
  let sp := call_site in
  let ts := [TPunct "'"%ch Joint sp; TIdent (tag "a") true sp; TPunct "<"%ch Joint sp; TPunct "/"%ch Alone sp;
             TPunct "/"%ch Joint sp; TLiteral (tag "'x'") sp; TGroup Brace [TGroup Brace [] sp] sp;
             TPunct "'"%ch Joint sp; TLiteral (tag "b""x""") sp] in
  @printable sample_unicode (fun r => @accepted sample_unicode 0 r \/ r = ERROR) ts /\
  stream_to_string ts = tag "'r#a </ /'x' { { } } 'b""x""".
Proof.
  cbn zeta. split; [|reflexivity].
  assert (Hp : forall c, List.existsb (N.eqb c) punct_chars = true -> In c punct_chars).
  { intros c H. apply List.existsb_exists in H as (x & Hx & E). apply N.eqb_eq in E. now subst. }
  apply pr_lifetime; [exact I|]. apply pr_ident.
  { split; [|intros _ H; cbn in H; decompose [or] H; (discriminate || contradiction)].
    exists "a"%ch, []. split; [reflexivity|]. split; [now right|constructor]. }
  apply pr_joint; [now apply Hp|discriminate|intros [E _]; discriminate|].
  apply pr_alone; [now apply Hp|discriminate|].
  apply pr_joint; [now apply Hp|discriminate|eexists; reflexivity|].
  apply pr_literal; [left; vm_compute; repeat split; eexists; reflexivity|].
  apply pr_group; [discriminate|apply pr_group; [discriminate|apply pr_nil|apply pr_nil]|].
  apply pr_lifetime; [exists (tag "b"), (tag "x"""); cbn; tauto|].
  apply pr_literal; [left; vm_compute; repeat split; eexists; reflexivity|apply pr_nil].
Qed.
(** The documentation of [Display for TokenStream] excepts only [Delimiter::None]
    and negative literals; a [Joint] punct before an identifier is lost too. *)
Theorem c04_joint_refuted : exists ts, 
  ts = [TPunct "+"%ch Joint call_site; TIdent (tag "a") false call_site] /\
  punct_new "+"%ch Joint = Ok (TPunct "+"%ch Joint call_site) /\
  @ident_new sample_unicode (tag "a") call_site = Ok (TIdent (tag "a") false call_site) /\
  exists ts', @token_stream_from_str sample_unicode 0 (stream_to_string ts) = Ok (Lexed ts') /\
    map strip ts' = [TPunct "+"%ch Alone call_site; TIdent (tag "a") false call_site].
Proof. eexists. split; [reflexivity|]. repeat split. eexists. split; vm_compute; reflexivity. Qed.
Print Assumptions c04_joint_refuted.
(** An apostrophe that is not glued to a name does not even parse. *)
Theorem c04_apostrophe_refuted : exists ts sp,
  ts = [TPunct "'"%ch Alone call_site] /\ punct_new "'"%ch Alone = Ok (TPunct "'"%ch Alone call_site) /\
  @token_stream_from_str sample_unicode 0 (stream_to_string ts) = Ok (LexError sp).
Proof. do 2 eexists. split; [reflexivity|]. split; vm_compute; reflexivity. Qed.
Print Assumptions c04_apostrophe_refuted.

(** ** C15 *)
Theorem c15_well_formed : forall U, unicode_ok U -> forall start src ts, start < two32 -> valid_str src ->
  token_stream_from_str start src = Ok (Lexed ts) ->
  forall t, occurs t ts ->
  match t with
  | TGroup d _ _ => d = Parenthesis \/ d = Brace \/ d = Bracket
  | TIdent sym raw sp => (if raw then ident_new_raw sym sp else ident_new sym sp) = Ok t
  | TPunct c s sp => punct_new c s = Ok (TPunct c s call_site) /\ (c = SQUOTE -> s = Joint)
  | TLiteral repr _ =>
      repr = ERROR \/
      (exists sp, token_stream_from_str start repr = Ok (Lexed [TLiteral repr sp])) /\
      (exists sp, literal_from_str start repr = Ok (LitOk repr sp)) /\ ~ begins repr (tag "-")
  end.
Proof. exact @parsed_constructible. Qed.
Print Assumptions c15_well_formed.
(** Neighbours are as printing needs them. *)
Theorem c15_adjacent : forall U, unicode_ok U -> forall start src ts, start < two32 -> valid_str src ->
  token_stream_from_str start src = Ok (Lexed ts) ->
  printable (fun r => accepted start r \/ r = ERROR) ts.
Proof. exact @parsed_printable. Qed.
Print Assumptions c15_adjacent.
Example c15_example : exists ts,
  @token_stream_from_str sample_unicode 0 (tag "f(-1, r#fn, (/*ERROR*/))") = Ok (Lexed ts) /\
  exists sp sp' sp'', occurs (TLiteral ERROR sp) ts /\ occurs (TIdent (tag "fn") true sp') ts /\
    occurs (TLiteral (tag "1") sp'') ts.
Proof.
  eexists. split; [vm_compute; reflexivity|]. do 3 eexists.
  repeat split; (eapply occurs_inside; [right; left; reflexivity|]; apply occurs_here; cbn; tauto).
Qed.

(** ** C28 *)
Theorem c28_constructors : forall U, unicode_ok U -> forall s sp,
  (ident_text s -> ident_new s sp = Ok (TIdent s false sp) /\ tree_to_string (TIdent s false sp) = s) /\
  (~ ident_text s -> ident_new s sp = Panic) /\
  (ident_text s /\ ~ In s never_raw ->
     ident_new_raw s sp = Ok (TIdent s true sp) /\ tree_to_string (TIdent s true sp) = tag "r#" ++ s) /\
  (~ (ident_text s /\ ~ In s never_raw) -> ident_new_raw s sp = Panic).
Proof. exact @ident_ctors. Qed.
Print Assumptions c28_constructors.
Example c28_example :
  @ident_text sample_unicode [0x3B1; 0x301] /\ ~ @ident_text sample_unicode (tag "1a") /\
  ~ @ident_text sample_unicode [] /\ @ident_text sample_unicode (tag "_") /\ In (tag "_") never_raw.
Proof.
  split; [exists 0x3B1, [0x301]; repeat split; [now right|repeat constructor]|].
  split; [intros (c & t & E & [H|H] & _); injection E as <- _; discriminate|].
  split; [intros (c & t & E & _); discriminate|].
  split; [exists "_"%ch, []; repeat split; [now left|constructor]|now left].
Qed.

(** ** C29 *)
Theorem c29_equality : forall U, unicode_ok U -> forall s1 r1 s2 r2, ident_text s1 -> ident_text s2 ->
  ident_eqb s1 r1 s2 r2 = true <-> ident_to_string s1 r1 = ident_to_string s2 r2.
Proof. exact @ident_eqb_spec. Qed.
Print Assumptions c29_equality.
Theorem c29_string_equality : forall sym raw other,
  ident_eq_str sym raw other = Ok true /\ other = ident_to_string sym raw \/
  ident_eq_str sym raw other = Ok false /\ other <> ident_to_string sym raw.
Proof. exact ident_eq_str_spec. Qed.
Print Assumptions c29_string_equality.
Theorem c29_ordering : forall s1 r1 s2 r2, valid_str s1 -> valid_str s2 ->
  match ident_cmp s1 r1 s2 r2 with
  | Eq => ident_to_string s1 r1 = ident_to_string s2 r2
  | Lt => str_lt (ident_to_string s1 r1) (ident_to_string s2 r2)
  | Gt => str_lt (ident_to_string s2 r2) (ident_to_string s1 r1)
  end.
Proof. exact ident_cmp_spec. Qed.
Print Assumptions c29_ordering.
(** [str_lt] is a strict total order. *)
Theorem c29_total_order : (forall a, ~ str_lt a a) /\ (forall a b c, str_lt a b -> str_lt b c -> str_lt a c) /\
  (forall a b, a = b \/ str_lt a b \/ str_lt b a).
Proof. exact (conj str_lt_irrefl (conj str_lt_trans str_lt_total)). Qed.
Print Assumptions c29_total_order.
Theorem c29_hash : forall s1 r1 s2 r2 x y, valid_str s1 -> valid_str s2 ->
  ident_hash_input s1 r1 ++ x = ident_hash_input s2 r2 ++ y <->
  ident_to_string s1 r1 = ident_to_string s2 r2 /\ x = y.
Proof. exact ident_hash_spec. Qed.
Print Assumptions c29_hash.
Example c29_example :
  ident_eqb (tag "a") true (tag "a") false = false /\ ident_eq_str (tag "a") true (tag "r#a") = Ok true /\
  ident_cmp (tag "r") false (tag "a") true = Lt /\ ident_cmp [0xFF41] false [0x10400] false = Lt.
Proof. repeat split. Qed.

(** ** C30 *)
Theorem c30_roundtrip : forall U, unicode_ok U -> forall start s sp t, start < two32 ->
  ident_new s sp = Ok t \/ ident_new_raw s sp = Ok t ->
  exists sp', token_stream_from_str start (tree_to_string t) = Ok (Lexed [set_span t sp']).
Proof. exact @ident_roundtrip. Qed.
Print Assumptions c30_roundtrip.
Example c30_example :
  @ident_new sample_unicode (tag "br") call_site = Ok (TIdent (tag "br") false call_site) /\
  @ident_new_raw sample_unicode (tag "r") call_site = Ok (TIdent (tag "r") true call_site).
Proof. repeat split. Qed.

(** ** C31 *)
Theorem c31_punct_new : forall c s,
  (In c punct_chars -> punct_new c s = Ok (TPunct c s call_site)) /\ (~ In c punct_chars -> punct_new c s = Panic).
Proof. exact punct_new_spec. Qed.
Print Assumptions c31_punct_new.
Theorem c31_agrees_with_lexer : forall U, unicode_ok U -> forall start c, start < two32 ->
  (In c punct_chars <-> exists s, punct_new c s <> Panic) /\
  (In c punct_chars <-> exists src ts sp s, valid_str src /\ token_stream_from_str start src = Ok (Lexed ts) /\
     occurs (TPunct c s sp) ts).
Proof. exact @punct_chars_agree. Qed.
Print Assumptions c31_agrees_with_lexer.
Example c31_example : length punct_chars = 22%nat /\ NoDup punct_chars /\ ~ In "\"%ch punct_chars.
Proof.
  split; [reflexivity|]. split; [repeat (constructor; [cbn; intuition discriminate|]); constructor|].
  cbn. intuition discriminate.
Qed.

(** ** C59 *)
Theorem c59_stream_text : forall ts x, trees_text ts x <-> stream_to_string ts = x.
Proof. exact trees_text_spec. Qed.
Print Assumptions c59_stream_text.
Theorem c59_tree_text : forall t x, tree_text t x <-> tree_to_string t = x.
Proof. exact tree_text_spec. Qed.
Print Assumptions c59_tree_text.
Example c59_example :
  let ts := [TPunct "-"%ch Joint call_site; TPunct ">"%ch Alone call_site;
             TGroup Brace [TIdent (tag "x") true call_site] call_site; TGroup Brace [] call_site] in
  trees_text ts (tag "-> { r#x } { }") /\ stream_to_string ts = tag "-> { r#x } { }".
Proof.
  split; [|reflexivity]. apply ts_joint, (ts_space _ [">"%ch]); [discriminate|constructor|].
  apply (ts_space _ (tag "{ r#x }")); [discriminate| |repeat constructor].
  apply (tt_brace _ _ (tag "r#x")); [discriminate|]. apply ts_one. apply (tt_raw [_]).
Qed.
