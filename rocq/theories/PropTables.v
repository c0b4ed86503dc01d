(** * Property C98: newer Unicode tables. *)
From Verif Require Import Base Unicode Tokens Lexer Fallback LitNew SpecText SpecTree SpecLit SpecTables TablesProofs.
Import ListNotations.
Local Open Scope N_scope.

(** What parses with the older tables parses to the same trees with the newer ones, but for the
    spelling of doc comments where the tables for printing differ. *)
Theorem c98_stream : forall U V, unicode_ok U -> unicode_ok V -> newer U V -> forall start src ts,
  start + strlen src < two32 -> valid_str src ->
  @token_stream_from_str U start src = Ok (Lexed ts) ->
  exists ts', @token_stream_from_str V start src = Ok (Lexed ts') /\ respelled ts ts' /\ (same_printing U V -> ts = ts').
Proof. exact parse_newer. Qed.
Print Assumptions c98_stream.
Theorem c98_literal : forall U V, unicode_ok U -> unicode_ok V -> newer U V -> forall start src repr sp,
  start + strlen src < two32 ->
  @literal_from_str U start src = Ok (LitOk repr sp) -> @literal_from_str V start src = Ok (LitOk repr sp).
Proof. exact literal_from_newer. Qed.
Print Assumptions c98_literal.
Theorem c98_ident : forall U V, unicode_ok U -> unicode_ok V -> newer U V -> forall s sp t,
  (@ident_new U s sp = Ok t -> @ident_new V s sp = Ok t) /\
  (@ident_new_raw U s sp = Ok t -> @ident_new_raw V s sp = Ok t).
Proof. exact ident_new_newer. Qed.
Print Assumptions c98_ident.
(** [1α], a lifetime and a doc comment with an arrow; then [1א], which is new. *)
Example c98_example :
  let P U := @token_stream_from_str U 0 in
  let old := tag "1" ++ [0x3B1] ++ tag " 'a /** " ++ [0x2192] ++ tag "*/" in
  unicode_ok sample_unicode /\ unicode_ok with_hebrew /\ newer sample_unicode with_hebrew /\ valid_str old /\
  (exists a b c d l l', P sample_unicode old = Ok (Lexed ([a; b; c] ++ doc_attribute false l d)) /\
     P with_hebrew old = Ok (Lexed ([a; b; c] ++ doc_attribute false l' d)) /\ l = tag """ \u{2192}""" /\ l' = tag """ " ++ [0x2192; DQUOTE]) /\
  P sample_unicode (tag "1" ++ [0x5D0]) = Ok (LexError (mkspan 1 1)) /\
  P with_hebrew (tag "1" ++ [0x5D0]) = Ok (Lexed [TLiteral (tag "1" ++ [0x5D0]) (mkspan 0 2)]).
Proof.
  cbv zeta. split; [exact sample_unicode_ok|]. split; [apply with_hebrew_ok|]. split; [apply with_hebrew_ok|].
  split; [repeat constructor|]. split; [|vm_compute; split; reflexivity].
  eexists _, _, _, _, _, _. vm_compute. repeat split.
Qed.
(** The condition that no character only becomes able to start identifiers is needed. *)
Example c98_promoted :
  let P U := @token_stream_from_str U 0 (tag "1.5e5" ++ [0x301]) in
  unicode_ok sample_unicode /\ unicode_ok with_accents /\
  (forall c, @is_xid_start sample_unicode c = true -> @is_xid_start with_accents c = true) /\
  @is_xid_continue with_accents = @is_xid_continue sample_unicode /\
  P sample_unicode = Ok (Lexed [TLiteral (tag "1") (mkspan 0 1); TPunct "."%ch Alone (mkspan 1 2); TLiteral (tag "5e5" ++ [0x301]) (mkspan 2 6)]) /\
  P with_accents = Ok (Lexed [TLiteral (tag "1.5e5" ++ [0x301]) (mkspan 0 6)]).
Proof.
  cbv zeta. split; [exact sample_unicode_ok|]. split; [apply with_accents_ok|]. split; [apply with_accents_ok|].
  split; [reflexivity|]. vm_compute. split; reflexivity.
Qed.

(** ** The blank characters (C08) *)
Theorem c08_blank_chars : forall U, unicode_ok U -> forall start c, start < two32 ->
  @token_stream_from_str U start [c] = Ok (Lexed []) <-> c = 0xFEFF \/ In c blanks.
Proof. exact blank_chars. Qed.
Print Assumptions c08_blank_chars.
(** The no-break space is one, the zero width space is not. *)
Example c08_blank_chars_example :
  @token_stream_from_str sample_unicode 3 [0xA0] = Ok (Lexed []) /\ In 0xA0 blanks /\
  @token_stream_from_str sample_unicode 3 [0x200B] = Ok (LexError (mkspan 3 3)) /\ ~ In 0x200B blanks.
Proof.
  split; [vm_compute; reflexivity|]. split; [cbn; tauto|]. split; [vm_compute; reflexivity|].
  cbn. intros H. decompose [or] H; try discriminate; contradiction.
Qed.
