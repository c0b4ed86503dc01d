(** * Properties of source texts against the Rust reference *)
From Verif Require Import Base BaseFacts Unicode Tokens Lexer.
From Verif Require Import SpecText SpecTree SpecLit SpecGrammar SpecReference SpecSource SourceProofs.
Local Open Scope N_scope.

(** ** C85 *)
Theorem c85_common_partial : forall U, unicode_ok U -> forall src start, start + strlen src < two32 -> forall ps,
  common_source start src ps ->
  (forall ts, tree ps ts -> token_stream_from_str start src = Ok (Lexed ts)) /\
  (forall p, wrong_top ps p -> token_stream_from_str start src = Ok (LexError (mkspan p p))).
Proof. exact @common_parsed. Qed.
Print Assumptions c85_common_partial.
Example c85_common_example :
  @common_source sample_unicode 0 (tag "'a 1..(" ++ [DQUOTE; DQUOTE] ++ tag ")")
    [PTok [TPunct SQUOTE Joint (mkspan 0 1)]; PTok [TIdent (tag "a") false (mkspan 1 2)]; PTok [TLiteral (tag "1") (mkspan 3 4)];
     PTok [TPunct "."%ch Joint (mkspan 4 5)]; PTok [TPunct "."%ch Alone (mkspan 5 6)];
     POpen Parenthesis 6; PTok [TLiteral [DQUOTE; DQUOTE] (mkspan 7 9)]; PClose Parenthesis 9].
Proof. exact common_example. Qed.
(** Whatever the reference reads, except where one of two texts is in it. *)
Theorem c85_reference_partial : forall U, unicode_ok U -> forall src start, start + strlen src < two32 ->
  ~ holds_text src error_text -> (forall p, In p string_prefixes -> ~ holds_text src (SQUOTE :: p ++ [DQUOTE])) ->
  forall ps, reference_source start src ps ->
  (forall ts, tree ps ts -> token_stream_from_str start src = Ok (Lexed ts)) /\
  (forall p, wrong_top ps p -> token_stream_from_str start src = Ok (LexError (mkspan p p))).
Proof. exact @reference_parsed. Qed.
Print Assumptions c85_reference_partial.
Example c85_reference_example : forall src, src = tag "'a 1..(" ++ [DQUOTE; DQUOTE] ++ tag ")" ->
  ~ holds_text src error_text /\ (forall p, In p string_prefixes -> ~ holds_text src (SQUOTE :: p ++ [DQUOTE])).
Proof. exact apart_example. Qed.
(** The reference reads a text in at most one way. *)
Theorem c85_once : forall U, unicode_ok U -> forall start src ps ps',
  reference_source start src ps -> reference_source start src ps' -> ps = ps'.
Proof. exact @reference_once. Qed.
Print Assumptions c85_once.
Theorem c85_exact_partial : forall U, unicode_ok U -> forall src start, start + strlen src < two32 -> forall ts,
  token_stream_from_str start src = Ok (Lexed ts) <-> exists ps, crate_source start src ps /\ tree ps ts.
Proof. exact @parsed_source. Qed.
Print Assumptions c85_exact_partial.
Theorem c85_common_reference : forall U src start ps,
  @common_source U start src ps -> reference_source start src ps /\ crate_source start src ps.
Proof. exact @common_both. Qed.
Print Assumptions c85_common_reference.
Theorem c85_literals : forall U t, ref_lexeme t [] (TLiteral t) <-> @ref_literal U t.
Proof. exact @literals_agree. Qed.
Print Assumptions c85_literals.

(** What the reference reads otherwise. *)
Theorem c85_error_refuted : exists src ps ts ts',
  @reference_source sample_unicode 0 src ps /\ tree ps ts /\
  @token_stream_from_str sample_unicode 0 src = Ok (Lexed ts') /\ ts' <> ts.
Proof. exact error_refuted. Qed.
Print Assumptions c85_error_refuted.
Theorem c85_lifetime_refuted : exists src ps ts ts',
  @reference_source sample_unicode 0 src ps /\ tree ps ts /\
  @token_stream_from_str sample_unicode 0 src = Ok (Lexed ts') /\ ts' <> ts.
Proof. exact mark_refuted. Qed.
Print Assumptions c85_lifetime_refuted.

(** What the reference does not read. *)
Theorem c85_reserved : forall U, unicode_ok U -> forall sym after,
  ident_text sym -> word_end after -> reserves after -> ~ literal_prefix sym after ->
  forall a ps, ~ source false true a (sym ++ after) ps.
Proof. exact @reserved_unread. Qed.
Print Assumptions c85_reserved.
Example c85_reserved_example :
  @ident_text sample_unicode (tag "k") /\ @word_end sample_unicode (tag "#x") /\ reserves (tag "#x") /\ ~ literal_prefix (tag "k") (tag "#x") /\
  @token_stream_from_str sample_unicode 0 (tag "k#x") =
    Ok (Lexed [TIdent (tag "k") false (mkspan 0 1); TPunct "#"%ch Alone (mkspan 1 2); TIdent (tag "x") false (mkspan 2 3)]).
Proof. exact reserved_example. Qed.
Theorem c85_foreign : forall U, unicode_ok U -> forall c, In c foreign_white_space -> forall a s ps, ~ source false true a (c :: s) ps.
Proof. exact @foreign_unread. Qed.
Print Assumptions c85_foreign.
Example c85_foreign_example :
  In 0xA0 foreign_white_space /\ @token_stream_from_str sample_unicode 0 [0xA0; "a"%ch] = Ok (Lexed [TIdent (tag "a") false (mkspan 1 2)]).
Proof. exact foreign_example. Qed.
Theorem c85_number_refuted : exists src src',
  (exists ts, @token_stream_from_str sample_unicode 0 src = Ok (Lexed ts)) /\ (forall ps, ~ @reference_source sample_unicode 0 src ps) /\
  (exists ts, @token_stream_from_str sample_unicode 0 src' = Ok (Lexed ts)) /\ (forall ps, ~ @reference_source sample_unicode 0 src' ps).
Proof. exact beyond_refuted. Qed.
Print Assumptions c85_number_refuted.
