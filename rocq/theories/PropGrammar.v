(** * Properties C06, C13 (position) and C54-C57: the grammar of the lexer. *)
From Verif Require Import Base BaseFacts Unicode Tokens Lexer.
From Verif Require Import SpecText SpecTree SpecLit SpecGrammar SpecReference LexemeProofs ReferenceProofs.
Local Open Scope N_scope.

(** ** C06 *)
Theorem c06_balanced : forall U, unicode_ok U -> forall src start, start + strlen src < two32 -> forall ts,
  token_stream_from_str start src = Ok (Lexed ts) <-> exists ps, reads_source start src ps /\ tree ps ts.
Proof. exact @parse_reads. Qed.
Print Assumptions c06_balanced.
Theorem c06_unbalanced : forall U, unicode_ok U -> forall src start, start + strlen src < two32 -> forall sp,
  token_stream_from_str start src = Ok (LexError sp) <->
  exists ps, reads_source start src ps /\ wrong_top ps (lo sp) /\ hi sp = lo sp.
Proof. exact @parse_reads_error. Qed.
Print Assumptions c06_unbalanced.
Example c06_example :
  tree [POpen Parenthesis 0; POpen Bracket 1; PClose Bracket 2; PClose Parenthesis 3]
    [TGroup Parenthesis [TGroup Bracket [] (mkspan 1 3)] (mkspan 0 4)] /\
  wrong_top [POpen Parenthesis 0; POpen Bracket 1; PClose Parenthesis 2; PClose Bracket 3] 2.
Proof.
  split.
  - apply (tree_group Parenthesis 0 3 [POpen Bracket 1; PClose Bracket 2] _ [] []).
    + apply (tree_group Bracket 1 2 [] [] [] []); constructor.
    + constructor.
  - apply wrong_within, wrong_inside, (wrong_mismatch Bracket 1 [] [] Parenthesis 2 [PClose Bracket 3]);
      [constructor|discriminate].
Qed.

(** ** C13: an unclosed delimiter ([wrong_unclosed]) is reported at the innermost one. *)
Theorem c13_error_position : forall U, unicode_ok U -> forall src start, start + strlen src < two32 -> forall sp,
  token_stream_from_str start src = Ok (LexError sp) ->
  exists ps, reads_source start src ps /\ wrong_top ps (lo sp).
Proof. exact @error_reads. Qed.
Print Assumptions c13_error_position.
Example c13_position_example :
  @reads_source sample_unicode 5 (tag "( [") [POpen Parenthesis 5; POpen Bracket 7] /\
  wrong_top [POpen Parenthesis 5; POpen Bracket 7] 7 /\
  @token_stream_from_str sample_unicode 5 (tag "( [") = Ok (LexError (mkspan 7 7)).
Proof. exact unclosed_example. Qed.

(** ** C54 *)
Theorem c54_reading : forall U, unicode_ok U -> forall src start, start + strlen src < two32 ->
  exists ps, reads_source start src ps /\ forall ps', reads_source start src ps' -> ps' = ps.
Proof. exact @reads_once. Qed.
Print Assumptions c54_reading.
Theorem c54_first_lexeme : forall U, unicode_ok U -> forall t r k t' r' k',
  lexeme t r k -> lexeme t' r' k' -> t ++ r = t' ++ r' -> t = t' /\ r = r' /\ k = k'.
Proof. exact @lexeme_once. Qed.
Print Assumptions c54_first_lexeme.
Example c54_example :
  @lexeme sample_unicode (tag "1.5e3") (tag "..2") (TLiteral (tag "1.5e3")) /\
  @lexeme sample_unicode (tag "'") (tag "a b") (TPunct SQUOTE Joint) /\
  @lexeme sample_unicode (tag "'a'") [] (TLiteral (tag "'a'")) /\
  @lexeme sample_unicode (tag "r#fn") (tag "()") (TIdent (tag "fn") true) /\
  @reads_source sample_unicode 0 (tag "a /* ( */ (") [PTok [TIdent (tag "a") false (mkspan 0 1)]; POpen Parenthesis 10].
Proof. exact lexeme_examples. Qed.

(** ** C55 *)
Theorem c55_literal_grammar : forall U, unicode_ok U -> forall start src repr sp, start + strlen src < two32 ->
  literal_from_str start src = Ok (LitOk repr sp) <->
  repr = src /\ sp = mkspan start (start + strlen src) /\
  (literal_at src [] \/ exists d u, src = "-"%ch :: d :: u /\ dec_digit d /\ literal_at (d :: u) []).
Proof. exact @literal_grammar. Qed.
Print Assumptions c55_literal_grammar.
Example c55_example :
  @literal_at sample_unicode (tag "0x1Fu8") [] /\ ~ @literal_at sample_unicode (tag "0x_") [] /\
  @literal_at sample_unicode (tag "1.") [] /\ ~ @literal_at sample_unicode (tag "1._0") [].
Proof. exact literal_at_examples. Qed.

(** ** C56 *)
Theorem c56_reference_accepted : forall U, unicode_ok U -> forall start src, start + strlen src < two32 ->
  ref_literal src -> exists sp, literal_from_str start src = Ok (LitOk src sp).
Proof. exact @reference_accepted. Qed.
Print Assumptions c56_reference_accepted.
Example c56_example :
  @ref_literal sample_unicode (tag "1_0.5e+_3f64") /\ @ref_literal sample_unicode (tag "b'\x7F'u8") /\
  @ref_literal sample_unicode (tag "0b1_0usize").
Proof. exact ref_examples. Qed.

(** ** C57: false as stated; the excess is exactly [lenient]. *)
Theorem c57_only_reference_refuted : exists s t,
  (exists sp, @literal_from_str sample_unicode 0 s = Ok (LitOk s sp)) /\ ~ @ref_literal sample_unicode s /\
  (exists sp, @literal_from_str sample_unicode 0 t = Ok (LitOk t sp)) /\ ~ @ref_literal sample_unicode t.
Proof. exact only_reference_refuted. Qed.
Print Assumptions c57_only_reference_refuted.
Theorem c57_excess_partial : forall U, unicode_ok U -> forall start src, start + strlen src < two32 ->
  (exists sp, literal_from_str start src = Ok (LitOk src sp)) <->
  ref_literal src \/ lenient src \/
  exists d u, src = "-"%ch :: d :: u /\ dec_digit d /\ (ref_literal (d :: u) \/ lenient (d :: u)).
Proof. exact @literal_reference. Qed.
Print Assumptions c57_excess_partial.
Example c57_example :
  @lenient sample_unicode (tag "'''") /\ @lenient sample_unicode (tag "1e") /\
  @lenient sample_unicode (tag "1e_+5") /\ @lenient sample_unicode (tag "2.0Ex") /\
  @lenient sample_unicode (tag """""_").
Proof. exact lenient_examples. Qed.
