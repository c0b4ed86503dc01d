(** * Property C94: parsing in a build with overflow checks. *)
From Verif Require Import Base Unicode Tokens Lexer SpecTree SourceMap SpecMap MapRelease.
From Verif Require CheckedLexer.
From Verif Require Import CheckedProofs.
Import ListNotations.
Local Open Scope N_scope.

(** Positions that fit are as without checks; otherwise the program panics or reports the
    same error, and does not return a stream. *)
Theorem c94_stream : forall U start src, start < two32 ->
  (start + strlen src < two32 ->
   @CheckedLexer.token_stream_from_str U start src = @token_stream_from_str U start src) /\
  (two32 <= start + strlen src ->
   @CheckedLexer.token_stream_from_str U start src = Panic \/
   @CheckedLexer.token_stream_from_str U start src = @token_stream_from_str U start src) /\
  (two32 <= start + strlen src -> strlen src < two32 ->
   forall ts, @CheckedLexer.token_stream_from_str U start src <> Ok (Lexed ts)).
Proof. exact @checked_stream. Qed.
Print Assumptions c94_stream.
Theorem c94_literal : forall U start src, start < two32 ->
  (start + strlen src < two32 -> @CheckedLexer.literal_from_str U start src = @literal_from_str U start src) /\
  (two32 <= start + strlen src ->
   @CheckedLexer.literal_from_str U start src = Panic \/
   @CheckedLexer.literal_from_str U start src = @literal_from_str U start src) /\
  (two32 <= start + strlen src -> strlen src < two32 ->
   forall r sp, @CheckedLexer.literal_from_str U start src <> Ok (LitOk r sp)).
Proof. exact @checked_literal. Qed.
Print Assumptions c94_literal.
(** With texts shorter than 2^32 characters only the source map can overflow: every history
    of a thread goes as with an unchecked lexer. *)
Theorem c94_history : forall U S os, Forall short os -> forall st, @CheckedLexer.run U S st os = @run U S st os.
Proof. exact @checked_run. Qed.
Print Assumptions c94_history.
(** A longer text can escape the checks: the token at 2^32 + 1 is said to be at 1. *)
Theorem c94_long : forall U, exists src st, nth_error src (N.to_nat (two32 + 1)) = Some 44 /\
  @CheckedLexer.run U std_new initial [OParse src; OStart 0; OText 0] =
  Ok (st, [Nothing; Position (mklc 1 1); Text (Some (tag "/"))]).
Proof. exact @checked_long. Qed.
Print Assumptions c94_long.
Example c94_example :
  let P start s := @CheckedLexer.token_stream_from_str sample_unicode start s in
  P (two32 - 4) (tag "a b") = Ok (Lexed [TIdent (tag "a") false (mkspan (two32 - 4) (two32 - 3));
                                         TIdent (tag "b") false (mkspan (two32 - 2) (two32 - 1))]) /\
  P (two32 - 3) (tag "a b") = Panic /\ P (two32 - 3) (tag "a) b") = Ok (LexError (mkspan (two32 - 2) (two32 - 2))) /\
  @token_stream_from_str sample_unicode (two32 - 3) (tag "a) b") = Ok (LexError (mkspan (two32 - 2) (two32 - 2))) /\
  @CheckedLexer.literal_from_str sample_unicode (two32 - 3) (tag """a""") = Panic /\
  @CheckedLexer.literal_from_str sample_unicode (two32 - 3) (tag "12") = Ok (LitOk (tag "12") (mkspan (two32 - 3) (two32 - 1))) /\
  Forall short [OParse (tag "a b"); OStart 1] /\
  (exists st, @CheckedLexer.run sample_unicode std_new initial [OParse (tag "a b"); OStart 1] =
     Ok (st, [Nothing; Position (mklc 1 2)])).
Proof.
  do 6 (split; [vm_compute; reflexivity|]). split; [repeat constructor|].
  eexists. vm_compute. reflexivity.
Qed.
