(** * Property C79: more than 2^32 characters on one thread. *)
From Verif Require Import Base BaseFacts Unicode Tokens Lexer SourceMap SpecMap MapRelease FullProofs.
Local Open Scope N_scope.

(** False as stated: with overflow checks parsing panics ... *)
Theorem c79_checked_refuted : forall S, search_ok S -> exists src, N.of_nat (length src) < two32 /\
  @run sample_unicode S initial [OParse src] = Panic.
Proof. exact checked_refuted. Qed.
Print Assumptions c79_checked_refuted.
(** ... and without them a query about a text parsed later does. *)
Theorem c79_unchecked_refuted : forall S, search_ok S -> exists src, N.of_nat (length src) < two32 /\
  (exists st, @wrapping_run sample_unicode S initial [OParse src] = Ok (st, [Nothing])) /\
  (exists st, @wrapping_run sample_unicode S initial [OParse (tag "a"); OFile 0] =
     Ok (st, [Nothing; Path (tag "<parsed string 1>")])) /\
  @wrapping_run sample_unicode S initial [OParse src; OParse (tag "a"); OFile 0] = Panic.
Proof. exact unchecked_refuted. Qed.
Print Assumptions c79_unchecked_refuted.
(** With room both builds answer from the texts ... *)
Theorem c79_room_partial : forall S, search_ok S -> forall U os, room 1 os ->
  exists st, @run U S initial os = Ok (st, snd (@spec_run U spec_initial os)) /\
    @wrapping_run U S initial os = @run U S initial os.
Proof. exact (fun S HS U => @room_runs U S HS). Qed.
Print Assumptions c79_room_partial.
(** ... and without room checks always panic. *)
Theorem c79_exact_partial : forall S, search_ok S -> forall U os, Forall short os -> ~ room 1 os ->
  @run U S initial os = Panic.
Proof. exact (fun S HS U => @exact_room U S HS). Qed.
Print Assumptions c79_exact_partial.
Example c79_example : search_ok std_new /\
  room 1 [OParse (tag "a b"); OFile 0; OLiteral (tag "1")] /\ ~ room (two32 - 3) [OParse (tag "a b"); OFile 0] /\
  @wrapping_run sample_unicode std_new initial [OParse (tag "a b"); OFile 0; OLiteral (tag "1")] =
  @run sample_unicode std_new initial [OParse (tag "a b"); OFile 0; OLiteral (tag "1")].
Proof. exact room_examples. Qed.
