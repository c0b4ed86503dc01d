(** * Property C91: the arithmetic of escapes. *)
From Verif Require Import Base Unicode Escaper Lexer LitValue SpecLit SpecTree SpecLex Overflow SpecOverflow OverflowProofs.
Import ListNotations.
Local Open Scope N_scope.

(** The lexer never overflows, on any text, *)
Theorem c91_lexer : forall ck it, backslash_u_in ck it = backslash_u it.
Proof. exact lexer_escapes. Qed.
Print Assumptions c91_lexer.
(** nor do the accessors on a literal that the lexer accepts, of whatever size. *)
Theorem c91_accepted : forall U, unicode_ok U -> forall ck start k repr, start < two32 -> accepted start repr ->
  value_in ck k repr = value_of k repr.
Proof. exact @value_accepted. Qed.
Print Assumptions c91_accepted.
(** Other texts are safe up to two gibicharacters; *)
Theorem c91_short : forall ck k repr, strlen repr < 2 ^ 31 -> value_in ck k repr = value_of k repr.
Proof. exact value_short. Qed.
Print Assumptions c91_short.
(** an escape overflows exactly if it has that many digits. *)
Theorem c91_escape : forall s,
  (unicode_escape_in true s = Panic <-> uncountable s) /\
  (forall ck, ~ uncountable s -> unicode_escape_in ck s = Ok (unicode_escape s)).
Proof. exact unicode_exact. Qed.
Print Assumptions c91_escape.
(** Then the accessor panics, or without overflow checks takes the literal for a valid one. *)
Theorem c91_overflow : exists repr,
  value_in true KStr repr = Panic /\ value_in false KStr repr = Ok (COk [0]) /\
  value_of KStr repr = Ok (CFailed OverlongUnicodeEscape).
Proof. exact overflow_witness. Qed.
Print Assumptions c91_overflow.
Example c91_example :
  backslash_u_in true (0%nat, tag "{10_FF_FF}x") = Ok ((10%nat, tag "x"), 0x10FFFF) /\
  backslash_u_in true (0%nat, tag "{FFFFFFF}") = Reject /\
  value_in true KStr (tag """a\u{10FFFF}\x7F""") = Ok (COk [97; 0x10FFFF; 0x7F]) /\
  @accepted sample_unicode 0 (tag """a\u{10FFFF}\x7F""") /\
  value_in true KByte (tag "b""\xFF""") = Ok (COk [255]) /\
  value_in true KStr (tag """\u{FFFFFFFFFFFFFFFFFFFF}""") = Ok (CFailed OverlongUnicodeEscape).
Proof. repeat split; try (vm_compute; reflexivity); vm_compute; eexists; reflexivity. Qed.
