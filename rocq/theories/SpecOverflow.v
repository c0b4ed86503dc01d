(** * When the arithmetic of escapes overflows (specification). *)
From Verif Require Import Base Unicode LitValue SpecLit Overflow.
Import ListNotations.
Local Open Scope N_scope.

(** An opening brace, then so many digits that an [i32] cannot count them. *)
Definition uncountable (s : str) : Prop :=
  exists ds n v t, s = tag "{" ++ ds ++ t /\ udigits ds n v /\ N.of_nat n = 2 ^ 31.

(** The accessor for a kind of string literal, with or without overflow checks. *)
Definition value_in (ck : bool) (k : kind) : str -> res (conversion (list N)) :=
  match k with KStr => str_value_in ck | KByte => byte_str_value_in ck | KC => cstr_value_in ck end.
