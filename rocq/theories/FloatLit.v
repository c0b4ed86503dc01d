(** * The float constructors: lib.rs 1195-1263 over fallback.rs 1020-1021 and 1039-1053.

    A float is the number made of its bits.  What [f.to_string()] prints is a parameter.
    The assertion stands in lib.rs, before the choice between the compiler and the fallback;
    what follows it is the fallback. *)
From Verif Require Import Base Unicode Tokens LitNew Messages.
Import ListNotations.
Local Open Scope N_scope.

(** [f.to_string()] of the standard library. *)
Class float_display := { shown : float_type -> N -> str }.

(** [abs()] is the bits without the sign. *)
Definition abs_bits (t : float_type) (bits : N) : N := bits mod (match t with F32 => 0x80000000 | F64 => 0x8000000000000000 end).
(** [is_finite]: [self.abs() < INFINITY].  For floats without sign that are not NaN the order is that
    of the bits; the bits of every NaN are above those of infinity, and NaN is not less. *)
Definition is_finite (t : float_type) (bits : N) : bool :=
  abs_bits t bits <? match t with F32 => 0x7F800000 | F64 => 0x7FF0000000000000 end.

Section WithDisplay.
Context {D : float_display}.
Definition float_new (make : str -> str) (t : float_type) (f : N) : said token :=
  if is_finite t f then Returns (TLiteral (make (shown t f)) call_site)
  else Panics (tag "assertion failed: f.is_finite()").
(** lib.rs 1205-1208 and 1241-1244 *)
Definition float_new_unsuffixed (t : float_type) (f : N) : said token := float_new float_unsuffixed t f.
(** lib.rs 1223-1226 and 1259-1262 *)
Definition float_new_suffixed (t : float_type) (f : N) : said token := float_new (float_suffixed t) t f.
End WithDisplay.
