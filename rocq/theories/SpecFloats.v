(** * Floats, their numbers and their decimal texts: specification for C103. *)
From Verif Require Import Base Tokens LitNew SpecLit.
Import ListNotations.
Local Open Scope N_scope.

(** The formats of IEEE 754: bits of the exponent and of the fraction. *)
Definition exponent_bits (t : float_type) : N := match t with F32 => 8 | F64 => 11 end.
Definition fraction_bits (t : float_type) : N := match t with F32 => 23 | F64 => 52 end.
Definition bias (t : float_type) : N := 2 ^ (exponent_bits t - 1) - 1.
(** Sign, exponent and fraction. *)
Record parts := mkparts { negative : bool; expo : N; frac : N }.
Definition float_of (t : float_type) (p : parts) (bits : N) : Prop :=
  bits = ((if negative p then 1 else 0) * 2 ^ exponent_bits t + expo p) * 2 ^ fraction_bits t + frac p /\
  expo p < 2 ^ exponent_bits t /\ frac p < 2 ^ fraction_bits t.
(** The largest exponent is for the infinities and for NaN. *)
Definition a_number (t : float_type) (p : parts) : Prop := expo p + 1 < 2 ^ exponent_bits t.
(** The number without its sign, in units of [2 ^ - places t]: [frac] for the smallest exponent,
    [(2 ^ fraction_bits + frac) * 2 ^ (expo - 1)] for the others. *)
Definition places (t : float_type) : N := bias t + fraction_bits t - 1.
Definition units (t : float_type) (p : parts) : N :=
  if expo p =? 0 then frac p else (2 ^ fraction_bits t + frac p) * 2 ^ (expo p - 1).

(** The text of a number [n / 10 ^ k]: digits, and perhaps a point and [k] more digits. *)
Definition decimal_text (text : str) (n k : N) : Prop :=
  (all_digits text /\ decimal text n /\ k = 0) \/
  (exists i f, all_digits i /\ all_digits f /\ text = i ++ tag "." ++ f /\ decimal (i ++ f) n /\ k = N.of_nat (length f)).
Definition signed (neg : bool) (text : str) : str := if neg then tag "-" ++ text else text.

(** [distance t n k p]: the distance of [n / 10 ^ k] from the float, times [10 ^ k * 2 ^ places]. *)
Definition distance (t : float_type) (n k : N) (p : parts) : Z :=
  Z.abs (Z.of_N (n * 2 ^ places t) - Z.of_N (units t p * 10 ^ k)).
(** The float without sign that [n / 10 ^ k] is rounded to: the nearest, and of two as near the one
    with an even fraction. *)
Definition nearest (t : float_type) (n k : N) (e f : N) : Prop :=
  e + 1 < 2 ^ exponent_bits t /\ f < 2 ^ fraction_bits t /\
  forall p, a_number t p -> frac p < 2 ^ fraction_bits t ->
    (distance t n k (mkparts false e f) <= distance t n k p)%Z /\
    (distance t n k (mkparts false e f) = distance t n k p ->
     (e = expo p /\ f = frac p) \/ N.even f = true).
(** The text reads back as the float [p]. *)
Definition reads_as (t : float_type) (text : str) (p : parts) : Prop :=
  exists n k, decimal_text text n k /\ nearest t n k (expo p) (frac p).

(** What is assumed of [to_string]: it prints the sign and a text that reads back as the float. *)
Definition display_ok (show : float_type -> N -> str) : Prop :=
  forall t p bits, float_of t p bits -> a_number t p ->
  exists text, show t bits = signed (negative p) text /\ reads_as t text p.
