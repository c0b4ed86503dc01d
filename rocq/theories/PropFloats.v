(** * Property C103: the float constructors. *)
From Verif Require Import Base Unicode Tokens Lexer Fallback LitNew Messages FloatLit SpecLit SpecLex SpecFloats FloatProofs.
Import ListNotations.
Local Open Scope N_scope.

(** Every float has its parts, and one float. *)
Theorem c103_parts : forall t bits, bits < 2 ^ (1 + exponent_bits t + fraction_bits t) -> exists! p, float_of t p bits.
Proof.
  exact (fun t bits L => match float_parts t bits L with ex_intro _ p P =>
    ex_intro _ p (conj P (fun q Q => float_once t p q bits P Q)) end).
Qed.
Print Assumptions c103_parts.
(** They panic for the infinities and NaN, with this message, and for no other float. *)
Theorem c103_panics : forall (D : float_display) t p bits, float_of t p bits ->
  let m := tag "assertion failed: f.is_finite()" in
  (a_number t p -> exists a b, float_new_unsuffixed t bits = Returns a /\ float_new_suffixed t bits = Returns b) /\
  (~ a_number t p -> float_new_unsuffixed t bits = Panics m /\ float_new_suffixed t bits = Panics m).
Proof. exact @panics. Qed.
Print Assumptions c103_panics.
(** The literal has the sign of the float, reads back as the float and is accepted by the parser. *)
Theorem c103_unsuffixed : forall D : float_display, display_ok shown -> forall t p bits, float_of t p bits -> a_number t p ->
  exists i f, all_digits i /\ all_digits f /\ reads_as t (i ++ tag "." ++ f) p /\
    float_new_unsuffixed t bits = Returns (TLiteral (signed (negative p) (i ++ tag "." ++ f)) call_site) /\
    forall U, unicode_ok U -> forall start, start < two32 ->
      if negative p then accepted_negative start (i ++ tag "." ++ f) else accepted start (i ++ tag "." ++ f).
Proof. exact @unsuffixed_text. Qed.
Print Assumptions c103_unsuffixed.
Theorem c103_suffixed : forall D : float_display, display_ok shown -> forall t p bits, float_of t p bits -> a_number t p ->
  exists text, reads_as t text p /\
    float_new_suffixed t bits = Returns (TLiteral (signed (negative p) (text ++ float_suffix t)) call_site) /\
    forall U, unicode_ok U -> forall start, start < two32 ->
      if negative p then accepted_negative start (text ++ float_suffix t) else accepted start (text ++ float_suffix t).
Proof. exact @suffixed_text. Qed.
Print Assumptions c103_suffixed.
(** A text reads back as one float, so different floats have different literals. *)
Theorem c103_reads_once : forall t text p q, reads_as t text p -> reads_as t text q -> expo p = expo q /\ frac p = frac q.
Proof. exact reads_once. Qed.
Print Assumptions c103_reads_once.
Theorem c103_differ : forall D : float_display, display_ok shown -> forall t p q a b,
  float_of t p a -> float_of t q b -> a_number t p -> a_number t q ->
  float_new_unsuffixed t a = float_new_unsuffixed t b \/ float_new_suffixed t a = float_new_suffixed t b -> a = b.
Proof. exact @literals_differ. Qed.
Print Assumptions c103_differ.
(** What is assumed of the standard library can be met, by printing all the places. *)
Theorem c103_display : exists D : float_display, display_ok shown.
Proof. exact (ex_intro _ exact_display exact_ok). Qed.
Print Assumptions c103_display.

(** -0.0, 1.5, the infinities and two NaNs; 0.1 is what the nearest float of either type prints. *)
Example c103_example :
  float_of F32 (mkparts true 0 0) 0x80000000 /\ a_number F32 (mkparts true 0 0) /\
  float_of F32 (mkparts false 127 0x400000) 0x3FC00000 /\ units F32 (mkparts false 127 0x400000) * 2 = 3 * 2 ^ places F32 /\
  reads_as F32 (tag "0.1") (mkparts false 123 0x4CCCCD) /\ reads_as F64 (tag "0.1") (mkparts false 1019 0x999999999999A) /\
  is_finite F32 0x7F7FFFFF = true /\ is_finite F32 0xFF800000 = false /\ is_finite F32 0x7F800001 = false /\
  is_finite F64 0xFFEFFFFFFFFFFFFF = true /\ is_finite F64 0x7FF0000000000000 = false /\ is_finite F64 0xFFF8000000000000 = false /\
  (let D := {| shown := fun _ bits => if bits =? 0x80000000 then tag "-0" else tag "1.5" |} in
   @float_new_unsuffixed D F32 0x80000000 = Returns (TLiteral (tag "-0.0") call_site) /\
   @float_new_suffixed D F32 0x80000000 = Returns (TLiteral (tag "-0f32") call_site) /\
   @float_new_unsuffixed D F32 0x3FC00000 = Returns (TLiteral (tag "1.5") call_site) /\
   @float_new_suffixed D F32 0x7F800000 = Panics (tag "assertion failed: f.is_finite()")).
Proof.
  assert (T : decimal_text (tag "0.1") 1 1).
  { right. exists (tag "0"), (tag "1"). assert (A : forall c, 48 <= c <= 57 -> all_digits [c]) by (split; [discriminate|now repeat constructor]).
    split; [apply A; lia|]. split; [apply A; lia|]. split; [reflexivity|]. split; [|reflexivity].
    apply (dec_more [48] 0 1); [apply (dec_first 0)|]; lia. }
  split; [now repeat split|]. split; [reflexivity|]. split; [now repeat split|]. split; [vm_compute; reflexivity|].
  split; [exists 1, 1; split; [exact T|apply (nearer_neighbours F32 1 1 123 0x4CCCCC); vm_compute; reflexivity]|].
  split; [exists 1, 1; split; [exact T|apply (nearer_neighbours F64 1 1 1019 0x9999999999999); vm_compute; reflexivity]|].
  vm_compute. repeat split.
Qed.
