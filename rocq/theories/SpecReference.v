(** * Specification: literal tokens of the Rust reference.

    Transcribed from the chapter "Tokens" of the Rust reference, independent of
    what the crate accepts.  The rules for the body of strings and for escapes
    are those of SpecLit.v, which follow the same chapter. *)
From Verif Require Import Base Unicode Tokens SpecText SpecTree SpecLit SpecGrammar.
Local Open Scope N_scope.

Section WithUnicode.
Context {U : unicode}.

(** SUFFIX: a word other than a lone underscore; SUFFIX_NO_E: not beginning with e or E. *)
Definition ref_suffix (s : str) : Prop := s = [] \/ (ident_text s /\ s <> tag "_").
Definition no_e (s : str) : Prop := ~ begins s (tag "e") /\ ~ begins s (tag "E").

(** CHAR_LITERAL and BYTE_LITERAL exclude these unless escaped. *)
Definition char_excluded : list char := [SQUOTE; BACKSLASH; LF; CR; TAB].
Inductive ref_quoted : str -> Prop :=
| ref_cooked k b v :
    cr_only_before_lf b -> cooked k (crlf b) v ->
    ref_quoted (prefix k ++ [DQUOTE] ++ b ++ [DQUOTE])
| ref_raw k n b :
    (n <= 255)%nat -> cr_only_before_lf b -> Forall (raw_allowed k) b ->
    (forall x y, b <> x ++ [DQUOTE] ++ repeat "#"%ch n ++ y) ->
    ref_quoted (raw_literal k n b)
| ref_char k c :
    k <> KC -> ~ In c char_excluded -> (k = KByte -> c < 128) ->
    ref_quoted (prefix k ++ [SQUOTE; c; SQUOTE])
| ref_escape k e v :
    k <> KC -> escape k e v -> ref_quoted (prefix k ++ [SQUOTE; BACKSLASH] ++ e ++ [SQUOTE]).

(** FLOAT_EXPONENT after its letter: a sign, then digits and underscores with a digit. *)
Definition ref_exponent (e : str) : Prop :=
  exists sign ds, e = sign ++ ds /\ (sign = [] \/ sign = tag "+" \/ sign = tag "-") /\
    Forall digit_or_underscore ds /\ Exists dec_digit ds.

(** Digits are taken as far as they go, so a suffix of a number does not begin with
    an underscore ([number_suffix]) or with a digit of the radix. *)
Inductive ref_number : str -> Prop :=
| ref_dec d s :
    dec_text d -> number_suffix s -> no_e s -> (forall p b, radix p b -> ~ begins (d ++ s) p) ->
    ref_number (d ++ s)
| ref_radix p b ds s :
    radix p b -> Forall (fun c => digit_below b c \/ c = "_"%ch) ds -> Exists (digit_below b) ds ->
    number_suffix s -> (forall c t, s = c :: t -> ~ digit_below b c) -> no_e s ->
    ref_number (p ++ ds ++ s)
| ref_point d : dec_text d -> ref_number (d ++ tag ".")
| ref_fraction d f s :
    dec_text d -> dec_text f -> number_suffix s -> no_e s -> ref_number (d ++ tag "." ++ f ++ s)
| ref_float d f m e s :
    dec_text d -> (f = [] \/ exists f', f = tag "." ++ f' /\ dec_text f') ->
    exponent_letter m -> ref_exponent e -> number_suffix s -> ref_number (d ++ f ++ m ++ e ++ s).

Inductive ref_literal : str -> Prop :=
| ref_literal_quoted q s : ref_quoted q -> ref_suffix s -> ref_literal (q ++ s)
| ref_literal_number s : ref_number s -> ref_literal s.

(** ** What the crate accepts beyond the reference. *)
(** An exponent and the rest of a number. *)
Definition exponent_tail (x : str) : Prop :=
  exists e s, x = e ++ s /\ exponent_text e /\ number_suffix s.
Inductive lenient : str -> Prop :=
(** A quote, line feed, carriage return or tab as the character of a character literal. *)
| lenient_char k c s :
    k <> KC -> In c [SQUOTE; LF; CR; TAB] -> (s = [] \/ ident_text s) ->
    lenient (prefix k ++ [SQUOTE; c; SQUOTE] ++ s)
(** The suffix [_] on a quoted literal. *)
| lenient_underscore q : ref_quoted q -> lenient (q ++ tag "_")
(** An integer with a suffix in e or E that is no exponent. *)
| lenient_int_e d m x :
    dec_text d -> exponent_letter m -> number_suffix (m ++ x) -> ~ exponent_tail x ->
    lenient (d ++ m ++ x)
| lenient_radix_e p b ds m x :
    radix p b -> Forall (fun c => digit_below b c \/ c = "_"%ch) ds -> Exists (digit_below b) ds ->
    exponent_letter m -> number_suffix (m ++ x) -> b <> 16 -> lenient (p ++ ds ++ m ++ x)
(** A fraction with a suffix in e or E in which no exponent begins. *)
| lenient_fraction_e d f m x :
    dec_text d -> dec_text f -> exponent_letter m -> number_suffix (m ++ x) ->
    ~ (exists e y, x = e ++ y /\ exponent_text e) -> lenient (d ++ tag "." ++ f ++ m ++ x)
(** Underscores between the letter and the sign of an exponent. *)
| lenient_sign d f m u sign v ds s :
    dec_text d -> (f = [] \/ exists f', f = tag "." ++ f' /\ dec_text f') -> exponent_letter m ->
    u <> [] -> Forall (fun c => c = "_"%ch) u -> (sign = tag "+" \/ sign = tag "-") ->
    Forall (fun c => c = "_"%ch) v -> dec_text ds -> number_suffix s ->
    lenient (d ++ f ++ m ++ (u ++ sign ++ v ++ ds) ++ s).

End WithUnicode.
