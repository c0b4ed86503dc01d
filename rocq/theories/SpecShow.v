(** * The text of the literals that the constructors make (specification).

    SpecLit.v says what a text means; many texts mean the same.  Here: which of
    them is printed, following the documentation of [char::escape_debug] and the
    comments in the source. *)
From Verif Require Import Base Unicode SpecLit.
Import ListNotations.
Local Open Scope N_scope.

Definition octal_digit (c : char) : Prop := 48 <= c <= 55.

(** Characters with a two-character escape inside the quotes [q]. *)
Definition special (q c : char) : Prop := In c [0; 9; 10; 13; BACKSLASH; q].

(** [shown q plain code next c text]: inside the quotes [q], with [next]
    following, the character [c] is written [text].  The [plain] characters stand
    for themselves and the others have a numeric [code]. *)
Inductive shown (q : char) (plain : char -> Prop) (code : char -> str -> Prop) (next : str) :
  char -> str -> Prop :=
| sh_octal d t : next = d :: t -> octal_digit d -> shown q plain code next 0 (tag "\x00")
| sh_nul : (forall d t, next = d :: t -> ~ octal_digit d) -> shown q plain code next 0 (tag "\0")
| sh_letter c e : In (c, e) [(9, "t"%ch); (10, "n"%ch); (13, "r"%ch)] ->
    shown q plain code next c [BACKSLASH; e]
| sh_mark c : c = q \/ c = BACKSLASH -> shown q plain code next c [BACKSLASH; c]
| sh_plain c : ~ special q c -> plain c -> shown q plain code next c [c]
| sh_code c e : ~ special q c -> ~ plain c -> code c e -> shown q plain code next c e.

Inductive shown_text (q : char) (plain : char -> Prop) (code : char -> str -> Prop) : str -> str -> Prop :=
| st_nil : shown_text q plain code [] []
| st_cons c s e b :
    shown q plain code s c e -> shown_text q plain code s b -> shown_text q plain code (c :: s) (e ++ b).

(** Characters: plain when printable and not combining with the previous one,
    else [\u{...}] with lower case digits and no superfluous zero. *)
Inductive lower_hex : str -> N -> Prop :=
| lh_first c d : hexval c d -> ~ 65 <= c <= 70 -> lower_hex [c] d
| lh_more ds v c d : lower_hex ds v -> v <> 0 -> hexval c d -> ~ 65 <= c <= 70 ->
    lower_hex (ds ++ [c]) (16 * v + d).
Definition char_plain {U : unicode} (c : char) : Prop :=
  is_printable c = true /\ is_grapheme_extended c = false.
Definition char_code (c : char) (e : str) : Prop :=
  exists ds, lower_hex ds c /\ e = tag "\u{" ++ ds ++ tag "}".

(** Bytes: plain when printable ASCII, else [\xFF] with upper case digits. *)
Definition byte_plain (b : N) : Prop := 32 <= b <= 126.
Definition byte_code (b : N) (e : str) : Prop :=
  exists c d x y, hexval c x /\ hexval d y /\ ~ 97 <= c <= 102 /\ ~ 97 <= d <= 102 /\
    b = 16 * x + y /\ e = tag "\x" ++ [c; d].

(** The bytes of a C string: read from the left, every encoded character is
    written like in a string, and every byte where no encoded character begins
    is written as a byte. *)
Inductive c_shown {U : unicode} : list N -> str -> Prop :=
| cs_nil : c_shown [] []
| cs_char c e bs b :
    is_scalar c = true -> shown DQUOTE char_plain char_code [] c e -> c_shown bs b ->
    c_shown (encode_utf8 c ++ bs) (e ++ b)
| cs_byte x e bs b :
    (forall c r, is_scalar c = true -> x :: bs <> encode_utf8 c ++ r) -> byte_code x e -> c_shown bs b ->
    c_shown (x :: bs) (e ++ b).
