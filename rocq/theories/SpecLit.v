(** * What string literals mean (specification).

    Independent of the lexer and of the escaper: the escapes of the Rust
    reference as relations between the text of a literal and its value.  The
    value of a string is a list of characters, of a byte string a list of
    bytes, of a C string a list of bytes without the final NUL. *)
From Verif Require Import Base.
Import ListNotations.
Local Open Scope N_scope.

Inductive kind := KStr | KByte | KC.

(** One character as part of a value. *)
Definition units (k : kind) (c : char) : list N :=
  match k with KC => encode_utf8 c | _ => [c] end.

Inductive hexval : char -> N -> Prop :=
| hex_09 v : v < 10 -> hexval (48 + v) v
| hex_lower v : 10 <= v < 16 -> hexval (87 + v) v
| hex_upper v : 10 <= v < 16 -> hexval (55 + v) v.

(** Digits, most significant first, with underscores. *)
Inductive udigits : str -> nat -> N -> Prop :=
| ud_first c v : hexval c v -> udigits [c] 1 v
| ud_digit ds n v c d : udigits ds n v -> hexval c d -> udigits (ds ++ [c]) (S n) (16 * v + d)
| ud_underscore ds n v : udigits ds n v -> udigits (ds ++ [95]) n v.

(** The text after a backslash, and its value. *)
Inductive escape (k : kind) : str -> list N -> Prop :=
| esc_simple c v :
    In (c, v) [("n"%ch, 10); ("r"%ch, 13); ("t"%ch, 9); ("\"%ch, 92); ("'"%ch, 39);
               (""""%ch, 34)] ->
    escape k [c] [v]
| esc_zero : k <> KC -> escape k ["0"%ch] [0]
| esc_hex a b x y :
    hexval a x -> hexval b y ->
    (k = KStr -> 16 * x + y < 128) -> (k = KC -> 16 * x + y <> 0) ->
    escape k ["x"%ch; a; b] [16 * x + y]
| esc_unicode ds n v :
    k <> KByte -> udigits ds n v -> (n <= 6)%nat -> is_scalar v = true ->
    (k = KC -> v <> 0) ->
    escape k (tag "u{" ++ ds ++ tag "}") (units k v).

(** Whitespace dropped after a backslash at the end of a line. *)
Definition continuation_space (c : char) : Prop := c = 32 \/ c = 9 \/ c = 10 \/ c = 13.
Definition starts_continuation (s : str) : Prop :=
  exists c t, s = c :: t /\ continuation_space c.

(** Text between the quotes, and its value. *)
Inductive cooked (k : kind) : str -> list N -> Prop :=
| cooked_nil : cooked k [] []
| cooked_char c s v :
    c <> DQUOTE -> c <> BACKSLASH -> c <> CR ->
    (k = KByte -> c < 128) -> (k = KC -> c <> 0) ->
    cooked k s v -> cooked k (c :: s) (units k c ++ v)
| cooked_escape e x s v :
    escape k e x -> cooked k s v -> cooked k (BACKSLASH :: e ++ s) (x ++ v)
| cooked_continue ws s v :
    Forall continuation_space ws -> ~ starts_continuation s ->
    cooked k s v -> cooked k (BACKSLASH :: LF :: ws ++ s) v.

Definition prefix (k : kind) : str :=
  match k with KStr => [] | KByte => tag "b" | KC => tag "c" end.

(** What the accessor for the kind returns for a value. *)
Definition finish (k : kind) (v : list N) : list N :=
  match k with KC => v ++ [0] | _ => v end.

(** A whole literal, without suffix. *)
Inductive denotes (k : kind) : str -> list N -> Prop :=
| den_cooked s v :
    cooked k s v -> denotes k (prefix k ++ [DQUOTE] ++ s ++ [DQUOTE]) (finish k v)
| den_raw n s :
    denotes k (prefix k ++ tag "r" ++ repeat "#"%ch n ++ [DQUOTE] ++ s ++ [DQUOTE]
               ++ repeat "#"%ch n)
      (finish k (match k with KStr => s | _ => str_bytes s end)).

(** Every CRLF read as LF. *)
Fixpoint crlf (s : str) : str :=
  match s with
  | [] => []
  | c :: t =>
      if c =? CR then
        match t with
        | d :: _ => if d =? LF then crlf t else c :: crlf t
        | [] => [c]
        end
      else c :: crlf t
  end.

(** Character and byte literals, without suffix. *)
Inductive char_denotes (k : kind) : str -> N -> Prop :=
| chd_plain c :
    c <> SQUOTE -> c <> BACKSLASH -> c <> LF -> c <> CR -> c <> TAB -> (k = KByte -> c < 128) ->
    char_denotes k (prefix k ++ [SQUOTE; c; SQUOTE]) c
| chd_escape e v :
    escape k e [v] ->
    char_denotes k (prefix k ++ [SQUOTE; BACKSLASH] ++ e ++ [SQUOTE]) v.

(** ** Decimal numbers *)
Inductive decimal : str -> N -> Prop :=
| dec_first d : d < 10 -> decimal [48 + d] d
| dec_more ds v d : decimal ds v -> d < 10 -> decimal (ds ++ [48 + d]) (10 * v + d).

(** No superfluous leading zero. *)
Definition canonical_decimal (ds : str) (v : N) : Prop :=
  decimal ds v /\ forall t, ds = "0"%ch :: t -> t = [].

(** What the standard library prints for a finite float: digits, and possibly a
    point and more digits. *)
Definition all_digits (s : str) : Prop := s <> [] /\ Forall (fun c => 48 <= c <= 57) s.
Inductive float_text : str -> Prop :=
| ft_int i : all_digits i -> float_text i
| ft_frac i f : all_digits i -> all_digits f -> float_text (i ++ tag "." ++ f).
Inductive signed_float_text : str -> Prop :=
| sft_pos s : float_text s -> signed_float_text s
| sft_neg s : float_text s -> signed_float_text (tag "-" ++ s).

(** ** Raw strings that are tokens *)
Definition raw_allowed (k : kind) (c : char) : Prop :=
  match k with KStr => True | KByte => c < 128 | KC => c <> 0 end.
(** Carriage returns only before line feeds. *)
Definition cr_only_before_lf (s : str) : Prop :=
  forall a b, s = a ++ CR :: b -> exists b', b = LF :: b'.
Definition raw_literal (k : kind) (n : nat) (s : str) : str :=
  prefix k ++ tag "r" ++ repeat "#"%ch n ++ [DQUOTE] ++ s ++ [DQUOTE] ++ repeat "#"%ch n.
