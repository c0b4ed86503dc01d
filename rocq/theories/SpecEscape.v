(** * Reports of the literal escaper (specification).

    What is reported, and for which bytes, when the text of a literal is read:
    the values of [SpecLit] and, for text that has none, the errors as documented
    in rustc_literal_escaper.rs 16-71.  Values as in [SpecLit]. *)
From Verif Require Import Base Unicode EscapeErrors SpecLit.
Import ListNotations.
Local Open Scope N_scope.

(** A report with the unit read as part of a value. *)
Definition out {A} (push : A -> list N) (r : uresult A) : uresult (list N) :=
  match r with UOk a => UOk (push a) | UErr e => UErr e end.
Definition shown_event {A} (push : A -> list N) (x : event A) : event (list N) :=
  (fst x, out push (snd x)).

Definition hexadecimal (c : char) : Prop := exists v, hexval c v.
(** At most one digit; digits and underscores. *)
Definition few_digits (ds : str) : Prop := ds = [] \/ exists a, ds = [a] /\ hexadecimal a.
Definition some_digits (ds : str) : Prop := ds = [] \/ exists n v, udigits ds n v.

(** After a backslash: the text read, the text left, and the report. *)
Inductive after_slash (k : kind) : str -> str -> uresult (list N) -> Prop :=
| as_value e r x : escape k e x -> after_slash k e r (UOk x)
| as_nothing : after_slash k [] [] (UErr LoneSlash)
| as_unknown c r :
    ~ In c (tag "0nrtxu\'""") -> after_slash k [c] r (UErr InvalidEscape)
| as_zero r : k = KC -> after_slash k ["0"%ch] r (UErr NulInCStr)
| as_hex_short ds : few_digits ds -> after_slash k (tag "x" ++ ds) [] (UErr TooShortHexEscape)
| as_hex_bad ds c r :
    few_digits ds -> ~ hexadecimal c ->
    after_slash k (tag "x" ++ ds ++ [c]) r (UErr InvalidCharInHexEscape)
| as_hex_high a b x y r :
    k = KStr -> hexval a x -> hexval b y -> 128 <= 16 * x + y ->
    after_slash k (tag "x" ++ [a; b]) r (UErr OutOfRangeHexEscape)
| as_hex_nul r : k = KC -> after_slash k (tag "x00") r (UErr NulInCStr)
| as_brace_end : after_slash k (tag "u") [] (UErr NoBraceInUnicodeEscape)
| as_brace c r : c <> "{"%ch -> after_slash k (tag "u" ++ [c]) r (UErr NoBraceInUnicodeEscape)
| as_unclosed ds :
    some_digits ds -> after_slash k (tag "u{" ++ ds) [] (UErr UnclosedUnicodeEscape)
| as_underscore r : after_slash k (tag "u{_") r (UErr LeadingUnderscoreUnicodeEscape)
| as_empty r : after_slash k (tag "u{}") r (UErr EmptyUnicodeEscape)
| as_bad ds c r :
    some_digits ds -> ~ hexadecimal c -> c <> "_"%ch -> c <> "}"%ch ->
    after_slash k (tag "u{" ++ ds ++ [c]) r (UErr InvalidCharInUnicodeEscape)
| as_unicode ds n v e r :
    udigits ds n v -> bad_unicode k n v e -> after_slash k (tag "u{" ++ ds ++ tag "}") r (UErr e)
(** [n] digits with value [v]. *)
with bad_unicode (k : kind) : nat -> N -> escape_error -> Prop :=
| bu_overlong n v : (6 < n)%nat -> bad_unicode k n v OverlongUnicodeEscape
| bu_byte n v : (n <= 6)%nat -> k = KByte -> bad_unicode k n v UnicodeEscapeInByte
| bu_range n v :
    (n <= 6)%nat -> k <> KByte -> 0x10FFFF < v -> bad_unicode k n v OutOfRangeUnicodeEscape
| bu_surrogate n v :
    (n <= 6)%nat -> k <> KByte -> 0xD800 <= v <= 0xDFFF ->
    bad_unicode k n v LoneSurrogateUnicodeEscape
| bu_nul n : (n <= 6)%nat -> k = KC -> bad_unicode k n 0 NulInCStr.

(** A character standing for itself. *)
Inductive itself (k : kind) (c : char) : uresult (list N) -> Prop :=
| it_value : (k = KByte -> c < 128) -> (k = KC -> c <> 0) -> itself k c (UOk (units k c))
| it_high : k = KByte -> 128 <= c -> itself k c (UErr NonAsciiCharInByte)
| it_nul : k = KC -> c = 0 -> itself k c (UErr NulInCStr).

(** Between double quotes, from byte [p] on.  The warnings of a continuation
    cover it from the backslash on; the second also covers the character. *)
Definition skipped_lines (p q : nat) (ws : str) (w : list (event (list N))) : Prop :=
  (In LF ws /\ w = [((p, q), UErr MultipleSkippedLinesWarning)]) \/ (~ In LF ws /\ w = []).
Definition unskipped (p q : nat) (s : str) (w : list (event (list N))) : Prop :=
  (exists c t, s = c :: t /\ is_white_space c = true /\
     w = [((p, (q + len_utf8 c)%nat), UErr UnskippedWhitespaceWarning)])
  \/ ((forall c t, s = c :: t -> is_white_space c = false) /\ w = []).

Inductive reports (k : kind) : nat -> str -> list (event (list N)) -> Prop :=
| rp_end p : reports k p [] []
| rp_quote p s ev :
    reports k (p + 1) s ev ->
    reports k p (DQUOTE :: s) (((p, (p + 1)%nat), UErr EscapeOnlyChar) :: ev)
| rp_return p s ev :
    reports k (p + 1) s ev ->
    reports k p (CR :: s) (((p, (p + 1)%nat), UErr BareCarriageReturn) :: ev)
| rp_char p c s x ev :
    c <> DQUOTE -> c <> CR -> c <> BACKSLASH -> itself k c x ->
    reports k (p + len_utf8 c) s ev ->
    reports k p (c :: s) (((p, (p + len_utf8 c)%nat), x) :: ev)
| rp_escape p e s x ev :
    (forall t, e ++ s <> LF :: t) -> after_slash k e s x ->
    reports k (p + 1 + str_len e) s ev ->
    reports k p (BACKSLASH :: e ++ s) (((p, (p + 1 + str_len e)%nat), x) :: ev)
| rp_continue p ws s q w w' ev :
    Forall continuation_space ws -> ~ starts_continuation s -> q = (p + 2 + str_len ws)%nat ->
    skipped_lines p q ws w -> unskipped p q s w' ->
    reports k q s ev ->
    reports k p (BACKSLASH :: LF :: ws ++ s) (w ++ w' ++ ev).

(** Raw text. *)
Inductive raw_reports (k : kind) : nat -> str -> list (event (list N)) -> Prop :=
| rr_end p : raw_reports k p [] []
| rr_return p s ev :
    raw_reports k (p + 1) s ev ->
    raw_reports k p (CR :: s) (((p, (p + 1)%nat), UErr BareCarriageReturnInRawString) :: ev)
| rr_char p c s x ev :
    c <> CR -> itself k c x -> raw_reports k (p + len_utf8 c) s ev ->
    raw_reports k p (c :: s) (((p, (p + len_utf8 c)%nat), x) :: ev).

(** Between single quotes: the report, and the length of what was looked at. *)
Inductive single_report (k : kind) : str -> nat -> uresult (list N) -> Prop :=
| sr_nothing : single_report k [] 0 (UErr ZeroChars)
| sr_special c s :
    In c [LF; TAB; SQUOTE] -> single_report k (c :: s) 1 (UErr EscapeOnlyChar)
| sr_return s : single_report k (CR :: s) 1 (UErr BareCarriageReturn)
| sr_bad c s e :
    ~ In c [LF; TAB; SQUOTE; CR; BACKSLASH] -> itself k c (UErr e) ->
    single_report k (c :: s) (len_utf8 c) (UErr e)
| sr_char c x :
    ~ In c [LF; TAB; SQUOTE; CR; BACKSLASH] -> itself k c (UOk x) ->
    single_report k [c] (len_utf8 c) (UOk x)
| sr_char_more c x d s :
    ~ In c [LF; TAB; SQUOTE; CR; BACKSLASH] -> itself k c (UOk x) ->
    single_report k (c :: d :: s) (len_utf8 c + len_utf8 d) (UErr MoreThanOneChar)
| sr_bad_escape e s x :
    after_slash k e s (UErr x) -> single_report k (BACKSLASH :: e ++ s) (1 + str_len e) (UErr x)
| sr_escape e x :
    after_slash k e [] (UOk x) -> single_report k (BACKSLASH :: e) (1 + str_len e) (UOk x)
| sr_escape_more e x d s :
    after_slash k e (d :: s) (UOk x) ->
    single_report k (BACKSLASH :: e ++ d :: s) (1 + str_len e + len_utf8 d) (UErr MoreThanOneChar).

(** The two warnings; everything else is an error. *)
Definition warning (e : escape_error) : Prop :=
  e = UnskippedWhitespaceWarning \/ e = MultipleSkippedLinesWarning.
Definition only_warnings {A} (ev : list (event A)) : Prop :=
  forall g e, In (g, UErr e) ev -> warning e.
Definition values (ev : list (event (list N))) : list N :=
  flat_map (fun x => match snd x with UOk v => v | UErr _ => [] end) ev.
Definition last_error {A} (ev : list (event A)) (e : escape_error) : Prop :=
  exists a g b, ev = a ++ (g, UErr e) :: b /\ ~ warning e /\
    forall g' e', In (g', UErr e') b -> warning e'.

(** The modes of checking: quoted with single quotes, with double quotes, raw. *)
Inductive form := Single | Cooked | Raw.
Definition mode_form (m : mode) : form * kind :=
  match m with
  | MoChar => (Single, KStr)
  | MoByte => (Single, KByte)
  | MoStr => (Cooked, KStr)
  | MoRawStr => (Raw, KStr)
  | MoByteStr => (Cooked, KByte)
  | MoRawByteStr => (Raw, KByte)
  | MoCStr => (Cooked, KC)
  | MoRawCStr => (Raw, KC)
  end.
Definition mode_reports (m : mode) (s : str) (ev : list (event (list N))) : Prop :=
  match mode_form m with
  | (Single, k) => exists n x, single_report k s n x /\ ev = [((O, n), x)]
  | (Cooked, k) => reports k 0 s ev
  | (Raw, k) => raw_reports k 0 s ev
  end.
(** What a literal of the mode may contain. *)
Definition mode_valid (m : mode) (s : str) : Prop :=
  match mode_form m with
  | (Single, k) => exists v, char_denotes k (prefix k ++ [SQUOTE] ++ s ++ [SQUOTE]) v
  | (Cooked, k) => exists v, cooked k s v
  | (Raw, k) => ~ In CR s /\ Forall (raw_allowed k) s
  end.
Definition errors_of {A} (ev : list (event A)) (errs : list (range * escape_error)) : Prop :=
  map (fun x => (fst x, UErr (snd x))) errs
  = filter (fun x => match snd x with UErr _ => true | UOk _ => false end) ev.
(** The bytes of a report are whole characters. *)
Definition cut (s : str) (g : range) : Prop :=
  exists a b c, s = a ++ b ++ c /\ b <> [] /\ g = (str_len a, str_len (a ++ b)).
(** Reports come from left to right, and do not overlap except that a warning
    may cover what follows it. *)
Definition in_order {A} (x y : event A) : Prop :=
  (fst (fst x) <= fst (fst y))%nat /\
  ((forall e, snd x = UErr e -> ~ warning e) -> (snd (fst x) <= fst (fst y))%nat).
