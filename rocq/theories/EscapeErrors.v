(** * Errors, results and callback arguments of src/rustc_literal_escaper.rs. *)

(** rustc_literal_escaper.rs 16-71. *)
Inductive escape_error :=
| ZeroChars | MoreThanOneChar | LoneSlash | InvalidEscape | BareCarriageReturn
| BareCarriageReturnInRawString | EscapeOnlyChar | TooShortHexEscape
| InvalidCharInHexEscape | OutOfRangeHexEscape | NoBraceInUnicodeEscape
| InvalidCharInUnicodeEscape | EmptyUnicodeEscape | UnclosedUnicodeEscape
| LeadingUnderscoreUnicodeEscape | OverlongUnicodeEscape | LoneSurrogateUnicodeEscape
| OutOfRangeUnicodeEscape | UnicodeEscapeInByte | NonAsciiCharInByte | NulInCStr
| UnskippedWhitespaceWarning | MultipleSkippedLinesWarning.

(** [Result<A, EscapeError>]. *)
Inductive uresult (A : Type) :=
| UOk (a : A)
| UErr (e : escape_error).
Arguments UOk {A} a.
Arguments UErr {A} e.

(** [Range<usize>], bytes; one call of a callback. *)
Definition range : Type := nat * nat.
Definition event (A : Type) : Type := range * uresult A.

(** rustc_literal_escaper.rs 600-622. *)
Inductive mode := MoChar | MoByte | MoStr | MoRawStr | MoByteStr | MoRawByteStr | MoCStr | MoRawCStr.
