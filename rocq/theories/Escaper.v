(** * The vendored literal escaper: src/rustc_literal_escaper.rs and src/num.rs.

    A callback is modelled by the list of the ranges and results it is called
    with, in order. *)
From Verif Require Import Base Unicode.
From Verif Require Export EscapeErrors.
Import ListNotations.
Local Open Scope N_scope.

(** rustc_literal_escaper.rs 73-81. *)
Definition is_fatal (e : escape_error) : bool :=
  match e with
  | UnskippedWhitespaceWarning | MultipleSkippedLinesWarning => false
  | _ => true
  end.

(** Subtraction of [usize], an underflow panics. *)
Definition checked_sub (a b : nat) : res nat :=
  if (a <? b)%nat then Panic else Ok (a - b)%nat.

(** rustc_literal_escaper.rs 242-262: [MixedUnit]; num.rs 3: [NonZeroChar]. *)
Inductive mixed_unit := MChar (c : char) | MHighByte (b : byte).

(** num.rs 6-12. *)
Definition nonzero_char_new (c : char) : option char := if c =? 0 then None else Some c.

(** rustc_literal_escaper.rs 285-294. *)
Definition mixed_of_char (c : char) : uresult mixed_unit :=
  match nonzero_char_new c with Some c => UOk (MChar c) | None => UErr NulInCStr end.

(** rustc_literal_escaper.rs 271-282, [byte] not zero; the [unwrap] is on a non
    zero character. *)
Definition mixed_of_nonzero (b : byte) : mixed_unit :=
  if b <? 0x80 then MChar b else MHighByte b.

(** rustc_literal_escaper.rs 296-305. *)
Definition mixed_of_byte (b : byte) : uresult mixed_unit :=
  if b =? 0 then UErr NulInCStr else UOk (mixed_of_nonzero b).

(** rustc_literal_escaper.rs 308-326: the trait's required items. *)
Record unescaper (A : Type) := {
  zero_result : uresult A;
  nonzero_byte2unit : byte -> A;
  char2unit : char -> uresult A;
  hex2unit : byte -> uresult A;
  unicode2unit : uresult char -> uresult A
}.
Arguments zero_result {A} u.
Arguments nonzero_byte2unit {A} u b.
Arguments char2unit {A} u c.
Arguments hex2unit {A} u b.
Arguments unicode2unit {A} u r.

(** rustc_literal_escaper.rs 175-184. *)
Definition char2byte (c : char) : uresult byte :=
  if c <? 0x80 then UOk c else UErr NonAsciiCharInByte.

(** rustc_literal_escaper.rs 514-544. *)
Definition str_unescaper : unescaper char := {|
  zero_result := UOk 0;
  nonzero_byte2unit := fun b => b;
  char2unit := fun c => UOk c;
  hex2unit := fun b => if b <? 0x80 then UOk b else UErr OutOfRangeHexEscape;
  unicode2unit := fun r => r
|}.

(** rustc_literal_escaper.rs 546-571. *)
Definition byte_unescaper : unescaper byte := {|
  zero_result := UOk 0;
  nonzero_byte2unit := fun b => b;
  char2unit := char2byte;
  hex2unit := fun b => UOk b;
  unicode2unit := fun _ => UErr UnicodeEscapeInByte
|}.

(** rustc_literal_escaper.rs 573-598. *)
Definition c_unescaper : unescaper mixed_unit := {|
  zero_result := UErr NulInCStr;
  nonzero_byte2unit := mixed_of_nonzero;
  char2unit := mixed_of_char;
  hex2unit := mixed_of_byte;
  unicode2unit := fun r => match r with UOk c => mixed_of_char c | UErr e => UErr e end
|}.

(** rustc_literal_escaper.rs 399-415. *)
Definition simple_escape (c : char) : option byte :=
  if c =? DQUOTE then Some DQUOTE
  else if c =? "n"%ch then Some LF
  else if c =? "r"%ch then Some CR
  else if c =? "t"%ch then Some TAB
  else if c =? BACKSLASH then Some BACKSLASH
  else if c =? SQUOTE then Some SQUOTE
  else None.

(** [char::to_digit(16)]. *)
Definition to_digit16 (c : char) : option N :=
  if between "0"%ch c "9"%ch then Some (c - "0"%ch)
  else if between "a"%ch c "f"%ch then Some (c - "a"%ch + 10)
  else if between "A"%ch c "F"%ch then Some (c - "A"%ch + 10)
  else None.

(** rustc_literal_escaper.rs 421-430; the rest of the characters and the result. *)
Definition hex_escape (chars : str) : str * uresult byte :=
  match chars with
  | [] => ([], UErr TooShortHexEscape)
  | hi :: chars =>
      match to_digit16 hi with
      | None => (chars, UErr InvalidCharInHexEscape)
      | Some hi =>
          match chars with
          | [] => ([], UErr TooShortHexEscape)
          | lo :: chars =>
              match to_digit16 lo with
              | None => (chars, UErr InvalidCharInHexEscape)
              | Some lo => (chars, UOk (hi * 16 + lo))
              end
          end
      end
  end.

(** rustc_literal_escaper.rs 454-478: the loop of [unicode_escape]. *)
Fixpoint unicode_loop (chars : str) (value : N) (n_digits : nat) : str * uresult N :=
  match chars with
  | [] => ([], UErr UnclosedUnicodeEscape)
  | c :: chars =>
      if c =? "_"%ch then unicode_loop chars value n_digits
      else if c =? "}"%ch then
        (chars, if (6 <? n_digits)%nat then UErr OverlongUnicodeEscape else UOk value)
      else
        match to_digit16 c with
        | None => (chars, UErr InvalidCharInUnicodeEscape)
        | Some digit =>
            let n_digits := S n_digits in
            if (6 <? n_digits)%nat then unicode_loop chars value n_digits
            else unicode_loop chars (value * 16 + digit) n_digits
        end
  end.

(** rustc_literal_escaper.rs 437-479. *)
Definition unicode_escape (chars : str) : str * uresult N :=
  match chars with
  | [] => ([], UErr NoBraceInUnicodeEscape)
  | c :: chars =>
      if negb (c =? "{"%ch) then (chars, UErr NoBraceInUnicodeEscape)
      else
        match chars with
        | [] => ([], UErr UnclosedUnicodeEscape)
        | c :: chars =>
            if c =? "_"%ch then (chars, UErr LeadingUnderscoreUnicodeEscape)
            else if c =? "}"%ch then (chars, UErr EmptyUnicodeEscape)
            else
              match to_digit16 c with
              | None => (chars, UErr InvalidCharInUnicodeEscape)
              | Some value => unicode_loop chars value 1
              end
        end
  end.

(** [char::MAX]. *)
Definition char_max : N := 0x10FFFF.

(** rustc_literal_escaper.rs 343-366. *)
Definition unescape_1 {A} (u : unescaper A) (chars : str) : str * uresult A :=
  match chars with
  | [] => ([], UErr LoneSlash)
  | c :: chars =>
      if c =? "0"%ch then (chars, zero_result u)
      else
        match simple_escape c with
        | Some b => (chars, UOk (nonzero_byte2unit u b))
        | None =>
            if c =? "x"%ch then
              match hex_escape chars with
              | (chars, UOk b) => (chars, hex2unit u b)
              | (chars, UErr e) => (chars, UErr e)
              end
            else if c =? "u"%ch then
              match unicode_escape chars with
              | (chars, UErr e) => (chars, UErr e)
              | (chars, UOk value) =>
                  (chars,
                   unicode2unit u
                     (if char_max <? value then UErr OutOfRangeUnicodeEscape
                      else match char_from_u32 value with
                           | Some c => UOk c
                           | None => UErr LoneSurrogateUnicodeEscape
                           end))
              end
            else (chars, UErr InvalidEscape)
        end
  end.

(** [Iterator::position] on bytes. *)
Fixpoint position (f : byte -> bool) (l : list byte) : option nat :=
  match l with
  | [] => None
  | b :: t => if f b then Some O
              else match position f t with Some n => Some (S n) | None => None end
  end.

Definition skipped_space (b : byte) : bool :=
  (b =? SPACE) || (b =? TAB) || (b =? LF) || (b =? CR).

(** rustc_literal_escaper.rs 486-512; the rest of the characters and the warnings. *)
Definition skip_ascii_whitespace {A} (chars : str) (start : nat) : res (str * list (event A)) :=
  let first_non_space :=
    match position (fun b => negb (skipped_space b)) (str_bytes chars) with
    | Some n => n
    | None => str_len chars
    end in
  match split_at chars first_non_space with
  | None => Panic
  | Some (space, rest) =>
      let end_ := (start + 2 + first_non_space)%nat in
      Ok (rest,
          (if contains space LF then [((start, end_), UErr MultipleSkippedLinesWarning)] else [])
          ++ match rest with
             | c :: _ =>
                 if is_white_space c then [((start, (end_ + len_utf8 c)%nat), UErr UnskippedWhitespaceWarning)]
                 else []
             | [] => []
             end)
  end.

(** rustc_literal_escaper.rs 373-397; [total] is [src.len()]. *)
Fixpoint unescape_loop {A} (u : unescaper A) (fuel total : nat) (chars : str)
  : res (list (event A)) :=
  match fuel with
  | O => Fuel
  | S fuel =>
      match chars with
      | [] => Ok []
      | c :: chars =>
          let? before := checked_sub total (str_len chars) in
          let? start := checked_sub before (len_utf8 c) in
          if (c =? BACKSLASH) && match chars with d :: _ => d =? LF | [] => false end then
            let? (chars, warnings) := skip_ascii_whitespace (tl chars) start in
            let? events := unescape_loop u fuel total chars in
            Ok (warnings ++ events)
          else
            let (chars, r) :=
              if c =? BACKSLASH then unescape_1 u chars
              else if c =? DQUOTE then (chars, UErr EscapeOnlyChar)
              else if c =? CR then (chars, UErr BareCarriageReturn)
              else (chars, char2unit u c) in
            let? end_ := checked_sub total (str_len chars) in
            let? events := unescape_loop u fuel total chars in
            Ok (((start, end_), r) :: events)
      end
  end.
Definition unescape {A} (u : unescaper A) (src : str) : res (list (event A)) :=
  unescape_loop u (S (length src)) (str_len src) src.

(** rustc_literal_escaper.rs 328-340; the rest of the characters and the result. *)
Definition unescape_single {A} (u : unescaper A) (chars : str) : str * uresult A :=
  match chars with
  | [] => ([], UErr ZeroChars)
  | c :: chars =>
      let (chars, r) :=
        if c =? BACKSLASH then unescape_1 u chars
        else if (c =? LF) || (c =? TAB) || (c =? SQUOTE) then (chars, UErr EscapeOnlyChar)
        else if c =? CR then (chars, UErr BareCarriageReturn)
        else (chars, char2unit u c) in
      match r with
      | UErr e => (chars, UErr e)
      | UOk a => match chars with [] => ([], UOk a) | _ :: chars => (chars, UErr MoreThanOneChar) end
      end
  end.

(** rustc_literal_escaper.rs 202-213. *)
Definition unescape_char (src : str) : uresult char := snd (unescape_single str_unescaper src).
Definition unescape_byte (src : str) : uresult byte := snd (unescape_single byte_unescaper src).

(** rustc_literal_escaper.rs 130-143, with [char2raw_unit] of the type. *)
Fixpoint check_raw_loop {A} (char2raw_unit : char -> uresult A) (total : nat) (chars : str)
  : res (list (event A)) :=
  match chars with
  | [] => Ok []
  | c :: chars =>
      let? before := checked_sub total (str_len chars) in
      let? start := checked_sub before (len_utf8 c) in
      let r := if c =? CR then UErr BareCarriageReturnInRawString else char2raw_unit c in
      let? end_ := checked_sub total (str_len chars) in
      let? events := check_raw_loop char2raw_unit total chars in
      Ok (((start, end_), r) :: events)
  end.
Definition check_raw {A} (char2raw_unit : char -> uresult A) (src : str) : res (list (event A)) :=
  check_raw_loop char2raw_unit (str_len src) src.

(** rustc_literal_escaper.rs 158-165, 167-174, 187-194. *)
Definition str_raw_unit (c : char) : uresult char := UOk c.
Definition byte_raw_unit (c : char) : uresult byte := char2byte c.
Definition c_raw_unit (c : char) : uresult char :=
  match nonzero_char_new c with Some c => UOk c | None => UErr NulInCStr end.

(** rustc_literal_escaper.rs 624-643. *)
Definition in_double_quotes (m : mode) : bool := match m with MoChar | MoByte => false | _ => true end.
Definition prefix_noraw (m : mode) : str :=
  match m with
  | MoChar | MoStr | MoRawStr => []
  | MoByte | MoByteStr | MoRawByteStr => tag "b"
  | MoCStr | MoRawCStr => tag "c"
  end.

(** rustc_literal_escaper.rs 652-701. *)
Definition only_errors {A} (events : list (event A)) : list (range * escape_error) :=
  flat_map (fun x => match snd x with UErr e => [(fst x, e)] | UOk _ => [] end) events.
Definition single_error {A} (u : unescaper A) (src : str) : res (list (range * escape_error)) :=
  match unescape_single u src with
  | (chars, UErr e) => let? end_ := checked_sub (str_len src) (str_len chars) in Ok [((O, end_), e)]
  | (_, UOk _) => Ok []
  end.
Definition check_for_errors (src : str) (m : mode) : res (list (range * escape_error)) :=
  match m with
  | MoChar => single_error str_unescaper src
  | MoByte => single_error byte_unescaper src
  | MoStr => let? ev := unescape str_unescaper src in Ok (only_errors ev)
  | MoByteStr => let? ev := unescape byte_unescaper src in Ok (only_errors ev)
  | MoCStr => let? ev := unescape c_unescaper src in Ok (only_errors ev)
  | MoRawStr => let? ev := check_raw str_raw_unit src in Ok (only_errors ev)
  | MoRawByteStr => let? ev := check_raw byte_raw_unit src in Ok (only_errors ev)
  | MoRawCStr => let? ev := check_raw c_raw_unit src in Ok (only_errors ev)
  end.
