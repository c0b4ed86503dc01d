(** * Escapes with the arithmetic of the machine: src/rustc_literal_escaper.rs
    317-479, src/parse.rs 665-689, src/lib.rs 1310-1414.

    [Escaper.v], [Lexer.v] and [LitValue.v] compute with numbers of any size.  Here
    the sums and products have their types, and what happens on overflow depends on
    the build: a panic with overflow checks ([ck = true]), otherwise wrapping. *)
From Coq Require Import ZArith.
From Verif Require Import Base Unicode Escaper Lexer LitValue.
Import ListNotations.
Local Open Scope N_scope.

Section Arithmetic.
Variable ck : bool.
Definition fit (width : N) (v : N) : res N :=
  if v <? 2 ^ width then Ok v else if ck then Panic else Ok (v mod 2 ^ width).
Definition add_u8 (a b : N) : res N := fit 8 (a + b).
Definition sub_u8 (a b : N) : res N :=
  if b <=? a then Ok (a - b) else if ck then Panic else Ok ((a + 2 ^ 8 - b) mod 2 ^ 8).
Definition mul_u32 (a b : N) : res N := fit 32 (a * b).
Definition add_u32 (a b : N) : res N := fit 32 (a + b).
Definition add_i32 (a b : Z) : res Z :=
  let s := (a + b)%Z in
  if ((- 2 ^ 31 <=? s) && (s <? 2 ^ 31))%Z then Ok s
  else if ck then Panic else Ok ((s + 2 ^ 31) mod 2 ^ 32 - 2 ^ 31)%Z.
(** [as u8]. *)
Definition as_u8 (v : N) : N := v mod 2 ^ 8.

(** parse.rs 672-678: the digit, or [None] in the other arms. *)
Definition digit_u8 (ch : char) : res (option N) :=
  if between "0"%ch ch "9"%ch then let? d := sub_u8 (as_u8 ch) "0"%ch in Ok (Some d)
  else if between "a"%ch ch "f"%ch then
    let? d := add_u8 10 (as_u8 ch) in let? d := sub_u8 d "a"%ch in Ok (Some d)
  else if between "A"%ch ch "F"%ch then
    let? d := add_u8 10 (as_u8 ch) in let? d := sub_u8 d "A"%ch in Ok (Some d)
  else Ok None.
(** parse.rs 665-689; [len] is an [i32]. *)
Fixpoint backslash_u_loop_in (i : nat) (chars : str) (value : N) (len : Z) : res (chars_it * char) :=
  match chars with
  | [] => Reject
  | ch :: t =>
      let i := (i + len_utf8 ch)%nat in
      let? d := digit_u8 ch in
      match d with
      | Some digit =>
          if (len =? 6)%Z then Reject
          else
            let? value := mul_u32 value 0x10 in
            let? value := add_u32 value digit in
            let? len := add_i32 len 1 in
            backslash_u_loop_in i t value len
      | None =>
          if (ch =? "_"%ch) && (0 <? len)%Z then backslash_u_loop_in i t value len
          else if (ch =? "}"%ch) && (0 <? len)%Z then
            let? c := ok_or (char_from_u32 value) in Ok ((i, t), c)
          else Reject
      end
  end.
Definition backslash_u_in (it : chars_it) : res (chars_it * char) :=
  match ci_next it with
  | Some ((_, ch), (i, t)) => if ch =? "{"%ch then backslash_u_loop_in i t 0 0 else Reject
  | None => Reject
  end.

(** rustc_literal_escaper.rs 421-430. *)
Definition hex_escape_in (chars : str) : res (str * uresult byte) :=
  match chars with
  | [] => Ok ([], UErr TooShortHexEscape)
  | hi :: chars =>
      match to_digit16 hi with
      | None => Ok (chars, UErr InvalidCharInHexEscape)
      | Some hi =>
          match chars with
          | [] => Ok ([], UErr TooShortHexEscape)
          | lo :: chars =>
              match to_digit16 lo with
              | None => Ok (chars, UErr InvalidCharInHexEscape)
              | Some lo =>
                  let? v := mul_u32 hi 16 in
                  let? v := add_u32 v lo in
                  Ok (chars, UOk (as_u8 v))
              end
          end
      end
  end.
(** rustc_literal_escaper.rs 454-478; [n_digits] is an [i32]. *)
Fixpoint unicode_loop_in (chars : str) (value : N) (n_digits : Z) : res (str * uresult N) :=
  match chars with
  | [] => Ok ([], UErr UnclosedUnicodeEscape)
  | c :: chars =>
      if c =? "_"%ch then unicode_loop_in chars value n_digits
      else if c =? "}"%ch then
        Ok (chars, if (6 <? n_digits)%Z then UErr OverlongUnicodeEscape else UOk value)
      else
        match to_digit16 c with
        | None => Ok (chars, UErr InvalidCharInUnicodeEscape)
        | Some digit =>
            let? n_digits := add_i32 n_digits 1 in
            if (6 <? n_digits)%Z then unicode_loop_in chars value n_digits
            else
              let? v := mul_u32 value 16 in
              let? v := add_u32 v digit in
              unicode_loop_in chars v n_digits
        end
  end.
(** rustc_literal_escaper.rs 437-479. *)
Definition unicode_escape_in (chars : str) : res (str * uresult N) :=
  match chars with
  | [] => Ok ([], UErr NoBraceInUnicodeEscape)
  | c :: chars =>
      if negb (c =? "{"%ch) then Ok (chars, UErr NoBraceInUnicodeEscape)
      else
        match chars with
        | [] => Ok ([], UErr UnclosedUnicodeEscape)
        | c :: chars =>
            if c =? "_"%ch then Ok (chars, UErr LeadingUnderscoreUnicodeEscape)
            else if c =? "}"%ch then Ok (chars, UErr EmptyUnicodeEscape)
            else
              match to_digit16 c with
              | None => Ok (chars, UErr InvalidCharInUnicodeEscape)
              | Some value => unicode_loop_in chars value 1
              end
        end
  end.
(** rustc_literal_escaper.rs 343-366. *)
Definition unescape_1_in {A} (u : unescaper A) (chars : str) : res (str * uresult A) :=
  match chars with
  | [] => Ok ([], UErr LoneSlash)
  | c :: chars =>
      if c =? "0"%ch then Ok (chars, zero_result u)
      else
        match simple_escape c with
        | Some b => Ok (chars, UOk (nonzero_byte2unit u b))
        | None =>
            if c =? "x"%ch then
              let? (chars, r) := hex_escape_in chars in
              Ok (chars, match r with UOk b => hex2unit u b | UErr e => UErr e end)
            else if c =? "u"%ch then
              let? (chars, r) := unicode_escape_in chars in
              Ok (chars,
                  match r with
                  | UErr e => UErr e
                  | UOk value =>
                      unicode2unit u
                        (if char_max <? value then UErr OutOfRangeUnicodeEscape
                         else match char_from_u32 value with
                              | Some c => UOk c
                              | None => UErr LoneSurrogateUnicodeEscape
                              end)
                  end)
            else Ok (chars, UErr InvalidEscape)
        end
  end.
(** rustc_literal_escaper.rs 373-397. *)
Fixpoint unescape_loop_in {A} (u : unescaper A) (fuel total : nat) (chars : str) : res (list (event A)) :=
  match fuel with
  | O => Fuel
  | S fuel =>
      match chars with
      | [] => Ok []
      | c :: chars =>
          let? before := checked_sub total (str_len chars) in
          let? start := checked_sub before (len_utf8 c) in
          if (c =? BACKSLASH) && match chars with d :: _ => d =? LF | [] => false end then
            let? (chars, warnings) := skip_ascii_whitespace (tl chars) start in
            let? events := unescape_loop_in u fuel total chars in
            Ok (warnings ++ events)
          else
            let? (chars, r) :=
              if c =? BACKSLASH then unescape_1_in u chars
              else if c =? DQUOTE then Ok (chars, UErr EscapeOnlyChar)
              else if c =? CR then Ok (chars, UErr BareCarriageReturn)
              else Ok (chars, char2unit u c) in
            let? end_ := checked_sub total (str_len chars) in
            let? events := unescape_loop_in u fuel total chars in
            Ok (((start, end_), r) :: events)
      end
  end.
Definition unescape_in {A} (u : unescaper A) (src : str) : res (list (event A)) :=
  unescape_loop_in u (S (length src)) (str_len src) src.

(** lib.rs 1316-1328, 1349-1367, 1390-1403. *)
Definition unescaped_in {A} (u : unescaper A) (push : A -> list N) (ending : list N)
  (quoted : str) : res (conversion (list N)) :=
  let? events := unescape_in u quoted in
  match collect push [] None events with
  | (_, Some e) => Ok (CFailed e)
  | (value, None) => Ok (COk (value ++ ending))
  end.
(** lib.rs 1312-1339, 1386-1414, 1343-1383. *)
Definition str_value_in (repr : str) : res (conversion (list N)) :=
  let? q := quoted_text (tag """") repr in
  match q with
  | Some quoted => unescaped_in str_unescaper (fun c => [c]) [] quoted
  | None => str_value repr
  end.
Definition byte_str_value_in (repr : str) : res (conversion (list N)) :=
  let? q := quoted_text (tag "b""") repr in
  match q with
  | Some quoted => unescaped_in byte_unescaper (fun b => [b]) [] quoted
  | None => byte_str_value repr
  end.
Definition cstr_value_in (repr : str) : res (conversion (list N)) :=
  let? q := quoted_text (tag "c""") repr in
  match q with
  | Some quoted => unescaped_in c_unescaper push_mixed [0] quoted
  | None => cstr_value repr
  end.
End Arithmetic.
