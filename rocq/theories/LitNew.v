(** * Literal constructors: src/fallback.rs 948-1148 (and 1214-1236 in Lexer.v).

    Each function returns the [repr] of the literal; the span is always
    [Span::call_site()] (fallback.rs 965-970). *)
From Verif Require Import Base Unicode Tokens Lexer.
Import ListNotations.
Local Open Scope N_scope.

(** ** The standard library's [str::from_utf8] (core::str::validations). *)

Definition is_continuation (b : byte) : bool := between 0x80 b 0xBF.

(** The second byte allowed after the first byte of a three or four byte
    sequence. *)
Definition second_of_three (first b : byte) : bool :=
  ((first =? 0xE0) && between 0xA0 b 0xBF)
  || (between 0xE1 first 0xEC && between 0x80 b 0xBF)
  || ((first =? 0xED) && between 0x80 b 0x9F)
  || (between 0xEE first 0xEF && between 0x80 b 0xBF).
Definition second_of_four (first b : byte) : bool :=
  ((first =? 0xF0) && between 0x90 b 0xBF)
  || (between 0xF1 first 0xF3 && between 0x80 b 0xBF)
  || ((first =? 0xF4) && between 0x80 b 0x8F).

(** [Ok(str)], or [Err] with [valid_up_to] and [error_len]. *)
Inductive utf8_result := Utf8Ok (s : str) | Utf8Err (valid_up_to : nat) (error_len : option nat).
Definition utf8_cons (c : char) (width : nat) (r : utf8_result) : utf8_result :=
  match r with
  | Utf8Ok s => Utf8Ok (c :: s)
  | Utf8Err n e => Utf8Err (width + n) e
  end.
Fixpoint from_utf8 (v : list byte) : utf8_result :=
  match v with
  | [] => Utf8Ok []
  | first :: v1 =>
      if first <? 0x80 then utf8_cons first 1 (from_utf8 v1)
      else if between 0xC2 first 0xDF then
        match v1 with
        | [] => Utf8Err 0 None
        | b2 :: v2 =>
            if is_continuation b2 then
              utf8_cons ((first - 0xC0) * 64 + (b2 - 0x80)) 2 (from_utf8 v2)
            else Utf8Err 0 (Some 1%nat)
        end
      else if between 0xE0 first 0xEF then
        match v1 with
        | [] => Utf8Err 0 None
        | b2 :: v2 =>
            if second_of_three first b2 then
              match v2 with
              | [] => Utf8Err 0 None
              | b3 :: v3 =>
                  if is_continuation b3 then
                    utf8_cons ((first - 0xE0) * 4096 + (b2 - 0x80) * 64 + (b3 - 0x80)) 3
                      (from_utf8 v3)
                  else Utf8Err 0 (Some 2%nat)
              end
            else Utf8Err 0 (Some 1%nat)
        end
      else if between 0xF0 first 0xF4 then
        match v1 with
        | [] => Utf8Err 0 None
        | b2 :: v2 =>
            if second_of_four first b2 then
              match v2 with
              | [] => Utf8Err 0 None
              | b3 :: v3 =>
                  if is_continuation b3 then
                    match v3 with
                    | [] => Utf8Err 0 None
                    | b4 :: v4 =>
                        if is_continuation b4 then
                          utf8_cons ((first - 0xF0) * 262144 + (b2 - 0x80) * 4096
                                     + (b3 - 0x80) * 64 + (b4 - 0x80)) 4 (from_utf8 v4)
                        else Utf8Err 0 (Some 3%nat)
                    end
                  else Utf8Err 0 (Some 2%nat)
              end
            else Utf8Err 0 (Some 1%nat)
        end
      else Utf8Err 0 (Some 1%nat)
  end.

(** ** Strings, characters, bytes *)

(** [write!(repr, r"\x{:02X}", byte)]. *)
Definition hex_digit_upper (d : N) : char := if d <? 10 then "0"%ch + d else "A"%ch + (d - 10).
Definition hex_upper2 (b : byte) : str :=
  tag "\x" ++ [hex_digit_upper (b / 16); hex_digit_upper (b mod 16)].

Section WithUnicode.
Context {U : unicode}.

(** fallback.rs 1063-1074. *)
Definition literal_character (ch : char) : str :=
  [SQUOTE] ++ (if ch =? DQUOTE then [ch] else escape_debug ch) ++ [SQUOTE].

(** fallback.rs 1076-1094. *)
Definition literal_byte_character (byte : byte) : str :=
  tag "b'"
  ++ (if byte =? 0 then tag "\0"
      else if byte =? TAB then tag "\t"
      else if byte =? LF then tag "\n"
      else if byte =? CR then tag "\r"
      else if byte =? SQUOTE then tag "\'"
      else if byte =? BACKSLASH then tag "\\"
      else if between 0x20 byte 0x7E then [byte]
      else hex_upper2 byte)
  ++ [SQUOTE].

(** fallback.rs 1096-1121. *)
Fixpoint escape_bytes (bytes : list byte) : str :=
  match bytes with
  | [] => []
  | b :: t =>
      (if b =? 0 then
         match t with
         | n :: _ => if between "0"%ch n "7"%ch then tag "\x00" else tag "\0"
         | [] => tag "\0"
         end
       else if b =? TAB then tag "\t"
       else if b =? LF then tag "\n"
       else if b =? CR then tag "\r"
       else if b =? DQUOTE then [BACKSLASH; DQUOTE]
       else if b =? BACKSLASH then tag "\\"
       else if between 0x20 b 0x7E then [b]
       else hex_upper2 b) ++ escape_bytes t
  end.
Definition literal_byte_string (bytes : list byte) : str :=
  tag "b" ++ [DQUOTE] ++ escape_bytes bytes ++ [DQUOTE].

(** [<[u8]>::split_at] and slicing: [None] is a panic. *)
Definition split_bytes (v : list byte) (n : nat) : res (list byte * list byte) :=
  if (n <=? length v)%nat then Ok (firstn n v, skipn n v) else Panic.

(** fallback.rs 1123-1148: the loop; [bytes] is the [CStr] without its
    terminator. *)
Fixpoint c_string_loop (fuel : nat) (bytes : list byte) : res str :=
  match fuel with
  | O => Fuel
  | S fuel =>
      match bytes with
      | [] => Ok []
      | _ =>
          let? (valid, invalid, bytes) :=
            match from_utf8 bytes with
            | Utf8Ok all_valid => Ok (all_valid, [], [])
            | Utf8Err valid_up_to error_len =>
                let? (valid, rest) := split_bytes bytes valid_up_to in
                match from_utf8 valid with
                | Utf8Err _ _ => Panic
                | Utf8Ok valid =>
                    let? (invalid, _) :=
                      match error_len with
                      | None => Ok (rest, [])
                      | Some n => split_bytes rest n
                      end in
                    let? (_, bytes) := split_bytes bytes (str_len valid + length invalid) in
                    Ok (valid, invalid, bytes)
                end
            end in
          let? tail := c_string_loop fuel bytes in
          Ok (escape_utf8 valid ++ flat_map hex_upper2 invalid ++ tail)
      end
  end.
Definition literal_c_string (bytes : list byte) : res str :=
  let? body := c_string_loop (S (length bytes)) bytes in
  Ok (tag "c" ++ [DQUOTE] ++ body ++ [DQUOTE]).

End WithUnicode.

(** ** Numbers *)

(** The standard library's [Display] of an unsigned, then of a signed integer. *)
Fixpoint dec_digits_aux (fuel : nat) (n : N) (acc : str) : str :=
  match fuel with
  | O => acc
  | S f =>
      let acc := ("0"%ch + n mod 10) :: acc in
      if n / 10 =? 0 then acc else dec_digits_aux f (n / 10) acc
  end.
(** Each division by ten removes at least one binary digit. *)
Definition dec_digits (n : N) : str := dec_digits_aux (S (N.size_nat n)) n [].
Definition int_display (z : Z) : str :=
  (if (z <? 0)%Z then tag "-" else []) ++ dec_digits (Z.abs_N z).

(** The types of fallback.rs 1006-1037 and the text of [stringify!]. *)
Inductive int_type := U8 | U16 | U32 | U64 | U128 | Usize | I8 | I16 | I32 | I64 | I128 | Isize.
Definition int_type_name (t : int_type) : str :=
  match t with
  | U8 => tag "u8" | U16 => tag "u16" | U32 => tag "u32" | U64 => tag "u64"
  | U128 => tag "u128" | Usize => tag "usize"
  | I8 => tag "i8" | I16 => tag "i16" | I32 => tag "i32" | I64 => tag "i64"
  | I128 => tag "i128" | Isize => tag "isize"
  end.
Inductive float_type := F32 | F64.
Definition float_type_name (t : float_type) : str :=
  match t with F32 => tag "f32" | F64 => tag "f64" end.

(** fallback.rs 948-954 with 1005-1018; fallback.rs 956-962 with 1024-1037.  The
    argument is any integer; the range of the type plays no role in the text. *)
Definition int_suffixed (t : int_type) (z : Z) : str := int_display z ++ int_type_name t.
Definition int_unsuffixed (z : Z) : str := int_display z.

(** fallback.rs 1020-1021 and 1039-1053, on the text [f.to_string()] that the
    standard library produces. *)
Definition float_suffixed (t : float_type) (text : str) : str := text ++ float_type_name t.
Definition float_unsuffixed (text : str) : str :=
  if contains text "."%ch then text else text ++ tag ".0".
