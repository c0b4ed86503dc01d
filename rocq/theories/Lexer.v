(** * The fallback lexer: src/parse.rs, function by function.

    Byte indices, slicing panics, iterator restarts and the order in which
    alternatives are tried are as in the source.  Loops that are not structural
    carry explicit fuel. *)
From Verif Require Import Base Unicode Tokens.

(** parse.rs 12-17. *)
Record cursor := mkcur { rest : str; off : N }.

(** parse.rs 19-27.  [off] is a u32; the addition wraps (release build). *)
Definition advance (c : cursor) (n : nat) : res cursor :=
  match split_at (rest c) n with
  | Some (front, r) => Ok (mkcur r (wrap32 (off c + N.of_nat (length front))))
  | None => Panic
  end.

(** parse.rs 29-42. *)
Definition cstarts (c : cursor) (t : str) : bool := starts_with (rest c) t.
Definition cstarts_char (c : cursor) (ch : char) : bool := starts_with (rest c) [ch].

(** parse.rs 68-74. *)
Definition parse_tag (c : cursor) (t : str) : res cursor :=
  if cstarts c t then advance c (str_len t) else Reject.

Definition first_char (c : cursor) : option char :=
  match rest c with [] => None | x :: _ => Some x end.
Definition first_byte (c : cursor) : option byte :=
  match str_bytes (rest c) with [] => None | b :: _ => Some b end.

(** parse.rs 979-991. *)
Fixpoint take_until_newline_loop (input : cursor) (i : nat) (chars : str)
  : res (cursor * str) :=
  match chars with
  | [] => (* 990 *)
      let? c := advance input (str_len (rest input)) in Ok (c, rest input)
  | ch :: t =>
      if (ch =? LF)%N then
        let? c := advance input i in
        let? s := slice_to (rest input) i in Ok (c, s)
      else if (ch =? CR)%N then
        let? after := slice_from (rest input) (i + 1) in
        if starts_with after [LF] then
          let? c := advance input (i + 1) in
          let? s := slice_to (rest input) i in Ok (c, s)
        else take_until_newline_loop input (i + len_utf8 ch) t
      else take_until_newline_loop input (i + len_utf8 ch) t
  end.
Definition take_until_newline_or_eof (input : cursor) : res (cursor * str) :=
  take_until_newline_loop input 0 (rest input).

(** parse.rs 128-153.  [bs] is [bytes[i..]]; the loop runs while two bytes remain
    ([i < upper = len - 1]).  [depth -= 1] on a usize: underflow is a panic in
    debug builds; modelled as [Panic]. *)
Fixpoint block_comment_loop (input : cursor) (fuel : nat) (depth i : nat) (bs : list byte)
  : res (cursor * str) :=
  match fuel with
  | O => Fuel
  | S fuel =>
      match bs with
      | b0 :: ((b1 :: t) as t1) =>
          if (b0 =? "/"%ch)%N && (b1 =? "*"%ch)%N then
            block_comment_loop input fuel (S depth) (i + 2) t
          else if (b0 =? "*"%ch)%N && (b1 =? "/"%ch)%N then
            match depth with
            | O => Panic
            | S O =>
                let? c := advance input (i + 2) in
                let? s := slice_to (rest input) (i + 2) in Ok (c, s)
            | S d => block_comment_loop input fuel d (i + 2) t
            end
          else block_comment_loop input fuel depth (i + 1) t1
      | _ => Reject
      end
  end.
Definition block_comment (input : cursor) : res (cursor * str) :=
  if negb (cstarts input (tag "/*")) then Reject
  else block_comment_loop input (S (str_len (rest input))) 0 0 (str_bytes (rest input)).

(** parse.rs 80-126. *)
Fixpoint skip_whitespace_loop (fuel : nat) (s : cursor) : res cursor :=
  match fuel with
  | O => Fuel
  | S fuel =>
      match str_bytes (rest s) with
      | [] => Ok s
      | b :: _ =>
          let ws :=
            (* 109-123 *)
            if (b =? SPACE)%N || between 0x09 b 0x0d then
              let? s' := advance s 1 in skip_whitespace_loop fuel s'
            else if is_ascii b then Ok s
            else
              let? ch := unwrap (first_char s) in
              if is_whitespace ch then
                let? s' := advance s (len_utf8 ch) in skip_whitespace_loop fuel s'
              else Ok s in
          if (b =? "/"%ch)%N then
            if cstarts s (tag "//")
               && (negb (cstarts s (tag "///")) || cstarts s (tag "////"))
               && negb (cstarts s (tag "//!")) then
              let? (c, _) := take_until_newline_or_eof s in skip_whitespace_loop fuel c
            else if cstarts s (tag "/**/") then
              let? s' := advance s 4 in skip_whitespace_loop fuel s'
            else if cstarts s (tag "/*")
               && (negb (cstarts s (tag "/**")) || cstarts s (tag "/***"))
               && negb (cstarts s (tag "/*!")) then
              if_ok (block_comment s)
                (fun '(r, _) => skip_whitespace_loop fuel r)
                (Ok s)
            else ws
          else ws
      end
  end.
Definition skip_whitespace (s : cursor) : res cursor :=
  skip_whitespace_loop (S (str_len (rest s))) s.

Section WithUnicode.
Context {U : unicode}.

(** parse.rs 160-165. *)
Definition word_break (input : cursor) : res cursor :=
  match first_char input with
  | Some ch => if is_ident_continue ch then Reject else Ok input
  | None => Ok input
  end.

(** parse.rs 317-334.  The [for] loop over the remaining chars returns the index
    of the first non-continue char, or the total length. *)
Fixpoint ident_end (len i : nat) (chars : str) : nat :=
  match chars with
  | [] => len
  | ch :: t => if negb (is_ident_continue ch) then i else ident_end len (i + len_utf8 ch) t
  end.
Definition ident_not_raw (input : cursor) : res (cursor * str) :=
  match ci_next (char_indices (rest input)) with
  | Some ((_, ch), (i, t)) =>
      if is_ident_start ch then
        let e := ident_end (str_len (rest input)) i t in
        let? c := advance input e in
        let? s := slice_to (rest input) e in Ok (c, s)
      else Reject
  | None => Reject
  end.

(** The five names that cannot be raw: parse.rs 307-310, fallback.rs 882-887. *)
Definition not_raw_names : list str :=
  [tag "_"; tag "super"; tag "self"; tag "Self"; tag "crate"].
Definition cannot_be_raw (sym : str) : bool := existsb (str_eqb sym) not_raw_names.

(** parse.rs 295-315; the result is (sym, raw). *)
Definition ident_any (input : cursor) : res (cursor * (str * bool)) :=
  let raw := cstarts input (tag "r#") in
  let? r := advance input (if raw then 2 else 0) in
  let? (r, sym) := ident_not_raw r in
  if negb raw then Ok (r, (sym, false))
  else if cannot_be_raw sym then Reject
  else Ok (r, (sym, true)).

(** parse.rs 282-293. *)
Definition ident_reject_prefixes : list str :=
  [tag "r"""; tag "r#"""; tag "r##"; tag "b"""; tag "b'"; tag "br"""; tag "br#";
   tag "c"""; tag "cr"""; tag "cr#"].
Definition ident (input : cursor) : res (cursor * (str * bool)) :=
  if existsb (cstarts input) ident_reject_prefixes then Reject else ident_any input.

(** parse.rs 362-367. *)
Definition literal_suffix (input : cursor) : res cursor :=
  if_ok (ident_not_raw input) (fun '(c, _) => Ok c) (Ok input).

(** parse.rs 622-641: [next_ch!] and [backslash_x_char]. *)
Definition backslash_x_char (it : chars_it) : res chars_it :=
  match ci_next it with
  | Some ((_, a), it) =>
      if between "0"%ch a "7"%ch then
        match ci_next it with
        | Some ((_, b), it) => if is_hex_digit b then Ok it else Reject
        | None => Reject
        end
      else Reject
  | None => Reject
  end.

(** parse.rs 643-650. *)
Definition backslash_x_byte (it : bytes_it) : res bytes_it :=
  match be_next it with
  | Some ((_, a), it) =>
      if is_hex_digit a then
        match be_next it with
        | Some ((_, b), it) => if is_hex_digit b then Ok it else Reject
        | None => Reject
        end
      else Reject
  | None => Reject
  end.

(** parse.rs 652-663. *)
Definition backslash_x_nonzero (it : chars_it) : res chars_it :=
  match ci_next it with
  | Some ((_, a), it) =>
      if is_hex_digit a then
        match ci_next it with
        | Some ((_, b), it) =>
            if is_hex_digit b then
              if (a =? "0"%ch)%N && (b =? "0"%ch)%N then Reject else Ok it
            else Reject
        | None => Reject
        end
      else Reject
  | None => Reject
  end.

(** parse.rs 665-689.  The [for] loop; [value] is a u32 that stays below 16^6. *)
Fixpoint backslash_u_loop (i : nat) (chars : str) (value : N) (len : nat)
  : res (chars_it * char) :=
  match chars with
  | [] => Reject
  | ch :: t =>
      let i := i + len_utf8 ch in
      if is_hex_digit ch then
        if len =? 6 then Reject
        else backslash_u_loop i t (value * 0x10 + hex_value ch)%N (S len)
      else if (ch =? "_"%ch)%N && (0 <? len) then backslash_u_loop i t value len
      else if (ch =? "}"%ch)%N && (0 <? len) then
        let? c := ok_or (char_from_u32 value) in Ok ((i, t), c)
      else Reject
  end.
Definition backslash_u (it : chars_it) : res (chars_it * char) :=
  match ci_next it with
  | Some ((_, ch), (i, t)) =>
      if (ch =? "{"%ch)%N then backslash_u_loop i t 0 0 else Reject
  | None => Reject
  end.

(** parse.rs 691-708. *)
Fixpoint trailing_backslash_loop (input : cursor) (fuel : nat) (last : byte) (ws : bytes_it)
  : res cursor :=
  match fuel with
  | O => Fuel
  | S fuel =>
      let step (ws : bytes_it) :=
        match be_next ws with
        | Some ((offset, b), ws) =>
            if (b =? SPACE)%N || (b =? TAB)%N || (b =? LF)%N || (b =? CR)%N then
              trailing_backslash_loop input fuel b ws
            else advance input offset
        | None => Reject
        end in
      if (last =? CR)%N then
        match be_next ws with
        | None => Reject
        | Some ((_, b), ws) => if negb (b =? LF)%N then Reject else step ws
        end
      else step ws
  end.
Definition trailing_backslash (input : cursor) (last : byte) : res cursor :=
  trailing_backslash_loop input (S (str_len (rest input))) last (bytes_enum (rest input)).

(** The escapes accepted after a backslash in strings: parse.rs 396, 458, 586, 609. *)
Definition simple_escape0 (c : N) : bool :=
  (c =? "n"%ch)%N || (c =? "r"%ch)%N || (c =? "t"%ch)%N || (c =? BACKSLASH)%N
  || (c =? SQUOTE)%N || (c =? DQUOTE)%N || (c =? "0"%ch)%N.
(** parse.rs 560: as above without NUL. *)
Definition simple_escape_c (c : N) : bool :=
  (c =? "n"%ch)%N || (c =? "r"%ch)%N || (c =? "t"%ch)%N || (c =? BACKSLASH)%N
  || (c =? SQUOTE)%N || (c =? DQUOTE)%N.

(** parse.rs 379-411. *)
Fixpoint cooked_string_loop (fuel : nat) (input : cursor) (chars : chars_it) : res cursor :=
  match fuel with
  | O => Fuel
  | S fuel =>
      match ci_next chars with
      | None => Reject
      | Some ((i, ch), chars) =>
          if (ch =? DQUOTE)%N then
            let? input := advance input (i + 1) in literal_suffix input
          else if (ch =? CR)%N then
            match ci_next chars with
            | Some ((_, c2), chars) =>
                if (c2 =? LF)%N then cooked_string_loop fuel input chars else Reject
            | None => Reject
            end
          else if (ch =? BACKSLASH)%N then
            match ci_next chars with
            | Some ((newline, ch), chars) =>
                if (ch =? "x"%ch)%N then
                  let? chars := backslash_x_char chars in cooked_string_loop fuel input chars
                else if simple_escape0 ch then cooked_string_loop fuel input chars
                else if (ch =? "u"%ch)%N then
                  let? (chars, _) := backslash_u chars in cooked_string_loop fuel input chars
                else if (ch =? LF)%N || (ch =? CR)%N then
                  let? input := advance input (newline + 1) in
                  let? input := trailing_backslash input ch in
                  cooked_string_loop fuel input (char_indices (rest input))
                else Reject
            | None => Reject
            end
          else cooked_string_loop fuel input chars
      end
  end.
Definition cooked_string (input : cursor) : res cursor :=
  cooked_string_loop (S (str_len (rest input))) input (char_indices (rest input)).

(** parse.rs 473-488. *)
Fixpoint delimiter_loop (input : cursor) (i : nat) (bs : list byte) : res (cursor * str) :=
  match bs with
  | [] => Reject
  | b :: t =>
      if (b =? DQUOTE)%N then
        if (255 <? N.of_nat i)%N then Reject
        else
          let? c := advance input (i + 1) in
          let? d := slice_to (rest input) i in Ok (c, d)
      else if (b =? "#"%ch)%N then delimiter_loop input (S i) t
      else Reject
  end.
Definition delimiter_of_raw_string (input : cursor) : res (cursor * str) :=
  delimiter_loop input 0 (str_bytes (rest input)).

(** parse.rs 413-430 ([ok _ = true]), 490-511 ([ok] = is_ascii), 523-541 ([ok b] = b
    is not NUL): the three raw string loops differ only in which other bytes are
    accepted. *)
Fixpoint raw_string_loop (ok : byte -> bool) (input : cursor) (delim : str)
  (fuel : nat) (bytes : bytes_it) : res cursor :=
  match fuel with
  | O => Fuel
  | S fuel =>
      match be_next bytes with
      | None => Reject
      | Some ((i, b), bytes) =>
          let other :=
            if (b =? CR)%N then
              match be_next bytes with
              | Some ((_, b2), bytes) =>
                  if (b2 =? LF)%N then raw_string_loop ok input delim fuel bytes else Reject
              | None => Reject
              end
            else if ok b then raw_string_loop ok input delim fuel bytes
            else Reject in
          if (b =? DQUOTE)%N then
            let? after := slice_from (rest input) (i + 1) in
            if starts_with after delim then
              let? r := advance input (i + 1 + str_len delim) in literal_suffix r
            else other
          else other
      end
  end.
Definition raw_string_with (ok : byte -> bool) (input : cursor) : res cursor :=
  let? (input, delim) := delimiter_of_raw_string input in
  raw_string_loop ok input delim (S (str_len (rest input))) (bytes_enum (rest input)).
Definition raw_string := raw_string_with (fun _ => true).
Definition raw_byte_string := raw_string_with is_ascii.
Definition raw_c_string := raw_string_with (fun b => negb (b =? NUL)%N).

(** parse.rs 369-377. *)
Definition string_lit (input : cursor) : res cursor :=
  if_ok (parse_tag input (tag """")) cooked_string
    (if_ok (parse_tag input (tag "r")) raw_string Reject).

(** parse.rs 442-471. *)
Fixpoint cooked_byte_string_loop (fuel : nat) (input : cursor) (bytes : bytes_it) : res cursor :=
  match fuel with
  | O => Fuel
  | S fuel =>
      match be_next bytes with
      | None => Reject
      | Some ((offset, b), bytes) =>
          if (b =? DQUOTE)%N then
            let? input := advance input (offset + 1) in literal_suffix input
          else if (b =? CR)%N then
            match be_next bytes with
            | Some ((_, b2), bytes) =>
                if (b2 =? LF)%N then cooked_byte_string_loop fuel input bytes else Reject
            | None => Reject
            end
          else if (b =? BACKSLASH)%N then
            match be_next bytes with
            | Some ((newline, b), bytes) =>
                if (b =? "x"%ch)%N then
                  let? bytes := backslash_x_byte bytes in
                  cooked_byte_string_loop fuel input bytes
                else if simple_escape0 b then cooked_byte_string_loop fuel input bytes
                else if (b =? LF)%N || (b =? CR)%N then
                  let? input := advance input (newline + 1) in
                  let? input := trailing_backslash input b in
                  cooked_byte_string_loop fuel input (bytes_enum (rest input))
                else Reject
            | None => Reject
            end
          else if is_ascii b then cooked_byte_string_loop fuel input bytes
          else Reject
      end
  end.
Definition cooked_byte_string (input : cursor) : res cursor :=
  cooked_byte_string_loop (S (str_len (rest input))) input (bytes_enum (rest input)).

(** parse.rs 432-440. *)
Definition byte_string (input : cursor) : res cursor :=
  if_ok (parse_tag input (tag "b""")) cooked_byte_string
    (if_ok (parse_tag input (tag "br")) raw_byte_string Reject).

(** parse.rs 543-578. *)
Fixpoint cooked_c_string_loop (fuel : nat) (input : cursor) (chars : chars_it) : res cursor :=
  match fuel with
  | O => Fuel
  | S fuel =>
      match ci_next chars with
      | None => Reject
      | Some ((i, ch), chars) =>
          if (ch =? DQUOTE)%N then
            let? input := advance input (i + 1) in literal_suffix input
          else if (ch =? CR)%N then
            match ci_next chars with
            | Some ((_, c2), chars) =>
                if (c2 =? LF)%N then cooked_c_string_loop fuel input chars else Reject
            | None => Reject
            end
          else if (ch =? BACKSLASH)%N then
            match ci_next chars with
            | Some ((newline, ch), chars) =>
                if (ch =? "x"%ch)%N then
                  let? chars := backslash_x_nonzero chars in
                  cooked_c_string_loop fuel input chars
                else if simple_escape_c ch then cooked_c_string_loop fuel input chars
                else if (ch =? "u"%ch)%N then
                  let? (chars, c) := backslash_u chars in
                  if (c =? NUL)%N then Reject else cooked_c_string_loop fuel input chars
                else if (ch =? LF)%N || (ch =? CR)%N then
                  let? input := advance input (newline + 1) in
                  let? input := trailing_backslash input ch in
                  cooked_c_string_loop fuel input (char_indices (rest input))
                else Reject
            | None => Reject
            end
          else if (ch =? NUL)%N then Reject
          else cooked_c_string_loop fuel input chars
      end
  end.
Definition cooked_c_string (input : cursor) : res cursor :=
  cooked_c_string_loop (S (str_len (rest input))) input (char_indices (rest input)).

(** parse.rs 513-521. *)
Definition c_string (input : cursor) : res cursor :=
  if_ok (parse_tag input (tag "c""")) cooked_c_string
    (if_ok (parse_tag input (tag "cr")) raw_c_string Reject).

(** parse.rs 580-600.  [ok] is computed first; the iterator state after it is
    threaded through ([None] stands for [ok = false]). *)
Definition byte_lit (input : cursor) : res cursor :=
  let? input := parse_tag input (tag "b'") in
  let? bytes :=
    match be_next (bytes_enum (rest input)) with
    | Some ((_, b), bytes) =>
        if (b =? BACKSLASH)%N then
          match be_next bytes with
          | Some ((_, b), bytes) =>
              if (b =? "x"%ch)%N then backslash_x_byte bytes
              else if simple_escape0 b then Ok bytes
              else Reject
          | None => Reject
          end
        else Ok bytes
    | None => Reject
    end in
  match be_next bytes with
  | None => Reject
  | Some ((offset, _), _) =>
      if negb (is_char_boundary (rest input) offset) then Reject
      else
        let? c := advance input offset in
        let? c := parse_tag c (tag "'") in
        literal_suffix c
  end.

(** parse.rs 602-620. *)
Definition character (input : cursor) : res cursor :=
  let? input := parse_tag input (tag "'") in
  let? chars :=
    match ci_next (char_indices (rest input)) with
    | Some ((_, ch), chars) =>
        if (ch =? BACKSLASH)%N then
          match ci_next chars with
          | Some ((_, ch), chars) =>
              if (ch =? "x"%ch)%N then backslash_x_char chars
              else if (ch =? "u"%ch)%N then let? (chars, _) := backslash_u chars in Ok chars
              else if simple_escape0 ch then Ok chars
              else Reject
          | None => Reject
          end
        else Ok chars
    | None => Reject
    end in
  match ci_next chars with
  | None => Reject
  | Some ((idx, _), _) =>
      let? c := advance input idx in
      let? c := parse_tag c (tag "'") in
      literal_suffix c
  end.

(** parse.rs 730-758: the mantissa loop of [float_digits]; returns
    (len, has_dot, has_exp, remaining chars). *)
Fixpoint float_mantissa (chars : str) (len : nat) (has_dot : bool)
  : res (nat * bool * bool * str) :=
  match chars with
  | [] => Ok (len, has_dot, false, [])
  | ch :: t =>
      if is_dec_digit ch || (ch =? "_"%ch)%N then float_mantissa t (S len) has_dot
      else if (ch =? "."%ch)%N then
        if has_dot then Ok (len, has_dot, false, chars)
        else
          match t with
          | c2 :: _ =>
              if (c2 =? "."%ch)%N || is_ident_start c2 then Reject
              else float_mantissa t (S len) true
          | [] => float_mantissa t (S len) true
          end
      else if (ch =? "e"%ch)%N || (ch =? "E"%ch)%N then Ok (S len, has_dot, true, t)
      else Ok (len, has_dot, false, chars)
  end.

(** parse.rs 770-799: the exponent loop; [Ok None] stands for
    [return token_before_exp], [Ok (Some len)] for falling through. *)
Fixpoint float_exponent (chars : str) (len : nat) (has_sign has_exp_value : bool)
  : option nat :=
  let finish := if has_exp_value then Some len else None in
  match chars with
  | [] => finish
  | ch :: t =>
      if (ch =? "+"%ch)%N || (ch =? "-"%ch)%N then
        if has_exp_value then finish
        else if has_sign then None
        else float_exponent t (S len) true has_exp_value
      else if is_dec_digit ch then float_exponent t (S len) has_sign true
      else if (ch =? "_"%ch)%N then float_exponent t (S len) has_sign has_exp_value
      else finish
  end.

(** parse.rs 720-803. *)
Definition float_digits (input : cursor) : res cursor :=
  match rest input with
  | [] => Reject
  | ch :: t =>
      if is_dec_digit ch then
        let? (len, has_dot, has_exp, chars) := float_mantissa t 1 false in
        if negb (has_dot || has_exp) then Reject
        else if has_exp then
          (* 765-769: computed eagerly in the source *)
          let? before :=
            (if has_dot then let? c := advance input (len - 1) in Ok (Some c) else Ok None) in
          match float_exponent chars len false false with
          | None => match before with Some c => Ok c | None => Reject end
          | Some len => advance input len
          end
        else advance input len
      else Reject
  end.

(** parse.rs 710-718 and 805-813 share their tail. *)
Definition number_tail (r : cursor) : res cursor :=
  let? r :=
    match first_char r with
    | Some ch => if is_ident_start ch then let? (c, _) := ident_not_raw r in Ok c else Ok r
    | None => Ok r
    end in
  word_break r.
Definition float_lit (input : cursor) : res cursor :=
  let? r := float_digits input in number_tail r.

(** parse.rs 829-862; [Ok (len, empty)] or [Reject]. *)
Fixpoint digits_loop (base : N) (bs : list byte) (len : nat) (empty : bool)
  : res (nat * bool) :=
  match bs with
  | [] => Ok (len, empty)
  | b :: t =>
      if between "0"%ch b "9"%ch then
        if (base <=? b - "0"%ch)%N then Reject else digits_loop base t (S len) false
      else if between "a"%ch b "f"%ch then
        if (base <=? 10 + (b - "a"%ch))%N then Ok (len, empty)
        else digits_loop base t (S len) false
      else if between "A"%ch b "F"%ch then
        if (base <=? 10 + (b - "A"%ch))%N then Ok (len, empty)
        else digits_loop base t (S len) false
      else if (b =? "_"%ch)%N then
        if empty && (base =? 10)%N then Reject else digits_loop base t (S len) empty
      else Ok (len, empty)
  end.

(** parse.rs 815-868. *)
Definition digits (input : cursor) : res cursor :=
  let? (input, base) :=
    (if cstarts input (tag "0x") then let? c := advance input 2 in Ok (c, 16%N)
     else if cstarts input (tag "0o") then let? c := advance input 2 in Ok (c, 8%N)
     else if cstarts input (tag "0b") then let? c := advance input 2 in Ok (c, 2%N)
     else Ok (input, 10%N)) in
  let? (len, empty) := digits_loop base (str_bytes (rest input)) 0 true in
  if empty : bool then Reject else advance input len.

(** parse.rs 805-813. *)
Definition int_lit (input : cursor) : res cursor :=
  let? r := digits input in number_tail r.

(** parse.rs 342-360. *)
Definition literal_nocapture (input : cursor) : res cursor :=
  if_ok (string_lit input) Ok
  (if_ok (byte_string input) Ok
  (if_ok (c_string input) Ok
  (if_ok (byte_lit input) Ok
  (if_ok (character input) Ok
  (if_ok (float_lit input) Ok
  (if_ok (int_lit input) Ok Reject)))))).

(** parse.rs 336-340; the result is the literal's text. *)
Definition literal (input : cursor) : res (cursor * str) :=
  let? r := literal_nocapture input in
  let? s := slice_to (rest input) (str_len (rest input) - str_len (rest r)) in
  Ok (r, s).

(** parse.rs 900. *)
Definition punct_recognized : str := tag "~!@#$%^&*-=+|;:,<.>/?'".

(** parse.rs 890-906. *)
Definition punct_char (input : cursor) : res (cursor * char) :=
  if cstarts input (tag "//") || cstarts input (tag "/*") then Reject
  else
    match first_char input with
    | None => Reject
    | Some first =>
        if contains punct_recognized first then
          let? c := advance input (len_utf8 first) in Ok (c, first)
        else Reject
    end.

(** lib.rs 846-858: [Punct::new] panics unless the char is in this list; the span is
    [Span::call_site()]. *)
Definition punct_new_chars : list char :=
  ["!"%ch; "#"%ch; "$"%ch; "%"%ch; "&"%ch; "'"%ch; "*"%ch; "+"%ch; ","%ch; "-"%ch; "."%ch;
   "/"%ch; ":"%ch; ";"%ch; "<"%ch; "="%ch; ">"%ch; "?"%ch; "@"%ch; "^"%ch; "|"%ch; "~"%ch].
Definition punct_new (ch : char) (s : spacing) : res token :=
  if contains punct_new_chars ch then Ok (TPunct ch s call_site) else Panic.

(** parse.rs 870-888. *)
Definition punct (input : cursor) : res (cursor * token) :=
  let? (r, ch) := punct_char input in
  if (ch =? SQUOTE)%N then
    let? (after, _) := ident_any r in
    if cstarts_char after SQUOTE || (cstarts_char after "#"%ch && negb (cstarts r (tag "r#")))
    then Reject
    else let? p := punct_new SQUOTE Joint in Ok (r, p)
  else
    let? kind := if_ok (punct_char r) (fun _ => Ok Joint) (Ok Alone) in
    let? p := punct_new ch kind in Ok (r, p).

(** parse.rs 169. *)
Definition ERROR : str := tag "(/*ERROR*/)".

(** parse.rs 265-280. *)
Definition leaf_token (input : cursor) : res (cursor * token) :=
  if_ok (literal input) (fun '(r, l) => Ok (r, TLiteral l call_site))
  (if_ok (punct input) (fun '(r, p) => Ok (r, p))
  (if_ok (ident input) (fun '(r, (sym, raw)) => Ok (r, TIdent sym raw call_site))
  (if cstarts input ERROR then
     let? r := advance input (str_len ERROR) in Ok (r, TLiteral ERROR call_site)
   else Reject))).

(** fallback.rs 1214-1236 (used by [Literal::string] below). *)
Fixpoint escape_utf8 (s : str) : str :=
  match s with
  | [] => []
  | ch :: t =>
      (if (ch =? NUL)%N then
         match t with
         | n :: _ => if between "0"%ch n "7"%ch then tag "\x00" else tag "\0"
         | [] => tag "\0"
         end
       else if (ch =? SQUOTE)%N then [ch]
       else escape_debug ch) ++ escape_utf8 t
  end.

(** fallback.rs 1055-1061: the text of [Literal::string]. *)
Definition literal_string (s : str) : str := [DQUOTE] ++ escape_utf8 s ++ [DQUOTE].

(** parse.rs 956-977; result (comment text, inner). *)
Definition doc_comment_contents (input : cursor) : res (cursor * (str * bool)) :=
  if cstarts input (tag "//!") then
    let? c := advance input 3 in
    let? (c, s) := take_until_newline_or_eof c in Ok (c, (s, true))
  else if cstarts input (tag "/*!") then
    let? (c, s) := block_comment input in
    let? s := slice s 3 (str_len s - 2) in Ok (c, (s, true))
  else if cstarts input (tag "///") then
    let? c := advance input 3 in
    if cstarts_char c "/"%ch then Reject
    else let? (c, s) := take_until_newline_or_eof c in Ok (c, (s, false))
  else if cstarts input (tag "/**") then
    let? r3 := slice_from (rest input) 3 in
    if negb (starts_with r3 (tag "*")) then
      let? (c, s) := block_comment input in
      let? s := slice s 3 (str_len s - 2) in Ok (c, (s, false))
    else Reject
  else Reject.

(** parse.rs 920-927: [true] when a CR is not followed by LF.  [find] jumps to the
    next CR; recursing char by char visits the same CRs. *)
Fixpoint bare_cr (s : str) : bool :=
  match s with
  | [] => false
  | c :: t => if (c =? CR)%N then negb (starts_with t [LF]) || bare_cr t else bare_cr t
  end.

(** parse.rs 908-954: returns the remaining input and the tokens pushed. *)
Definition doc_comment (input : cursor) : res (cursor * list token) :=
  let lo := off input in
  let? (r, (comment, inner)) := doc_comment_contents input in
  let sp := mkspan lo (off r) in
  if bare_cr comment then Reject
  else
    let? pound := punct_new "#"%ch Alone in
    let? bang := (if inner : bool then let? b := punct_new "!"%ch Alone in Ok [set_span b sp] else Ok []) in
    let? equal := punct_new "="%ch Alone in
    let bracketed :=
      [TIdent (tag "doc") false sp; set_span equal sp; TLiteral (literal_string comment) sp] in
    Ok (r, [set_span pound sp] ++ bang ++ [TGroup Bracket bracketed sp]).

(** Result of lexing: fallback.rs 59-62 [LexError { span }]. *)
Inductive lexed := Lexed (ts : list token) | LexError (sp : span).

(** parse.rs 252-263. *)
Definition lex_error (c : cursor) : lexed := LexError (mkspan (off c) (off c)).

(** parse.rs 198-203 and 210-215, on the first byte. *)
Definition open_delimiter (input : cursor) (first : byte) : option delimiter :=
  if (first =? "("%ch)%N && negb (cstarts input ERROR) then Some Parenthesis
  else if (first =? "["%ch)%N then Some Bracket
  else if (first =? "{"%ch)%N then Some Brace
  else None.
Definition close_delimiter (first : byte) : option delimiter :=
  if (first =? ")"%ch)%N then Some Parenthesis
  else if (first =? "]"%ch)%N then Some Bracket
  else if (first =? "}"%ch)%N then Some Brace
  else None.

(** The explicit stack of parse.rs 173: (lo, (open delimiter, outer tokens)). *)
Definition frame := (N * (delimiter * list token))%type.

(** parse.rs 171-250. *)
Fixpoint token_stream_loop (fuel : nat) (input : cursor) (tokens : list token)
  (stack : list frame) : res lexed :=
  match fuel with
  | O => Fuel
  | S fuel =>
      let? input := skip_whitespace input in
      if_ok (doc_comment input)
        (fun '(r, doc) => token_stream_loop fuel r (tokens ++ doc) stack)
        (let lo := off input in
         match first_byte input with
         | None =>
             match stack with
             | [] => Ok (Lexed tokens)
             | (lo, _) :: _ => Ok (LexError (mkspan lo lo))
             end
         | Some first =>
             match open_delimiter input first with
             | Some d =>
                 let? input := advance input 1 in
                 token_stream_loop fuel input [] ((lo, (d, tokens)) :: stack)
             | None =>
                 match close_delimiter first with
                 | Some d =>
                     match stack with
                     | [] => Ok (lex_error input)
                     | (lo, (od, outer)) :: stack =>
                         if negb (delim_eqb od d) then Ok (lex_error input)
                         else
                           let? input := advance input 1 in
                           let g := TGroup od tokens (mkspan lo (off input)) in
                           token_stream_loop fuel input (outer ++ [g]) stack
                     end
                 | None =>
                     if_ok (leaf_token input)
                       (fun '(r, tok) =>
                          let tok := set_span tok (mkspan lo (off r)) in
                          token_stream_loop fuel r (tokens ++ [tok]) stack)
                       (Ok (lex_error input))
                 end
             end
         end)
  end.
Definition token_stream (input : cursor) : res lexed :=
  token_stream_loop (S (S (str_len (rest input)))) input [] [].

(** fallback.rs 83-94, after [get_cursor] (fallback.rs 197-212) has assigned the
    starting offset [start]; the source map itself is in SourceMap.v. *)
Definition BYTE_ORDER_MARK : str := [0xFEFF%N].
Definition token_stream_from_str (start : N) (src : str) : res lexed :=
  let c := mkcur src start in
  let? c := (if cstarts c BYTE_ORDER_MARK then advance c (str_len BYTE_ORDER_MARK) else Ok c) in
  token_stream c.

(** fallback.rs 972-1000. *)
Inductive lit_result := LitOk (repr : str) (sp : span) | LitErr (sp : span).
Definition literal_from_str (start : N) (src : str) : res lit_result :=
  let c := mkcur src start in
  let negative := cstarts_char c "-"%ch in
  let after_sign :=
    (if negative then
       let? c := advance c 1 in
       match first_char c with
       | Some ch => if is_dec_digit ch then Ok c else Reject
       | None => Reject
       end
     else Ok c) in
  if_ok after_sign
    (fun c =>
       if_ok (literal c)
         (fun '(r, repr) =>
            match rest r with
            | [] =>
                let repr := if negative then "-"%ch :: repr else repr in
                Ok (LitOk repr (mkspan start (off r)))
            | _ => Ok (LitErr call_site)
            end)
         (Ok (LitErr call_site)))
    (Ok (LitErr call_site)).

End WithUnicode.
