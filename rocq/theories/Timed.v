(** * The lexer once more, with a count of its steps.

    Every function of Lexer.v is repeated here with a counter; PropTimed.v shows that
    the results are the same.  One step is a character or byte looked at, compared or
    copied, a table looked up, or a call with a bounded amount of work:
    - [Cursor::advance] by [n] bytes counts the characters it passes: [n + 1] steps;
    - [starts_with] a fixed text: its length and one; a text found at run time (the
      hashes of a raw string): the common prefix and one;
    - taking an item from an iterator, slicing, pushing a token: one step;
    - copying or scanning a text: its length in bytes.
    Where the source stops early in a chain of tests the whole chain is charged. *)
From Verif Require Import Base Unicode Tokens Lexer.

Definition timed (A : Type) : Type := (res A * nat)%type.
Definition ret {A} (a : A) : timed A := (Ok a, 0).
Definition reject {A} : timed A := (Reject, 0).
Definition panic {A} : timed A := (Panic, 0).
Definition no_fuel {A} : timed A := (Fuel, 0).
(** Work outside of the counted functions: [n] steps with result [r]. *)
Definition work {A} (n : nat) (r : res A) : timed A := (r, n).
Definition charge {A} (n : nat) (m : timed A) : timed A := (fst m, n + snd m).
Definition tbind {A B} (m : timed A) (f : A -> timed B) : timed B :=
  match m with
  | (Ok a, n) => charge n (f a)
  | (Reject, n) => (Reject, n)
  | (Panic, n) => (Panic, n)
  | (Fuel, n) => (Fuel, n)
  end.
Definition t_if_ok {A B} (m : timed A) (k : A -> timed B) (r : timed B) : timed B :=
  match m with
  | (Ok a, n) => charge n (k a)
  | (Reject, n) => charge n r
  | (Panic, n) => (Panic, n)
  | (Fuel, n) => (Fuel, n)
  end.
Notation "'let!' x ':=' e 'in' k" := (tbind e (fun x => k))
  (at level 200, x pattern, right associativity, e at level 100, k at level 200).

(** parse.rs 19-27. *)
Definition t_advance (c : cursor) (n : nat) : timed cursor := work (S n) (advance c n).

(** Bytes compared until the first difference. *)
Fixpoint common (a b : str) : nat :=
  match a, b with
  | x :: a, y :: b => if (x =? y)%N then S (common a b) else 0
  | _, _ => 0
  end.

(** parse.rs 68-74. *)
Definition t_parse_tag (c : cursor) (t : str) : timed cursor :=
  charge (S (str_len t)) (if cstarts c t then t_advance c (str_len t) else reject).

(** parse.rs 979-991. *)
Fixpoint t_take_until_newline_loop (input : cursor) (i : nat) (chars : str)
  : timed (cursor * str) :=
  match chars with
  | [] =>
      charge 1 (let! c := t_advance input (str_len (rest input)) in ret (c, rest input))
  | ch :: t =>
      charge 1
        (if (ch =? LF)%N then
           let! c := t_advance input i in
           let! s := work 1 (slice_to (rest input) i) in ret (c, s)
         else if (ch =? CR)%N then
           let! after := work 1 (slice_from (rest input) (i + 1)) in
           charge 2
             (if starts_with after [LF] then
                let! c := t_advance input (i + 1) in
                let! s := work 1 (slice_to (rest input) i) in ret (c, s)
              else t_take_until_newline_loop input (i + len_utf8 ch) t)
         else t_take_until_newline_loop input (i + len_utf8 ch) t)
  end.
Definition t_take_until_newline_or_eof (input : cursor) : timed (cursor * str) :=
  t_take_until_newline_loop input 0 (rest input).

(** parse.rs 128-153. *)
Fixpoint t_block_comment_loop (input : cursor) (fuel : nat) (depth i : nat) (bs : list byte)
  : timed (cursor * str) :=
  match fuel with
  | O => no_fuel
  | S fuel =>
      charge 2
        match bs with
        | b0 :: ((b1 :: t) as t1) =>
            if (b0 =? "/"%ch)%N && (b1 =? "*"%ch)%N then
              t_block_comment_loop input fuel (S depth) (i + 2) t
            else if (b0 =? "*"%ch)%N && (b1 =? "/"%ch)%N then
              match depth with
              | O => panic
              | S O =>
                  let! c := t_advance input (i + 2) in
                  let! s := work 1 (slice_to (rest input) (i + 2)) in ret (c, s)
              | S d => t_block_comment_loop input fuel d (i + 2) t
              end
            else t_block_comment_loop input fuel depth (i + 1) t1
        | _ => reject
        end
  end.
Definition t_block_comment (input : cursor) : timed (cursor * str) :=
  charge 3
    (if negb (cstarts input (tag "/*")) then reject
     else t_block_comment_loop input (S (str_len (rest input))) 0 0 (str_bytes (rest input))).

(** parse.rs 80-126.  Nine texts of two to four characters are compared at a slash. *)
Fixpoint t_skip_whitespace_loop (fuel : nat) (s : cursor) : timed cursor :=
  match fuel with
  | O => no_fuel
  | S fuel =>
      charge 1
        match str_bytes (rest s) with
        | [] => ret s
        | b :: _ =>
            let ws :=
              charge 3
                (if (b =? SPACE)%N || between 0x09 b 0x0d then
                   let! s' := t_advance s 1 in t_skip_whitespace_loop fuel s'
                 else if is_ascii b then ret s
                 else
                   let! ch := work 1 (unwrap (first_char s)) in
                   if is_whitespace ch then
                     let! s' := t_advance s (len_utf8 ch) in t_skip_whitespace_loop fuel s'
                   else ret s) in
            if (b =? "/"%ch)%N then
              charge 37
                (if cstarts s (tag "//")
                    && (negb (cstarts s (tag "///")) || cstarts s (tag "////"))
                    && negb (cstarts s (tag "//!")) then
                   let! (c, _) := t_take_until_newline_or_eof s in t_skip_whitespace_loop fuel c
                 else if cstarts s (tag "/**/") then
                   let! s' := t_advance s 4 in t_skip_whitespace_loop fuel s'
                 else if cstarts s (tag "/*")
                    && (negb (cstarts s (tag "/**")) || cstarts s (tag "/***"))
                    && negb (cstarts s (tag "/*!")) then
                   t_if_ok (t_block_comment s)
                     (fun '(r, _) => t_skip_whitespace_loop fuel r)
                     (ret s)
                 else ws)
            else ws
        end
  end.
Definition t_skip_whitespace (s : cursor) : timed cursor :=
  t_skip_whitespace_loop (S (str_len (rest s))) s.

Section WithUnicode.
Context {U : unicode}.

(** parse.rs 160-165. *)
Definition t_word_break (input : cursor) : timed cursor := work 2 (word_break input).

(** parse.rs 317-334. *)
Fixpoint t_ident_end (len i : nat) (chars : str) : timed nat :=
  charge 2
    match chars with
    | [] => ret len
    | ch :: t => if negb (is_ident_continue ch) then ret i else t_ident_end len (i + len_utf8 ch) t
    end.
Definition t_ident_not_raw (input : cursor) : timed (cursor * str) :=
  charge 2
    match ci_next (char_indices (rest input)) with
    | Some ((_, ch), (i, t)) =>
        if is_ident_start ch then
          let! e := t_ident_end (str_len (rest input)) i t in
          let! c := t_advance input e in
          let! s := work 1 (slice_to (rest input) e) in ret (c, s)
        else reject
    | None => reject
    end.

(** parse.rs 295-315.  The five names compared have 19 characters; the name is copied. *)
Definition t_ident_any (input : cursor) : timed (cursor * (str * bool)) :=
  let raw := cstarts input (tag "r#") in
  charge 3
    (let! r := t_advance input (if raw then 2 else 0) in
     let! (r, sym) := t_ident_not_raw r in
     if negb raw then work (S (str_len sym)) (Ok (r, (sym, false)))
     else
       charge 24
         (if cannot_be_raw sym then reject
          else work (S (str_len sym)) (Ok (r, (sym, true))))).

(** parse.rs 282-293.  The ten prefixes have 26 characters. *)
Definition t_ident (input : cursor) : timed (cursor * (str * bool)) :=
  charge 36 (if existsb (cstarts input) ident_reject_prefixes then reject else t_ident_any input).

(** parse.rs 362-367. *)
Definition t_literal_suffix (input : cursor) : timed cursor :=
  t_if_ok (t_ident_not_raw input) (fun '(c, _) => ret c) (ret input).

(** parse.rs 622-663: at most two characters. *)
Definition t_backslash_x_char (it : chars_it) : timed chars_it := work 4 (backslash_x_char it).
Definition t_backslash_x_byte (it : bytes_it) : timed bytes_it := work 4 (backslash_x_byte it).
Definition t_backslash_x_nonzero (it : chars_it) : timed chars_it :=
  work 4 (backslash_x_nonzero it).

(** parse.rs 665-689. *)
Fixpoint t_backslash_u_loop (i : nat) (chars : str) (value : N) (len : nat)
  : timed (chars_it * char) :=
  charge 2
    match chars with
    | [] => reject
    | ch :: t =>
        let i := i + len_utf8 ch in
        if is_hex_digit ch then
          if len =? 6 then reject
          else t_backslash_u_loop i t (value * 0x10 + hex_value ch)%N (S len)
        else if (ch =? "_"%ch)%N && (0 <? len) then t_backslash_u_loop i t value len
        else if (ch =? "}"%ch)%N && (0 <? len) then
          let! c := work 1 (ok_or (char_from_u32 value)) in ret ((i, t), c)
        else reject
    end.
Definition t_backslash_u (it : chars_it) : timed (chars_it * char) :=
  charge 1
    match ci_next it with
    | Some ((_, ch), (i, t)) =>
        if (ch =? "{"%ch)%N then t_backslash_u_loop i t 0 0 else reject
    | None => reject
    end.

(** parse.rs 691-708. *)
Fixpoint t_trailing_backslash_loop (input : cursor) (fuel : nat) (last : byte) (ws : bytes_it)
  : timed cursor :=
  match fuel with
  | O => no_fuel
  | S fuel =>
      let step (ws : bytes_it) :=
        charge 1
          match be_next ws with
          | Some ((offset, b), ws) =>
              if (b =? SPACE)%N || (b =? TAB)%N || (b =? LF)%N || (b =? CR)%N then
                t_trailing_backslash_loop input fuel b ws
              else t_advance input offset
          | None => reject
          end in
      charge 1
        (if (last =? CR)%N then
           charge 1
             match be_next ws with
             | None => reject
             | Some ((_, b), ws) => if negb (b =? LF)%N then reject else step ws
             end
         else step ws)
  end.
Definition t_trailing_backslash (input : cursor) (last : byte) : timed cursor :=
  t_trailing_backslash_loop input (S (str_len (rest input))) last (bytes_enum (rest input)).

(** parse.rs 379-411. *)
Fixpoint t_cooked_string_loop (fuel : nat) (input : cursor) (chars : chars_it) : timed cursor :=
  match fuel with
  | O => no_fuel
  | S fuel =>
      charge 2
        match ci_next chars with
        | None => reject
        | Some ((i, ch), chars) =>
            if (ch =? DQUOTE)%N then
              let! input := t_advance input (i + 1) in t_literal_suffix input
            else if (ch =? CR)%N then
              charge 1
                match ci_next chars with
                | Some ((_, c2), chars) =>
                    if (c2 =? LF)%N then t_cooked_string_loop fuel input chars else reject
                | None => reject
                end
            else if (ch =? BACKSLASH)%N then
              charge 2
                match ci_next chars with
                | Some ((newline, ch), chars) =>
                    if (ch =? "x"%ch)%N then
                      let! chars := t_backslash_x_char chars in
                      t_cooked_string_loop fuel input chars
                    else if simple_escape0 ch then t_cooked_string_loop fuel input chars
                    else if (ch =? "u"%ch)%N then
                      let! (chars, _) := t_backslash_u chars in
                      t_cooked_string_loop fuel input chars
                    else if (ch =? LF)%N || (ch =? CR)%N then
                      let! input := t_advance input (newline + 1) in
                      let! input := t_trailing_backslash input ch in
                      t_cooked_string_loop fuel input (char_indices (rest input))
                    else reject
                | None => reject
                end
            else t_cooked_string_loop fuel input chars
        end
  end.
Definition t_cooked_string (input : cursor) : timed cursor :=
  t_cooked_string_loop (S (str_len (rest input))) input (char_indices (rest input)).

(** parse.rs 473-488. *)
Fixpoint t_delimiter_loop (input : cursor) (i : nat) (bs : list byte) : timed (cursor * str) :=
  charge 1
    match bs with
    | [] => reject
    | b :: t =>
        if (b =? DQUOTE)%N then
          if (255 <? N.of_nat i)%N then reject
          else
            let! c := t_advance input (i + 1) in
            let! d := work 1 (slice_to (rest input) i) in ret (c, d)
        else if (b =? "#"%ch)%N then t_delimiter_loop input (S i) t
        else reject
    end.
Definition t_delimiter_of_raw_string (input : cursor) : timed (cursor * str) :=
  t_delimiter_loop input 0 (str_bytes (rest input)).

(** parse.rs 413-430, 490-511, 523-541. *)
Fixpoint t_raw_string_loop (ok : byte -> bool) (input : cursor) (delim : str)
  (fuel : nat) (bytes : bytes_it) : timed cursor :=
  match fuel with
  | O => no_fuel
  | S fuel =>
      charge 2
        match be_next bytes with
        | None => reject
        | Some ((i, b), bytes) =>
            let other :=
              if (b =? CR)%N then
                charge 1
                  match be_next bytes with
                  | Some ((_, b2), bytes) =>
                      if (b2 =? LF)%N then t_raw_string_loop ok input delim fuel bytes else reject
                  | None => reject
                  end
              else if ok b then t_raw_string_loop ok input delim fuel bytes
              else reject in
            if (b =? DQUOTE)%N then
              let! after := work 1 (slice_from (rest input) (i + 1)) in
              charge (S (common after delim))
                (if starts_with after delim then
                   let! r := t_advance input (i + 1 + str_len delim) in t_literal_suffix r
                 else other)
            else other
        end
  end.
Definition t_raw_string_with (ok : byte -> bool) (input : cursor) : timed cursor :=
  let! (input, delim) := t_delimiter_of_raw_string input in
  t_raw_string_loop ok input delim (S (str_len (rest input))) (bytes_enum (rest input)).
Definition t_raw_string := t_raw_string_with (fun _ => true).
Definition t_raw_byte_string := t_raw_string_with is_ascii.
Definition t_raw_c_string := t_raw_string_with (fun b => negb (b =? NUL)%N).

(** parse.rs 369-377. *)
Definition t_string_lit (input : cursor) : timed cursor :=
  t_if_ok (t_parse_tag input (tag """")) t_cooked_string
    (t_if_ok (t_parse_tag input (tag "r")) t_raw_string reject).

(** parse.rs 442-471. *)
Fixpoint t_cooked_byte_string_loop (fuel : nat) (input : cursor) (bytes : bytes_it)
  : timed cursor :=
  match fuel with
  | O => no_fuel
  | S fuel =>
      charge 2
        match be_next bytes with
        | None => reject
        | Some ((offset, b), bytes) =>
            if (b =? DQUOTE)%N then
              let! input := t_advance input (offset + 1) in t_literal_suffix input
            else if (b =? CR)%N then
              charge 1
                match be_next bytes with
                | Some ((_, b2), bytes) =>
                    if (b2 =? LF)%N then t_cooked_byte_string_loop fuel input bytes else reject
                | None => reject
                end
            else if (b =? BACKSLASH)%N then
              charge 2
                match be_next bytes with
                | Some ((newline, b), bytes) =>
                    if (b =? "x"%ch)%N then
                      let! bytes := t_backslash_x_byte bytes in
                      t_cooked_byte_string_loop fuel input bytes
                    else if simple_escape0 b then t_cooked_byte_string_loop fuel input bytes
                    else if (b =? LF)%N || (b =? CR)%N then
                      let! input := t_advance input (newline + 1) in
                      let! input := t_trailing_backslash input b in
                      t_cooked_byte_string_loop fuel input (bytes_enum (rest input))
                    else reject
                | None => reject
                end
            else if is_ascii b then t_cooked_byte_string_loop fuel input bytes
            else reject
        end
  end.
Definition t_cooked_byte_string (input : cursor) : timed cursor :=
  t_cooked_byte_string_loop (S (str_len (rest input))) input (bytes_enum (rest input)).

(** parse.rs 432-440. *)
Definition t_byte_string (input : cursor) : timed cursor :=
  t_if_ok (t_parse_tag input (tag "b""")) t_cooked_byte_string
    (t_if_ok (t_parse_tag input (tag "br")) t_raw_byte_string reject).

(** parse.rs 543-578. *)
Fixpoint t_cooked_c_string_loop (fuel : nat) (input : cursor) (chars : chars_it) : timed cursor :=
  match fuel with
  | O => no_fuel
  | S fuel =>
      charge 2
        match ci_next chars with
        | None => reject
        | Some ((i, ch), chars) =>
            if (ch =? DQUOTE)%N then
              let! input := t_advance input (i + 1) in t_literal_suffix input
            else if (ch =? CR)%N then
              charge 1
                match ci_next chars with
                | Some ((_, c2), chars) =>
                    if (c2 =? LF)%N then t_cooked_c_string_loop fuel input chars else reject
                | None => reject
                end
            else if (ch =? BACKSLASH)%N then
              charge 2
                match ci_next chars with
                | Some ((newline, ch), chars) =>
                    if (ch =? "x"%ch)%N then
                      let! chars := t_backslash_x_nonzero chars in
                      t_cooked_c_string_loop fuel input chars
                    else if simple_escape_c ch then t_cooked_c_string_loop fuel input chars
                    else if (ch =? "u"%ch)%N then
                      let! (chars, c) := t_backslash_u chars in
                      if (c =? NUL)%N then reject else t_cooked_c_string_loop fuel input chars
                    else if (ch =? LF)%N || (ch =? CR)%N then
                      let! input := t_advance input (newline + 1) in
                      let! input := t_trailing_backslash input ch in
                      t_cooked_c_string_loop fuel input (char_indices (rest input))
                    else reject
                | None => reject
                end
            else if (ch =? NUL)%N then reject
            else t_cooked_c_string_loop fuel input chars
        end
  end.
Definition t_cooked_c_string (input : cursor) : timed cursor :=
  t_cooked_c_string_loop (S (str_len (rest input))) input (char_indices (rest input)).

(** parse.rs 513-521. *)
Definition t_c_string (input : cursor) : timed cursor :=
  t_if_ok (t_parse_tag input (tag "c""")) t_cooked_c_string
    (t_if_ok (t_parse_tag input (tag "cr")) t_raw_c_string reject).

(** parse.rs 580-600. *)
Definition t_byte_lit (input : cursor) : timed cursor :=
  let! input := t_parse_tag input (tag "b'") in
  let! bytes :=
    charge 3
      match be_next (bytes_enum (rest input)) with
      | Some ((_, b), bytes) =>
          if (b =? BACKSLASH)%N then
            match be_next bytes with
            | Some ((_, b), bytes) =>
                if (b =? "x"%ch)%N then t_backslash_x_byte bytes
                else if simple_escape0 b then ret bytes
                else reject
            | None => reject
            end
          else ret bytes
      | None => reject
      end in
  charge 2
    match be_next bytes with
    | None => reject
    | Some ((offset, _), _) =>
        if negb (is_char_boundary (rest input) offset) then reject
        else
          let! c := t_advance input offset in
          let! c := t_parse_tag c (tag "'") in
          t_literal_suffix c
    end.

(** parse.rs 602-620. *)
Definition t_character (input : cursor) : timed cursor :=
  let! input := t_parse_tag input (tag "'") in
  let! chars :=
    charge 3
      match ci_next (char_indices (rest input)) with
      | Some ((_, ch), chars) =>
          if (ch =? BACKSLASH)%N then
            match ci_next chars with
            | Some ((_, ch), chars) =>
                if (ch =? "x"%ch)%N then t_backslash_x_char chars
                else if (ch =? "u"%ch)%N then let! (chars, _) := t_backslash_u chars in ret chars
                else if simple_escape0 ch then ret chars
                else reject
            | None => reject
            end
          else ret chars
      | None => reject
      end in
  charge 1
    match ci_next chars with
    | None => reject
    | Some ((idx, _), _) =>
        let! c := t_advance input idx in
        let! c := t_parse_tag c (tag "'") in
        t_literal_suffix c
    end.

(** parse.rs 730-758. *)
Fixpoint t_float_mantissa (chars : str) (len : nat) (has_dot : bool)
  : timed (nat * bool * bool * str) :=
  charge 2
    match chars with
    | [] => ret (len, has_dot, false, [])
    | ch :: t =>
        if is_dec_digit ch || (ch =? "_"%ch)%N then t_float_mantissa t (S len) has_dot
        else if (ch =? "."%ch)%N then
          if has_dot then ret (len, has_dot, false, chars)
          else
            charge 2
              match t with
              | c2 :: _ =>
                  if (c2 =? "."%ch)%N || is_ident_start c2 then reject
                  else t_float_mantissa t (S len) true
              | [] => t_float_mantissa t (S len) true
              end
        else if (ch =? "e"%ch)%N || (ch =? "E"%ch)%N then ret (S len, has_dot, true, t)
        else ret (len, has_dot, false, chars)
    end.

(** parse.rs 770-799. *)
Fixpoint t_float_exponent (chars : str) (len : nat) (has_sign has_exp_value : bool)
  : timed (option nat) :=
  let finish := ret (if has_exp_value then Some len else None) in
  charge 2
    match chars with
    | [] => finish
    | ch :: t =>
        if (ch =? "+"%ch)%N || (ch =? "-"%ch)%N then
          if has_exp_value then finish
          else if has_sign then ret None
          else t_float_exponent t (S len) true has_exp_value
        else if is_dec_digit ch then t_float_exponent t (S len) has_sign true
        else if (ch =? "_"%ch)%N then t_float_exponent t (S len) has_sign has_exp_value
        else finish
    end.

(** parse.rs 720-803. *)
Definition t_float_digits (input : cursor) : timed cursor :=
  charge 2
    match rest input with
    | [] => reject
    | ch :: t =>
        if is_dec_digit ch then
          let! (len, has_dot, has_exp, chars) := t_float_mantissa t 1 false in
          if negb (has_dot || has_exp) then reject
          else if has_exp then
            let! before :=
              (if has_dot then let! c := t_advance input (len - 1) in ret (Some c)
               else ret None) in
            let! e := t_float_exponent chars len false false in
            match e with
            | None => match before with Some c => ret c | None => reject end
            | Some len => t_advance input len
            end
          else t_advance input len
        else reject
    end.

(** parse.rs 710-718 and 805-813. *)
Definition t_number_tail (r : cursor) : timed cursor :=
  let! r :=
    charge 2
      match first_char r with
      | Some ch =>
          if is_ident_start ch then let! (c, _) := t_ident_not_raw r in ret c else ret r
      | None => ret r
      end in
  t_word_break r.
Definition t_float_lit (input : cursor) : timed cursor :=
  let! r := t_float_digits input in t_number_tail r.

(** parse.rs 829-862. *)
Fixpoint t_digits_loop (base : N) (bs : list byte) (len : nat) (empty : bool)
  : timed (nat * bool) :=
  charge 2
    match bs with
    | [] => ret (len, empty)
    | b :: t =>
        if between "0"%ch b "9"%ch then
          if (base <=? b - "0"%ch)%N then reject else t_digits_loop base t (S len) false
        else if between "a"%ch b "f"%ch then
          if (base <=? 10 + (b - "a"%ch))%N then ret (len, empty)
          else t_digits_loop base t (S len) false
        else if between "A"%ch b "F"%ch then
          if (base <=? 10 + (b - "A"%ch))%N then ret (len, empty)
          else t_digits_loop base t (S len) false
        else if (b =? "_"%ch)%N then
          if empty && (base =? 10)%N then reject else t_digits_loop base t (S len) empty
        else ret (len, empty)
    end.

(** parse.rs 815-868. *)
Definition t_digits (input : cursor) : timed cursor :=
  let! (input, base) :=
    charge 9
      (if cstarts input (tag "0x") then let! c := t_advance input 2 in ret (c, 16%N)
       else if cstarts input (tag "0o") then let! c := t_advance input 2 in ret (c, 8%N)
       else if cstarts input (tag "0b") then let! c := t_advance input 2 in ret (c, 2%N)
       else ret (input, 10%N)) in
  let! (len, empty) := t_digits_loop base (str_bytes (rest input)) 0 true in
  if empty : bool then reject else t_advance input len.

(** parse.rs 805-813. *)
Definition t_int_lit (input : cursor) : timed cursor :=
  let! r := t_digits input in t_number_tail r.

(** parse.rs 342-360. *)
Definition t_literal_nocapture (input : cursor) : timed cursor :=
  t_if_ok (t_string_lit input) ret
  (t_if_ok (t_byte_string input) ret
  (t_if_ok (t_c_string input) ret
  (t_if_ok (t_byte_lit input) ret
  (t_if_ok (t_character input) ret
  (t_if_ok (t_float_lit input) ret
  (t_if_ok (t_int_lit input) ret reject)))))).

(** parse.rs 336-340; the text is copied. *)
Definition t_literal (input : cursor) : timed (cursor * str) :=
  let! r := t_literal_nocapture input in
  let! s := work 1 (slice_to (rest input) (str_len (rest input) - str_len (rest r))) in
  work (S (str_len s)) (Ok (r, s)).

(** parse.rs 890-906.  The 22 recognized characters are searched. *)
Definition t_punct_char (input : cursor) : timed (cursor * char) :=
  charge 30
    (if cstarts input (tag "//") || cstarts input (tag "/*") then reject
     else
       match first_char input with
       | None => reject
       | Some first =>
           if contains punct_recognized first then
             let! c := t_advance input (len_utf8 first) in ret (c, first)
           else reject
       end).

(** lib.rs 846-858; 22 characters. *)
Definition t_punct_new (ch : char) (s : spacing) : timed token := work 23 (punct_new ch s).

(** parse.rs 870-888. *)
Definition t_punct (input : cursor) : timed (cursor * token) :=
  let! (r, ch) := t_punct_char input in
  if (ch =? SQUOTE)%N then
    let! (after, _) := t_ident_any r in
    charge 7
      (if cstarts_char after SQUOTE || (cstarts_char after "#"%ch && negb (cstarts r (tag "r#")))
       then reject
       else let! p := t_punct_new SQUOTE Joint in ret (r, p))
  else
    let! kind := t_if_ok (t_punct_char r) (fun _ => ret Joint) (ret Alone) in
    let! p := t_punct_new ch kind in ret (r, p).

(** parse.rs 265-280.  [ERROR] has 11 characters. *)
Definition t_leaf_token (input : cursor) : timed (cursor * token) :=
  t_if_ok (t_literal input) (fun '(r, l) => ret (r, TLiteral l call_site))
  (t_if_ok (t_punct input) (fun '(r, p) => ret (r, p))
  (t_if_ok (t_ident input) (fun '(r, (sym, raw)) => ret (r, TIdent sym raw call_site))
  (charge 12
     (if cstarts input ERROR then
        let! r := t_advance input (str_len ERROR) in
        work 12 (Ok (r, TLiteral ERROR call_site))
      else reject)))).

(** parse.rs 956-977. *)
Definition t_doc_comment_contents (input : cursor) : timed (cursor * (str * bool)) :=
  charge 20
    (if cstarts input (tag "//!") then
       let! c := t_advance input 3 in
       let! (c, s) := t_take_until_newline_or_eof c in ret (c, (s, true))
     else if cstarts input (tag "/*!") then
       let! (c, s) := t_block_comment input in
       let! s := work 1 (slice s 3 (str_len s - 2)) in ret (c, (s, true))
     else if cstarts input (tag "///") then
       let! c := t_advance input 3 in
       if cstarts_char c "/"%ch then reject
       else let! (c, s) := t_take_until_newline_or_eof c in ret (c, (s, false))
     else if cstarts input (tag "/**") then
       let! r3 := work 1 (slice_from (rest input) 3) in
       if negb (starts_with r3 (tag "*")) then
         let! (c, s) := t_block_comment input in
         let! s := work 1 (slice s 3 (str_len s - 2)) in ret (c, (s, false))
       else reject
     else reject).

(** parse.rs 908-954.  The comment is searched for CR and then escaped; the tokens made
    do not depend on anything else. *)
Definition t_doc_comment (input : cursor) : timed (cursor * list token) :=
  let lo := off input in
  let! (r, (comment, inner)) := t_doc_comment_contents input in
  let sp := mkspan lo (off r) in
  charge (S (str_len comment))
    (if bare_cr comment then reject
     else
       charge (S (str_len comment) + 6)
         (let! pound := t_punct_new "#"%ch Alone in
          let! bang :=
            (if inner : bool then let! b := t_punct_new "!"%ch Alone in ret [set_span b sp]
             else ret []) in
          let! equal := t_punct_new "="%ch Alone in
          let bracketed :=
            [TIdent (tag "doc") false sp; set_span equal sp; TLiteral (literal_string comment) sp] in
          ret (r, [set_span pound sp] ++ bang ++ [TGroup Bracket bracketed sp]))).

(** parse.rs 171-250.  A token is pushed, or a frame is pushed or popped, in one step; so
    is a stream built from its tokens, which moves a vector. *)
Fixpoint t_token_stream_loop (fuel : nat) (input : cursor) (tokens : list token)
  (stack : list frame) : timed lexed :=
  match fuel with
  | O => no_fuel
  | S fuel =>
      let! input := t_skip_whitespace input in
      t_if_ok (t_doc_comment input)
        (fun '(r, doc) => t_token_stream_loop fuel r (tokens ++ doc) stack)
        (let lo := off input in
         charge 1
           match first_byte input with
           | None =>
               match stack with
               | [] => ret (Lexed tokens)
               | (lo, _) :: _ => ret (LexError (mkspan lo lo))
               end
           | Some first =>
               charge 18
                 match open_delimiter input first with
                 | Some d =>
                     let! input := t_advance input 1 in
                     charge 1 (t_token_stream_loop fuel input [] ((lo, (d, tokens)) :: stack))
                 | None =>
                     match close_delimiter first with
                     | Some d =>
                         match stack with
                         | [] => ret (lex_error input)
                         | (lo, (od, outer)) :: stack =>
                             if negb (delim_eqb od d) then ret (lex_error input)
                             else
                               let! input := t_advance input 1 in
                               let g := TGroup od tokens (mkspan lo (off input)) in
                               charge 3 (t_token_stream_loop fuel input (outer ++ [g]) stack)
                         end
                     | None =>
                         t_if_ok (t_leaf_token input)
                           (fun '(r, tok) =>
                              let tok := set_span tok (mkspan lo (off r)) in
                              charge 2 (t_token_stream_loop fuel r (tokens ++ [tok]) stack))
                           (ret (lex_error input))
                     end
                 end
           end)
  end.
Definition t_token_stream (input : cursor) : timed lexed :=
  t_token_stream_loop (S (S (str_len (rest input)))) input [] [].

(** fallback.rs 83-94. *)
Definition t_token_stream_from_str (start : N) (src : str) : timed lexed :=
  let c := mkcur src start in
  let! c :=
    charge 4
      (if cstarts c BYTE_ORDER_MARK then t_advance c (str_len BYTE_ORDER_MARK) else ret c) in
  t_token_stream c.

(** fallback.rs 972-1000. *)
Definition t_literal_from_str (start : N) (src : str) : timed lit_result :=
  let c := mkcur src start in
  let negative := cstarts_char c "-"%ch in
  let after_sign :=
    charge 2
      (if negative then
         let! c := t_advance c 1 in
         charge 1
           match first_char c with
           | Some ch => if is_dec_digit ch then ret c else reject
           | None => reject
           end
       else ret c) in
  t_if_ok after_sign
    (fun c =>
       t_if_ok (t_literal c)
         (fun '(r, repr) =>
            charge 1
              match rest r with
              | [] =>
                  let repr := if negative then "-"%ch :: repr else repr in
                  work (S (str_len repr)) (Ok (LitOk repr (mkspan start (off r))))
              | _ => ret (LitErr call_site)
              end)
         (ret (LitErr call_site)))
    (ret (LitErr call_site)).

End WithUnicode.
