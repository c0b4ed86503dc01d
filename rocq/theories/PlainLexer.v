(** * The lexer in the default configuration, without [span_locations]: src/parse.rs,
    src/fallback.rs 83-94, 197-217, 972-1000.

    A cursor is only the rest of the text and a span has no fields ([no_span] stands
    for it in the trees).  Functions that take no cursor are those of Lexer.v. *)
From Verif Require Import Base Unicode Tokens Lexer.
From Verif Require Fallback.

(** [Span {}], fallback.rs 519-531. *)
Definition no_span : span := call_site.

(** parse.rs 12-17. *)
Record cursor := mkcur { rest : str }.

(** parse.rs 19-27. *)
Definition advance (c : cursor) (n : nat) : res cursor :=
  match split_at (rest c) n with
  | Some (_, r) => Ok (mkcur r)
  | None => Panic
  end.

(** parse.rs 29-42. *)
Definition cstarts (c : cursor) (t : str) : bool := starts_with (rest c) t.
Definition cstarts_char (c : cursor) (ch : char) : bool := starts_with (rest c) [ch].

(** parse.rs 68-74. *)
Definition parse_tag (c : cursor) (t : str) : res cursor :=
  if cstarts c t then advance c (str_len t) else Reject.
Definition first_char (c : cursor) : option char :=
  match rest c with [] => None | x :: _ => Some x end.
Definition first_byte (c : cursor) : option byte :=
  match str_bytes (rest c) with [] => None | b :: _ => Some b end.

(** parse.rs 979-991. *)
Fixpoint take_until_newline_loop (input : cursor) (i : nat) (chars : str)
  : res (cursor * str) :=
  match chars with
  | [] => (* 990 *)
      let? c := advance input (str_len (rest input)) in Ok (c, rest input)
  | ch :: t =>
      if (ch =? LF)%N then
        let? c := advance input i in
        let? s := slice_to (rest input) i in Ok (c, s)
      else if (ch =? CR)%N then
        let? after := slice_from (rest input) (i + 1) in
        if starts_with after [LF] then
          let? c := advance input (i + 1) in
          let? s := slice_to (rest input) i in Ok (c, s)
        else take_until_newline_loop input (i + len_utf8 ch) t
      else take_until_newline_loop input (i + len_utf8 ch) t
  end.
Definition take_until_newline_or_eof (input : cursor) : res (cursor * str) :=
  take_until_newline_loop input 0 (rest input).

(** parse.rs 128-153.  [bs] is [bytes[i..]]; the loop runs while two bytes remain
    ([i < upper = len - 1]).  [depth -= 1] on a usize: underflow is a panic in
    debug builds; modelled as [Panic]. *)
Fixpoint block_comment_loop (input : cursor) (fuel : nat) (depth i : nat) (bs : list byte)
  : res (cursor * str) :=
  match fuel with
  | O => Fuel
  | S fuel =>
      match bs with
      | b0 :: ((b1 :: t) as t1) =>
          if (b0 =? "/"%ch)%N && (b1 =? "*"%ch)%N then
            block_comment_loop input fuel (S depth) (i + 2) t
          else if (b0 =? "*"%ch)%N && (b1 =? "/"%ch)%N then
            match depth with
            | O => Panic
            | S O =>
                let? c := advance input (i + 2) in
                let? s := slice_to (rest input) (i + 2) in Ok (c, s)
            | S d => block_comment_loop input fuel d (i + 2) t
            end
          else block_comment_loop input fuel depth (i + 1) t1
      | _ => Reject
      end
  end.
Definition block_comment (input : cursor) : res (cursor * str) :=
  if negb (cstarts input (tag "/*")) then Reject
  else block_comment_loop input (S (str_len (rest input))) 0 0 (str_bytes (rest input)).

(** parse.rs 80-126. *)
Fixpoint skip_whitespace_loop (fuel : nat) (s : cursor) : res cursor :=
  match fuel with
  | O => Fuel
  | S fuel =>
      match str_bytes (rest s) with
      | [] => Ok s
      | b :: _ =>
          let ws :=
            (* 109-123 *)
            if (b =? SPACE)%N || between 0x09 b 0x0d then
              let? s' := advance s 1 in skip_whitespace_loop fuel s'
            else if is_ascii b then Ok s
            else
              let? ch := unwrap (first_char s) in
              if is_whitespace ch then
                let? s' := advance s (len_utf8 ch) in skip_whitespace_loop fuel s'
              else Ok s in
          if (b =? "/"%ch)%N then
            if cstarts s (tag "//")
               && (negb (cstarts s (tag "///")) || cstarts s (tag "////"))
               && negb (cstarts s (tag "//!")) then
              let? (c, _) := take_until_newline_or_eof s in skip_whitespace_loop fuel c
            else if cstarts s (tag "/**/") then
              let? s' := advance s 4 in skip_whitespace_loop fuel s'
            else if cstarts s (tag "/*")
               && (negb (cstarts s (tag "/**")) || cstarts s (tag "/***"))
               && negb (cstarts s (tag "/*!")) then
              if_ok (block_comment s)
                (fun '(r, _) => skip_whitespace_loop fuel r)
                (Ok s)
            else ws
          else ws
      end
  end.
Definition skip_whitespace (s : cursor) : res cursor :=
  skip_whitespace_loop (S (str_len (rest s))) s.

Section WithUnicode.
Context {U : unicode}.

(** parse.rs 160-165. *)
Definition word_break (input : cursor) : res cursor :=
  match first_char input with
  | Some ch => if is_ident_continue ch then Reject else Ok input
  | None => Ok input
  end.
Definition ident_not_raw (input : cursor) : res (cursor * str) :=
  match ci_next (char_indices (rest input)) with
  | Some ((_, ch), (i, t)) =>
      if is_ident_start ch then
        let e := ident_end (str_len (rest input)) i t in
        let? c := advance input e in
        let? s := slice_to (rest input) e in Ok (c, s)
      else Reject
  | None => Reject
  end.

(** parse.rs 295-315; the result is (sym, raw). *)
Definition ident_any (input : cursor) : res (cursor * (str * bool)) :=
  let raw := cstarts input (tag "r#") in
  let? r := advance input (if raw then 2 else 0) in
  let? (r, sym) := ident_not_raw r in
  if negb raw then Ok (r, (sym, false))
  else if cannot_be_raw sym then Reject
  else Ok (r, (sym, true)).
Definition ident (input : cursor) : res (cursor * (str * bool)) :=
  if existsb (cstarts input) ident_reject_prefixes then Reject else ident_any input.

(** parse.rs 362-367. *)
Definition literal_suffix (input : cursor) : res cursor :=
  if_ok (ident_not_raw input) (fun '(c, _) => Ok c) (Ok input).

(** parse.rs 691-708. *)
Fixpoint trailing_backslash_loop (input : cursor) (fuel : nat) (last : byte) (ws : bytes_it)
  : res cursor :=
  match fuel with
  | O => Fuel
  | S fuel =>
      let step (ws : bytes_it) :=
        match be_next ws with
        | Some ((offset, b), ws) =>
            if (b =? SPACE)%N || (b =? TAB)%N || (b =? LF)%N || (b =? CR)%N then
              trailing_backslash_loop input fuel b ws
            else advance input offset
        | None => Reject
        end in
      if (last =? CR)%N then
        match be_next ws with
        | None => Reject
        | Some ((_, b), ws) => if negb (b =? LF)%N then Reject else step ws
        end
      else step ws
  end.
Definition trailing_backslash (input : cursor) (last : byte) : res cursor :=
  trailing_backslash_loop input (S (str_len (rest input))) last (bytes_enum (rest input)).

(** parse.rs 379-411. *)
Fixpoint cooked_string_loop (fuel : nat) (input : cursor) (chars : chars_it) : res cursor :=
  match fuel with
  | O => Fuel
  | S fuel =>
      match ci_next chars with
      | None => Reject
      | Some ((i, ch), chars) =>
          if (ch =? DQUOTE)%N then
            let? input := advance input (i + 1) in literal_suffix input
          else if (ch =? CR)%N then
            match ci_next chars with
            | Some ((_, c2), chars) =>
                if (c2 =? LF)%N then cooked_string_loop fuel input chars else Reject
            | None => Reject
            end
          else if (ch =? BACKSLASH)%N then
            match ci_next chars with
            | Some ((newline, ch), chars) =>
                if (ch =? "x"%ch)%N then
                  let? chars := backslash_x_char chars in cooked_string_loop fuel input chars
                else if simple_escape0 ch then cooked_string_loop fuel input chars
                else if (ch =? "u"%ch)%N then
                  let? (chars, _) := backslash_u chars in cooked_string_loop fuel input chars
                else if (ch =? LF)%N || (ch =? CR)%N then
                  let? input := advance input (newline + 1) in
                  let? input := trailing_backslash input ch in
                  cooked_string_loop fuel input (char_indices (rest input))
                else Reject
            | None => Reject
            end
          else cooked_string_loop fuel input chars
      end
  end.
Definition cooked_string (input : cursor) : res cursor :=
  cooked_string_loop (S (str_len (rest input))) input (char_indices (rest input)).

(** parse.rs 473-488. *)
Fixpoint delimiter_loop (input : cursor) (i : nat) (bs : list byte) : res (cursor * str) :=
  match bs with
  | [] => Reject
  | b :: t =>
      if (b =? DQUOTE)%N then
        if (255 <? N.of_nat i)%N then Reject
        else
          let? c := advance input (i + 1) in
          let? d := slice_to (rest input) i in Ok (c, d)
      else if (b =? "#"%ch)%N then delimiter_loop input (S i) t
      else Reject
  end.
Definition delimiter_of_raw_string (input : cursor) : res (cursor * str) :=
  delimiter_loop input 0 (str_bytes (rest input)).

(** parse.rs 413-430 ([ok _ = true]), 490-511 ([ok] = is_ascii), 523-541 ([ok b] = b
    is not NUL): the three raw string loops differ only in which other bytes are
    accepted. *)
Fixpoint raw_string_loop (ok : byte -> bool) (input : cursor) (delim : str)
  (fuel : nat) (bytes : bytes_it) : res cursor :=
  match fuel with
  | O => Fuel
  | S fuel =>
      match be_next bytes with
      | None => Reject
      | Some ((i, b), bytes) =>
          let other :=
            if (b =? CR)%N then
              match be_next bytes with
              | Some ((_, b2), bytes) =>
                  if (b2 =? LF)%N then raw_string_loop ok input delim fuel bytes else Reject
              | None => Reject
              end
            else if ok b then raw_string_loop ok input delim fuel bytes
            else Reject in
          if (b =? DQUOTE)%N then
            let? after := slice_from (rest input) (i + 1) in
            if starts_with after delim then
              let? r := advance input (i + 1 + str_len delim) in literal_suffix r
            else other
          else other
      end
  end.
Definition raw_string_with (ok : byte -> bool) (input : cursor) : res cursor :=
  let? (input, delim) := delimiter_of_raw_string input in
  raw_string_loop ok input delim (S (str_len (rest input))) (bytes_enum (rest input)).
Definition raw_string := raw_string_with (fun _ => true).
Definition raw_byte_string := raw_string_with is_ascii.
Definition raw_c_string := raw_string_with (fun b => negb (b =? NUL)%N).

(** parse.rs 369-377. *)
Definition string_lit (input : cursor) : res cursor :=
  if_ok (parse_tag input (tag """")) cooked_string
    (if_ok (parse_tag input (tag "r")) raw_string Reject).

(** parse.rs 442-471. *)
Fixpoint cooked_byte_string_loop (fuel : nat) (input : cursor) (bytes : bytes_it) : res cursor :=
  match fuel with
  | O => Fuel
  | S fuel =>
      match be_next bytes with
      | None => Reject
      | Some ((offset, b), bytes) =>
          if (b =? DQUOTE)%N then
            let? input := advance input (offset + 1) in literal_suffix input
          else if (b =? CR)%N then
            match be_next bytes with
            | Some ((_, b2), bytes) =>
                if (b2 =? LF)%N then cooked_byte_string_loop fuel input bytes else Reject
            | None => Reject
            end
          else if (b =? BACKSLASH)%N then
            match be_next bytes with
            | Some ((newline, b), bytes) =>
                if (b =? "x"%ch)%N then
                  let? bytes := backslash_x_byte bytes in
                  cooked_byte_string_loop fuel input bytes
                else if simple_escape0 b then cooked_byte_string_loop fuel input bytes
                else if (b =? LF)%N || (b =? CR)%N then
                  let? input := advance input (newline + 1) in
                  let? input := trailing_backslash input b in
                  cooked_byte_string_loop fuel input (bytes_enum (rest input))
                else Reject
            | None => Reject
            end
          else if is_ascii b then cooked_byte_string_loop fuel input bytes
          else Reject
      end
  end.
Definition cooked_byte_string (input : cursor) : res cursor :=
  cooked_byte_string_loop (S (str_len (rest input))) input (bytes_enum (rest input)).

(** parse.rs 432-440. *)
Definition byte_string (input : cursor) : res cursor :=
  if_ok (parse_tag input (tag "b""")) cooked_byte_string
    (if_ok (parse_tag input (tag "br")) raw_byte_string Reject).

(** parse.rs 543-578. *)
Fixpoint cooked_c_string_loop (fuel : nat) (input : cursor) (chars : chars_it) : res cursor :=
  match fuel with
  | O => Fuel
  | S fuel =>
      match ci_next chars with
      | None => Reject
      | Some ((i, ch), chars) =>
          if (ch =? DQUOTE)%N then
            let? input := advance input (i + 1) in literal_suffix input
          else if (ch =? CR)%N then
            match ci_next chars with
            | Some ((_, c2), chars) =>
                if (c2 =? LF)%N then cooked_c_string_loop fuel input chars else Reject
            | None => Reject
            end
          else if (ch =? BACKSLASH)%N then
            match ci_next chars with
            | Some ((newline, ch), chars) =>
                if (ch =? "x"%ch)%N then
                  let? chars := backslash_x_nonzero chars in
                  cooked_c_string_loop fuel input chars
                else if simple_escape_c ch then cooked_c_string_loop fuel input chars
                else if (ch =? "u"%ch)%N then
                  let? (chars, c) := backslash_u chars in
                  if (c =? NUL)%N then Reject else cooked_c_string_loop fuel input chars
                else if (ch =? LF)%N || (ch =? CR)%N then
                  let? input := advance input (newline + 1) in
                  let? input := trailing_backslash input ch in
                  cooked_c_string_loop fuel input (char_indices (rest input))
                else Reject
            | None => Reject
            end
          else if (ch =? NUL)%N then Reject
          else cooked_c_string_loop fuel input chars
      end
  end.
Definition cooked_c_string (input : cursor) : res cursor :=
  cooked_c_string_loop (S (str_len (rest input))) input (char_indices (rest input)).

(** parse.rs 513-521. *)
Definition c_string (input : cursor) : res cursor :=
  if_ok (parse_tag input (tag "c""")) cooked_c_string
    (if_ok (parse_tag input (tag "cr")) raw_c_string Reject).

(** parse.rs 580-600.  [ok] is computed first; the iterator state after it is
    threaded through ([None] stands for [ok = false]). *)
Definition byte_lit (input : cursor) : res cursor :=
  let? input := parse_tag input (tag "b'") in
  let? bytes :=
    match be_next (bytes_enum (rest input)) with
    | Some ((_, b), bytes) =>
        if (b =? BACKSLASH)%N then
          match be_next bytes with
          | Some ((_, b), bytes) =>
              if (b =? "x"%ch)%N then backslash_x_byte bytes
              else if simple_escape0 b then Ok bytes
              else Reject
          | None => Reject
          end
        else Ok bytes
    | None => Reject
    end in
  match be_next bytes with
  | None => Reject
  | Some ((offset, _), _) =>
      if negb (is_char_boundary (rest input) offset) then Reject
      else
        let? c := advance input offset in
        let? c := parse_tag c (tag "'") in
        literal_suffix c
  end.

(** parse.rs 602-620. *)
Definition character (input : cursor) : res cursor :=
  let? input := parse_tag input (tag "'") in
  let? chars :=
    match ci_next (char_indices (rest input)) with
    | Some ((_, ch), chars) =>
        if (ch =? BACKSLASH)%N then
          match ci_next chars with
          | Some ((_, ch), chars) =>
              if (ch =? "x"%ch)%N then backslash_x_char chars
              else if (ch =? "u"%ch)%N then let? (chars, _) := backslash_u chars in Ok chars
              else if simple_escape0 ch then Ok chars
              else Reject
          | None => Reject
          end
        else Ok chars
    | None => Reject
    end in
  match ci_next chars with
  | None => Reject
  | Some ((idx, _), _) =>
      let? c := advance input idx in
      let? c := parse_tag c (tag "'") in
      literal_suffix c
  end.

(** parse.rs 720-803. *)
Definition float_digits (input : cursor) : res cursor :=
  match rest input with
  | [] => Reject
  | ch :: t =>
      if is_dec_digit ch then
        let? (len, has_dot, has_exp, chars) := float_mantissa t 1 false in
        if negb (has_dot || has_exp) then Reject
        else if has_exp then
          (* 765-769: computed eagerly in the source *)
          let? before :=
            (if has_dot then let? c := advance input (len - 1) in Ok (Some c) else Ok None) in
          match float_exponent chars len false false with
          | None => match before with Some c => Ok c | None => Reject end
          | Some len => advance input len
          end
        else advance input len
      else Reject
  end.

(** parse.rs 710-718 and 805-813 share their tail. *)
Definition number_tail (r : cursor) : res cursor :=
  let? r :=
    match first_char r with
    | Some ch => if is_ident_start ch then let? (c, _) := ident_not_raw r in Ok c else Ok r
    | None => Ok r
    end in
  word_break r.
Definition float_lit (input : cursor) : res cursor :=
  let? r := float_digits input in number_tail r.

(** parse.rs 815-868. *)
Definition digits (input : cursor) : res cursor :=
  let? (input, base) :=
    (if cstarts input (tag "0x") then let? c := advance input 2 in Ok (c, 16%N)
     else if cstarts input (tag "0o") then let? c := advance input 2 in Ok (c, 8%N)
     else if cstarts input (tag "0b") then let? c := advance input 2 in Ok (c, 2%N)
     else Ok (input, 10%N)) in
  let? (len, empty) := digits_loop base (str_bytes (rest input)) 0 true in
  if empty : bool then Reject else advance input len.

(** parse.rs 805-813. *)
Definition int_lit (input : cursor) : res cursor :=
  let? r := digits input in number_tail r.

(** parse.rs 342-360. *)
Definition literal_nocapture (input : cursor) : res cursor :=
  if_ok (string_lit input) Ok
  (if_ok (byte_string input) Ok
  (if_ok (c_string input) Ok
  (if_ok (byte_lit input) Ok
  (if_ok (character input) Ok
  (if_ok (float_lit input) Ok
  (if_ok (int_lit input) Ok Reject)))))).

(** parse.rs 336-340; the result is the literal's text. *)
Definition literal (input : cursor) : res (cursor * str) :=
  let? r := literal_nocapture input in
  let? s := slice_to (rest input) (str_len (rest input) - str_len (rest r)) in
  Ok (r, s).

(** parse.rs 890-906. *)
Definition punct_char (input : cursor) : res (cursor * char) :=
  if cstarts input (tag "//") || cstarts input (tag "/*") then Reject
  else
    match first_char input with
    | None => Reject
    | Some first =>
        if contains punct_recognized first then
          let? c := advance input (len_utf8 first) in Ok (c, first)
        else Reject
    end.

(** parse.rs 870-888. *)
Definition punct (input : cursor) : res (cursor * token) :=
  let? (r, ch) := punct_char input in
  if (ch =? SQUOTE)%N then
    let? (after, _) := ident_any r in
    if cstarts_char after SQUOTE || (cstarts_char after "#"%ch && negb (cstarts r (tag "r#")))
    then Reject
    else let? p := punct_new SQUOTE Joint in Ok (r, p)
  else
    let? kind := if_ok (punct_char r) (fun _ => Ok Joint) (Ok Alone) in
    let? p := punct_new ch kind in Ok (r, p).

(** parse.rs 265-280. *)
Definition leaf_token (input : cursor) : res (cursor * token) :=
  if_ok (literal input) (fun '(r, l) => Ok (r, TLiteral l no_span))
  (if_ok (punct input) (fun '(r, p) => Ok (r, p))
  (if_ok (ident input) (fun '(r, (sym, raw)) => Ok (r, TIdent sym raw no_span))
  (if cstarts input ERROR then
     let? r := advance input (str_len ERROR) in Ok (r, TLiteral ERROR no_span)
   else Reject))).

(** parse.rs 956-977; result (comment text, inner). *)
Definition doc_comment_contents (input : cursor) : res (cursor * (str * bool)) :=
  if cstarts input (tag "//!") then
    let? c := advance input 3 in
    let? (c, s) := take_until_newline_or_eof c in Ok (c, (s, true))
  else if cstarts input (tag "/*!") then
    let? (c, s) := block_comment input in
    let? s := slice s 3 (str_len s - 2) in Ok (c, (s, true))
  else if cstarts input (tag "///") then
    let? c := advance input 3 in
    if cstarts_char c "/"%ch then Reject
    else let? (c, s) := take_until_newline_or_eof c in Ok (c, (s, false))
  else if cstarts input (tag "/**") then
    let? r3 := slice_from (rest input) 3 in
    if negb (starts_with r3 (tag "*")) then
      let? (c, s) := block_comment input in
      let? s := slice s 3 (str_len s - 2) in Ok (c, (s, false))
    else Reject
  else Reject.

(** parse.rs 908-954: returns the remaining input and the tokens pushed. *)
Definition doc_comment (input : cursor) : res (cursor * list token) :=
  let? (r, (comment, inner)) := doc_comment_contents input in
  let sp := no_span in
  if bare_cr comment then Reject
  else
    let? pound := punct_new "#"%ch Alone in
    let? bang := (if inner : bool then let? b := punct_new "!"%ch Alone in Ok [set_span b sp] else Ok []) in
    let? equal := punct_new "="%ch Alone in
    let bracketed :=
      [TIdent (tag "doc") false sp; set_span equal sp; TLiteral (literal_string comment) sp] in
    Ok (r, [set_span pound sp] ++ bang ++ [TGroup Bracket bracketed sp]).

(** parse.rs 252-263. *)
Definition lex_error (c : cursor) : lexed := LexError no_span.

(** parse.rs 198-203 and 210-215, on the first byte. *)
Definition open_delimiter (input : cursor) (first : byte) : option delimiter :=
  if (first =? "("%ch)%N && negb (cstarts input ERROR) then Some Parenthesis
  else if (first =? "["%ch)%N then Some Bracket
  else if (first =? "{"%ch)%N then Some Brace
  else None.

(** The explicit stack of parse.rs 173: (open delimiter, outer tokens). *)
Definition frame := (delimiter * list token)%type.

(** parse.rs 171-250. *)
Fixpoint token_stream_loop (fuel : nat) (input : cursor) (tokens : list token)
  (stack : list frame) : res lexed :=
  match fuel with
  | O => Fuel
  | S fuel =>
      let? input := skip_whitespace input in
      if_ok (doc_comment input)
        (fun '(r, doc) => token_stream_loop fuel r (tokens ++ doc) stack)
        (match first_byte input with
         | None =>
             match stack with
             | [] => Ok (Lexed tokens)
             | _ :: _ => Ok (LexError no_span)
             end
         | Some first =>
             match open_delimiter input first with
             | Some d =>
                 let? input := advance input 1 in
                 token_stream_loop fuel input [] ((d, tokens) :: stack)
             | None =>
                 match close_delimiter first with
                 | Some d =>
                     match stack with
                     | [] => Ok (lex_error input)
                     | (od, outer) :: stack =>
                         if negb (delim_eqb od d) then Ok (lex_error input)
                         else
                           let? input := advance input 1 in
                           let g := TGroup od tokens no_span in
                           token_stream_loop fuel input (outer ++ [g]) stack
                     end
                 | None =>
                     if_ok (leaf_token input)
                       (fun '(r, tok) =>
                          let tok := set_span tok no_span in
                          token_stream_loop fuel r (tokens ++ [tok]) stack)
                       (Ok (lex_error input))
                 end
             end
         end)
  end.
Definition token_stream (input : cursor) : res lexed :=
  token_stream_loop (S (S (str_len (rest input)))) input [] [].

(** fallback.rs 83-94, 214-217. *)
Definition token_stream_from_str (src : str) : res lexed :=
  let c := mkcur src in
  let? c := (if cstarts c BYTE_ORDER_MARK then advance c (str_len BYTE_ORDER_MARK) else Ok c) in
  token_stream c.

(** fallback.rs 972-1000. *)
Definition literal_from_str (src : str) : res lit_result :=
  let c := mkcur src in
  let negative := cstarts_char c "-"%ch in
  let after_sign :=
    (if negative then
       let? c := advance c 1 in
       match first_char c with
       | Some ch => if is_dec_digit ch then Ok c else Reject
       | None => Reject
       end
     else Ok c) in
  if_ok after_sign
    (fun c =>
       if_ok (literal c)
         (fun '(r, repr) =>
            match rest r with
            | [] =>
                let repr := if negative then "-"%ch :: repr else repr in
                Ok (LitOk repr no_span)
            | _ => Ok (LitErr no_span)
            end)
         (Ok (LitErr no_span)))
    (Ok (LitErr no_span)).
End WithUnicode.

(** fallback.rs 616-619, 643-646, 663-666, 676-679, 1157-1162, 694-702. *)
Definition span_join (a b : span) : option span := Some no_span.
Definition span_source_text (sp : span) : option str := None.
Definition sp_first_byte (sp : span) : span := sp.
Definition sp_last_byte (sp : span) : span := sp.
Definition literal_subspan (l : token) (a b : Fallback.bound) : option span := None.
