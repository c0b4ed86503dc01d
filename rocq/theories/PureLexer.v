(** * A char-list reading of the lexer.

    Not a model of code: these functions restate what the cursor functions of
    Lexer.v compute, without byte indices, offsets or panics.  LexerEquiv.v proves
    the equality for every input; all later proofs use this form. *)
From Verif Require Import Base Unicode Tokens Lexer.

(** Line comments: rest after the line (CR of CRLF consumed, LF not) and text. *)
Fixpoint p_line (s : str) : str * str :=
  match s with
  | [] => ([], [])
  | c :: t =>
      if (c =? LF)%N then (s, [])
      else if (c =? CR)%N && starts_with t [LF] then (t, [])
      else let (r, x) := p_line t in (r, c :: x)
  end.

(** Block comments: rest after the closing [*/]. *)
Fixpoint p_block (depth : nat) (s : str) : option str :=
  match s with
  | a :: ((b :: t) as t1) =>
      if (a =? "/"%ch)%N && (b =? "*"%ch)%N then p_block (S depth) t
      else if (a =? "*"%ch)%N && (b =? "/"%ch)%N then
        match depth with
        | O => None
        | S O => Some t
        | S d => p_block d t
        end
      else p_block depth t1
  | _ => None
  end.

Definition line_comment_start (s : str) : bool :=
  starts_with s (tag "//")
  && (negb (starts_with s (tag "///")) || starts_with s (tag "////"))
  && negb (starts_with s (tag "//!")).
Definition block_comment_start (s : str) : bool :=
  starts_with s (tag "/*")
  && (negb (starts_with s (tag "/**")) || starts_with s (tag "/***"))
  && negb (starts_with s (tag "/*!")).

(** One step of whitespace skipping; [None] when nothing can be skipped. *)
Definition p_skip1 (s : str) : option str :=
  match s with
  | [] => None
  | c :: t =>
      if line_comment_start s then Some (fst (p_line s))
      else if starts_with s (tag "/**/") then Some (skipn 4 s)
      else if block_comment_start s then p_block 0 s
      else if is_whitespace c then Some t
      else None
  end.
Fixpoint p_skip_fuel (fuel : nat) (s : str) : str :=
  match fuel with
  | O => s
  | S fuel => match p_skip1 s with Some r => p_skip_fuel fuel r | None => s end
  end.
Definition p_skip (s : str) : str := p_skip_fuel (length s) s.

Section WithUnicode.
Context {U : unicode}.

(** Identifier characters: rest and text. *)
Fixpoint p_continue (s : str) : str * str :=
  match s with
  | [] => ([], [])
  | c :: t => if is_ident_continue c then let (r, x) := p_continue t in (r, c :: x) else (s, [])
  end.
Definition p_ident_not_raw (s : str) : option (str * str) :=
  match s with
  | [] => None
  | c :: t => if is_ident_start c then let (r, x) := p_continue t in Some (r, c :: x) else None
  end.
Definition p_ident_any (s : str) : option (str * (str * bool)) :=
  if starts_with s (tag "r#") then
    match p_ident_not_raw (skipn 2 s) with
    | Some (r, sym) => if cannot_be_raw sym then None else Some (r, (sym, true))
    | None => None
    end
  else
    match p_ident_not_raw s with
    | Some (r, sym) => Some (r, (sym, false))
    | None => None
    end.
Definition p_ident (s : str) : option (str * (str * bool)) :=
  if existsb (starts_with s) ident_reject_prefixes then None else p_ident_any s.

Definition p_suffix (s : str) : str :=
  match p_ident_not_raw s with Some (r, _) => r | None => s end.

(** Escapes, on the text after the backslash and its letter. *)
Definition p_x_char (s : str) : option str :=
  match s with
  | a :: b :: t => if between "0"%ch a "7"%ch && is_hex_digit b then Some t else None
  | _ => None
  end.
Definition p_x_byte (s : str) : option str :=
  match s with
  | a :: b :: t => if is_hex_digit a && is_hex_digit b then Some t else None
  | _ => None
  end.
Definition p_x_nonzero (s : str) : option str :=
  match s with
  | a :: b :: t =>
      if is_hex_digit a && is_hex_digit b && negb ((a =? "0"%ch)%N && (b =? "0"%ch)%N)
      then Some t else None
  | _ => None
  end.
Fixpoint p_u_loop (s : str) (value : N) (len : nat) : option (str * char) :=
  match s with
  | [] => None
  | ch :: t =>
      if is_hex_digit ch then
        if len =? 6 then None else p_u_loop t (value * 0x10 + hex_value ch)%N (S len)
      else if (ch =? "_"%ch)%N && (0 <? len) then p_u_loop t value len
      else if (ch =? "}"%ch)%N && (0 <? len) then
        match char_from_u32 value with Some c => Some (t, c) | None => None end
      else None
  end.
Definition p_u (s : str) : option (str * char) :=
  match s with
  | c :: t => if (c =? "{"%ch)%N then p_u_loop t 0 0 else None
  | [] => None
  end.

Definition is_trail_ws (b : N) : bool :=
  (b =? SPACE)%N || (b =? TAB)%N || (b =? LF)%N || (b =? CR)%N.
Fixpoint p_trail (last : N) (s : str) : option str :=
  match s with
  | [] => None
  | c :: t =>
      if (last =? CR)%N then
        if (c =? LF)%N then
          match t with
          | [] => None
          | b :: t' => if is_trail_ws b then p_trail b t' else Some t
          end
        else None
      else if is_trail_ws c then p_trail c t
      else Some s
  end.

(** What may follow a backslash (other than a newline), per string kind. *)
Definition esc_str (s : str) : option str :=
  match s with
  | [] => None
  | c :: t =>
      if (c =? "x"%ch)%N then p_x_char t
      else if simple_escape0 c then Some t
      else if (c =? "u"%ch)%N then match p_u t with Some (r, _) => Some r | None => None end
      else None
  end.
Definition esc_byte (s : str) : option str :=
  match s with
  | [] => None
  | c :: t =>
      if (c =? "x"%ch)%N then p_x_byte t
      else if simple_escape0 c then Some t
      else None
  end.
Definition esc_c (s : str) : option str :=
  match s with
  | [] => None
  | c :: t =>
      if (c =? "x"%ch)%N then p_x_nonzero t
      else if simple_escape_c c then Some t
      else if (c =? "u"%ch)%N then
        match p_u t with
        | Some (r, v) => if (v =? NUL)%N then None else Some r
        | None => None
        end
      else None
  end.

(** Cooked string body, from after the opening quote to after the closing one. *)
Fixpoint p_cooked_fuel (esc : str -> option str) (ok : char -> bool) (fuel : nat) (s : str)
  : option str :=
  match fuel with
  | O => None
  | S fuel =>
      match s with
      | [] => None
      | c :: t =>
          if (c =? DQUOTE)%N then Some t
          else if (c =? CR)%N then
            match t with
            | c2 :: t' => if (c2 =? LF)%N then p_cooked_fuel esc ok fuel t' else None
            | [] => None
            end
          else if (c =? BACKSLASH)%N then
            match t with
            | [] => None
            | c2 :: t2 =>
                if (c2 =? LF)%N || (c2 =? CR)%N then
                  match p_trail c2 t2 with
                  | Some r => p_cooked_fuel esc ok fuel r
                  | None => None
                  end
                else
                  match esc t with
                  | Some r => p_cooked_fuel esc ok fuel r
                  | None => None
                  end
            end
          else if ok c then p_cooked_fuel esc ok fuel t
          else None
      end
  end.
Definition p_cooked esc ok (s : str) : option str := p_cooked_fuel esc ok (S (length s)) s.

Definition ok_any (c : char) : bool := true.
Definition ok_nonnul (c : char) : bool := negb (c =? NUL)%N.

(** Raw strings. *)
Fixpoint p_delim (n : nat) (s : str) : option (nat * str) :=
  match s with
  | [] => None
  | c :: t =>
      if (c =? DQUOTE)%N then if (255 <? N.of_nat n)%N then None else Some (n, t)
      else if (c =? "#"%ch)%N then p_delim (S n) t
      else None
  end.
Fixpoint p_raw (ok : char -> bool) (delim : str) (s : str) : option str :=
  match s with
  | [] => None
  | c :: t =>
      if (c =? DQUOTE)%N && starts_with t delim then Some (skipn (length delim) t)
      else if (c =? CR)%N then
        match t with
        | c2 :: t' => if (c2 =? LF)%N then p_raw ok delim t' else None
        | [] => None
        end
      else if ok c then p_raw ok delim t
      else None
  end.
Definition p_raw_with (ok : char -> bool) (s : str) : option str :=
  match p_delim 0 s with
  | Some (n, t) => p_raw ok (repeat "#"%ch n) t
  | None => None
  end.

Definition omap {A B} (f : A -> B) (o : option A) : option B :=
  match o with Some a => Some (f a) | None => None end.

(** The two forms of each quoted kind, up to but excluding the suffix. *)
Definition q_string (s : str) : option str :=
  if starts_with s (tag """") then p_cooked esc_str ok_any (skipn 1 s)
  else if starts_with s (tag "r") then p_raw_with ok_any (skipn 1 s)
  else None.
Definition q_byte_string (s : str) : option str :=
  if starts_with s (tag "b""") then p_cooked esc_byte is_ascii (skipn 2 s)
  else if starts_with s (tag "br") then p_raw_with is_ascii (skipn 2 s)
  else None.
Definition q_c_string (s : str) : option str :=
  if starts_with s (tag "c""") then p_cooked esc_c ok_nonnul (skipn 2 s)
  else if starts_with s (tag "cr") then p_raw_with ok_nonnul (skipn 2 s)
  else None.

(** The unit between the quotes of a char / byte literal. *)
Definition u_byte (s : str) : option str :=
  match s with
  | [] => None
  | c :: t => if (c =? BACKSLASH)%N then esc_byte t
              else if is_ascii c then Some t else None
  end.
Definition u_char (s : str) : option str :=
  match s with
  | [] => None
  | c :: t => if (c =? BACKSLASH)%N then esc_str t else Some t
  end.
Definition closing_quote (s : str) : option str :=
  match s with c :: t => if (c =? SQUOTE)%N then Some t else None | [] => None end.
Definition obind {A B} (o : option A) (f : A -> option B) : option B :=
  match o with Some a => f a | None => None end.
Definition q_byte (s : str) : option str :=
  if starts_with s (tag "b'") then obind (u_byte (skipn 2 s)) closing_quote else None.
Definition q_char (s : str) : option str :=
  if starts_with s (tag "'") then obind (u_char (skipn 1 s)) closing_quote else None.

Definition orelse {A} (a b : option A) : option A := match a with Some _ => a | None => b end.

(** Numbers. *)
Fixpoint p_mantissa (s : str) (has_dot : bool) : option (bool * bool * str) :=
  match s with
  | [] => Some (has_dot, false, [])
  | c :: t =>
      if is_dec_digit c || (c =? "_"%ch)%N then p_mantissa t has_dot
      else if (c =? "."%ch)%N then
        if has_dot then Some (has_dot, false, s)
        else
          match t with
          | c2 :: _ =>
              if (c2 =? "."%ch)%N || is_ident_start c2 then None else p_mantissa t true
          | [] => p_mantissa t true
          end
      else if (c =? "e"%ch)%N || (c =? "E"%ch)%N then Some (has_dot, true, t)
      else Some (has_dot, false, s)
  end.
(** The mantissa loop stops in front of the [e]; [before] is where a float
    without its exponent would end. *)
Fixpoint p_exponent (s : str) (has_sign has_exp_value : bool) : option str :=
  let finish := if has_exp_value then Some s else None in
  match s with
  | [] => finish
  | c :: t =>
      if (c =? "+"%ch)%N || (c =? "-"%ch)%N then
        if has_exp_value then finish
        else if has_sign then None
        else p_exponent t true has_exp_value
      else if is_dec_digit c then p_exponent t has_sign true
      else if (c =? "_"%ch)%N then p_exponent t has_sign has_exp_value
      else finish
  end.
(** [p_exp_mark s] is the text starting at the [e] for which the mantissa loop stopped. *)
Fixpoint p_mantissa_end (s : str) (has_dot : bool) : str :=
  match s with
  | [] => []
  | c :: t =>
      if is_dec_digit c || (c =? "_"%ch)%N then p_mantissa_end t has_dot
      else if (c =? "."%ch)%N then if has_dot then s else p_mantissa_end t true
      else s
  end.
Definition p_float_digits (s : str) : option str :=
  match s with
  | [] => None
  | c :: t =>
      if is_dec_digit c then
        match p_mantissa t false with
        | None => None
        | Some (has_dot, has_exp, r) =>
            if negb (has_dot || has_exp) then None
            else if has_exp then
              match p_exponent r false false with
              | None => if has_dot then Some (p_mantissa_end t false) else None
              | Some r => Some r
              end
            else Some r
        end
      else None
  end.
Definition p_word_break (s : str) : option str :=
  match s with
  | c :: _ => if is_ident_continue c then None else Some s
  | [] => Some s
  end.
Definition p_number_tail (s : str) : option str :=
  match s with
  | [] => Some s
  | c :: _ => if is_ident_start c then p_word_break (p_suffix s) else p_word_break s
  end.
Fixpoint p_digits_loop (base : N) (s : str) (empty : bool) : option (str * bool) :=
  match s with
  | [] => Some ([], empty)
  | b :: t =>
      if between "0"%ch b "9"%ch then
        if (base <=? b - "0"%ch)%N then None else p_digits_loop base t false
      else if between "a"%ch b "f"%ch then
        if (base <=? 10 + (b - "a"%ch))%N then Some (s, empty) else p_digits_loop base t false
      else if between "A"%ch b "F"%ch then
        if (base <=? 10 + (b - "A"%ch))%N then Some (s, empty) else p_digits_loop base t false
      else if (b =? "_"%ch)%N then
        if empty && (base =? 10)%N then None else p_digits_loop base t empty
      else Some (s, empty)
  end.
Definition p_base (s : str) : str * N :=
  if starts_with s (tag "0x") then (skipn 2 s, 16%N)
  else if starts_with s (tag "0o") then (skipn 2 s, 8%N)
  else if starts_with s (tag "0b") then (skipn 2 s, 2%N)
  else (s, 10%N).
Definition p_digits (s : str) : option str :=
  let (s, base) := p_base s in
  match p_digits_loop base s true with
  | Some (r, false) => Some r
  | _ => None
  end.
Definition p_float (s : str) : option str := obind (p_float_digits s) p_number_tail.
Definition p_int (s : str) : option str := obind (p_digits s) p_number_tail.

Definition p_quoted (s : str) : option str :=
  orelse (q_string s) (orelse (q_byte_string s) (orelse (q_c_string s)
    (orelse (q_byte s) (q_char s)))).
Definition p_literal (s : str) : option str :=
  orelse (omap p_suffix (p_quoted s)) (orelse (p_float s) (p_int s)).

(** Puncts. *)
Definition p_punct_char (s : str) : option (str * char) :=
  if starts_with s (tag "//") || starts_with s (tag "/*") then None
  else match s with
       | c :: t => if contains punct_recognized c then Some (t, c) else None
       | [] => None
       end.
Definition head_is (c : char) (s : str) : bool :=
  match s with d :: _ => (c =? d)%N | [] => false end.
Definition p_punct (s : str) : option (str * (char * spacing)) :=
  match p_punct_char s with
  | None => None
  | Some (r, c) =>
      if (c =? SQUOTE)%N then
        match p_ident_any r with
        | None => None
        | Some (after, _) =>
            if head_is SQUOTE after || (head_is "#"%ch after && negb (starts_with r (tag "r#")))
            then None else Some (r, (SQUOTE, Joint))
        end
      else Some (r, (c, match p_punct_char r with Some _ => Joint | None => Alone end))
  end.

Definition prefix_of (s r : str) : str := firstn (length s - length r) s.

(** A leaf token with a span still to be filled in. *)
Definition p_leaf (s : str) : option (str * (span -> token)) :=
  match p_literal s with
  | Some r => Some (r, TLiteral (prefix_of s r))
  | None =>
      match p_punct s with
      | Some (r, (c, sp)) => Some (r, TPunct c sp)
      | None =>
          match p_ident s with
          | Some (r, (sym, raw)) => Some (r, TIdent sym raw)
          | None => if starts_with s ERROR then Some (skipn (length ERROR) s, TLiteral ERROR) else None
          end
      end
  end.

(** Doc comments: rest, text, inner. *)
Definition p_doc_contents (s : str) : option (str * (str * bool)) :=
  if starts_with s (tag "//!") then
    let (r, x) := p_line (skipn 3 s) in Some (r, (x, true))
  else if starts_with s (tag "/*!") then
    match p_block 0 s with
    | Some r => let p := prefix_of s r in Some (r, (firstn (length p - 5) (skipn 3 p), true))
    | None => None
    end
  else if starts_with s (tag "///") then
    if head_is "/"%ch (skipn 3 s) then None
    else let (r, x) := p_line (skipn 3 s) in Some (r, (x, false))
  else if starts_with s (tag "/**") && negb (head_is "*"%ch (skipn 3 s)) then
    match p_block 0 s with
    | Some r => let p := prefix_of s r in Some (r, (firstn (length p - 5) (skipn 3 p), false))
    | None => None
    end
  else None.
Definition p_doc (s : str) : option (str * (str * bool)) :=
  match p_doc_contents s with
  | Some (r, (x, inner)) => if bare_cr x then None else Some (r, (x, inner))
  | None => None
  end.
Definition doc_tokens (x : str) (inner : bool) (sp : span) : list token :=
  [TPunct "#"%ch Alone sp] ++ (if inner then [TPunct "!"%ch Alone sp] else [])
  ++ [TGroup Bracket
        [TIdent (tag "doc") false sp; TPunct "="%ch Alone sp; TLiteral (literal_string x) sp] sp].

(** ** The main loop *)

(** The cursor reached when [r] remains of [rest c]. *)
Definition cur_of (c : cursor) (r : str) : cursor :=
  mkcur r (wrap32 (off c + N.of_nat (length (rest c) - length r))).

Inductive outcome := Next (c : cursor) (tokens : list token) (stack : list frame) | Done (l : lexed).

Definition open_delim (s : str) : option (delimiter * str) :=
  match s with
  | [] => None
  | c :: t =>
      if (c =? "("%ch)%N && negb (starts_with s ERROR) then Some (Parenthesis, t)
      else if (c =? "["%ch)%N then Some (Bracket, t)
      else if (c =? "{"%ch)%N then Some (Brace, t)
      else None
  end.
Definition close_delim (s : str) : option (delimiter * str) :=
  match s with
  | [] => None
  | c :: t =>
      if (c =? ")"%ch)%N then Some (Parenthesis, t)
      else if (c =? "]"%ch)%N then Some (Bracket, t)
      else if (c =? "}"%ch)%N then Some (Brace, t)
      else None
  end.

(** One iteration after whitespace has been skipped. *)
Definition p_step (c : cursor) (tokens : list token) (stack : list frame) : outcome :=
  let s := rest c in
  match p_doc s with
  | Some (r, (x, inner)) =>
      let c' := cur_of c r in
      Next c' (tokens ++ doc_tokens x inner (mkspan (off c) (off c'))) stack
  | None =>
      match s with
      | [] =>
          match stack with
          | [] => Done (Lexed tokens)
          | (lo, _) :: _ => Done (LexError (mkspan lo lo))
          end
      | _ =>
          match open_delim s with
          | Some (d, r) => Next (cur_of c r) [] ((off c, (d, tokens)) :: stack)
          | None =>
              match close_delim s with
              | Some (d, r) =>
                  match stack with
                  | [] => Done (lex_error c)
                  | (lo, (od, outer)) :: stack =>
                      if negb (delim_eqb od d) then Done (lex_error c)
                      else
                        let c' := cur_of c r in
                        Next c' (outer ++ [TGroup od tokens (mkspan lo (off c'))]) stack
                  end
              | None =>
                  match p_leaf s with
                  | Some (r, k) =>
                      let c' := cur_of c r in
                      Next c' (tokens ++ [k (mkspan (off c) (off c'))]) stack
                  | None => Done (lex_error c)
                  end
              end
          end
      end
  end.

Fixpoint p_loop (fuel : nat) (c : cursor) (tokens : list token) (stack : list frame)
  : option lexed :=
  match fuel with
  | O => None
  | S fuel =>
      match p_step (cur_of c (p_skip (rest c))) tokens stack with
      | Next c tokens stack => p_loop fuel c tokens stack
      | Done l => Some l
      end
  end.

End WithUnicode.
