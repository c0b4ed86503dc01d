(** * Specification: whitespace, comments and doc comments as text.

    Independent of the lexer: grammars for what the Rust reference calls
    whitespace, non-doc comments and doc comments. *)
From Verif Require Import Base Unicode Tokens.

Definition begins (s p : str) : Prop := exists r, s = p ++ r.

(** From just after a comment opener to the end of its matching closer. *)
Inductive nested : str -> Prop :=
| nested_close : nested (tag "*/")
| nested_char c w : nested w -> ~ begins (c :: w) (tag "/*") -> ~ begins (c :: w) (tag "*/") ->
    nested (c :: w)
| nested_open w1 w2 : nested w1 -> nested w2 -> nested ((tag "/*") ++ w1 ++ w2).

(** The text of a line comment after [//] that does not make it a doc comment. *)
Definition plain_line (x : str) : Prop :=
  ~ In LF x /\ ~ begins x (tag "!") /\ (~ begins x (tag "/") \/ begins x (tag "//")).

(** A whole block comment that is not a doc comment. *)
Definition plain_block (b : str) : Prop :=
  (exists w, b = (tag "/*") ++ w /\ nested w) /\
  (b = tag "/**/" \/ ((~ begins b (tag "/**") \/ begins b (tag "/***")) /\ ~ begins b (tag "/*!"))).

(** White_Space characters and the two directional marks. *)
Definition blank (c : char) : Prop := is_white_space c = true \/ c = 0x200E%N \/ c = 0x200F%N.

Inductive trivia : str -> Prop :=
| trivia_nil : trivia []
| trivia_blank c w : blank c -> trivia w -> trivia (c :: w)
| trivia_line x w : plain_line x -> trivia w -> trivia ((tag "//") ++ x ++ LF :: w)
| trivia_block b w : plain_block b -> trivia w -> trivia (b ++ w).

(** A whole text without tokens: the last line comment may lack its newline. *)
Inductive blank_text : str -> Prop :=
| blank_trivia w : trivia w -> blank_text w
| blank_line w x : trivia w -> plain_line x -> blank_text (w ++ (tag "//") ++ x).

(** A carriage return that is not part of a CRLF. *)
Definition has_bare_cr (x : str) : Prop :=
  exists a b, x = a ++ CR :: b /\ ~ begins b [LF].

(** Doc comments: whole text, inner or outer, contents. *)
Inductive doc_line : str -> bool -> str -> Prop :=
| doc_line_outer x : ~ In LF x -> ~ begins x (tag "/") -> doc_line ((tag "///") ++ x) false x
| doc_line_inner x : ~ In LF x -> doc_line ((tag "//!") ++ x) true x.
Inductive doc_block : str -> bool -> str -> Prop :=
| doc_block_outer x : x <> [] -> ~ begins x (tag "*") -> nested ((tag "*") ++ x ++ (tag "*/")) ->
    doc_block ((tag "/**") ++ x ++ (tag "*/")) false x
| doc_block_inner x : nested ((tag "!") ++ x ++ (tag "*/")) ->
    doc_block ((tag "/*!") ++ x ++ (tag "*/")) true x.

(** What ends a line: end of input, LF or CRLF. *)
Definition line_end (s : str) : Prop := s = [] \/ begins s [LF] \/ begins s [CR; LF].

(** The attribute a doc comment stands for; [l] is the string literal's text. *)
Definition doc_attribute (inner : bool) (l : str) (sp : span) : list token :=
  [TPunct "#"%ch Alone sp] ++ (if inner then [TPunct "!"%ch Alone sp] else []) ++
  [TGroup Bracket [TIdent (tag "doc") false sp; TPunct "="%ch Alone sp; TLiteral l sp] sp].
