(** * Specification: where the characters of a parsed text went (C78, C16) *)
From Verif Require Import Base Unicode Tokens SpecText SpecTree.
Local Open Scope N_scope.

(** No token has any of the positions from [a] up to [b]; groups are not tokens here. *)
Definition apart (ts : list token) (a b : N) : Prop :=
  forall t, occurs t ts -> ~ is_group t -> hi (token_span t) <= a \/ b <= lo (token_span t).
Definition covers (t : token) (p : N) : Prop := lo (token_span t) <= p /\ p < hi (token_span t).

(** A plain comment [c] before the text [r]; a line comment takes its newline with it. *)
Definition plain_comment (c r : str) : Prop :=
  plain_block c \/ exists x, plain_line x /\ (c = tag "//" ++ x ++ [LF] \/ c = tag "//" ++ x /\ r = []).

(** Positions where one may stop reading: the beginning, after the leading byte order
    mark, after a token, after a delimiter. *)
Inductive boundary (start : N) (src : str) (ts : list token) (p : N) : Prop :=
| at_start : p = start -> boundary start src ts p
| after_bom : begins src [0xFEFF] -> p = start + 1 -> boundary start src ts p
| after_token t : occurs t ts -> ~ is_group t -> hi (token_span t) = p -> boundary start src ts p
| after_open d inner sp : occurs (TGroup d inner sp) ts -> lo sp + 1 = p -> boundary start src ts p
| after_close d inner sp : occurs (TGroup d inner sp) ts -> hi sp = p -> boundary start src ts p.

(** [mid], before [post], is preceded by nothing but blanks and plain comments [w] since
    the boundary after [pre], and no token lies there. *)
Definition between_tokens (start : N) (src : str) (ts : list token) (pre w mid post : str) : Prop :=
  src = pre ++ w ++ mid ++ post /\ boundary start src ts (start + strlen pre) /\ trivia w /\
  apart ts (start + strlen pre) (start + strlen pre + strlen w + strlen mid).
Inductive in_comment (start : N) (src : str) (ts : list token) (i : nat) : Prop :=
| comment_at pre w mid post :
    between_tokens start src ts pre w mid post -> plain_comment mid post ->
    (length pre + length w <= i < length pre + length w + length mid)%nat -> in_comment start src ts i.

(** The [i]-th character [c] of [src], at position [p = start + i]. *)
Inductive place (start : N) (src : str) (ts : list token) (i : nat) (c : char) : Prop :=
| in_token t : occurs t ts -> ~ is_group t -> covers t (start + N.of_nat i) -> place start src ts i c
| at_open d inner sp :
    occurs (TGroup d inner sp) ts -> lo sp = start + N.of_nat i -> [c] = open_char d -> place start src ts i c
| at_close d inner sp :
    occurs (TGroup d inner sp) ts -> hi sp = start + N.of_nat i + 1 -> [c] = close_char d -> place start src ts i c
| at_blank pre w post :
    between_tokens start src ts pre w [c] post -> blank c -> i = (length pre + length w)%nat -> place start src ts i c
| at_comment : in_comment start src ts i -> place start src ts i c
| at_bom : i = 0%nat -> c = 0xFEFF -> place start src ts i c.

(** A character that belongs to no identifier, punctuation, delimiter or blank. *)
Definition foreign {U : unicode} (c : char) : Prop :=
  ~ blank c /\ is_xid_continue c = false /\ ~ In c punct_chars /\
  forall d, [c] <> open_char d /\ [c] <> close_char d.
(** It is inside a comment, a literal or a doc comment. *)
Inductive enclosed (start : N) (src : str) (ts : list token) (i : nat) : Prop :=
| by_comment : in_comment start src ts i -> enclosed start src ts i
| by_literal s sp :
    occurs (TLiteral s sp) ts -> covers (TLiteral s sp) (start + N.of_nat i) -> enclosed start src ts i
| by_doc t :
    occurs t ts -> ~ is_group t -> covers t (start + N.of_nat i) -> doc_text (text_under src start (token_span t)) ->
    enclosed start src ts i.
