(** * Specification: positions of tokens in the source text. *)
From Verif Require Import Base Unicode Tokens SpecText.
Local Open Scope N_scope.

(** [t] is a tree of the stream, at any depth. *)
Inductive occurs (t : token) : list token -> Prop :=
| occurs_here ts : In t ts -> occurs t ts
| occurs_inside d inner sp ts : In (TGroup d inner sp) ts -> occurs t inner -> occurs t ts.

Definition is_group (t : token) : Prop := match t with TGroup _ _ _ => True | _ => False end.

(** The characters of [src] between two positions, [src] starting at [start]. *)
Definition text_under (src : str) (start : N) (sp : span) : str :=
  firstn (N.to_nat (hi sp - lo sp)) (skipn (N.to_nat (lo sp - start)) src).
(** The characters after a span. *)
Definition text_after (src : str) (start : N) (sp : span) : str :=
  skipn (N.to_nat (hi sp - start)) src.

Definition strlen (s : str) : N := N.of_nat (length s).

(** The text of some doc comment. *)
Definition doc_text (d : str) : Prop := exists inner x, doc_line d inner x \/ doc_block d inner x.

Definition open_char (d : delimiter) : str :=
  match d with Parenthesis => tag "(" | Brace => tag "{" | Bracket => tag "[" | DNone => [] end.
Definition close_char (d : delimiter) : str :=
  match d with Parenthesis => tag ")" | Brace => tag "}" | Bracket => tag "]" | DNone => [] end.

(** [ts] is one nesting level laid out between positions [a] and [b]: trees follow
    each other without overlap, a group's contents lie strictly between its two
    delimiters, and the trees of one doc comment share its span. *)
Inductive laid_out : N -> N -> list token -> Prop :=
| lay_nil a b : a <= b -> laid_out a b []
| lay_leaf a b t ts :
    ~ is_group t -> a <= lo (token_span t) -> lo (token_span t) < hi (token_span t) ->
    laid_out (hi (token_span t)) b ts -> laid_out a b (t :: ts)
| lay_group a b d inner sp ts :
    a <= lo sp -> lo sp + 1 <= hi sp - 1 -> laid_out (lo sp + 1) (hi sp - 1) inner ->
    laid_out (hi sp) b ts -> laid_out a b (TGroup d inner sp :: ts)
| lay_doc a b inner l sp ts :
    a <= lo sp -> lo sp < hi sp -> laid_out (hi sp) b ts ->
    laid_out a b (doc_attribute inner l sp ++ ts).

(** Moving all spans by [k]. *)
Definition shift_span (k : N) (sp : span) : span := mkspan (lo sp + k) (hi sp + k).
Fixpoint shift (k : N) (t : token) : token :=
  match t with
  | TGroup d ts sp => TGroup d (map (shift k) ts) (shift_span k sp)
  | TIdent s r sp => TIdent s r (shift_span k sp)
  | TPunct c s sp => TPunct c s (shift_span k sp)
  | TLiteral r sp => TLiteral r (shift_span k sp)
  end.

(** The 22 punctuation characters. *)
Definition punct_chars : list char := tag "!#$%&'*+,-./:;<=>?@^|~".
(** [s] starts with a punctuation character that does not begin a comment. *)
Definition starts_punct (s : str) : Prop :=
  exists c t, s = c :: t /\ In c punct_chars /\ ~ begins s (tag "//") /\ ~ begins s (tag "/*").

(** Identifier text: a start character followed by continue characters. *)
Definition start_char {U : unicode} (c : char) : Prop := c = "_"%ch \/ is_xid_start c = true.
Definition ident_text {U : unicode} (s : str) : Prop :=
  exists c t, s = c :: t /\ start_char c /\ Forall (fun c => is_xid_continue c = true) t.
(** The five words that have no raw form. *)
Definition never_raw : list str := [tag "_"; tag "super"; tag "self"; tag "Self"; tag "crate"].

(** ** Delimiter nesting

    A text as a flat sequence of pieces.  [tree] is the bracket grammar on pieces
    and [wrong] says where a sequence first violates it. *)
Inductive piece :=
| POpen (d : delimiter) (pos : N)
| PClose (d : delimiter) (pos : N)
| PTok (ts : list token)
| PBad (pos : N).

Inductive tree : list piece -> list token -> Prop :=
| tree_nil : tree [] []
| tree_tok k ps ts : tree ps ts -> tree (PTok k :: ps) (k ++ ts)
| tree_group d a b ps1 inner ps2 ts :
    tree ps1 inner -> tree ps2 ts ->
    tree (POpen d a :: ps1 ++ PClose d b :: ps2) (TGroup d inner (mkspan a (b + 1)) :: ts).

Inductive wrong : list piece -> N -> Prop :=
| wrong_bad a ps : wrong (PBad a :: ps) a
| wrong_unclosed d a ps ts : tree ps ts -> wrong (POpen d a :: ps) a
| wrong_mismatch d a ps1 ts d' b ps2 :
    tree ps1 ts -> d' <> d -> wrong (POpen d a :: ps1 ++ PClose d' b :: ps2) b
| wrong_inside d a ps b : wrong ps b -> wrong (POpen d a :: ps) b
| wrong_after ps1 ts ps2 b : tree ps1 ts -> wrong ps2 b -> wrong (ps1 ++ ps2) b.
(** At the outermost level a closing delimiter is wrong too. *)
Inductive wrong_top : list piece -> N -> Prop :=
| wrong_within ps b : wrong ps b -> wrong_top ps b
| wrong_stray ps1 ts d b ps2 : tree ps1 ts -> wrong_top (ps1 ++ PClose d b :: ps2) b.
