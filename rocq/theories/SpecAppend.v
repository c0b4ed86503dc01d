(** * Specification: tokens that text appended at the end can change. *)
From Verif Require Import Base Unicode Tokens SpecText.
Local Open Scope N_scope.

(** Tokens at the end of a text, up to position [e], which may be read differently when
    more text follows: a last leaf (a longer name, a longer number, another spacing); the
    attribute of a doc comment; a quotation mark and a name (a character literal may come
    of them); a punct and a slash (a comment may begin there); a number, a sign and
    underscores (an exponent may come of them). *)
Inductive loose (e : N) : list token -> Prop :=
| loose_leaf t : (forall d ts sp, t <> TGroup d ts sp) -> hi (token_span t) = e -> loose e [t]
| loose_doc inner l a : loose e (doc_attribute inner l (mkspan a e))
| loose_quote s raw a : loose e [TPunct SQUOTE Joint (mkspan a (a + 1)); TIdent s raw (mkspan (a + 1) e)]
| loose_slash c a : e = a + 2 -> loose e [TPunct c Joint (mkspan a (a + 1)); TPunct "/"%ch Alone (mkspan (a + 1) e)]
| loose_sign t c a b : c = "+"%ch \/ c = "-"%ch -> e = b + 1 ->
    loose e [TLiteral t (mkspan a b); TPunct c Alone (mkspan b e)]
| loose_exponent t c us a b : c = "+"%ch \/ c = "-"%ch -> Forall (fun x => x = "_"%ch) us ->
    loose e [TLiteral t (mkspan a b); TPunct c Alone (mkspan b (b + 1)); TIdent us false (mkspan (b + 1) e)].

(** [ts] without what may change. *)
Definition settled (e : N) (ts kept : list token) : Prop :=
  exists changed, ts = kept ++ changed /\ (changed = [] \/ loose e changed).
