(** * Specification: line endings.

    The compiler reads every CRLF of a source file as LF before it does anything
    else.  [unix] does this to a text in which every carriage return is part of a
    CRLF. *)
From Verif Require Import Base Unicode Tokens SpecText SpecTree SpecLit SpecGrammar.
From Verif Require Lexer.
Local Open Scope N_scope.

Definition unix (s : str) : str := filter (fun c => negb (c =? CR)) s.

(** A character or byte literal whose character is a line feed that was not escaped. *)
Definition newline_literal (r : str) : Prop := begins r [SQUOTE; LF; SQUOTE] \/ begins r ["b"%ch; SQUOTE; LF; SQUOTE].
(** A CRLF between single quotes. *)
Definition quoted_crlf : str := [SQUOTE; CR; LF; SQUOTE].
Definition holds (s p : str) : Prop := exists x y, s = x ++ p ++ y.

Section Source.
Context {U : unicode}.
Variables (start : N) (src : str).

(** Where a position of [src] is in [unix src]. *)
Definition moved (p : N) : N := start + strlen (unix (firstn (N.to_nat (p - start)) src)).
Definition moved_span (sp : span) : span := mkspan (moved (lo sp)) (moved (hi sp)).

(** The trees of [unix src], given those of [src].  The contents of a doc comment
    are told from an attribute that was written out by their spans, which are that of
    the comment. *)
Inductive same_tree : token -> token -> Prop :=
| same_ident s raw sp : same_tree (TIdent s raw sp) (TIdent s raw (moved_span sp))
| same_punct c sg sp : same_tree (TPunct c sg sp) (TPunct c sg (moved_span sp))
| same_literal r sp : same_tree (TLiteral r sp) (TLiteral (unix r) (moved_span sp))
| same_group d ts ts' sp :
    Forall (fun t => lo sp < lo (token_span t)) ts -> same_trees ts ts' ->
    same_tree (TGroup d ts sp) (TGroup d ts' (moved_span sp))
with same_trees : list token -> list token -> Prop :=
| same_nil : same_trees [] []
| same_cons t t' ts ts' : same_tree t t' -> same_trees ts ts' -> same_trees (t :: ts) (t' :: ts')
| same_doc inner x sp ts ts' :
    same_trees ts ts' ->
    same_trees (doc_attribute inner (Lexer.literal_string x) sp ++ ts)
               (doc_attribute inner (Lexer.literal_string (unix x)) (moved_span sp) ++ ts').
End Source.
