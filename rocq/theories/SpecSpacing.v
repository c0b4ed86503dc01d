(** * Specification: what the documentation says of [Spacing] (lib.rs 825-836, 865-872). *)
From Verif Require Import Base Unicode Tokens SpecText SpecTree.

(** [l] is the stream itself or the contents of a group in it, at any depth. *)
Inductive level (l : list token) : list token -> Prop :=
| level_here : level l l
| level_inside d inner sp ts : In (TGroup d inner sp) ts -> level l inner -> level l ts.

Definition is_punct (t : token) : Prop := exists c sg sp, t = TPunct c sg sp.
Definition is_ident (t : token) : Prop := exists s raw sp, t = TIdent s raw sp.
(** A literal which begins with a quotation mark, such as a character. *)
Definition char_like (t : token) : Prop := exists u sp, t = TLiteral (SQUOTE :: u) sp.
(** A string whose prefix reads as a word. *)
Definition prefixed_string (t : token) : Prop :=
  exists p u sp, t = TLiteral (p ++ DQUOTE :: u) sp /\ In p [tag "r"; tag "b"; tag "c"; tag "br"; tag "cr"].

(** [t] touches the tree which comes next. *)
Definition next_to (sp : span) (u : token) : Prop := lo (token_span u) = hi sp.

(** As documented: [Joint] is followed by another [Punct], or is a quotation mark
    followed by an identifier; [Alone] is not followed by a [Punct]. *)
Definition documented (t : token) (after : list token) : Prop :=
  match t with
  | TPunct c Joint sp => exists u y, after = u :: y /\ next_to sp u /\ (is_punct u \/ (c = SQUOTE /\ is_ident u))
  | TPunct c Alone sp => forall u y, after = u :: y -> next_to sp u -> ~ is_punct u
  | _ => True
  end.
(** As implemented: a character counts as punctuation too, the word after a quotation mark
    may be the prefix of a string, and the [#] of a doc comment does not count. *)
Definition implemented (t : token) (after : list token) : Prop :=
  match t with
  | TPunct c Joint sp =>
      exists u y, after = u :: y /\ next_to sp u /\
        (if (c =? SQUOTE)%N then is_ident u \/ prefixed_string u else is_punct u \/ char_like u)
  | TPunct c Alone sp =>
      c <> SQUOTE /\
      forall u y, after = u :: y -> next_to sp u ->
        ~ char_like u /\ (is_punct u -> exists inner l z, after = doc_attribute inner l (token_span u) ++ z)
  | _ => True
  end.
