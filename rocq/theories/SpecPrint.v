(** * Streams that survive printing and parsing (specification). *)
From Verif Require Import Base Unicode Tokens SpecText SpecTree.
Local Open Scope N_scope.

Section WithUnicode.
Context {U : unicode}.

(** Identifiers with their raw flag. *)
Definition ident_valid (sym : str) (raw : bool) : Prop :=
  ident_text sym /\ (raw = true -> ~ In sym never_raw).

(** What may follow a [Joint] punct [c] other than an apostrophe: another punct
    (not completing a comment opener) or a character literal. *)
Definition glues (c : char) (t : token) : Prop :=
  match t with
  | TPunct c2 _ _ => ~ (c = "/"%ch /\ (c2 = "/"%ch \/ c2 = "*"%ch))
  | TLiteral repr _ => exists u, repr = SQUOTE :: u
  | _ => False
  end.
(** What may follow an apostrophe: an identifier, or a string literal whose
    prefix looks like one. *)
Definition lifetime_name (t : token) : Prop :=
  match t with
  | TIdent _ _ _ => True
  | TLiteral repr _ =>
      exists p u, In p [tag "r"; tag "b"; tag "c"; tag "br"; tag "cr"] /\ repr = p ++ DQUOTE :: u
  | _ => False
  end.

(** [literal_ok] says which literal texts are tokens. *)
Inductive printable (literal_ok : str -> Prop) : list token -> Prop :=
| pr_nil : printable literal_ok []
| pr_group d inner sp ts :
    d <> DNone -> printable literal_ok inner -> printable literal_ok ts ->
    printable literal_ok (TGroup d inner sp :: ts)
| pr_ident sym raw sp ts :
    ident_valid sym raw -> printable literal_ok ts -> printable literal_ok (TIdent sym raw sp :: ts)
| pr_literal repr sp ts :
    literal_ok repr -> printable literal_ok ts -> printable literal_ok (TLiteral repr sp :: ts)
| pr_alone c sp ts :
    In c punct_chars -> c <> SQUOTE -> printable literal_ok ts ->
    printable literal_ok (TPunct c Alone sp :: ts)
| pr_joint c sp t ts :
    In c punct_chars -> c <> SQUOTE -> glues c t -> printable literal_ok (t :: ts) ->
    printable literal_ok (TPunct c Joint sp :: t :: ts)
| pr_lifetime sp t ts :
    lifetime_name t -> printable literal_ok (t :: ts) ->
    printable literal_ok (TPunct SQUOTE Joint sp :: t :: ts).

(** One tree of a well formed stream. *)
Definition tree_valid (literal_ok : str -> Prop) (t : token) : Prop :=
  match t with
  | TGroup d _ _ => d = Parenthesis \/ d = Brace \/ d = Bracket
  | TIdent sym raw _ => ident_valid sym raw
  | TPunct c s _ => In c punct_chars /\ (c = SQUOTE -> s = Joint)
  | TLiteral repr _ => literal_ok repr
  end.

End WithUnicode.

(** ** The printed text

    Tokens are separated by one space except after a [Joint] punct; braces have a
    space inside, the other delimiters do not, and an invisible group prints only
    its contents. *)
Inductive tree_text : token -> str -> Prop :=
| tt_ident sym sp : tree_text (TIdent sym false sp) sym
| tt_raw sym sp : tree_text (TIdent sym true sp) (tag "r#" ++ sym)
| tt_punct c s sp : tree_text (TPunct c s sp) [c]
| tt_literal repr sp : tree_text (TLiteral repr sp) repr
| tt_parenthesis ts sp x : trees_text ts x -> tree_text (TGroup Parenthesis ts sp) (tag "(" ++ x ++ tag ")")
| tt_bracket ts sp x : trees_text ts x -> tree_text (TGroup Bracket ts sp) (tag "[" ++ x ++ tag "]")
| tt_none ts sp x : trees_text ts x -> tree_text (TGroup DNone ts sp) x
| tt_no_brace sp : tree_text (TGroup Brace [] sp) (tag "{ }")
| tt_brace ts sp x : ts <> [] -> trees_text ts x -> tree_text (TGroup Brace ts sp) (tag "{ " ++ x ++ tag " }")
with trees_text : list token -> str -> Prop :=
| ts_nil : trees_text [] []
| ts_one t x : tree_text t x -> trees_text [t] x
| ts_joint c sp t ts y : trees_text (t :: ts) y -> trees_text (TPunct c Joint sp :: t :: ts) (c :: y)
| ts_space t x u ts y :
    (forall c sp, t <> TPunct c Joint sp) -> tree_text t x -> trees_text (u :: ts) y ->
    trees_text (t :: u :: ts) (x ++ [SPACE] ++ y).
