(** * Token trees (data only). *)
From Verif Require Import Base.
Local Open Scope N_scope.

(** lib.rs Delimiter, Spacing. *)
Inductive delimiter := Parenthesis | Brace | Bracket | DNone.
Inductive spacing := Alone | Joint.

(** fallback.rs 519-525, configuration [span_locations]. *)
Record span := mkspan { lo : N; hi : N }.

(** fallback.rs 533-536. *)
Definition call_site : span := mkspan 0 0.

(** lib.rs TokenTree over fallback.rs Group 718-723, Ident 796-801,
    Literal 942-946 and lib.rs Punct.  A [TokenStream] is the list of its trees;
    sharing of the underlying vectors is modelled separately in RcHeap.v. *)
Inductive token : Type :=
| TGroup (d : delimiter) (ts : list token) (sp : span)
| TIdent (sym : str) (raw : bool) (sp : span)
| TPunct (ch : char) (s : spacing) (sp : span)
| TLiteral (repr : str) (sp : span).

Definition delim_eqb (a b : delimiter) : bool :=
  match a, b with
  | Parenthesis, Parenthesis | Brace, Brace | Bracket, Bracket | DNone, DNone => true
  | _, _ => false
  end.

Definition spacing_eqb (a b : spacing) : bool :=
  match a, b with Alone, Alone | Joint, Joint => true | _, _ => false end.

(** lib.rs TokenTree::span / set_span. *)
Definition token_span (t : token) : span :=
  match t with
  | TGroup _ _ sp | TIdent _ _ sp | TPunct _ _ sp | TLiteral _ sp => sp
  end.
Definition set_span (t : token) (sp : span) : token :=
  match t with
  | TGroup d ts _ => TGroup d ts sp
  | TIdent s r _ => TIdent s r sp
  | TPunct c s _ => TPunct c s sp
  | TLiteral r _ => TLiteral r sp
  end.

(** Erase all span information ("modulo spans"); this is also what the
    configuration without [span_locations] computes. *)
Fixpoint strip (t : token) : token :=
  match t with
  | TGroup d ts _ => TGroup d (map strip ts) call_site
  | TIdent s r _ => TIdent s r call_site
  | TPunct c s _ => TPunct c s call_site
  | TLiteral r _ => TLiteral r call_site
  end.
Definition strips (ts : list token) : list token := map strip ts.

(** Induction over nested trees. *)
Section TokenInd.
  Variable P : token -> Prop.
  Hypothesis HG : forall d ts sp, Forall P ts -> P (TGroup d ts sp).
  Hypothesis HI : forall s r sp, P (TIdent s r sp).
  Hypothesis HP : forall c s sp, P (TPunct c s sp).
  Hypothesis HL : forall r sp, P (TLiteral r sp).
  Fixpoint token_nested_ind (t : token) : P t :=
    match t with
    | TGroup d ts sp =>
        HG d ts sp ((fix go (l : list token) : Forall P l :=
                       match l with
                       | [] => Forall_nil P
                       | x :: l => Forall_cons x (token_nested_ind x) (go l)
                       end) ts)
    | TIdent s r sp => HI s r sp
    | TPunct c s sp => HP c s sp
    | TLiteral r sp => HL r sp
    end.
End TokenInd.

(** ** Options of formatting (core::fmt)

    Those of a placeholder such as [{:-^14}], [{:.3}], [{:#?}]. *)
Inductive alignment := ALeft | ARight | ACenter.
Record format := mkformat {
  fill : char; align : option alignment; width : option nat; precision : option nat; alternate : bool
}.
