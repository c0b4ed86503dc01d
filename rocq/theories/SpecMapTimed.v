(** * Specification: the cost of histories of span queries. *)
From Verif Require Import Base Unicode Tokens Fallback SourceMap SpecMap.

(** Characters a text may cost in all, whatever is asked in whatever order: [n log n]. *)
Definition allowance (src : str) : nat := length src + length src * Nat.log2 (length src).
Fixpoint budget (os : list op) : nat :=
  match os with
  | [] => 0
  | OParse src :: os | OLiteral src :: os => allowance src + budget os
  | _ :: os => budget os
  end.
Definition is_query (o : op) : bool := match o with ORange _ | OText _ => true | _ => false end.
Definition queries (os : list op) : nat := length (filter is_query os).

(** The positions that queries ask for, all in the text number [i]. *)
Inductive asks (s : spec) (i : nat) : list op -> list nat -> Prop :=
| asks_none : asks s i [] []
| asks_more o k p os ps : o = ORange k \/ o = OText k -> nth_error (places s) k = Some p -> pfile p = i ->
    asks s i os ps -> asks s i (o :: os) (pfrom p :: pto p :: ps).
Definition distance (a b : nat) : nat := (a - b) + (b - a).
Fixpoint travel (from : nat) (ps : list nat) : nat :=
  match ps with [] => 0 | p :: ps => distance from p + travel p ps end.
