(** * Specification: when storage is made and copied. *)
From Verif Require Import Base Tokens RcHeap SpecStreams.

(** Everything that refers to a cell: variables of the program and elements of other cells. *)
Definition holders (h : heap) (e : env) (l : loc) : nat := env_refs l e + heap_refs l h.

Fixpoint tree_groups (t : token) : nat :=
  match t with
  | TGroup _ ts _ => 1 + list_sum (map tree_groups ts)
  | _ => 0
  end.
Definition groups (ts : list token) : nat := list_sum (map tree_groups ts).

(** The cells an operation makes: one for a new stream, one for each group of a parsed
    one, and one for a copy when the stream to be extended is held elsewhere too. *)
Definition copies (h : heap) (e : env) (i : nat) : nat :=
  match lookup e i with
  | Some (VStream l) => if Nat.eqb (holders h e l) 1 then 0 else 1
  | _ => 0
  end.
Definition cells_made (h : heap) (e : env) (o : op) : nat :=
  match o with
  | ONew | OFromTree _ | OFromTrees _ | OFromStreams _ => 1
  | OParse ts => 1 + groups ts
  | OExtendTrees i _ | OExtendIter i _ | OExtendStreams i _ => copies h e i
  | OLeaf _ | OGroup _ _ | OStreamOf _ | OSetSpan _ _ | OClone _ | OIntoIter _ | ONext _ | ODrop _ => 0
  end.

(** The same elements in every cell: only reference counts differ. *)
Definition same_cells (h h' : heap) : Prop :=
  forall l, option_map elems (get h' l) = option_map elems (get h l).
(** The same cells, counts included, but for one. *)
Definition same_but (l : loc) (h h' : heap) : Prop := forall l', l' <> l -> get h' l' = get h l'.

(** Extending the stream in variable [i] by trees. *)
Inductive extends_trees (i : nat) : op -> Prop :=
| extends_by_trees js : extends_trees i (OExtendTrees i js)
| extends_by_iter j : extends_trees i (OExtendIter i j).
