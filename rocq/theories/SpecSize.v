(** * Specification: sizes of token streams. *)
From Verif Require Import Base Tokens.

(** All trees, those inside groups included. *)
Fixpoint tree_count (t : token) : nat :=
  match t with
  | TGroup _ ts _ => 1 + list_sum (map tree_count ts)
  | _ => 1
  end.
Definition count (ts : list token) : nat := list_sum (map tree_count ts).

(** How deep groups are nested. *)
Fixpoint tree_depth (t : token) : nat :=
  match t with
  | TGroup _ ts _ => 1 + list_max (map tree_depth ts)
  | _ => 0
  end.
Definition depth (ts : list token) : nat := list_max (map tree_depth ts).
