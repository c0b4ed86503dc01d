(** * Writers (specification). *)
From Verif Require Import Base Unicode Tokens SpecTree.
Import ListNotations.

(** Pieces written one after the other until one is refused. *)
Fixpoint feed {W} (write : W -> str -> W * bool) (w : W) (pieces : list str) : W * bool :=
  match pieces with
  | [] => (w, true)
  | p :: ps => let (w, ok) := write w p in if ok then feed write w ps else (w, false)
  end.

(** A buffer with room for [n] characters, which refuses what does not fit. *)
Definition buffer (n : N) (_ : nat) (w : str) (p : str) : str * bool :=
  if (strlen (w ++ p) <=? n)%N then (w ++ p, true) else (w, false).

(** A writer that notes at which depth it was called; the latest call first. *)
Definition noting (depth : nat) (w : list nat) (_ : str) : list nat * bool := (depth :: w, true).

(** How deep groups are nested. *)
Fixpoint tree_nesting (t : token) : nat :=
  match t with TGroup _ ts _ => S (list_max (map tree_nesting ts)) | _ => 0 end.
Definition nesting (ts : list token) : nat := list_max (map tree_nesting ts).
