(** * Specification: a stream with the contents of one group exchanged. *)
From Verif Require Import Base Tokens SpecTree.
Import ListNotations.
Local Open Scope N_scope.

(** The group at [g] gets the contents [new] and is then at [g']: what comes before it
    stays, what comes after it keeps its distance from its end, and so do the closing
    delimiters of the groups around it. *)
Inductive grafted (g g' : span) (new : list token) : list token -> list token -> Prop :=
| graft_here before d inner after :
    grafted g g' new (before ++ TGroup d inner g :: map (shift (hi g)) after)
                     (before ++ TGroup d new g' :: map (shift (hi g')) after)
| graft_inside before d inner inner' l n after :
    grafted g g' new inner inner' ->
    grafted g g' new (before ++ TGroup d inner (mkspan l (n + hi g)) :: map (shift (hi g)) after)
                     (before ++ TGroup d inner' (mkspan l (n + hi g')) :: map (shift (hi g')) after).
