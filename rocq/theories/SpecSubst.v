(** * Specification: a stream with one of its tokens replaced by others. *)
From Verif Require Import Base Unicode Tokens SpecTree.
Import ListNotations.
Local Open Scope N_scope.

(** The trees [new] take the place of [t]: what comes before stays, what came a distance after
    the end of [t] comes the same distance after [e], and so do the closing delimiters of the
    groups around it. *)
Inductive spliced (t : token) (new : list token) (e : N) : list token -> list token -> Prop :=
| splice_here before after :
    spliced t new e (before ++ t :: map (shift (hi (token_span t))) after)
                    (before ++ new ++ map (shift e) after)
| splice_inside before d inner inner' l n after :
    spliced t new e inner inner' ->
    spliced t new e (before ++ TGroup d inner (mkspan l (n + hi (token_span t))) :: map (shift (hi (token_span t))) after)
                    (before ++ TGroup d inner' (mkspan l (n + e)) :: map (shift e) after).

(** Not at the end of [x]: the quote of a lifetime, and a dot, after which a blank is not
    what a name is: [1.a] is three tokens, [1. a] two. *)
Definition apart_from (x : str) : Prop := forall x0 c, x = x0 ++ [c] -> c <> "."%ch /\ c <> SQUOTE.
