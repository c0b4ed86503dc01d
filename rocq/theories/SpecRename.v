(** * Specification: a stream with one of its tokens replaced, and names that can replace others. *)
From Verif Require Import Base Unicode Tokens SpecTree.
Import ListNotations.
Local Open Scope N_scope.

(** The token [t] becomes [t']: what comes before it stays, what comes after it keeps its
    distance from its end, and so do the closing delimiters of the groups around it. *)
Inductive replaced (t t' : token) : list token -> list token -> Prop :=
| replace_here before after :
    replaced t t' (before ++ t :: map (shift (hi (token_span t))) after)
                  (before ++ t' :: map (shift (hi (token_span t'))) after)
| replace_inside before d inner inner' l n after :
    replaced t t' inner inner' ->
    replaced t t' (before ++ TGroup d inner (mkspan l (n + hi (token_span t))) :: map (shift (hi (token_span t))) after)
                  (before ++ TGroup d inner' (mkspan l (n + hi (token_span t'))) :: map (shift (hi (token_span t'))) after).

(** An identifier as it is written. *)
Definition written (raw : bool) (n : str) : str := if raw then tag "r#" ++ n else n.
(** Underscores and a digit: [1e+] in front makes a number of such a name. *)
Definition numberish (s : str) : Prop :=
  exists u c t, s = u ++ c :: t /\ Forall (fun c => c = "_"%ch) u /\ ("0"%ch <= c <= "9"%ch).
(** The words that a quote or a number sign turns into something else. *)
Definition prefixes : list str := [tag "r"; tag "b"; tag "c"; tag "br"; tag "cr"].
Definition fits {U : unicode} (raw : bool) (n : str) : Prop :=
  ident_text n /\ if raw then ~ In n never_raw else ~ numberish n /\ ~ In n prefixes.
