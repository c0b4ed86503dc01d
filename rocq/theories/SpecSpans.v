(** * What spans answer through the wrapper: specification for C73. *)
From Verif Require Import Base Tokens SourceMap Wrapper WrapperSpans BuildWorld SpecBuild.
Import ListNotations.

(** The compiler counts lines and columns from 1, the crate columns from 0. *)
Definition counted (l c : nat) (p : line_column) : Prop :=
  line p = l /\ (c = S (column p) \/ (c = 0 /\ column p = 0)).
Definition not_after (l c l' c' : nat) : Prop := l < l' \/ (l = l' /\ c <= c').
(** The configuration that the lines of a run of build.rs set. *)
Definition configured (es : list event) (g : config) : Prop :=
  (with_span g = true <-> In (cfg (lit "proc_macro_span")) es) /\
  (with_location g = true <-> In (cfg (lit "proc_macro_span_location")) es) /\
  (with_file g = true <-> In (cfg (lit "proc_macro_span_file")) es).
