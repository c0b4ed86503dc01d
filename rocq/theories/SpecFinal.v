(** * Characters with which nothing begins, and which no word contains. *)
From Verif Require Import Base Unicode Tokens SpecText SpecTree.

Definition begins_nothing {U : unicode} (c : char) : Prop :=
  ~ blank c /\ is_xid_continue c = false /\ ~ In c punct_chars /\ ~ In c (tag "()[]{}") /\ c <> DQUOTE.
