(** * Property C76: auto traits of the public types. *)
From Coq Require Import List Bool.
From Verif Require Import AutoTraits SpecTraits TraitsProofs.
Import ListNotations.

(** Tokens and spans stay in their thread, whatever the compiler's types allow. *)
Theorem c76_confined : forall has rc_ref f n, token_type n ->
  lacks has rc_ref f Send (Crate n) /\ lacks has rc_ref f Sync (Crate n).
Proof. exact token_types_confined. Qed.
Print Assumptions c76_confined.
(** They may be carried across a caught panic where the compiler's types may. *)
Theorem c76_unwind : forall has rc_ref f,
  (wrap f = true -> forall c, has c UnwindSafe = true /\ has c RefUnwindSafe = true) ->
  forall n, public f n = true ->
  ~ lacks has rc_ref f UnwindSafe (Crate n) /\ ~ lacks has rc_ref f RefUnwindSafe (Crate n).
Proof. exact unwind_safe. Qed.
Print Assumptions c76_unwind.
Theorem c76_unpin : forall has rc_ref f, (wrap f = true -> forall c, has c Unpin = true) ->
  forall n, public f n = true -> ~ lacks has rc_ref f Unpin (Crate n).
Proof. exact unpin. Qed.
Print Assumptions c76_unpin.
(** A wrapper never has a trait that what it wraps does not have. *)
Theorem c76_no_stronger : forall has rc_ref f n c tr, wrap f = true -> wraps n c -> has c tr = false ->
  lacks has rc_ref f tr (Crate n).
Proof. exact no_stronger. Qed.
Print Assumptions c76_no_stronger.
(** Plain data has all of them; every public type is of one of the two kinds. *)
Theorem c76_plain : forall has rc_ref f n tr, plain_type n -> ~ lacks has rc_ref f tr (Crate n).
Proof. exact plain_shared. Qed.
Print Assumptions c76_plain.
Theorem c76_kinds : forall f n, public f n = true -> token_type n \/ plain_type n.
Proof. exact public_kinds. Qed.
Print Assumptions c76_kinds.
(** As in tests/marker.rs, with a compiler like rustc and an old standard library;
    and a hypothetical compiler whose types are [Send]. *)
Example c76_example :
  let rustc (c : ctype) tr := match tr with Send | Sync => false | _ => true end in
  let lenient (c : ctype) (tr : trait) := match c, tr with CSpan, Unpin => false | _, _ => true end in
  let f := mkfeatures true false false in
  public f Group = true /\ public f LineColumn = false /\
  (forall c, rustc c UnwindSafe = true /\ rustc c RefUnwindSafe = true) /\
  lacks lenient false f Send (Crate Group) /\ lacks lenient true f Unpin (Crate TokenTree) /\
  ~ lacks rustc false f RefUnwindSafe (Crate TokenTree) /\ lacks rustc false f RefUnwindSafe (Rc Scalar).
Proof.
  cbn zeta. split; [reflexivity|]. split; [reflexivity|]. split; [split; reflexivity|].
  split; [apply c76_confined; constructor|].
  split; [apply (c76_no_stronger _ _ _ _ CSpan); constructor|].
  split; [apply c76_unwind; [split|]; reflexivity|]. apply lacks_never. reflexivity.
Qed.
