(** * Properties of a program that changes its panic hook (C88) *)
From Coq Require Import List Arith Bool Lia.
From Verif Require Import Detection SpecDetect Unwind Hooks SpecHooks HooksProofs.
Import ListNotations.

(** Where the compiler has [is_available], the hook is always the one the program installed last. *)
Theorem c88_available : forall (D : detection) es s,
  by_hook = false -> hsteps any initial es s -> the_hook s = own (Installed program_hook) es.
Proof. exact (fun D es s => available_hook any es s). Qed.
Print Assumptions c88_available.
(** Where it has not: if the program changes its hook only while no thread is inside
    [initialize], and never two are, it finds its own hook and nothing panics; *)
Theorem c88_polite_partial : forall (D : detection) es s,
  hsteps polite initial es s ->
  ((forall t, ~ initializing s t) -> the_hook s = own (Installed program_hook) es) /\
  (forall t p, ~ In (Crate (Panicked t) p) es).
Proof. exact @polite_hook. Qed.
Print Assumptions c88_polite_partial.
Theorem c88_polite_removes : forall (D : detection) es s t h s',
  hsteps polite initial es s -> hstep s (Removes t h) s' -> (forall u, ~ initializing s u) ->
  h = own (Installed program_hook) es.
Proof. exact @polite_removes. Qed.
Print Assumptions c88_polite_removes.
(** if it does so at any time, the end of detection puts back the hook of its beginning, *)
Theorem c88_left_partial : forall (D : detection) es s,
  hsteps single initial es s -> hook_free s -> the_hook s = left_with es.
Proof. exact @single_hook. Qed.
Print Assumptions c88_left_partial.
Theorem c88_inside_partial : forall (D : detection) es s,
  hsteps any initial es s -> no_unforce (crate_events es) -> hook_free s -> the_hook s = left_with es.
Proof. exact @inside_hook. Qed.
Print Assumptions c88_inside_partial.
(** and the call panics exactly if the null hook is not the one in place when it is taken back. *)
Theorem c88_noticed : forall (D : detection) es s t g,
  hsteps single initial es s -> doing s t = Some (PCheck g) ->
  exists es1 e1 o es2 e2 o' es3,
    es = es1 ++ Crate e1 (Some (PSetNull o)) :: es2 ++ Crate e2 (Some (PTakeNull o')) :: es3 /\
    Forall hands_off es2 /\ (forall x o, ~ In (Crate x (Some (PSetNull o))) es3) /\
    forall e p s', hstep s (Crate e p) s' -> mover e = t -> (e = Panicked t <-> own Null es2 <> Null).
Proof. exact @single_noticed. Qed.
Print Assumptions c88_noticed.

(** Answers do not depend on any of this, *)
Theorem c88_agreement : forall (D : detection) es s,
  hsteps any initial es s -> no_force (crate_events es) -> no_unforce (crate_events es) ->
  exists r, r < length (threads s) /\ forall t b p, In (Crate (Returned t b) p) es -> b = available r.
Proof. exact @hagreement. Qed.
Print Assumptions c88_agreement.
(** and a thread which has seen one does not panic later, even when the [Once] is poisoned. *)
Theorem c88_settled : forall (D : detection) es0 s t es s',
  hsteps any initial es0 s -> has_seen s t 1 -> ~ in_call s t -> hsteps any s es s' ->
  (forall p, ~ In (Crate (CallUnforce t) p) es) -> forall p, ~ In (Crate (Panicked t) p) es.
Proof. exact (fun D => settled_quiet any). Qed.
Print Assumptions c88_settled.

(** ** The exceptions are real *)
Definition hooked_compiler : detection := {| by_hook := true; available := fun _ => true; program_hook := 7 |}.
Ltac hside := cbn; solve [reflexivity | auto | exact I | intros []; discriminate | split; cbn; lia | discriminate].
Tactic Notation "crate" uconstr(C) :=
  eapply hsteps_cons; [eapply hstep_crate; let H := open_constr:(C) in eapply H; hside|exact I|cbv].
Tactic Notation "program" uconstr(C) :=
  eapply hsteps_cons; [let H := open_constr:(C) in eapply H; hside|exact I|cbv].
Ltac removes := eapply hsteps_cons; [match goal with |- hstep ?s _ _ => exact (hstep_remove s 1 _ eq_refl eq_refl) end|exact I|cbv].
Ltac hstop := apply hsteps_nil.
Ltac nowhere := let u := fresh in let th := fresh in let E := fresh in let A := fresh in
  intros u (th & E & A); destruct u as [|[|[|u]]]; cbn in E; try discriminate E; injection E as <-; now apply A.

(** Thread 1 installs a hook between 64 and 65.  It is lost, and nothing is said. *)
Theorem c88_lost_refuted : exists (D : detection) es s,
  hsteps any initial es s /\ no_unforce (crate_events es) /\ (forall u, ~ in_call s u) /\
  (forall t p, ~ In (Crate (Panicked t) p) es) /\ the_hook s <> own (Installed program_hook) es.
Proof.
  exists hooked_compiler. eexists _, _. split; [|split; [|split; [|split]]].
  - crate (step_spawn _ 0). crate (step_call_inside _ 0). crate (step_load_unknown _ 0 _ 0 0). crate (step_once_run _ 0).
    crate (step_take _ 0). program (hstep_install _ 1 _ (Installed 9)). crate (step_set_null _ 0). crate (step_probe _ 0).
    crate (step_probe_store _ 0 _ _ _ true 1). crate (step_take_null _ 0). crate (step_set_original _ 0).
    crate (step_check_ok _ 0 _ ByOnce). crate (step_load_answer _ 0 _ 1 true). hstop.
  - intros t H. cbn in H. intuition discriminate.
  - nowhere.
  - intros t p H. cbn in H. intuition discriminate.
  - cbn. discriminate.
Qed.
Print Assumptions c88_lost_refuted.
(** Thread 1 installs a hook between 65 and 70.  It is lost; the call of thread 0
    panics, and so does thread 1 when it asks and has not seen the answer. *)
Theorem c88_panic_refuted : exists (D : detection) es s,
  hsteps any initial es s /\ no_unforce (crate_events es) /\ (forall u, ~ in_call s u) /\
  (exists p, In (Crate (Panicked 0) p) es) /\ (exists p, In (Crate (Panicked 1) p) es) /\
  the_hook s <> own (Installed program_hook) es.
Proof.
  exists hooked_compiler. eexists _, _. split; [|split; [|split; [|split; [|split]]]].
  - crate (step_spawn _ 0). crate (step_call_inside _ 0). crate (step_load_unknown _ 0 _ 0 0). crate (step_once_run _ 0).
    crate (step_take _ 0). crate (step_set_null _ 0). program (hstep_install _ 1 _ (Installed 9)). crate (step_probe _ 0).
    crate (step_probe_store _ 0 _ _ _ true 1). crate (step_take_null _ 0). crate (step_set_original _ 0).
    crate (step_check_race _ 0 _ ByOnce). crate (step_call_inside _ 1). crate (step_load_unknown _ 1 _ 0 0).
    crate (step_once_poisoned _ 1). hstop.
  - intros t H. cbn in H. intuition discriminate.
  - nowhere.
  - eexists. cbn. do 11 right. left. reflexivity.
  - eexists. cbn. do 14 right. left. reflexivity.
  - cbn. discriminate.
Qed.
Print Assumptions c88_panic_refuted.
(** A hook taken between 65 and 70 and put back there goes unnoticed, and the program's returns. *)
Example c88_example : exists s, @hsteps hooked_compiler (@any) (@initial hooked_compiler)
  [Crate (Spawned 0) None; Installs 1 (Installed 8); Crate (CallInside 0) None; Crate (Tau 0) None; Crate (Tau 0) None;
   Crate (Tau 0) (Some PTake); Crate (Tau 0) (Some (PSetNull (Installed 8))); Removes 1 Null; Installs 1 Null;
   Crate (Tau 0) (Some (PProbe (Installed 8))); Crate (Stored 0 1 true) (Some (PStore (Installed 8) true));
   Crate (Tau 0) (Some (PTakeNull (Installed 8))); Crate (Tau 0) (Some (PSetOriginal (Installed 8) Null));
   Crate (Tau 0) (Some (PCheck Null)); Crate (Returned 0 true) None; Removes 1 (Installed 8)] s /\ the_hook s = Default.
Proof.
  eexists. split.
  - crate (step_spawn _ 0). program (hstep_install _ 1 _ (Installed 8)).
    crate (step_call_inside _ 0). crate (step_load_unknown _ 0 _ 0 0). crate (step_once_run _ 0).
    crate (step_take _ 0). crate (step_set_null _ 0). removes. program (hstep_install _ 1 _ Null). crate (step_probe _ 0).
    crate (step_probe_store _ 0 _ _ _ true 1). crate (step_take_null _ 0). crate (step_set_original _ 0).
    crate (step_check_ok _ 0 _ ByOnce). crate (step_load_answer _ 0 _ 1 true). removes. hstop.
  - reflexivity.
Qed.
(** A polite run: a hook installed before detection, and one after it. *)
Ltac one_thread := let t := fresh in let u := fresh in let H := fresh in let G := fresh in
  split; [intros t u (? & ? & ? & H & _) (? & ? & ? & G & _); destruct t as [|[|t]]; destruct u as [|[|u]]; cbn in H, G; congruence|
          try discriminate; intros _ t (? & ? & ? & H & G); destruct t as [|[|t]]; cbn in H; try discriminate H; injection H as <-; discriminate G].
Tactic Notation "crate_p" uconstr(C) :=
  eapply hsteps_cons; [eapply hstep_crate; let H := open_constr:(C) in eapply H; hside|one_thread|cbv].
Tactic Notation "program_p" uconstr(C) :=
  eapply hsteps_cons; [let H := open_constr:(C) in eapply H; hside|one_thread|cbv].
Example c88_polite_example : exists es s, @hsteps hooked_compiler (@polite) (@initial hooked_compiler)
  ([Installs 0 (Installed 8)] ++ es ++ [Crate (Returned 0 true) None; Installs 0 (Installed 9)]) s /\
  In (Crate (Tau 0) (Some (PSetNull (Installed 8)))) es /\ the_hook s = Installed 9.
Proof.
  exists [Crate (CallInside 0) None; Crate (Tau 0) None; Crate (Tau 0) None;
    Crate (Tau 0) (Some PTake); Crate (Tau 0) (Some (PSetNull (Installed 8)));
    Crate (Tau 0) (Some (PProbe (Installed 8))); Crate (Stored 0 1 true) (Some (PStore (Installed 8) true));
    Crate (Tau 0) (Some (PTakeNull (Installed 8))); Crate (Tau 0) (Some (PSetOriginal (Installed 8) Null));
    Crate (Tau 0) (Some (PCheck Null))].
  eexists. split; [cbn [app]|split; [cbn; auto 10|]].
  - program_p (hstep_install _ 0 _ (Installed 8)).
    crate_p (step_call_inside _ 0). crate_p (step_load_unknown _ 0 _ 0 0). crate_p (step_once_run _ 0).
    crate_p (step_take _ 0). crate_p (step_set_null _ 0). crate_p (step_probe _ 0).
    crate_p (step_probe_store _ 0 _ _ _ true 1). crate_p (step_take_null _ 0). crate_p (step_set_original _ 0).
    crate_p (step_check_ok _ 0 _ ByOnce). crate_p (step_load_answer _ 0 _ 1 true). program_p (hstep_install _ 0 _ (Installed 9)). hstop.
  - reflexivity.
Qed.
