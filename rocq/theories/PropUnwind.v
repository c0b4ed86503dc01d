(** * Properties of panics and compiler detection (C83) *)
From Coq Require Import List Arith Bool Lia.
From Verif Require Import Detection SpecDetect Unwind SpecUnwind UnwindProofs.
Import ListNotations.

(** The model adds panics to Detection.v and changes nothing else. *)
Theorem c83_detection : forall (D : detection) es s,
  usteps uinitial es s -> steps initial (flat_map detection_of es) (base s).
Proof. exact (fun D => usteps_base uinitial). Qed.
Print Assumptions c83_detection.
(** A call always has a step to take, be it a panic, or waits for another thread which has one. *)
Theorem c83_progress : forall (D : detection) es s t,
  usteps uinitial es s -> dead s = false -> in_call (base s) t ->
  (exists e s', ustep s e s' /\ thread_of e = t) \/
  (exists u e s', u <> t /\ initializing (base s) u /\ ustep s e s' /\ thread_of e = u).
Proof. exact @uprogress. Qed.
Print Assumptions c83_progress.

(** Where the compiler has [is_available]: whatever the program does, unwinding
    or not, all panics are its own and are reported to its own hook. *)
Theorem c83_available : forall (D : detection) es s,
  by_hook = false -> usteps uinitial es s -> undisturbed es.
Proof. exact (fun D es s B H => proj1 (modern es s B H)). Qed.
Print Assumptions c83_available.

(** Where it has not, and the program does not [unforce]: panics while no thread
    is detecting are reported to the program's hook, *)
Theorem c83_reported : forall (D : detection) es s t h s',
  usteps uinitial es s -> never_unforces es -> ustep s (ProgramPanicked t h) s' ->
  (forall u, ~ initializing (base s) u) -> h = Installed program_hook.
Proof. exact @program_told. Qed.
Print Assumptions c83_reported.
(** the panic by which the compiler says no is reported to no one, *)
Theorem c83_hidden : forall (D : detection) es s t h s',
  usteps uinitial es s -> never_unforces es -> ustep s (ProbePanicked t h) s' -> h = Null.
Proof. exact @probe_hidden. Qed.
Print Assumptions c83_hidden.
(** this crate has no panic of its own, *)
Theorem c83_no_panic : forall (D : detection) es s,
  usteps uinitial es s -> never_unforces es -> forall t h, ~ In (CratePanicked t h) es.
Proof. exact @crate_silent. Qed.
Print Assumptions c83_no_panic.
(** and it aborts the process only when the first call that has to
    detect is made by a thread which is unwinding, *)
Theorem c83_abort : forall (D : detection) es s t h s',
  usteps uinitial es s -> never_unforces es -> ustep s (Aborted t h) s' ->
  by_hook = true /\ unwinding s t = true /\ init_once (base s) = Running t /\ doing (base s) t = Some PTake.
Proof. exact @abort_cause. Qed.
Print Assumptions c83_abort.
(** but then for certain. *)
Theorem c83_abort_certain : forall (D : detection) s t e s',
  doing (base s) t = Some PTake -> unwinding s t = true -> ustep s e s' -> thread_of e = t -> exists h, e = Aborted t h.
Proof. exact @abort_certain. Qed.
Print Assumptions c83_abort_certain.

(** The advice of the source, 52-54: after a call on the main thread before any
    other is started, all panics are the program's and reported to its hook. *)
Theorem c83_advice : forall (D : detection) es1 s1 t b s2 es2 s3,
  usteps uinitial es1 s1 -> never_spawns es1 -> ustep s1 (Step (Returned t b)) s2 -> usteps s2 es2 s3 ->
  never_unforces es1 -> never_unforces es2 -> undisturbed es2.
Proof. exact @asked_first. Qed.
Print Assumptions c83_advice.

(** ** Both exceptions are real *)
Definition outside_compiler : detection := {| by_hook := true; available := fun _ => false; program_hook := 7 |}.
Ltac uside := cbn; solve [reflexivity | auto | intros []; discriminate | split; cbn; lia | discriminate].
Tactic Notation "quietly" uconstr(C) :=
  eapply usteps_cons; [eapply ustep_quiet; [reflexivity|let H := open_constr:(C) in eapply H; uside|discriminate|reflexivity]|cbv].
Tactic Notation "loudly" tactic(tac) :=
  eapply usteps_cons; [match goal with |- ustep ?s _ _ => tac s end|cbv].
Ltac ustop := apply usteps_nil.

(** A panic on thread 1 while thread 0 detects is not reported, 46-49. *)
Theorem c83_silenced : exists (D : detection) es s t,
  usteps uinitial es s /\ never_unforces es /\ In (ProgramPanicked t Null) es.
Proof.
  exists outside_compiler, [Step (Spawned 0); Step (CallInside 0); Step (Tau 0); Step (Tau 0); Step (Tau 0); Step (Tau 0); ProgramPanicked 1 Null].
  eexists. exists 1. split; [|split; [intros t H; cbn in H; intuition discriminate|cbn; auto 10]].
  quietly (step_spawn _ 0). quietly (step_call_inside _ 0). quietly (step_load_unknown _ 0 _ 0 0). quietly (step_once_run _ 0).
  quietly (step_take _ 0). quietly (step_set_null _ 0).
  loudly (fun s => eapply (ustep_program_panic s 1 _ false); uside). ustop.
Qed.
Print Assumptions c83_silenced.
(** The only thread panics, a destructor asks for the first time, and the process is aborted. *)
Theorem c83_destructor : exists (D : detection) es s,
  usteps uinitial es s /\ never_unforces es /\ never_spawns es /\
  es = [ProgramPanicked 0 (Installed program_hook); Step (CallInside 0); Step (Tau 0); Step (Tau 0); Aborted 0 (Installed program_hook)].
Proof.
  exists outside_compiler. eexists _, _. split; [|split; [|split; [|reflexivity]]];
    [|intros t H; cbn in H; intuition discriminate..].
  loudly (fun s => eapply (ustep_program_panic s 0 _ false); uside).
  quietly (step_call_inside _ 0). quietly (step_load_unknown _ 0 _ 0 0). quietly (step_once_run _ 0).
  loudly (fun s => eapply (ustep_abort_hook s 0 PTake); uside). ustop.
Qed.
Print Assumptions c83_destructor.

(** Detection outside of a compiler: one hidden panic, the answer no; a panic
    later on is reported, and asking while it unwinds is fine. *)
Example c83_example : exists s, @usteps outside_compiler (@uinitial outside_compiler)
  [Step (CallInside 0); Step (Tau 0); Step (Tau 0); Step (Tau 0); Step (Tau 0); ProbePanicked 0 Null; Step (Stored 0 1 false);
   Step (Tau 0); Step (Tau 0); Step (Tau 0); Step (Returned 0 false); ProgramPanicked 0 (Installed 7); Step (CallInside 0);
   Step (Returned 0 false); Caught 0] s.
Proof.
  eexists.
  quietly (step_call_inside _ 0). quietly (step_load_unknown _ 0 _ 0 0). quietly (step_once_run _ 0).
  quietly (step_take _ 0). quietly (step_set_null _ 0).
  loudly (fun s => eapply (ustep_probe s 0); [reflexivity|reflexivity|reflexivity|reflexivity|eapply (step_probe _ 0); reflexivity]).
  quietly (step_probe_store _ 0 _ _ _ _ 1). quietly (step_take_null _ 0). quietly (step_set_original _ 0).
  quietly (step_check_ok _ 0 _ ByOnce). quietly (step_load_answer _ 0 _ 1 false).
  loudly (fun s => eapply (ustep_program_panic s 0 _ false); uside).
  quietly (step_call_inside _ 0). quietly (step_load_answer _ 0 _ 1 false).
  eapply usteps_cons; [eapply (ustep_caught _ 0); reflexivity|ustop].
Qed.
