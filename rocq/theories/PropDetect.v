(** * Properties of compiler detection (C48, C49, C50) *)
From Coq Require Import List Arith Bool Lia.
From Verif Require Import Detection SpecDetect DetectProofs.
Import ListNotations.

(** Two compilers for the examples, both of which answer yes. *)
Definition new_compiler : detection := {| by_hook := false; available := fun _ => true; program_hook := 7 |}.
Definition old_compiler : detection := {| by_hook := true; available := fun _ => true; program_hook := 7 |}.
Ltac side := cbn; solve [reflexivity | auto | intros []; discriminate | split; cbn; lia | discriminate].
Tactic Notation "go" uconstr(C) :=
  eapply steps_cons; [let H := open_constr:(C) in eapply H; side|cbv].
Ltac stop := apply steps_nil.

(** ** C48 *)
(** Whatever the other threads do, a call takes at most ten steps of its own, *)
Theorem c48_calls_bounded : forall (D : detection) s es s' t,
  reachable s -> steps s es s' -> (forall e, In e es -> calls e <> Some t) -> t < length (threads s) -> moves_of t es <= 10.
Proof. exact @moves_bounded. Qed.
Print Assumptions c48_calls_bounded.
(** always has one to take or waits for another thread's initialisation which has one, *)
Theorem c48_progress : forall (D : detection) s t,
  reachable s -> in_call s t ->
  (exists e s', step s e s' /\ moved e = Some t) \/
  (exists u e s', u <> t /\ initializing s u /\ step s e s' /\ moved e = Some u).
Proof. exact @progress. Qed.
Print Assumptions c48_progress.
(** and all calls can be run to completion from any state. *)
Theorem c48_settles : forall (D : detection) s,
  reachable s -> exists es s', steps s es s' /\ Forall (fun e => internal e = true) es /\ forall t, ~ in_call s' t.
Proof. exact @settles. Qed.
Print Assumptions c48_settles.
(** Without [force] and [unforce] all answers are what the compiler answered on one of the threads, *)
Theorem c48_agreement : forall (D : detection) es s,
  steps initial es s -> no_force es -> no_unforce es ->
  exists r, r < length (threads s) /\ forall t b, In (Returned t b) es -> b = available r.
Proof. exact @agreement. Qed.
Print Assumptions c48_agreement.
(** hence what it answers, if it answers the same on all of them; *)
Theorem c48_answer : forall (D : detection) a es s,
  (forall t, available t = a) -> steps initial es s -> no_force es -> no_unforce es ->
  forall t b, In (Returned t b) es -> b = a.
Proof.
  exact (fun D a es s K H F U t b I => match agreement es s H F U with
    ex_intro _ r (conj _ A) => eq_trans (A t b I) (K r) end).
Qed.
Print Assumptions c48_answer.
(** and there is no panic, even with [force]. *)
Theorem c48_no_panic : forall (D : detection) es s,
  steps initial es s -> no_unforce es -> forall t, ~ In (Panicked t) es.
Proof. exact (fun D es s H N => proj2 (hook_restored es s (solo_no_unforce es s H N))). Qed.
Print Assumptions c48_no_panic.
(** Two threads detecting at once: thread 1 waits for thread 0 and both get the answer. *)
Example c48_example : exists s, @steps old_compiler (@initial old_compiler)
  [Spawned 0; CallInside 0; CallInside 1; Tau 0; Tau 1; Tau 0; Tau 0; Tau 0; Tau 0; Stored 0 1 true;
   Tau 0; Tau 0; Tau 0; Tau 1; Returned 1 true; Returned 0 true] s.
Proof.
  eexists.
  go (step_spawn _ 0). go (step_call_inside _ 0). go (step_call_inside _ 1). go (step_load_unknown _ 0 _ 0 0).
  go (step_load_unknown _ 1 _ 0 0). go (step_once_run _ 0). go (step_take _ 0). go (step_set_null _ 0). go (step_probe _ 0).
  go (step_probe_store _ 0 _ _ _ true 1). go (step_take_null _ 0). go (step_set_original _ 0).
  go (step_check_ok _ 0 _ ByOnce). go (step_once_skip _ 1). go (step_load_answer _ 1 _ 1 true). go (step_load_answer _ 0 _ 1 true).
  stop.
Qed.

(** ** C49 *)
(** [force] returns, its store is the newest, no other thread is inside
    [initialize] and detection is over or known to be unnecessary.  Until the
    next [unforce], a thread that knows of it is told false, *)
Theorem c49_force : forall (D : detection) s0 t f s es s' u b s'',
  step s0 (Forced t f) s -> newest s f -> (forall u, ~ initializing s u) -> detection_over s f ->
  steps s es s' -> no_unforce es -> has_seen s' u f -> step s' (Returned u b) s'' -> b = false.
Proof.
  exact (fun D s0 t f s es s' u b s'' H N I O ES NU V R =>
    says_returned f false s es s' u b s'' ES NU (fun X : false = true => False_ind _ (Bool.diff_false_true X)) (forced_says s0 t f s H N I O) R V).
Qed.
Print Assumptions c49_force.
(** and so are all, if all know of it. *)
Theorem c49_force_everywhere : forall (D : detection) s0 t f s es s',
  step s0 (Forced t f) s -> newest s f -> (forall u, ~ initializing s u) -> detection_over s f ->
  (forall u th, nth_error (threads s) u = Some th -> f <= view th) ->
  steps s es s' -> no_unforce es -> forall u b, In (Returned u b) es -> b = false.
Proof.
  exact (fun D s0 t f s es s' H N I O V ES NU =>
    says_everywhere f false s es s' ES NU (fun X : false = true => False_ind _ (Bool.diff_false_true X)) (forced_says s0 t f s H N I O) V).
Qed.
Print Assumptions c49_force_everywhere.
(** In particular when the program forces before it starts its threads. *)
Theorem c49_force_first : forall (D : detection) es0 s0 t f s es s',
  steps initial es0 s0 -> (forall u, ~ In (Spawned u) es0) -> step s0 (Forced t f) s ->
  steps s es s' -> no_unforce es -> forall u b, In (Returned u b) es -> b = false.
Proof.
  exact (fun D es0 s0 t f s es s' R NS H ES NU =>
    match forced_first es0 s0 t f s R NS H with conj SA V =>
      says_everywhere f false s es s' ES NU (fun X : false = true => False_ind _ (Bool.diff_false_true X)) SA V end).
Qed.
Print Assumptions c49_force_first.
(** [unforce] has stored its answer, likewise: until the next [force] or
    [unforce] threads that know of it are told what the compiler said to it. *)
Theorem c49_unforce : forall (D : detection) s0 t f a s es s' u b s'',
  reachable s0 -> step s0 (Stored t f a) s -> newest s f -> (forall u, u <> t -> ~ initializing s u) ->
  (forall u th, nth_error (threads s) u = Some th -> at_ th <> Forcing) -> detection_over s f ->
  steps s es s' -> no_unforce es -> no_force es -> has_seen s' u f -> step s' (Returned u b) s'' -> b = available t.
Proof.
  exact (fun D s0 t f a s es s' u b s'' R H N I F O ES NU NF V RE =>
    says_returned f (available t) s es s' u b s'' ES NU (fun _ => NF) (stored_says s0 t f a s R H N I F O) RE V).
Qed.
Print Assumptions c49_unforce.
(** Where calls do not overlap and callers know of earlier stores, every answer
    is the latest of false by [force], the compiler's by [unforce] and the
    compiler's to the first to ask; nothing panics. *)
Theorem c49_serial : forall (D : detection) es s,
  serial_steps initial es s -> answers es = expected None es /\ forall t, ~ In (Panicked t) es.
Proof. exact @serial_answers. Qed.
Print Assumptions c49_serial.
(** So it is for any program of one thread. *)
Theorem c49_one_thread : forall (D : detection) es s,
  steps initial es s -> (forall t, ~ In (Spawned t) es) ->
  answers es = expected None es /\ forall t, ~ In (Panicked t) es.
Proof. exact @alone_answers. Qed.
Print Assumptions c49_one_thread.
(** The restrictions matter: detection under way on another thread may store
    over [force], and then even the thread that forced is told true. *)
Theorem c49_race_refuted : exists (D : detection) es t f es' s,
  steps initial (es ++ Forced t f :: es') s /\ no_unforce (es ++ Forced t f :: es') /\ In (Returned t true) es'.
Proof.
  exists new_compiler, [Spawned 0; CallInside 1; Tau 1; Tau 1; Tau 1; CallForce 0], 0, 1, [Stored 1 2 true; Tau 1; CallInside 0; Returned 0 true].
  eexists. split; [|split].
  - go (step_spawn _ 0). go (step_call_inside _ 1). go (step_load_unknown _ 1 _ 0 0). go (step_once_run _ 1). go (step_query _ 1).
    go (step_call_force _ 0). go (step_force _ 0 _ 1). go (step_store _ 1 _ _ _ 2). go (step_done _ 1 _ ByOnce).
    go (step_call_inside _ 0). go (step_load_answer _ 0 _ 2 true). stop.
  - intros t H. cbn in H. intuition discriminate.
  - cbn. auto.
Qed.
Print Assumptions c49_race_refuted.
(** Nor does the store of [force] reach a thread that is not told of it. *)
Theorem c49_unseen_refuted : exists (D : detection) es t f es' u s,
  steps initial (es ++ Forced t f :: es') s /\ no_unforce (es ++ Forced t f :: es') /\
  (exists s0, steps initial es s0 /\ forall w, ~ initializing s0 w) /\ In (Returned u true) es'.
Proof.
  exists new_compiler, [CallInside 0; Tau 0; Tau 0; Tau 0; Stored 0 1 true; Tau 0; Returned 0 true; Spawned 0; CallForce 0], 0, 2, [CallInside 1; Returned 1 true], 1.
  eexists. split; [|split; [|split]].
  - go (step_call_inside _ 0). go (step_load_unknown _ 0 _ 0 0). go (step_once_run _ 0). go (step_query _ 0).
    go (step_store _ 0 _ _ _ 1). go (step_done _ 0 _ ByOnce). go (step_load_answer _ 0 _ 1 true). go (step_spawn _ 0).
    go (step_call_force _ 0). go (step_force _ 0 _ 2). go (step_call_inside _ 1). go (step_load_answer _ 1 _ 1 true). stop.
  - intros t H. cbn in H. intuition discriminate.
  - eexists. split.
    + go (step_call_inside _ 0). go (step_load_unknown _ 0 _ 0 0). go (step_once_run _ 0). go (step_query _ 0).
      go (step_store _ 0 _ _ _ 1). go (step_done _ 0 _ ByOnce). go (step_load_answer _ 0 _ 1 true). go (step_spawn _ 0).
      go (step_call_force _ 0). stop.
    + intros w (th & c & p & E & A). destruct w as [|[|[|w]]]; cbn in E; try discriminate E; injection E as <-; discriminate A.
  - cbn. auto.
Qed.
Print Assumptions c49_unseen_refuted.
(** Force, ask, unforce, ask, on one thread. *)
Example c49_example : exists s, @steps new_compiler (@initial new_compiler)
  [CallForce 0; Forced 0 1; CallInside 0; Returned 0 false; CallUnforce 0; Tau 0; Stored 0 2 true; Unforced 0; CallInside 0; Returned 0 true] s.
Proof.
  eexists. go (step_call_force _ 0). go (step_force _ 0 _ 1). go (step_call_inside _ 0). go (step_load_answer _ 0 _ 1 false).
  go (step_call_unforce _ 0). go (step_query _ 0). go (step_store _ 0 _ _ _ 2). go (step_done _ 0 _ ByUnforce).
  go (step_call_inside _ 0). go (step_load_answer _ 0 _ 2 true). stop.
Qed.

(** ** C50 *)
(** While no two threads are inside [initialize] at once, the program has its
    own hook whenever none is, and nothing panics. *)
Theorem c50_one_at_a_time : forall (D : detection) es s,
  solo_steps initial es s ->
  ((forall t, ~ initializing s t) -> the_hook s = Installed program_hook) /\ forall t, ~ In (Panicked t) es.
Proof. exact @hook_restored. Qed.
Print Assumptions c50_one_at_a_time.
(** So it is for any threads making any calls but [unforce], *)
Theorem c50_inside_only : forall (D : detection) es s,
  steps initial es s -> no_unforce es ->
  ((forall t, ~ initializing s t) -> the_hook s = Installed program_hook) /\ forall t, ~ In (Panicked t) es.
Proof. exact (fun D es s H N => hook_restored es s (solo_no_unforce es s H N)). Qed.
Print Assumptions c50_inside_only.
(** but [unforce] does not go through the [Once], and two threads may well be
    inside: then the program's hook is lost and a call panics. *)
Theorem c50_race_refuted : exists (D : detection) es t s,
  steps initial es s /\ (forall u, ~ in_call s u) /\ the_hook s <> Installed program_hook /\ In (Panicked t) es.
Proof.
  exists old_compiler, [Spawned 0; CallUnforce 0; Tau 0; Tau 0; CallInside 1; Tau 1; Tau 1; Tau 1; Tau 1; Tau 0; Stored 0 1 true; Tau 0; Tau 0; Unforced 0;
    Tau 1; Stored 1 2 true; Tau 1; Tau 1; Panicked 1], 1.
  eexists. split; [|split; [|split]].
  - go (step_spawn _ 0). go (step_call_unforce _ 0). go (step_take _ 0). go (step_set_null _ 0).
    go (step_call_inside _ 1). go (step_load_unknown _ 1 _ 0 0). go (step_once_run _ 1). go (step_take _ 1). go (step_set_null _ 1).
    go (step_probe _ 0). go (step_probe_store _ 0 _ _ _ _ 1). go (step_take_null _ 0). go (step_set_original _ 0). go (step_check_ok _ 0 _ ByUnforce).
    go (step_probe _ 1). go (step_probe_store _ 1 _ _ _ _ 2). go (step_take_null _ 1). go (step_set_original _ 1).
    go (step_check_race _ 1 _ ByOnce). stop.
  - intros u (th & E & A). destruct u as [|[|[|u]]]; cbn in E; try discriminate E; injection E as <-; now apply A.
  - cbn. discriminate.
  - cbn. auto 30.
Qed.
Print Assumptions c50_race_refuted.
(** One run, with the hook replaced in the middle. *)
Example c50_example :
  (exists s, @steps old_compiler (@initial old_compiler) [CallInside 0; Tau 0; Tau 0; Tau 0; Tau 0; Tau 0] s /\ the_hook s = Null) /\
  exists s, @steps old_compiler (@initial old_compiler)
    [CallInside 0; Tau 0; Tau 0; Tau 0; Tau 0; Tau 0; Stored 0 1 true; Tau 0; Tau 0; Tau 0; Returned 0 true] s /\ the_hook s = Installed 7.
Proof.
  split.
  - eexists. split.
    + go (step_call_inside _ 0). go (step_load_unknown _ 0 _ 0 0). go (step_once_run _ 0). go (step_take _ 0). go (step_set_null _ 0).
      go (step_probe _ 0). stop.
    + reflexivity.
  - eexists. split.
    + go (step_call_inside _ 0). go (step_load_unknown _ 0 _ 0 0). go (step_once_run _ 0). go (step_take _ 0). go (step_set_null _ 0).
      go (step_probe _ 0). go (step_probe_store _ 0 _ _ _ _ 1). go (step_take_null _ 0). go (step_set_original _ 0).
      go (step_check_ok _ 0 _ ByOnce). go (step_load_answer _ 0 _ 1 true). stop.
    + reflexivity.
Qed.
