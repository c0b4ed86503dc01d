(** * What is claimed about panics and compiler detection *)
From Coq Require Import List Arith Bool Lia.
From Verif Require Import Detection SpecDetect Unwind.
Import ListNotations.

(** The steps of the detection in an execution with panics. *)
Definition detection_of (e : uevent) : list event :=
  match e with
  | Step e => [e]
  | ProbePanicked t _ => [Tau t]
  | CratePanicked t _ => [Panicked t]
  | ProgramPanicked _ _ | Caught _ | Aborted _ _ => []
  end.
(** The thread it happens on. *)
Definition thread_of (e : uevent) : nat :=
  match e with
  | Step (CallInside t) | Step (Returned t _) | Step (CallForce t) | Step (Forced t _) | Step (CallUnforce t)
  | Step (Unforced t) | Step (Stored t _ _) | Step (Panicked t) | Step (Spawned t) | Step (Synced t _) | Step (Tau t)
  | ProbePanicked t _ | CratePanicked t _ | ProgramPanicked t _ | Caught t | Aborted t _ => t
  end.
Definition never_unforces (es : list uevent) : Prop := forall t, ~ In (Step (CallUnforce t)) es.
Definition never_spawns (es : list uevent) : Prop := forall t, ~ In (Step (Spawned t)) es.

Section Spec.
Context {D : detection}.
(** All panics are the program's own, and the program's hook is told of them. *)
Definition undisturbed (es : list uevent) : Prop :=
  forall e, In e es ->
    match e with
    | ProgramPanicked _ h => h = Installed program_hook
    | ProbePanicked _ _ | CratePanicked _ _ | Aborted _ _ => False
    | Step _ | Caught _ => True
    end.
End Spec.
