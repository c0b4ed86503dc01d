(** * Panics and compiler detection: who is told of a panic, and what a thread
    which is unwinding may ask (src/detection.rs 26-75).

    Detection.v with the panics of the program added.  A panic is reported to
    the hook installed at that moment and then unwinds its thread, which may go
    on making calls from destructors until the panic is caught.  On such a
    thread [std::panic::take_hook] and [set_hook] panic, and where the compiler
    has no [is_available] (before 1.57) a panic on it aborts the process. *)
From Coq Require Import List Arith Bool Lia.
From Verif Require Import Detection.
Import ListNotations.

Record ustate := { base : state; unwinding : nat -> bool; dead : bool }.

Inductive uevent :=
| Step (e : event)                          (* of Detection.v; no panic is reported *)
| ProbePanicked (t : nat) (h : hook)        (* 67, reported to [h] and caught there *)
| CratePanicked (t : nat) (h : hook)        (* 73, or 14 on a poisoned [Once] *)
| ProgramPanicked (t : nat) (h : hook)
| Caught (t : nat)
| Aborted (t : nat) (h : hook).             (* by a call of this crate *)

Section Unwind.
Context {D : detection}.

(** Calls of [take_hook] and [set_hook] 64, 65, 70, 71. *)
Definition touches_hook (p : init_pc) : bool :=
  match p with PTake | PSetNull _ | PTakeNull _ | PSetOriginal _ _ => true | _ => false end.
(** The call of 67 panics. *)
Definition probe_fails (t : nat) (p : init_pc) : bool :=
  match p with PProbe _ => negb (available t) | _ => false end.
Definition doing (s : state) (t : nat) : option init_pc :=
  match nth_error (threads s) t with
  | Some th => match at_ th with Initializing _ p => Some p | _ => None end
  | None => None
  end.
(** The next step of the thread reports no panic. *)
Definition quiet (s : ustate) (t : nat) : bool :=
  match doing (base s) t with
  | Some p => negb (probe_fails t p) && negb (unwinding s t && touches_hook p)
  | None => true
  end.
Definition set_unwinding (s : ustate) (t : nat) (b : bool) : nat -> bool :=
  fun u => if u =? t then b else unwinding s u.
Definition mover (e : event) : nat :=
  match e with
  | CallInside t | Returned t _ | CallForce t | Forced t _ | CallUnforce t | Unforced t
  | Stored t _ _ | Panicked t | Spawned t | Synced t _ | Tau t => t
  end.

Inductive ustep : ustate -> uevent -> ustate -> Prop :=
| ustep_quiet s e b : dead s = false -> step (base s) e b -> (forall t, e <> Panicked t) -> quiet s (mover e) = true ->
    ustep s (Step e) {| base := b; unwinding := unwinding s; dead := false |}
  (* 67: the panic is caught on the same line *)
| ustep_probe s t p b : dead s = false -> doing (base s) t = Some p -> probe_fails t p = true -> unwinding s t = false ->
    step (base s) (Tau t) b ->
    ustep s (ProbePanicked t (the_hook (base s))) {| base := b; unwinding := unwinding s; dead := false |}
  (* 14, 73 *)
| ustep_crate_panic s t b : dead s = false -> step (base s) (Panicked t) b -> unwinding s t = false ->
    ustep s (CratePanicked t (the_hook (base s))) {| base := b; unwinding := set_unwinding s t true; dead := false |}
  (* the program panics outside of this crate; once more while it unwinds may abort it *)
| ustep_program_panic s t th d : dead s = false -> nth_error (threads (base s)) t = Some th -> at_ th = Idle ->
    (d = true -> unwinding s t = true) ->
    ustep s (ProgramPanicked t (the_hook (base s))) {| base := base s; unwinding := set_unwinding s t true; dead := d |}
| ustep_caught s t th : dead s = false -> nth_error (threads (base s)) t = Some th -> at_ th = Idle -> unwinding s t = true ->
    ustep s (Caught t) {| base := base s; unwinding := set_unwinding s t false; dead := false |}
  (* panics while panicking *)
| ustep_abort_hook s t p : dead s = false -> doing (base s) t = Some p -> unwinding s t = true ->
    touches_hook p = true \/ probe_fails t p = true ->
    ustep s (Aborted t (the_hook (base s))) {| base := base s; unwinding := unwinding s; dead := true |}
| ustep_abort_crate s t b : dead s = false -> step (base s) (Panicked t) b -> unwinding s t = true ->
    ustep s (Aborted t (the_hook (base s))) {| base := base s; unwinding := unwinding s; dead := true |}.

Inductive usteps : ustate -> list uevent -> ustate -> Prop :=
| usteps_nil s : usteps s [] s
| usteps_cons s e s' es s'' : ustep s e s' -> usteps s' es s'' -> usteps s (e :: es) s''.
Definition uinitial : ustate := {| base := initial; unwinding := fun _ => false; dead := false |}.
End Unwind.
