(** * Compiler detection in a program that changes its panic hook (src/detection.rs 26-75).

    Detection.v with the program's own calls of [std::panic::set_hook] and
    [take_hook] added, made by any thread at any time. *)
From Coq Require Import List Arith Bool.
From Verif Require Import Detection Unwind.
Import ListNotations.

Inductive hevent :=
| Crate (e : event) (p : option init_pc)   (* of Detection.v; where the thread was in [initialize] *)
| Installs (t : nat) (h : hook)            (* [set_hook], also of a hook taken before *)
| Removes (t : nat) (h : hook).            (* [take_hook], with the hook it returns *)

Section Hooks.
Context {D : detection}.

Inductive hstep : state -> hevent -> state -> Prop :=
| hstep_crate s e s' : step s e s' -> hstep s (Crate e (doing s (mover e))) s'
| hstep_install s t th h : nth_error (threads s) t = Some th -> at_ th = Idle -> hstep s (Installs t h) (with_hook s h)
| hstep_remove s t th : nth_error (threads s) t = Some th -> at_ th = Idle ->
    hstep s (Removes t (the_hook s)) (with_hook s Default).

(** Executions all of whose steps are as [P] says. *)
Inductive hsteps (P : state -> hevent -> state -> Prop) : state -> list hevent -> state -> Prop :=
| hsteps_nil s : hsteps P s [] s
| hsteps_cons s e s' es s'' : hstep s e s' -> P s e s' -> hsteps P s' es s'' -> hsteps P s (e :: es) s''.
End Hooks.
