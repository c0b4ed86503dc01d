(** * What is claimed about a program that changes its panic hook *)
From Coq Require Import List Arith Bool.
From Verif Require Import Detection SpecDetect Unwind Hooks.
Import ListNotations.

Section Spec.
Context {D : detection}.

(** The hook a program expects: the one it installed last. *)
Fixpoint own (h : hook) (es : list hevent) : hook :=
  match es with
  | [] => h
  | Installs _ h' :: es => own h' es
  | Removes _ _ :: es => own Default es
  | Crate _ _ :: es => own h es
  end.
Definition changes (e : hevent) : bool := match e with Crate _ _ => false | Installs _ _ | Removes _ _ => true end.
(** What detection does to the hook.  First component: what the program is left with.
    Second: what it had when detection began, and has again when it ends. *)
Definition note (k : hook * hook) (e : hevent) : hook * hook :=
  match e with
  | Installs _ h => (h, snd k)
  | Removes _ _ => (Default, snd k)
  | Crate _ (Some PTake) => (fst k, fst k)
  | Crate _ (Some (PSetOriginal _ _)) => (snd k, snd k)
  | Crate _ _ => k
  end.
Definition left_with (es : list hevent) : hook :=
  fst (fold_left note es (Installed program_hook, Installed program_hook)).

Definition crate_events (es : list hevent) : list event :=
  flat_map (fun e => match e with Crate e _ => [e] | _ => [] end) es.
(** Detection does nothing to the hook. *)
Definition hands_off (e : hevent) : Prop := forall x p, e = Crate x (Some p) -> touches_hook p = false.

(** ** Executions *)
Definition any (s : state) (e : hevent) (s' : state) : Prop := True.
(** No two threads are inside [initialize] at once. *)
Definition single (s : state) (e : hevent) (s' : state) : Prop := solo s'.
(** Moreover the program does not change its hook meanwhile. *)
Definition polite (s : state) (e : hevent) (s' : state) : Prop :=
  solo s' /\ (changes e = true -> forall t, ~ initializing s t).
(** Nobody holds the hook of the program: detection has not begun, is over, or its
    steps at the hook are. *)
Definition hook_free (s : state) : Prop :=
  forall t p, doing s t = Some p ->
    match p with PSetNull _ | PProbe _ | PStore _ _ | PTakeNull _ | PSetOriginal _ _ => False | _ => True end.
End Spec.
