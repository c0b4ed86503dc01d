(** * What is claimed about compiler detection *)
From Coq Require Import List Arith Bool Lia.
From Verif Require Import Detection.
Import ListNotations.

Section Spec.
Context {D : detection}.

Definition reachable (s : state) : Prop := exists es, steps initial es s.

(** Events of the detection itself, as opposed to the program making calls. *)
Definition internal (e : event) : bool :=
  match e with
  | Returned _ _ | Forced _ _ | Unforced _ | Stored _ _ _ | Panicked _ | Tau _ => true
  | CallInside _ | CallForce _ | CallUnforce _ | Spawned _ | Synced _ _ => false
  end.
(** The thread which takes such a step. *)
Definition moved (e : event) : option nat :=
  match e with
  | Returned t _ | Forced t _ | Unforced t | Stored t _ _ | Panicked t | Tau t => Some t
  | _ => None
  end.
(** The thread has a call which has not returned. *)
Definition in_call (s : state) (t : nat) : Prop :=
  exists th, nth_error (threads s) t = Some th /\ at_ th <> Idle.
Definition initializing (s : state) (t : nat) : Prop :=
  exists th c p, nth_error (threads s) t = Some th /\ at_ th = Initializing c p.

(** Events which begin a call. *)
Definition calls (e : event) : option nat :=
  match e with CallInside t | CallForce t | CallUnforce t => Some t | _ => None end.
(** The steps taken by a thread. *)
Definition moves_of (t : nat) (es : list event) : nat :=
  length (filter (fun e => match moved e with Some u => u =? t | None => false end) es).

(** No call of [force] or [unforce]. *)
Definition no_force (es : list event) : Prop := forall t, ~ In (CallForce t) es.
Definition no_unforce (es : list event) : Prop := forall t, ~ In (CallUnforce t) es.

(** ** C49 *)
(** The thread has seen the message [ts] or a later one. *)
Definition has_seen (s : state) (t ts : nat) : Prop :=
  exists th, nth_error (threads s) t = Some th /\ ts <= view th.
(** The message [ts] is the newest. *)
Definition newest (s : state) (ts : nat) : Prop := forall m, In m (messages s) -> fst m <= ts.
(** Detection has run, or every thread knows of the message [ts]. *)
Definition detection_over (s : state) (ts : nat) : Prop :=
  match init_once s with
  | Complete _ | Poisoned => True
  | Running _ => False
  | Incomplete => forall t th, nth_error (threads s) t = Some th -> ts <= view th /\ at_ th <> Entering
  end.
(** Programs whose calls do not overlap, each caller knowing of all earlier stores. *)
Inductive serial_steps : state -> list event -> state -> Prop :=
| serial_nil s : serial_steps s [] s
| serial_cons s e s' es s'' : step s e s' ->
    (forall t, calls e = Some t -> (forall u, ~ in_call s u) /\ forall m, In m (messages s) -> has_seen s t (fst m)) ->
    serial_steps s' es s'' -> serial_steps s (e :: es) s''.
(** Their answers: the latest of [force], [unforce] and the first detection counts. *)
Fixpoint expected (latest : option bool) (es : list event) : list bool :=
  match es with
  | [] => []
  | Forced _ _ :: es => expected (Some false) es
  | Unforced t :: es => expected (Some (available t)) es
  | Returned t _ :: es =>
      let b := match latest with Some b => b | None => available t end in b :: expected (Some b) es
  | _ :: es => expected latest es
  end.
Definition answers (es : list event) : list bool :=
  flat_map (fun e => match e with Returned _ b => [b] | _ => [] end) es.

(** ** C50 *)
(** Executions in which no two threads are inside [initialize] at once. *)
Definition solo (s : state) : Prop := forall t u, initializing s t -> initializing s u -> t = u.
Inductive solo_steps : state -> list event -> state -> Prop :=
| solo_nil s : solo_steps s [] s
| solo_cons s e s' es s'' : step s e s' -> solo s' -> solo_steps s' es s'' -> solo_steps s (e :: es) s''.
End Spec.
