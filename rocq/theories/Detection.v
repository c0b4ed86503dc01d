(** * Compiler detection: src/detection.rs, as an interleaving of any number of threads.

    [WORKS] is accessed with relaxed ordering only.  It is modelled by the
    messages of its modification order: a load takes any message not older than
    what the thread has seen, a store may be placed anywhere after that.
    Synchronisation of the program's own (channels, joins, ...) is [Sync]. *)
From Coq Require Import List Arith Bool Lia.
Import ListNotations.

Class detection := {
  (** cfg [no_is_available] *)
  by_hook : bool;
  (** What the compiler answers on a thread: [proc_macro::is_available()] 28, or
      whether [proc_macro::Span::call_site()] works 67. *)
  available : nat -> bool;
  (** The panic hook of the program. *)
  program_hook : nat
}.

(** All null hooks are boxes of one zero-sized closure, hence equal as pointers (62-63, 72). *)
Inductive hook := Installed (n : nat) | Default | Null.

(** Where a thread is inside [initialize] 26-30, 56-75. *)
Inductive init_pc :=
| IQuery                               (* 28 *)
| IStore (b : bool)                    (* 29 *)
| IDone                                (* 30 *)
| PTake                                (* 64 *)
| PSetNull (original : hook)           (* 65 *)
| PProbe (original : hook)             (* 67 *)
| PStore (original : hook) (b : bool)  (* 68 *)
| PTakeNull (original : hook)          (* 70 *)
| PSetOriginal (original got : hook)   (* 71 *)
| PCheck (got : hook).                 (* 72-74 *)
(** Called by [INIT.call_once] 14 or by [unforce_fallback] 23. *)
Inductive caller := ByOnce | ByUnforce.
Inductive pc :=
| Idle
| Loading                              (* 8 *)
| Entering                             (* 14 *)
| Initializing (c : caller) (p : init_pc)
| Forcing.                             (* 19 *)
Record thread := { view : nat; at_ : pc }.
(** [std::sync::Once]; [Complete v] carries the view of the thread that ran it. *)
Inductive once := Incomplete | Running (t : nat) | Complete (v : nat) | Poisoned.
Record state := { messages : list (nat * nat); threads : list thread; init_once : once; the_hook : hook }.

Inductive event :=
| CallInside (t : nat) | Returned (t : nat) (b : bool)
| CallForce (t : nat) | Forced (t ts : nat)
| CallUnforce (t : nat) | Unforced (t : nat)
| Stored (t ts : nat) (b : bool)
| Panicked (t : nat)
| Spawned (t : nat)
| Synced (t u : nat)
| Tau (t : nat).

Section Detection.
Context {D : detection}.

Definition start_init : init_pc := if by_hook then PTake else IQuery.
Definition encode (b : bool) : nat := if b then 2 else 1.

Fixpoint update {A} (l : list A) (n : nat) (a : A) : list A :=
  match l, n with
  | [], _ => []
  | _ :: l, O => a :: l
  | b :: l, S n => b :: update l n a
  end.
Definition put (s : state) (t : nat) (th : thread) : state :=
  {| messages := messages s; threads := update (threads s) t th; init_once := init_once s; the_hook := the_hook s |}.
Definition goto (s : state) (t : nat) (th : thread) (p : pc) : state := put s t {| view := view th; at_ := p |}.
Definition with_hook (s : state) (h : hook) : state :=
  {| messages := messages s; threads := threads s; init_once := init_once s; the_hook := h |}.
Definition with_once (s : state) (o : once) : state :=
  {| messages := messages s; threads := threads s; init_once := o; the_hook := the_hook s |}.
Definition with_message (s : state) (m : nat * nat) : state :=
  {| messages := m :: messages s; threads := threads s; init_once := init_once s; the_hook := the_hook s |}.
Definition fresh (s : state) (th : thread) (ts : nat) : Prop := view th < ts /\ ~ In ts (map fst (messages s)).
(** [initialize] returns to its caller. *)
Definition finish (s : state) (t : nat) (th : thread) (c : caller) : state :=
  match c with
  | ByOnce => goto (with_once s (Complete (view th))) t th Loading
  | ByUnforce => goto s t th Idle
  end.
(** [initialize] panics; a panic inside [call_once] poisons it. *)
Definition abort (s : state) (t : nat) (th : thread) (c : caller) : state :=
  match c with
  | ByOnce => goto (with_once s Poisoned) t th Idle
  | ByUnforce => goto s t th Idle
  end.
Definition returned (t : nat) (c : caller) : event := match c with ByOnce => Tau t | ByUnforce => Unforced t end.

Inductive step : state -> event -> state -> Prop :=
| step_call_inside s t th : nth_error (threads s) t = Some th -> at_ th = Idle ->
    step s (CallInside t) (goto s t th Loading)
| step_call_force s t th : nth_error (threads s) t = Some th -> at_ th = Idle ->
    step s (CallForce t) (goto s t th Forcing)
| step_call_unforce s t th : nth_error (threads s) t = Some th -> at_ th = Idle ->
    step s (CallUnforce t) (goto s t th (Initializing ByUnforce start_init))
| step_spawn s t th : nth_error (threads s) t = Some th -> at_ th = Idle ->
    step s (Spawned t) {| messages := messages s; threads := threads s ++ [{| view := view th; at_ := Idle |}];
                          init_once := init_once s; the_hook := the_hook s |}
| step_sync s t th u thu : nth_error (threads s) t = Some th -> at_ th = Idle ->
    nth_error (threads s) u = Some thu ->
    step s (Synced t u) (put s t {| view := Nat.max (view th) (view thu); at_ := Idle |})
  (* 8-12 *)
| step_load_answer s t th ts b : nth_error (threads s) t = Some th -> at_ th = Loading ->
    In (ts, encode b) (messages s) -> view th <= ts ->
    step s (Returned t b) (put s t {| view := ts; at_ := Idle |})
| step_load_unknown s t th ts x : nth_error (threads s) t = Some th -> at_ th = Loading ->
    In (ts, x) (messages s) -> (forall b, x <> encode b) -> view th <= ts ->
    step s (Tau t) (put s t {| view := ts; at_ := Entering |})
  (* 14-15 *)
| step_once_run s t th : nth_error (threads s) t = Some th -> at_ th = Entering -> init_once s = Incomplete ->
    step s (Tau t) (goto (with_once s (Running t)) t th (Initializing ByOnce start_init))
| step_once_skip s t th v : nth_error (threads s) t = Some th -> at_ th = Entering -> init_once s = Complete v ->
    step s (Tau t) (put s t {| view := Nat.max (view th) v; at_ := Loading |})
| step_once_poisoned s t th : nth_error (threads s) t = Some th -> at_ th = Entering -> init_once s = Poisoned ->
    step s (Panicked t) (goto s t th Idle)
  (* 18-20 *)
| step_force s t th ts : nth_error (threads s) t = Some th -> at_ th = Forcing -> fresh s th ts ->
    step s (Forced t ts) (put (with_message s (ts, encode false)) t {| view := ts; at_ := Idle |})
  (* 26-30 *)
| step_query s t th c : nth_error (threads s) t = Some th -> at_ th = Initializing c IQuery ->
    step s (Tau t) (goto s t th (Initializing c (IStore (available t))))
| step_store s t th c b ts : nth_error (threads s) t = Some th -> at_ th = Initializing c (IStore b) -> fresh s th ts ->
    step s (Stored t ts b) (put (with_message s (ts, encode b)) t {| view := ts; at_ := Initializing c IDone |})
| step_done s t th c : nth_error (threads s) t = Some th -> at_ th = Initializing c IDone ->
    step s (returned t c) (finish s t th c)
  (* 56-75 *)
| step_take s t th c : nth_error (threads s) t = Some th -> at_ th = Initializing c PTake ->
    step s (Tau t) (goto (with_hook s Default) t th (Initializing c (PSetNull (the_hook s))))
| step_set_null s t th c o : nth_error (threads s) t = Some th -> at_ th = Initializing c (PSetNull o) ->
    step s (Tau t) (goto (with_hook s Null) t th (Initializing c (PProbe o)))
| step_probe s t th c o : nth_error (threads s) t = Some th -> at_ th = Initializing c (PProbe o) ->
    step s (Tau t) (goto s t th (Initializing c (PStore o (available t))))
| step_probe_store s t th c o b ts : nth_error (threads s) t = Some th -> at_ th = Initializing c (PStore o b) -> fresh s th ts ->
    step s (Stored t ts b) (put (with_message s (ts, encode b)) t {| view := ts; at_ := Initializing c (PTakeNull o) |})
| step_take_null s t th c o : nth_error (threads s) t = Some th -> at_ th = Initializing c (PTakeNull o) ->
    step s (Tau t) (goto (with_hook s Default) t th (Initializing c (PSetOriginal o (the_hook s))))
| step_set_original s t th c o g : nth_error (threads s) t = Some th -> at_ th = Initializing c (PSetOriginal o g) ->
    step s (Tau t) (goto (with_hook s o) t th (Initializing c (PCheck g)))
| step_check_ok s t th c : nth_error (threads s) t = Some th -> at_ th = Initializing c (PCheck Null) ->
    step s (returned t c) (finish s t th c)
| step_check_race s t th c g : nth_error (threads s) t = Some th -> at_ th = Initializing c (PCheck g) -> g <> Null ->
    step s (Panicked t) (abort s t th c).

(** Executions. *)
Inductive steps : state -> list event -> state -> Prop :=
| steps_nil s : steps s [] s
| steps_cons s e s' es s'' : step s e s' -> steps s' es s'' -> steps s (e :: es) s''.
(** The program starts with one thread, 4-5. *)
Definition initial : state :=
  {| messages := [(0, 0)]; threads := [{| view := 0; at_ := Idle |}]; init_once := Incomplete;
     the_hook := Installed program_hook |}.
End Detection.
