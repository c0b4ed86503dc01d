(** * C77: programs that catch panics *)
From Verif Require Import Base Unicode Tokens Fallback Wrapper SpecWrapper WrapperPartial.
Import ListNotations.

Section Spec.
Context {U : unicode} {T : ctypes} {C : compiler} {F : fallback_map}.
Variable left : cstream -> list cstream -> cstream.

(** An item which may be put into the stream: a fallback stream takes every tree. *)
Definition takes_tree (s : wstream) (t : wtree) : Prop :=
  match s with StreamC _ _ => backing (VTree t) = Some ByCompiler | StreamF _ => True end.
Definition takes_stream (s x : wstream) : Prop := backing (VStream x) = backing (VStream s).

(** The iterator stopped after the items [given]: at the first item the stream
    cannot take, or at the end of the iterator. *)
Definition stops {A} (takes : A -> Prop) (items : list A) (e : ending) (given : list A) (o : outcome unit) : Prop :=
  Forall takes given /\
  ((items = given /\ o = match e with Finished => Val tt | Unwound => Panics end) \/
   (exists t rest, items = given ++ t :: rest /\ ~ takes t /\ o = Mismatch)).

(** A stream collected from an iterator that panics in the end. *)
Definition refuses (e : ending) (whole : outcome wstream) : outcome wstream :=
  match e, whole with Unwound, Val _ => Panics | _, w => w end.

(** What an interrupted [extend] of the compiler keeps of the streams handed out. *)
Definition left_law (kept : list (list ctree) -> list ctree) : Prop :=
  forall s ss, c_trees (left s ss) = c_trees s ++ kept (map c_trees ss).

(** A program whose calls are each under [catch_unwind]: a call makes a new value
    unless it panics; [extend] changes a stream in place, also when it panics. *)
Inductive caught :=
| Call (inside : bool) (c : call nat)
| InPlaceTrees (i : nat) (js : list nat) (e : ending)
| InPlaceStreams (i : nat) (js : list nat) (e : ending)
| CollectTrees (inside : bool) (js : list nat) (e : ending)
| CollectStreams (inside : bool) (js : list nat) (e : ending).

Fixpoint put (regs : list value) (i : nat) (v : value) : list value :=
  match regs, i with
  | [], _ => []
  | _ :: regs, O => v :: regs
  | r :: regs, S i => r :: put regs i v
  end.
Definition made (regs : list value) (o : outcome value) : list value * outcome value :=
  (regs ++ [match o with Val v => v | _ => VNone end], o).
Definition changed (regs : list value) (i : nat) (r : outcome (wstream * outcome unit)) : list value * outcome value :=
  match r with
  | Val (s, o) => (put regs i (VStream s), obind o (fun _ => Val VNone))
  | Mismatch => (regs, Mismatch)
  | Panics => (regs, Panics)
  | Illtyped => (regs, Illtyped)
  end.
Definition do_step (regs : list value) (st : caught) : list value * outcome value :=
  match st with
  | Call inside c => made regs (api inside (cmap (read regs) c))
  | InPlaceTrees i js e =>
      changed regs i (obind (as_stream (read regs i)) (fun s => obind (as_trees (map (read regs) js)) (fun ts =>
        Val (extend_trees_from s ts e))))
  | InPlaceStreams i js e =>
      changed regs i (obind (as_stream (read regs i)) (fun s => obind (as_streams (map (read regs) js)) (fun ss =>
        Val (extend_streams_from left s ss e))))
  | CollectTrees inside js e =>
      made regs (obind (as_trees (map (read regs) js)) (fun ts =>
        obind (from_trees_from inside ts e) (fun s => Val (VStream s))))
  | CollectStreams inside js e =>
      made regs (obind (as_streams (map (read regs) js)) (fun ss =>
        obind (from_streams_from left inside ss e) (fun s => Val (VStream s))))
  end.
(** The outcomes, and the values there are in the end. *)
Fixpoint run_caught (regs : list value) (h : list caught) : list (outcome value) * list value :=
  match h with
  | [] => ([], regs)
  | st :: h => let (regs, o) := do_step regs st in let (os, regs) := run_caught regs h in (o :: os, regs)
  end.
(** The same program where every append reaches the compiler at once. *)
Fixpoint run_caught_eager (regs : list value) (h : list caught) : list (outcome value) * list value :=
  match h with
  | [] => ([], regs)
  | st :: h =>
      let (regs, o) := do_step regs st in
      let (os, regs) := run_caught_eager (map settle regs) h in (omap settle o :: os, regs)
  end.

End Spec.
