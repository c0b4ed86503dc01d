(** * Extending and collecting from an iterator that is user code.

    [extend] and [from_iter] take any iterator.  Between two items it may use the
    crate, on every value except the stream being extended (which is mutably
    borrowed), and it may panic.  The panic unwinds through [extend]; if it is
    caught further out, the stream being extended is still there.  A stream being
    collected is dropped by the unwinding. *)
From Verif Require Import Base Unicode Tokens RcHeap.
Import ListNotations.

(** What an iterator does: [IDo o k] runs [o] (a panic of [o] ends the iterator too),
    [ITry o k] runs [o] and catches its panic, [IYield j k] returns the value of the
    variable [j] and goes on with [k] when called again. *)
Inductive lop : Type :=
| LOp (o : op)
| LExtendTrees (i : nat) (it : liter)      (* Extend<TokenTree> *)
| LExtendStreams (i : nat) (it : liter)    (* Extend<TokenStream> *)
| LCollectTrees (it : liter)               (* FromIterator<TokenTree> *)
| LCollectStreams (it : liter)             (* FromIterator<TokenStream> *)
with liter : Type :=
| IEnd
| IPanic
| IDo (o : lop) (k : liter)
| ITry (o : lop) (k : liter)
| IYield (j : nat) (k : liter).

(** Where the items go: the uniquely owned vector behind a stream, or the vector of
    an [RcVecBuilder]. *)
Inductive sink := SCell (l : loc) | SVec (v : list htree).
Definition give (h : heap) (s : sink) (v : list htree) : out (heap * sink) :=
  match s with
  | SCell l => do h <- append h l v;; Done (h, s)
  | SVec w => Done (h, SVec (w ++ v))
  end.
(** One item: a tree is pushed (fallback.rs 303-305), a stream is taken apart
    (289-294, and [Flatten] of [IntoIter for TokenStream], 310, 316-323). *)
Definition yield (trees : bool) (h : heap) (e : env) (j : nat) : out (heap * env * list htree) :=
  match trees, lookup e j with
  | true, Some (VTree t) => Done (h, assign e j None, push_htree [] t)
  | false, Some (VStream l) => do (h, v) <- make_owned h l;; Done (h, assign e j None, v)
  | _, _ => Illtyped
  end.

(** The boolean: did the call return (or unwind)? *)
Fixpoint lexec (st : state) (o : lop) {struct o} : out (state * bool) :=
  let (h, e) := st in
  match o with
  | LOp o => do st <- exec st o;; Done (st, true)
  | LExtendTrees i it =>                                            (* 299-306 *)
      match lookup e i with
      | Some (VStream l) =>
          do (h, l) <- make_mut h l;;
          do (h, e, s, ok) <- lrun true h (assign e i None) (SCell l) it;;
          Done (h, assign e i (Some (VStream l)), ok)
      | _ => Illtyped
      end
  | LExtendStreams i it =>                                          (* 308-312 *)
      match lookup e i with
      | Some (VStream l) =>
          do (h, l) <- make_mut h l;;
          do (h, e, s, ok) <- lrun false h (assign e i None) (SCell l) it;;
          Done (h, assign e i (Some (VStream l)), ok)
      | _ => Illtyped
      end
  | LCollectTrees it =>                                             (* 279-285 *)
      let (h, l) := alloc h [] in
      do (h, l) <- make_mut h l;;
      do (h, e, s, ok) <- lrun true h e (SCell l) it;;
      if ok : bool then Done (h, e ++ [Some (VStream l)], true)
      else do h <- drop_stream h l;; Done (h, e ++ [None], false)
  | LCollectStreams it =>                                           (* 287-297 *)
      do (h, e, s, ok) <- lrun false h e (SVec []) it;;
      match s with
      | SVec v =>
          if ok : bool then let (h, l) := alloc h v in Done (h, e ++ [Some (VStream l)], true)
          else do h <- drop_iter h v;; Done (h, e ++ [None], false)
      | SCell _ => Fault
      end
  end
with lrun (trees : bool) (h : heap) (e : env) (s : sink) (it : liter) {struct it} : out (heap * env * sink * bool) :=
  match it with
  | IEnd => Done (h, e, s, true)
  | IPanic => Done (h, e, s, false)
  | IDo o k =>
      do (h, e, ok) <- lexec (h, e) o;;
      if ok : bool then lrun trees h e s k else Done (h, e, s, false)
  | ITry o k =>
      do (h, e, ok) <- lexec (h, e) o;; lrun trees h e s k
  | IYield j k =>
      do (h, e, v) <- yield trees h e j;;
      do (h, s) <- give h s v;;
      lrun trees h e s k
  end.

(** A program catches what its calls throw. *)
Fixpoint lexec_all (st : state) (os : list lop) : out (state * list bool) :=
  match os with
  | [] => Done (st, [])
  | o :: os => do (st, ok) <- lexec st o;; do (st, oks) <- lexec_all st os;; Done (st, ok :: oks)
  end.
