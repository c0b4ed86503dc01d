(** * Shared token storage: src/rcvec.rs and its users in src/fallback.rs.

    [Rc<Vec<TokenTree>>] is a heap cell with a reference count.  Owned vectors
    ([RcVecBuilder], [RcVecIntoIter], local variables) are plain lists.  No [Weak]
    is ever created, so [Rc::get_mut] and [Rc::make_mut] look at the strong count
    only.  Reference count overflow (an abort at isize::MAX) is not modelled. *)
From Verif Require Import Base Unicode Tokens.
Import ListNotations.

Definition loc := nat.

(** lib.rs TokenTree with a group's stream being a handle. *)
Inductive htree : Type :=
| HGroup (d : delimiter) (l : loc) (sp : span)
| HIdent (sym : str) (raw : bool) (sp : span)
| HPunct (ch : char) (s : spacing) (sp : span)
| HLiteral (repr : str) (sp : span).

Record cell := mkcell { rc : nat; elems : list htree }.
(** [None]: freed. *)
Definition heap := list (option cell).

Definition get (h : heap) (l : loc) : option cell :=
  match nth_error h l with Some x => x | None => None end.
Fixpoint set (h : heap) (l : loc) (x : option cell) : heap :=
  match h, l with
  | [], _ => []
  | _ :: h, O => x :: h
  | y :: h, S l => y :: set h l x
  end.

(** [Fault]: a freed or unallocated cell is touched.  [Illtyped]: the program
    would be rejected by Rust's type and borrow checker. *)
Inductive out (A : Type) : Type := Done (a : A) | Fault | Illtyped.
Arguments Done {A} a.
Arguments Fault {A}.
Arguments Illtyped {A}.
Definition obind {A B} (o : out A) (f : A -> out B) : out B :=
  match o with Done a => f a | Fault => Fault | Illtyped => Illtyped end.
Notation "'do' x '<-' m ';;' k" := (obind m (fun x => k)) (at level 200, x pattern, m at level 100, k at level 200).

(** ** Reference counts *)

(** [Rc::new]; rcvec.rs 89-93 ([build]). *)
Definition alloc (h : heap) (v : list htree) : heap * loc := (h ++ [Some (mkcell 1 v)], length h).
(** [Rc::clone]; rcvec.rs 115-121. *)
Definition rc_clone (h : heap) (l : loc) : out heap :=
  match get h l with
  | Some c => Done (set h l (Some (mkcell (S (rc c)) (elems c))))
  | None => Fault
  end.
(** Derived [Clone] of a tree, and of a vector of trees. *)
Definition clone_tree (h : heap) (t : htree) : out heap :=
  match t with HGroup _ l _ => rc_clone h l | _ => Done h end.
Fixpoint clone_trees (h : heap) (ts : list htree) : out heap :=
  match ts with
  | [] => Done h
  | t :: ts => do h <- clone_tree h t;; clone_trees h ts
  end.

(** ** Dropping *)

(** Activations of drop code on the native stack.  [GEnter l]: the drop glue of a
    stream, about to call [TokenStream::drop].  [GLoop]: inside its loop, with the
    current iterator and the explicit stack of iterators.  [GRc]: [TokenStream::drop]
    has returned, dropping the field [inner].  [GVec]: the count reached zero,
    dropping the vector's elements.  [GIter]: dropping the elements of an owned
    vector or iterator. *)
Inductive frame : Type :=
| GEnter (l : loc)
| GLoop (l : loc) (current : list htree) (stack : list (list htree))
| GRc (l : loc)
| GVec (l : loc) (v : list htree)
| GIter (v : list htree).

(** One step of the topmost activation.  fallback.rs 137-167. *)
Definition step (h : heap) (f : frame) (fs : list frame) : out (heap * list frame) :=
  match f with
  | GEnter l =>
      match get h l with
      | None => Fault
      | Some c =>
          (* 140-143: [get_mut], [take]. *)
          if rc c =? 1 then Done (set h l (Some (mkcell 1 [])), GLoop l (elems c) [] :: fs)
          else Done (h, GRc l :: fs)
      end
  | GLoop l [] [] => Done (h, GRc l :: fs)                                  (* 163 *)
  | GLoop l [] (next :: stack) => Done (h, GLoop l next stack :: fs)        (* 162 *)
  | GLoop l (HGroup _ g _ :: current) stack =>
      match get h g with
      | None => Fault
      | Some c =>
          (* 156-159; then [group] goes out of scope. *)
          if rc c =? 1
          then Done (set h g (Some (mkcell 1 [])), GEnter g :: GLoop l (elems c) (current :: stack) :: fs)
          else Done (h, GEnter g :: GLoop l current stack :: fs)
      end
  | GLoop l (_ :: current) stack => Done (h, GLoop l current stack :: fs)    (* 146-149 *)
  | GRc l =>
      match get h l with
      | None => Fault
      | Some c =>
          if rc c =? 1 then Done (set h l (Some (mkcell 0 [])), GVec l (elems c) :: fs)
          else Done (set h l (Some (mkcell (rc c - 1) (elems c))), fs)
      end
  | GVec l (HGroup _ g _ :: v) => Done (h, GEnter g :: GVec l v :: fs)
  | GVec l (_ :: v) => Done (h, GVec l v :: fs)
  | GVec l [] =>
      match get h l with
      | None => Fault
      | Some _ => Done (set h l None, fs)
      end
  | GIter (HGroup _ g _ :: v) => Done (h, GEnter g :: GIter v :: fs)
  | GIter (_ :: v) => Done (h, GIter v :: fs)
  | GIter [] => Done (h, fs)
  end.

Inductive run_out := Finished (h : heap) | RunFault | OutOfFuel.
Fixpoint run_drop (fuel : nat) (h : heap) (fs : list frame) : run_out :=
  match fs with
  | [] => Finished h
  | f :: fs =>
      match fuel with
      | O => OutOfFuel
      | S fuel =>
          match step h f fs with
          | Done (h, fs) => run_drop fuel h fs
          | _ => RunFault
          end
      end
  end.

(** A bound on the number of steps, from the sizes of the live vectors. *)
Definition heap_size (h : heap) : nat :=
  fold_right (fun x n => match x with Some c => length (elems c) + n | None => n end) 0 h.
Definition drop_frame (h : heap) (f : frame) (size : nat) : out heap :=
  match run_drop (10 * (heap_size h + size) + 8) h [f] with
  | Finished h => Done h
  | _ => Fault
  end.
Definition drop_stream (h : heap) (l : loc) : out heap := drop_frame h (GEnter l) 0.
Definition drop_tree (h : heap) (t : htree) : out heap :=
  match t with HGroup _ l _ => drop_stream h l | _ => Done h end.
Definition drop_iter (h : heap) (v : list htree) : out heap := drop_frame h (GIter v) (length v).
(** Dropping the [Rc] alone, without [TokenStream::drop] (rcvec.rs 51-61, [self]
    going out of scope, and [Rc::make_mut] releasing the shared value). *)
Definition drop_rc (h : heap) (l : loc) : out heap := drop_frame h (GRc l) 0.

(** ** Mutation *)

(** rcvec.rs 37-44 ([Rc::make_mut]): the handle after the call. *)
Definition make_mut (h : heap) (l : loc) : out (heap * loc) :=
  match get h l with
  | None => Fault
  | Some c =>
      if rc c =? 1 then Done (h, l)
      else
        do h <- clone_trees h (elems c);;
        let (h, l') := alloc h (elems c) in
        do h <- drop_rc h l;;
        Done (h, l')
  end.
(** rcvec.rs 51-61, fallback.rs 105-108 ([take_inner]). *)
Definition make_owned (h : heap) (l : loc) : out (heap * list htree) :=
  match get h l with
  | None => Fault
  | Some c =>
      if rc c =? 1 then
        do h <- drop_rc (set h l (Some (mkcell 1 []))) l;; Done (h, elems c)
      else
        do h <- clone_trees h (elems c);;
        do h <- drop_rc h l;; Done (h, elems c)
  end.
(** [Vec::push] / [Vec::extend] through an exclusive reference. *)
Definition append (h : heap) (l : loc) (v : list htree) : out heap :=
  match get h l with
  | None => Fault
  | Some c => Done (set h l (Some (mkcell (rc c) (elems c ++ v))))
  end.
(** fallback.rs 111-134. *)
Definition push_htree (v : list htree) (t : htree) : list htree :=
  match t with
  | HLiteral (c :: repr) sp =>
      if (c =? "-"%ch)%N then v ++ [HPunct "-"%ch Alone sp; HLiteral repr sp] else v ++ [t]
  | _ => v ++ [t]
  end.

(** The parser: builders filled from the inside out (parse.rs 175-246). *)
Fixpoint alloc_tree (t : token) (h : heap) : heap * htree :=
  match t with
  | TGroup d ts sp =>
      let fix go (ts : list token) (h : heap) : heap * list htree :=
        match ts with
        | [] => (h, [])
        | t :: ts => let (h, x) := alloc_tree t h in let (h, v) := go ts h in (h, x :: v)
        end in
      let (h, v) := go ts h in
      let (h, l) := alloc h v in (h, HGroup d l sp)
  | TIdent s r sp => (h, HIdent s r sp)
  | TPunct c s sp => (h, HPunct c s sp)
  | TLiteral r sp => (h, HLiteral r sp)
  end.
Fixpoint alloc_trees (ts : list token) (h : heap) : heap * list htree :=
  match ts with
  | [] => (h, [])
  | t :: ts => let (h, x) := alloc_tree t h in let (h, v) := alloc_trees ts h in (h, x :: v)
  end.

(** ** Programs *)

(** Values held by a program: a stream, a tree, an iterator. *)
Inductive value := VStream (l : loc) | VTree (t : htree) | VIter (v : list htree).
(** Variables; [None] once moved out or dropped. *)
Definition env := list (option value).
Definition lookup (e : env) (i : nat) : option value :=
  match nth_error e i with Some x => x | None => None end.
Fixpoint assign {A} (e : list (option A)) (i : nat) (x : option A) : list (option A) :=
  match e, i with
  | [], _ => []
  | _ :: e, O => x :: e
  | y :: e, S i => y :: assign e i x
  end.

Inductive op : Type :=
| ONew                                  (* TokenStream::new *)
| OParse (ts : list token)              (* a parsed stream *)
| OLeaf (t : token)                     (* an Ident, Punct or Literal *)
| OGroup (d : delimiter) (i : nat)      (* Group::new *)
| OStreamOf (i : nat)                   (* Group::stream *)
| OSetSpan (i : nat) (sp : span)        (* TokenTree::set_span *)
| OClone (i : nat)
| OFromTree (i : nat)                   (* From<TokenTree> *)
| OFromTrees (js : list nat)            (* FromIterator<TokenTree> *)
| OExtendTrees (i : nat) (js : list nat)
| OExtendIter (i j : nat)               (* extend(iterator) *)
| OFromStreams (js : list nat)          (* FromIterator<TokenStream> *)
| OExtendStreams (i : nat) (js : list nat)
| OIntoIter (i : nat)
| ONext (i : nat)
| ODrop (i : nat).

Definition state := (heap * env)%type.

Definition leaf (t : token) : option htree :=
  match t with
  | TGroup _ _ _ => None
  | TIdent s r sp => Some (HIdent s r sp)
  | TPunct c s sp => Some (HPunct c s sp)
  | TLiteral r sp => Some (HLiteral r sp)
  end.
Definition set_hspan (t : htree) (sp : span) : htree :=
  match t with
  | HGroup d l _ => HGroup d l sp
  | HIdent s r _ => HIdent s r sp
  | HPunct c s _ => HPunct c s sp
  | HLiteral r _ => HLiteral r sp
  end.

(** Move trees out of variables. *)
Fixpoint take_trees (e : env) (js : list nat) : out (env * list htree) :=
  match js with
  | [] => Done (e, [])
  | j :: js =>
      match lookup e j with
      | Some (VTree t) => do (e, v) <- take_trees (assign e j None) js;; Done (e, t :: v)
      | _ => Illtyped
      end
  end.
(** Move streams out of variables, each turned into its elements when reached. *)
Fixpoint take_streams (h : heap) (e : env) (js : list nat) : out (heap * env * list htree) :=
  match js with
  | [] => Done (h, e, [])
  | j :: js =>
      match lookup e j with
      | Some (VStream l) =>
          do (h, v) <- make_owned h l;;
          do (h, e, w) <- take_streams h (assign e j None) js;; Done (h, e, v ++ w)
      | _ => Illtyped
      end
  end.

Definition exec (st : state) (o : op) : out state :=
  let (h, e) := st in
  match o with
  | ONew => let (h, l) := alloc h [] in Done (h, e ++ [Some (VStream l)])         (* 77-81 *)
  | OParse ts =>
      let (h, v) := alloc_trees ts h in
      let (h, l) := alloc h v in Done (h, e ++ [Some (VStream l)])
  | OLeaf t => match leaf t with Some x => Done (h, e ++ [Some (VTree x)]) | None => Illtyped end
  | OGroup d i =>                                                                  (* 726-732 *)
      match lookup e i with
      | Some (VStream l) => Done (h, assign e i (Some (VTree (HGroup d l call_site))))
      | _ => Illtyped
      end
  | OStreamOf i =>                                                                 (* 738-740 *)
      match lookup e i with
      | Some (VTree (HGroup _ l _)) => do h <- rc_clone h l;; Done (h, e ++ [Some (VStream l)])
      | _ => Illtyped
      end
  | OSetSpan i sp =>
      match lookup e i with
      | Some (VTree t) => Done (h, assign e i (Some (VTree (set_hspan t sp))))
      | _ => Illtyped
      end
  | OClone i =>
      match lookup e i with
      | Some (VStream l) => do h <- rc_clone h l;; Done (h, e ++ [Some (VStream l)])
      | Some (VTree t) => do h <- clone_tree h t;; Done (h, e ++ [Some (VTree t)])
      | Some (VIter v) => do h <- clone_trees h v;; Done (h, e ++ [Some (VIter v)])
      | None => Illtyped
      end
  | OFromTree i =>                                                                 (* 269-277 *)
      match lookup e i with
      | Some (VTree t) => let (h, l) := alloc h (push_htree [] t) in Done (h, assign e i (Some (VStream l)))
      | _ => Illtyped
      end
  | OFromTrees js =>                                                               (* 279-285 *)
      let (h, l) := alloc h [] in
      do (e, ts) <- take_trees e js;;
      do (h, l) <- make_mut h l;;
      do h <- append h l (fold_left push_htree ts []);;
      Done (h, e ++ [Some (VStream l)])
  | OExtendTrees i js =>                                                           (* 299-306 *)
      match lookup e i with
      | Some (VStream l) =>
          do (h, l) <- make_mut h l;;
          do (e, ts) <- take_trees e js;;
          do h <- append h l (fold_left push_htree ts []);;
          Done (h, assign e i (Some (VStream l)))
      | _ => Illtyped
      end
  | OExtendIter i j =>
      match lookup e i, lookup e j with
      | Some (VStream l), Some (VIter ts) =>
          do (h, l) <- make_mut h l;;
          do h <- append h l (fold_left push_htree ts []);;
          Done (h, assign (assign e j None) i (Some (VStream l)))
      | _, _ => Illtyped
      end
  | OFromStreams js =>                                                             (* 287-297 *)
      do (h, e, v) <- take_streams h e js;;
      let (h, l) := alloc h v in Done (h, e ++ [Some (VStream l)])
  | OExtendStreams i js =>                                                         (* 308-312 *)
      match lookup e i with
      | Some (VStream l) =>
          do (h, l) <- make_mut h l;;
          do (h, e, v) <- take_streams h (assign e i None) js;;
          do h <- append h l v;;
          Done (h, assign e i (Some (VStream l)))
      | _ => Illtyped
      end
  | OIntoIter i =>                                                                 (* 316-323 *)
      match lookup e i with
      | Some (VStream l) => do (h, v) <- make_owned h l;; Done (h, assign e i (Some (VIter v)))
      | _ => Illtyped
      end
  | ONext i =>                                                                     (* rcvec.rs 134-143 *)
      match lookup e i with
      | Some (VIter []) => Done (h, e ++ [None])
      | Some (VIter (t :: v)) => Done (h, assign e i (Some (VIter v)) ++ [Some (VTree t)])
      | _ => Illtyped
      end
  | ODrop i =>
      match lookup e i with
      | Some (VStream l) => do h <- drop_stream h l;; Done (h, assign e i None)
      | Some (VTree t) => do h <- drop_tree h t;; Done (h, assign e i None)
      | Some (VIter v) => do h <- drop_iter h v;; Done (h, assign e i None)
      | None => Illtyped
      end
  end.

Fixpoint exec_all (st : state) (os : list op) : out state :=
  match os with
  | [] => Done st
  | o :: os => do st <- exec st o;; exec_all st os
  end.

(** rcvec.rs 25-31, 141-143: observations of a stream and of an iterator. *)
Definition stream_len (h : heap) (l : loc) : out nat :=
  match get h l with Some c => Done (length (elems c)) | None => Fault end.
Definition stream_is_empty (h : heap) (l : loc) : out bool :=
  match get h l with Some c => Done (length (elems c) =? 0) | None => Fault end.
Definition size_hint (v : list htree) : nat * option nat := (length v, Some (length v)).
