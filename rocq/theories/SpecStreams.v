(** * Token streams as plain lists (specification). *)
From Verif Require Import Base Unicode Tokens Lexer SpecText Fallback RcHeap.
Import ListNotations.

(** A negative literal counts as a minus sign and its absolute value. *)
Definition split_negative (t : token) : list token :=
  match t with
  | TLiteral (c :: repr) sp =>
      if (c =? "-"%ch)%N then [TPunct "-"%ch Alone sp; TLiteral repr sp] else [t]
  | _ => [t]
  end.
Definition split_negatives (ts : list token) : list token := flat_map split_negative ts.

Inductive avalue := AStream (ts : list token) | ATree (t : token) | AIter (ts : list token).
Definition aenv := list (option avalue).
Definition alookup (e : aenv) (i : nat) : option avalue :=
  match nth_error e i with Some x => x | None => None end.

Fixpoint atake_trees (e : aenv) (js : list nat) : option (aenv * list token) :=
  match js with
  | [] => Some (e, [])
  | j :: js =>
      match alookup e j with
      | Some (ATree t) =>
          match atake_trees (assign e j None) js with Some (e, v) => Some (e, t :: v) | None => None end
      | _ => None
      end
  end.
Fixpoint atake_streams (e : aenv) (js : list nat) : option (aenv * list token) :=
  match js with
  | [] => Some (e, [])
  | j :: js =>
      match alookup e j with
      | Some (AStream v) =>
          match atake_streams (assign e j None) js with Some (e, w) => Some (e, v ++ w) | None => None end
      | _ => None
      end
  end.

(** The meaning of each operation; [None] when the program is ill typed. *)
Definition aexec (e : aenv) (o : op) : option aenv :=
  match o with
  | ONew => Some (e ++ [Some (AStream [])])
  | OParse ts => Some (e ++ [Some (AStream ts)])
  | OLeaf t => match t with TGroup _ _ _ => None | _ => Some (e ++ [Some (ATree t)]) end
  | OGroup d i =>
      match alookup e i with
      | Some (AStream ts) => Some (assign e i (Some (ATree (TGroup d ts call_site))))
      | _ => None
      end
  | OStreamOf i =>
      match alookup e i with
      | Some (ATree (TGroup _ ts _)) => Some (e ++ [Some (AStream ts)])
      | _ => None
      end
  | OSetSpan i sp =>
      match alookup e i with
      | Some (ATree t) => Some (assign e i (Some (ATree (set_span t sp))))
      | _ => None
      end
  | OClone i => match alookup e i with Some v => Some (e ++ [Some v]) | None => None end
  | OFromTree i =>
      match alookup e i with
      | Some (ATree t) => Some (assign e i (Some (AStream (split_negative t))))
      | _ => None
      end
  | OFromTrees js =>
      match atake_trees e js with
      | Some (e, ts) => Some (e ++ [Some (AStream (split_negatives ts))])
      | None => None
      end
  | OExtendTrees i js =>
      match alookup e i with
      | Some (AStream v) =>
          match atake_trees e js with
          | Some (e, ts) => Some (assign e i (Some (AStream (v ++ split_negatives ts))))
          | None => None
          end
      | _ => None
      end
  | OExtendIter i j =>
      match alookup e i, alookup e j with
      | Some (AStream v), Some (AIter ts) =>
          Some (assign (assign e j None) i (Some (AStream (v ++ split_negatives ts))))
      | _, _ => None
      end
  | OFromStreams js =>
      match atake_streams e js with
      | Some (e, ts) => Some (e ++ [Some (AStream ts)])
      | None => None
      end
  | OExtendStreams i js =>
      match alookup e i with
      | Some (AStream v) =>
          match atake_streams (assign e i None) js with
          | Some (e, ts) => Some (assign e i (Some (AStream (v ++ ts))))
          | None => None
          end
      | _ => None
      end
  | OIntoIter i =>
      match alookup e i with
      | Some (AStream ts) => Some (assign e i (Some (AIter ts)))
      | _ => None
      end
  | ONext i =>
      match alookup e i with
      | Some (AIter []) => Some (e ++ [None])
      | Some (AIter (t :: ts)) => Some (assign e i (Some (AIter ts)) ++ [Some (ATree t)])
      | _ => None
      end
  | ODrop i => match alookup e i with Some _ => Some (assign e i None) | None => None end
  end.
Fixpoint aexec_all (e : aenv) (os : list op) : option aenv :=
  match os with
  | [] => Some e
  | o :: os => match aexec e o with Some e => aexec_all e os | None => None end
  end.

(** What a value looks like through the heap. *)
Inductive sees (h : heap) : list htree -> list token -> Prop :=
| sees_nil : sees h [] []
| sees_group d l sp c inner v ts :
    get h l = Some c -> sees h (elems c) inner -> sees h v ts ->
    sees h (HGroup d l sp :: v) (TGroup d inner sp :: ts)
| sees_ident s r sp v ts : sees h v ts -> sees h (HIdent s r sp :: v) (TIdent s r sp :: ts)
| sees_punct c s sp v ts : sees h v ts -> sees h (HPunct c s sp :: v) (TPunct c s sp :: ts)
| sees_literal r sp v ts : sees h v ts -> sees h (HLiteral r sp :: v) (TLiteral r sp :: ts).
Definition looks (h : heap) (v : value) (a : avalue) : Prop :=
  match v, a with
  | VStream l, AStream ts => exists c, get h l = Some c /\ sees h (elems c) ts
  | VTree t, ATree u => sees h [t] [u]
  | VIter v, AIter ts => sees h v ts
  | _, _ => False
  end.
Definition olooks (h : heap) (v : option value) (a : option avalue) : Prop :=
  match v, a with
  | Some v, Some a => looks h v a
  | None, None => True
  | _, _ => False
  end.

(** References to [l] held by trees, by the heap, by the program. *)
Definition tree_refs (l : loc) (t : htree) : nat :=
  match t with HGroup _ l' _ => if Nat.eqb l l' then 1 else 0 | _ => 0 end.
Definition trees_refs (l : loc) (v : list htree) : nat := list_sum (map (tree_refs l) v).
Definition heap_refs (l : loc) (h : heap) : nat :=
  list_sum (map (fun x => match x with Some c => trees_refs l (elems c) | None => 0 end) h).
Definition value_refs (l : loc) (v : option value) : nat :=
  match v with
  | Some (VStream l') => if Nat.eqb l l' then 1 else 0
  | Some (VTree t) => tree_refs l t
  | Some (VIter v) => trees_refs l v
  | None => 0
  end.
Definition env_refs (l : loc) (e : env) : nat := list_sum (map (value_refs l) e).

(** Storage reachable from the program's variables. *)
Inductive reachable (h : heap) (e : env) : loc -> Prop :=
| reach_variable l : env_refs l e <> 0 -> reachable h e l
| reach_element l l' c : reachable h e l' -> get h l' = Some c -> trees_refs l (elems c) <> 0 -> reachable h e l.

(** The variables an operation may change or consume. *)
Definition writes (o : op) : list nat :=
  match o with
  | ONew | OParse _ | OLeaf _ | OStreamOf _ | OClone _ => []
  | OGroup _ i | OSetSpan i _ | OFromTree i | OIntoIter i | ONext i | ODrop i => [i]
  | OFromTrees js | OFromStreams js => js
  | OExtendTrees i js | OExtendStreams i js => i :: js
  | OExtendIter i j => [i; j]
  end.

(** [n] steps of drop code; a list of activations is the native stack. *)
Inductive drop_run : nat -> heap -> list frame -> heap -> list frame -> Prop :=
| drop_start h fs : drop_run 0 h fs h fs
| drop_step n h f fs h1 fs1 h' fs' :
    step h f fs = Done (h1, fs1) -> drop_run n h1 fs1 h' fs' -> drop_run (S n) h (f :: fs) h' fs'.
(** The first activation when a value is dropped. *)
Definition drop_entry (v : value) : option frame :=
  match v with
  | VStream l | VTree (HGroup _ l _) => Some (GEnter l)
  | VTree _ => None
  | VIter v => Some (GIter v)
  end.

Definition negative (repr : str) : Prop := exists r, repr = "-"%ch :: r.
(** Streams come from the parser and literals from the literal parser, which
    accepts what every literal constructor produces (C17-C23). *)
Definition api_op {U : unicode} (o : op) : Prop :=
  match o with
  | OParse ts => exists start src, (start < two32)%N /\ valid_str src /\ token_stream_from_str start src = Ok (Lexed ts)
  | OLeaf (TGroup _ _ _) => False
  | OLeaf (TLiteral repr _) => exists start sp, (start < two32)%N /\ literal_from_str start repr = Ok (LitOk repr sp)
  | _ => True
  end.
