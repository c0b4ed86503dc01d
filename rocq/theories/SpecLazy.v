(** * Lazy extending and collecting on plain lists (specification). *)
From Verif Require Import Base Unicode Tokens RcHeap SpecStreams RcLazy.
Import ListNotations.

(** The tokens an item stands for. *)
Definition ayield (trees : bool) (e : aenv) (j : nat) : option (aenv * list token) :=
  match trees, alookup e j with
  | true, Some (ATree t) => Some (assign e j None, split_negative t)
  | false, Some (AStream ts) => Some (assign e j None, ts)
  | _, _ => None
  end.
(** An extended stream gets the items in order, up to the panic if there is one. *)
Fixpoint alexec (e : aenv) (o : lop) {struct o} : option (aenv * bool) :=
  match o with
  | LOp o => match aexec e o with Some e => Some (e, true) | None => None end
  | LExtendTrees i it | LExtendStreams i it =>
      match alookup e i with
      | Some (AStream ts) =>
          match alrun (match o with LExtendTrees _ _ => true | _ => false end) (assign e i None) it with
          | Some (e, us, ok) => Some (assign e i (Some (AStream (ts ++ us))), ok)
          | None => None
          end
      | _ => None
      end
  | LCollectTrees it | LCollectStreams it =>
      match alrun (match o with LCollectTrees _ => true | _ => false end) e it with
      | Some (e, us, true) => Some (e ++ [Some (AStream us)], true)
      | Some (e, _, false) => Some (e ++ [None], false)
      | None => None
      end
  end
(** The tokens yielded, and whether the iterator came to its end. *)
with alrun (trees : bool) (e : aenv) (it : liter) {struct it} : option (aenv * list token * bool) :=
  match it with
  | IEnd => Some (e, [], true)
  | IPanic => Some (e, [], false)
  | IDo o k =>
      match alexec e o with
      | Some (e, true) => alrun trees e k
      | Some (e, false) => Some (e, [], false)
      | None => None
      end
  | ITry o k => match alexec e o with Some (e, _) => alrun trees e k | None => None end
  | IYield j k =>
      match ayield trees e j with
      | Some (e, us) =>
          match alrun trees e k with Some (e, vs, ok) => Some (e, us ++ vs, ok) | None => None end
      | None => None
      end
  end.
Fixpoint alexec_all (e : aenv) (os : list lop) : option (aenv * list bool) :=
  match os with
  | [] => Some (e, [])
  | o :: os =>
      match alexec e o with
      | Some (e, ok) => match alexec_all e os with Some (e, oks) => Some (e, ok :: oks) | None => None end
      | None => None
      end
  end.

(** An iterator over the variables [js] and then [last]. *)
Fixpoint yields (js : list nat) (last : liter) : liter :=
  match js with [] => last | j :: js => IYield j (yields js last) end.

(** Coming to its end, or panicking. *)
Definition last_of (ok : bool) : liter := if ok then IEnd else IPanic.
(** A call that ends as [ok] says and leaves what another call leaves. *)
Definition same_result (ok : bool) (r : out (state * bool)) (r' : out state) : Prop :=
  match r, r' with
  | Done (h, e, ok'), Done (h', e') => ok' = ok /\ forall ae, Forall2 (olooks h) e ae <-> Forall2 (olooks h') e' ae
  | Illtyped, Illtyped => True
  | _, _ => False
  end.

(** The variables a call may change or consume. *)
Fixpoint lwrites (o : lop) : list nat :=
  match o with
  | LOp o => writes o
  | LExtendTrees i it | LExtendStreams i it => i :: iwrites it
  | LCollectTrees it | LCollectStreams it => iwrites it
  end
with iwrites (it : liter) : list nat :=
  match it with
  | IEnd | IPanic => []
  | IDo o k | ITry o k => lwrites o ++ iwrites k
  | IYield j k => j :: iwrites k
  end.

(** Every operation inside is a call of the API (see [api_op]). *)
Fixpoint lapi_op {U : unicode} (o : lop) : Prop :=
  match o with
  | LOp o => api_op o
  | LExtendTrees _ it | LExtendStreams _ it | LCollectTrees it | LCollectStreams it => iapi it
  end
with iapi {U : unicode} (it : liter) : Prop :=
  match it with
  | IEnd | IPanic => True
  | IDo o k | ITry o k => lapi_op o /\ iapi k
  | IYield _ k => iapi k
  end.
