(** * Property C74: extending and collecting from an iterator that is user code. *)
From Verif Require Import Base Unicode Tokens Lexer SpecText SpecTree Fallback RcHeap SpecStreams RcLazy SpecLazy LazyProofs.
Import ListNotations.

Theorem c74_lists : forall os,
  match lexec_all ([], []) os, alexec_all [] os with
  | Done (h, e, oks), Some (ae, oks') => oks = oks' /\ Forall2 (olooks h) e ae
  | Illtyped, None => True
  | _, _ => False
  end.
Proof. exact lazy_history. Qed.
Print Assumptions c74_lists.
Theorem c74_interrupted_trees : forall os h e oks, lexec_all ([], []) os = Done (h, e, oks) -> forall ok i js,
  same_result ok (lexec (h, e) (LExtendTrees i (yields js (last_of ok)))) (exec (h, e) (OExtendTrees i js)).
Proof. exact interrupted_trees. Qed.
Print Assumptions c74_interrupted_trees.
Theorem c74_interrupted_streams : forall os h e oks, lexec_all ([], []) os = Done (h, e, oks) -> forall ok i js,
  same_result ok (lexec (h, e) (LExtendStreams i (yields js (last_of ok)))) (exec (h, e) (OExtendStreams i js)).
Proof. exact interrupted_streams. Qed.
Print Assumptions c74_interrupted_streams.
Theorem c74_counts : forall os h e oks, lexec_all ([], []) os = Done (h, e, oks) ->
  (forall l, match get h l with
             | Some c => rc c = env_refs l e + heap_refs l h /\ rc c <> 0
             | None => env_refs l e = 0 /\ heap_refs l h = 0
             end) /\
  (forall l c, get h l = Some c -> reachable h e l) /\
  ((forall i, lookup e i = None) -> forall l, get h l = None).
Proof. exact lazy_counts. Qed.
Print Assumptions c74_counts.
Theorem c74_others_unchanged : forall os h e oks o h' e' ok i v, lexec_all ([], []) os = Done (h, e, oks) ->
  lexec (h, e) o = Done (h', e', ok) -> ~ In i (lwrites o) -> lookup e i = Some v ->
  lookup e' i = Some v /\ forall a, looks h v a <-> looks h' v a.
Proof. exact lazy_others_unchanged. Qed.
Print Assumptions c74_others_unchanged.
Theorem c74_no_negative_literal : forall U, unicode_ok U -> forall os h e oks i v a,
  Forall lapi_op os -> lexec_all ([], []) os = Done (h, e, oks) -> lookup e i = Some v -> looks h v a ->
  match a with
  | AStream ts | AIter ts => forall repr sp, occurs (TLiteral repr sp) ts -> ~ negative repr
  | ATree (TGroup _ ts _) => forall repr sp, occurs (TLiteral repr sp) ts -> ~ negative repr
  | ATree _ => True
  end.
Proof. exact @lazy_no_negative. Qed.
Print Assumptions c74_no_negative_literal.

Definition sp := call_site.
(** While the first stream is being extended, the iterator clones the group holding a
    copy of it, extends the copy (catching the panic of that call), collects a further
    stream, and panics after two items. *)
Definition busy : list lop :=
  [LOp (OParse [TIdent (tag "a") false sp]);            (* 0 *)
   LOp (OClone 0);                                      (* 1 *)
   LOp (OLeaf (TLiteral (tag "-1") sp));                (* 2 *)
   LOp (OLeaf (TPunct "+"%ch Alone sp));                (* 3 *)
   LOp (OClone 3);                                      (* 4 *)
   LExtendTrees 0
     (IDo (LOp (OClone 1))                              (* 5 *)
     (IYield 2
     (ITry (LExtendTrees 1 (IYield 3 IPanic))
     (IDo (LOp (OGroup Brace 1))
     (IYield 1
     (ITry (LCollectStreams (IYield 5 IPanic))          (* 6 *)
     (IDo (LCollectTrees IPanic)                        (* 7 *)
     (IYield 4 IEnd))))))))].
Example c74_example :
  let a := TIdent (tag "a") false sp in let plus := TPunct "+"%ch Alone sp in
  Forall (@lapi_op sample_unicode) (tl busy) /\
  match lexec_all ([], []) busy with
  | Done (h, e, oks) =>
      oks = [true; true; true; true; true; false] /\
      match lookup e 0 with Some (VStream l) => stream_len h l = Done 4 | _ => False end
  | _ => False
  end /\
  alexec_all [] busy =
    Some ([Some (AStream [a; TPunct "-"%ch Alone sp; TLiteral (tag "1") sp; TGroup Brace [a; plus] sp]);
           None; None; None; Some (ATree plus); None; None; None],
          [true; true; true; true; true; false]) /\
  lwrites (nth 5 busy (LOp ONew)) = [0; 2; 1; 3; 1; 1; 5; 4].
Proof.
  cbn zeta. split; [|split; [|split; vm_compute; reflexivity]].
  - cbn [tl busy]. repeat (constructor; [cbn; try tauto|]); [|constructor].
    exists 0%N. eexists. split; [reflexivity|]. vm_compute. reflexivity.
  - vm_compute. auto.
Qed.
(** An extend interrupted after two of three items, against the extend by two. *)
Example c74_interrupted_example :
  let os := [OParse [TIdent (tag "a") false sp]; OClone 0; OLeaf (TLiteral (tag "-1") sp); OLeaf (TPunct "+"%ch Alone sp); OClone 3] in
  match lexec_all ([], []) (map LOp os) with
  | Done (st, _) =>
      match lexec st (LExtendTrees 0 (yields [2; 3] (last_of false))), exec st (OExtendTrees 0 [2; 3]), exec st (OExtendTrees 0 [2; 3; 4]) with
      | Done (h, e, false), Done (h', e'), Done (h'', e'') =>
          let len h e := match lookup e 0 with Some (VStream l) => stream_len h l | _ => Illtyped end in
          len h e = Done 4 /\ len h' e' = Done 4 /\ len h'' e'' = Done 5
      | _, _, _ => False
      end
  | _ => False
  end.
Proof. vm_compute. auto. Qed.
