(** * Extending from user iterators behaves as on plain lists (C74). *)
From Verif Require Import Base Unicode Tokens RcHeap SpecStreams RcFacts RcDrop RcSim RcProofs RcLazy SpecLazy.
Import ListNotations.

Local Arguments heap_refs : simpl never.
Local Arguments trees_refs : simpl never.
Local Arguments heap_size : simpl never.

(** ** No reference to a cell appears from nowhere *)
Definition frame_refs (x : loc) (f : frame) : nat :=
  match f with
  | GEnter l => one l x
  | GLoop l cur stk => one l x + trees_refs x (cur ++ concat stk)
  | GRc l => one l x
  | GVec l v => trees_refs x v
  | GIter v => trees_refs x v
  end.
Definition frames_refs (x : loc) (fs : list frame) : nat := list_sum (map (frame_refs x) fs).
Lemma frames_refs_cons x f fs : frames_refs x (f :: fs) = frame_refs x f + frames_refs x fs.
Proof. reflexivity. Qed.
Lemma tree_refs_group x d g sp : tree_refs x (HGroup d g sp) = one g x.
Proof. reflexivity. Qed.
Lemma heap_refs_clear x h l c n : get h l = Some c ->
  heap_refs x (set h l (Some (mkcell n []))) + trees_refs x (elems c) = heap_refs x h.
Proof.
  intro Hc. pose proof (heap_refs_set x h l (Some (mkcell n [])) (get_lt _ _ _ Hc)) as Q. rewrite Hc in Q.
  cbn [cell_refs elems] in Q. rewrite trees_refs_nil in Q. lia.
Qed.
Lemma heap_refs_kill x h l : heap_refs x (set h l None) <= heap_refs x h.
Proof.
  destruct (Nat.lt_ge_cases l (length h)) as [Hl|Hl].
  - pose proof (heap_refs_set x h l None Hl) as Q. cbn [cell_refs] in Q. lia.
  - assert (E : set h l None = h); [|now rewrite E]. clear x. revert l Hl.
    induction h as [|z h IH]; intros [|l] Hl; cbn in *; try reflexivity; try lia. rewrite IH by lia. reflexivity.
Qed.
Lemma step_refs x h f fs h' fs' : step h f fs = Done (h', fs') ->
  heap_refs x h' + frames_refs x fs' <= heap_refs x h + frames_refs x (f :: fs).
Proof.
  intro H. destruct f as [l|l cur stk|l|l v|v]; cbn [step] in H.
  - destruct (get h l) as [c|] eqn:Hc; [|discriminate]. destruct (rc c =? 1); injection H as <- <-;
      rewrite !frames_refs_cons; cbn [frame_refs]; [|lia].
    pose proof (heap_refs_clear x h l c 1 Hc). rewrite trees_refs_app. cbn [concat]. rewrite trees_refs_nil. lia.
  - destruct cur as [|t cur].
    + destruct stk as [|next stk]; injection H as <- <-; rewrite !frames_refs_cons; cbn [frame_refs concat app]; lia.
    + destruct t as [d g sp|s r sp|c s sp|r sp];
        try (injection H as <- <-; rewrite !frames_refs_cons; cbn [frame_refs app]; rewrite trees_refs_cons; cbn [tree_refs]; lia).
      destruct (get h g) as [c|] eqn:Hc; [|discriminate]. destruct (rc c =? 1); injection H as <- <-;
        rewrite !frames_refs_cons; cbn [frame_refs concat app]; rewrite ?trees_refs_cons, ?trees_refs_app, ?tree_refs_group; [|lia].
      pose proof (heap_refs_clear x h g c 1 Hc). lia.
  - destruct (get h l) as [c|] eqn:Hc; [|discriminate]. destruct (rc c =? 1); injection H as <- <-.
    + rewrite !frames_refs_cons. cbn [frame_refs]. pose proof (heap_refs_clear x h l c 0 Hc). lia.
    + rewrite frames_refs_cons, set_rc_refs by exact Hc. lia.
  - destruct v as [|t v].
    + destruct (get h l); [|discriminate]. injection H as <- <-. rewrite frames_refs_cons. pose proof (heap_refs_kill x h l). lia.
    + destruct t as [d g sp|s r sp|c s sp|r sp]; injection H as <- <-; rewrite !frames_refs_cons; cbn [frame_refs];
        rewrite trees_refs_cons, ?tree_refs_group; cbn [tree_refs]; lia.
  - destruct v as [|t v]; [injection H as <- <-; rewrite frames_refs_cons; lia|].
    destruct t as [d g sp|s r sp|c s sp|r sp]; injection H as <- <-; rewrite !frames_refs_cons; cbn [frame_refs];
      rewrite trees_refs_cons, ?tree_refs_group; cbn [tree_refs]; lia.
Qed.
Lemma run_refs x n : forall h fs h', run_drop n h fs = Finished h' -> heap_refs x h' <= heap_refs x h + frames_refs x fs.
Proof.
  induction n as [|n IH]; intros h [|f fs] h' H; cbn [run_drop] in H; try discriminate;
    try (injection H as <-; lia).
  destruct (step h f fs) as [[h1 fs1]| |] eqn:E; try discriminate. pose proof (step_refs x _ _ _ _ _ E). specialize (IH _ _ _ H). lia.
Qed.
Lemma drop_frame_refs x h f n h' : drop_frame h f n = Done h' -> heap_refs x h' <= heap_refs x h + frame_refs x f.
Proof.
  unfold drop_frame. destruct (run_drop _ h [f]) as [h1| |] eqn:E; try discriminate. intro H. injection H as <-.
  pose proof (run_refs x _ _ _ _ E) as Q. rewrite frames_refs_cons in Q. unfold frames_refs in Q. cbn in Q. lia.
Qed.
(** Copies: what the new vector refers to was referred to by the old one. *)
Lemma make_owned_bound x h l h' v : make_owned h l = Done (h', v) ->
  heap_refs x h' + trees_refs x v <= 2 * heap_refs x h + one l x.
Proof.
  unfold make_owned. destruct (get h l) as [c|] eqn:Hc; [|discriminate]. pose proof (heap_refs_ge x h l c Hc).
  destruct (rc c =? 1); intro H0.
  - destruct (drop_rc _ l) as [h1| |] eqn:E; try discriminate. cbn [obind] in H0. injection H0 as <- <-.
    apply (drop_frame_refs x) in E. cbn [frame_refs] in E. pose proof (heap_refs_clear x h l c 1 Hc). lia.
  - destruct (clone_trees h (elems c)) as [h1| |] eqn:E1; try discriminate. cbn [obind] in H0.
    destruct (drop_rc h1 l) as [h2| |] eqn:E2; try discriminate. cbn [obind] in H0. injection H0 as <- <-.
    apply (drop_frame_refs x) in E2. cbn [frame_refs] in E2. rewrite (clone_trees_refs x _ _ _ E1) in E2. lia.
Qed.
Lemma make_mut_bound x h l h' l' : make_mut h l = Done (h', l') ->
  heap_refs x h' <= 2 * heap_refs x h + one l x /\ (l' = l \/ length h <= l').
Proof.
  unfold make_mut. destruct (get h l) as [c|] eqn:Hc; [|discriminate]. pose proof (heap_refs_ge x h l c Hc).
  destruct (rc c =? 1); intro H0.
  - injection H0 as <- <-. split; [lia|auto].
  - destruct (clone_trees h (elems c)) as [h1| |] eqn:E1; try discriminate. cbn [obind] in H0. unfold alloc in H0.
    destruct (drop_rc _ l) as [h2| |] eqn:E2; try discriminate. cbn [obind] in H0. injection H0 as <- <-.
    apply (drop_frame_refs x) in E2. cbn [frame_refs] in E2. rewrite heap_refs_alloc, (clone_trees_refs x _ _ _ E1) in E2.
    cbn [elems] in E2. split; [lia|]. right.
    assert (L : forall v g g', clone_trees g v = Done g' -> length g' = length g).
    { clear. induction v as [|t v IH]; intros g g' H; cbn [clone_trees] in H; [now injection H as ->|].
      destruct (clone_tree g t) as [g1| |] eqn:E; try discriminate. cbn [obind] in H. rewrite (IH _ _ H).
      destruct t; cbn [clone_tree] in E; try (now injection E as ->). unfold rc_clone in E.
      destruct (get g l); [|discriminate]. injection E as <-. apply set_length. }
    rewrite (L _ _ _ E1). lia.
Qed.

Lemma step_length h f fs h' fs' : step h f fs = Done (h', fs') -> length h' = length h.
Proof.
  intro H. destruct f as [l|l cur stk|l|l v|v]; cbn [step] in H;
    try (destruct (get h l) as [c|]; [|discriminate]; destruct (rc c =? 1); injection H as <- <-; rewrite ?set_length; reflexivity).
  - destruct cur as [|[d g sp|s r sp|c s sp|r sp] cur]; [destruct stk|..];
      try (injection H as <- <-; reflexivity).
    destruct (get h g) as [c|]; [|discriminate]. destruct (rc c =? 1); injection H as <- <-; rewrite ?set_length; reflexivity.
  - destruct v as [|[d g sp|s r sp|c s sp|r sp] v]; try (injection H as <- <-; reflexivity).
    destruct (get h l); [|discriminate]. injection H as <- <-. apply set_length.
  - destruct v as [|[d g sp|s r sp|c s sp|r sp] v]; injection H as <- <-; reflexivity.
Qed.
Lemma run_length n : forall h fs h', run_drop n h fs = Finished h' -> length h' = length h.
Proof.
  induction n as [|n IH]; intros h [|f fs] h' H; cbn [run_drop] in H; try discriminate; try (injection H as <-; reflexivity).
  destruct (step h f fs) as [[h1 fs1]| |] eqn:E; try discriminate. rewrite (IH _ _ _ H). eapply step_length; eauto.
Qed.
Lemma drop_frame_length h f n h' : drop_frame h f n = Done h' -> length h' = length h.
Proof.
  unfold drop_frame. destruct (run_drop _ h [f]) as [h1| |] eqn:E; try discriminate. intro H. injection H as <-.
  eapply run_length; eauto.
Qed.
Lemma clone_tree_length h t h' : clone_tree h t = Done h' -> length h' = length h.
Proof.
  destruct t; cbn [clone_tree]; intro E; try (now injection E as ->). unfold rc_clone in E.
  destruct (get h l); [|discriminate]. injection E as <-. apply set_length.
Qed.
Lemma clone_trees_length v : forall g g', clone_trees g v = Done g' -> length g' = length g.
Proof.
  induction v as [|t v IH]; intros g g' H; cbn [clone_trees] in H; [now injection H as ->|].
  destruct (clone_tree g t) as [g1| |] eqn:E; try discriminate. cbn [obind] in H. rewrite (IH _ _ H).
  eapply clone_tree_length; eauto.
Qed.
Lemma append_refs x h l v h' : append h l v = Done h' -> heap_refs x h' = heap_refs x h + trees_refs x v /\ length h' = length h.
Proof.
  unfold append. destruct (get h l) as [c|] eqn:Hc; [|discriminate]. intro H. injection H as <-. rewrite set_length.
  pose proof (heap_refs_set x h l (Some (mkcell (rc c) (elems c ++ v))) (get_lt _ _ _ Hc)) as Q. rewrite Hc in Q.
  cbn [cell_refs elems] in Q. rewrite trees_refs_app in Q. lia.
Qed.
Lemma push_refs x v t : trees_refs x (push_htree v t) = trees_refs x v + tree_refs x t.
Proof.
  destruct t as [d g sp|s r sp|c s sp|[|c r] sp]; cbn [push_htree]; try destruct (c =? "-"%ch)%N;
    rewrite trees_refs_app, !trees_refs_cons, trees_refs_nil; cbn [tree_refs]; lia.
Qed.
Lemma pushes_refs x w : forall v, trees_refs x (fold_left push_htree w v) = trees_refs x v + trees_refs x w.
Proof.
  induction w as [|t w IH]; intro v; cbn [fold_left]; [rewrite trees_refs_nil; lia|].
  rewrite IH, push_refs, trees_refs_cons. lia.
Qed.

(** [x] is allocated, and referred to neither by the heap nor by [n] others. *)
Definition alone (x : loc) (h : heap) (n : nat) : Prop := x < length h /\ heap_refs x h + n = 0.
Lemma one_lt x l : x <> l -> one l x = 0.
Proof. apply one_other. Qed.
Lemma alone_drop x h f n h' m : alone x h m -> frame_refs x f = 0 -> drop_frame h f n = Done h' -> alone x h' m.
Proof.
  intros [A1 A2] Hf E. split; [rewrite (drop_frame_length _ _ _ _ E); exact A1|].
  pose proof (drop_frame_refs x _ _ _ _ E). lia.
Qed.
Lemma alone_alloc x h v m : alone x h m -> trees_refs x v = 0 -> alone x (h ++ [Some (mkcell 1 v)]) m /\ one (length h) x = 0.
Proof.
  intros [A1 A2] Hv. split; [|apply one_other; lia]. split; [rewrite app_length; cbn; lia|].
  rewrite heap_refs_alloc. cbn [elems]. lia.
Qed.
Lemma alone_owned x h l h' v m : alone x h m -> one l x = 0 -> make_owned h l = Done (h', v) -> alone x h' m /\ trees_refs x v = 0.
Proof.
  intros [A1 A2] Hl E. pose proof (make_owned_bound x _ _ _ _ E) as Q. split; [|lia]. split; [|lia].
  unfold make_owned in E. destruct (get h l) as [c|]; [|discriminate]. destruct (rc c =? 1).
  - destruct (drop_rc _ l) as [h1| |] eqn:E1; try discriminate. injection E as <- <-.
    rewrite (drop_frame_length _ _ _ _ E1), set_length. exact A1.
  - destruct (clone_trees h (elems c)) as [h1| |] eqn:E1; try discriminate. cbn [obind] in E.
    destruct (drop_rc h1 l) as [h2| |] eqn:E2; try discriminate. injection E as <- <-.
    rewrite (drop_frame_length _ _ _ _ E2), (clone_trees_length _ _ _ E1). exact A1.
Qed.
Lemma alone_mut x h l h' l' m : alone x h m -> one l x = 0 -> make_mut h l = Done (h', l') -> alone x h' m /\ one l' x = 0.
Proof.
  intros [A1 A2] Hl E. destruct (make_mut_bound x _ _ _ _ E) as [Q [->|Q2]].
  - split; [|exact Hl]. split; [|lia]. unfold make_mut in E. destruct (get h l) as [c|]; [|discriminate]. destruct (rc c =? 1).
    + injection E as <-. exact A1.
    + destruct (clone_trees h (elems c)) as [h1| |] eqn:E1; try discriminate. cbn [obind] in E. unfold alloc in E.
      destruct (drop_rc _ l) as [h2| |] eqn:E2; try discriminate. injection E as <- _.
      rewrite (drop_frame_length _ _ _ _ E2), app_length, (clone_trees_length _ _ _ E1). cbn. lia.
  - split; [|apply one_other; lia]. split; [|lia]. unfold make_mut in E. destruct (get h l) as [c|]; [|discriminate]. destruct (rc c =? 1).
    + injection E as <-. exact A1.
    + destruct (clone_trees h (elems c)) as [h1| |] eqn:E1; try discriminate. cbn [obind] in E. unfold alloc in E.
      destruct (drop_rc _ l) as [h2| |] eqn:E2; try discriminate. injection E as <- _.
      rewrite (drop_frame_length _ _ _ _ E2), app_length, (clone_trees_length _ _ _ E1). cbn. lia.
Qed.
Lemma alone_append x h l v h' m : alone x h m -> trees_refs x v = 0 -> append h l v = Done h' -> alone x h' m.
Proof. intros [A1 A2] Hv E. destruct (append_refs x _ _ _ _ E) as [Q1 Q2]. split; lia. Qed.
Lemma alone_weaken x h m n : alone x h m -> n <= m -> alone x h n.
Proof. intros [A1 A2] Hle. split; [exact A1|lia]. Qed.
Lemma alone_alloc_tree x t : forall h m h' t', alone x h m -> alloc_tree t h = (h', t') -> alone x h' m /\ tree_refs x t' = 0.
Proof.
  induction t as [d ts sp IH|s r sp|c s sp|r sp] using token_ind'; intros h m h' t' A E;
    try (injection E as <- <-; split; [exact A|reflexivity]).
  rewrite alloc_tree_group in E.
  assert (HT : forall h m h' v, alone x h m -> alloc_trees ts h = (h', v) -> alone x h' m /\ trees_refs x v = 0).
  { clear h m h' t' A E. induction IH as [|t ts Ht Hts IHts]; intros h m h' v A E; cbn [alloc_trees] in E.
    - injection E as <- <-. split; [exact A|apply trees_refs_nil].
    - destruct (alloc_tree t h) as [h1 t1] eqn:E1. destruct (alloc_trees ts h1) as [h2 v2] eqn:E2. injection E as <- <-.
      destruct (Ht _ _ _ _ A E1) as [A1 Z1]. destruct (IHts _ _ _ _ A1 E2) as [A2 Z2]. split; [exact A2|].
      rewrite trees_refs_cons. lia. }
  destruct (alloc_trees ts h) as [h1 v] eqn:E1. destruct (HT _ _ _ _ A E1) as [A1 Z1]. unfold alloc in E. injection E as <- <-.
  destruct (alone_alloc x h1 v m A1 Z1) as [A2 Z2]. split; [exact A2|exact Z2].
Qed.
Lemma alone_alloc_trees x ts : forall h m h' v, alone x h m -> alloc_trees ts h = (h', v) -> alone x h' m /\ trees_refs x v = 0.
Proof.
  induction ts as [|t ts IHts]; intros h m h' v A E; cbn [alloc_trees] in E.
  - injection E as <- <-. split; [exact A|apply trees_refs_nil].
  - destruct (alloc_tree t h) as [h1 t1] eqn:E1. destruct (alloc_trees ts h1) as [h2 v2] eqn:E2. injection E as <- <-.
    destruct (alone_alloc_tree x t _ _ _ _ A E1) as [A1 Z1]. destruct (IHts _ _ _ _ A1 E2) as [A2 Z2]. split; [exact A2|].
    rewrite trees_refs_cons. lia.
Qed.
Lemma env_refs_put x e i y : env_refs x e = 0 -> value_refs x y = 0 -> env_refs x (assign e i y) = 0.
Proof.
  intros He Hy. destruct (Nat.lt_ge_cases i (length e)) as [Hi|Hi].
  - pose proof (env_refs_assign x e i y Hi). lia.
  - assert (E : assign e i y = e); [|now rewrite E]. clear - Hi. revert i Hi.
    induction e as [|z e IH]; intros [|i] Hi; cbn in *; try reflexivity; try lia. now rewrite IH by lia.
Qed.
Lemma env_refs_lookup x e i v : env_refs x e = 0 -> lookup e i = Some v -> value_refs x (Some v) = 0.
Proof. intros He Hv. pose proof (value_le_env e i v x Hv). lia. Qed.
Lemma take_trees_refs x js : forall e e' v, env_refs x e = 0 -> take_trees e js = Done (e', v) -> env_refs x e' = 0 /\ trees_refs x v = 0.
Proof.
  induction js as [|j js IH]; intros e e' v He H; cbn [take_trees] in H.
  - injection H as <- <-. split; [exact He|apply trees_refs_nil].
  - destruct (lookup e j) as [[l|t|w]|] eqn:Ej; try discriminate.
    destruct (take_trees (assign e j None) js) as [[e1 v1]| |] eqn:E; try discriminate. injection H as <- <-.
    destruct (IH _ _ _ (env_refs_put x e j None He eq_refl) E) as [Z1 Z2]. split; [exact Z1|]. rewrite trees_refs_cons.
    pose proof (env_refs_lookup x e j _ He Ej) as Z3. cbn [value_refs] in Z3. lia.
Qed.
Lemma alone_take_streams x js : forall h e h' e' v, alone x h 0 -> env_refs x e = 0 -> take_streams h e js = Done (h', e', v) ->
  alone x h' 0 /\ env_refs x e' = 0 /\ trees_refs x v = 0.
Proof.
  induction js as [|j js IH]; intros h e h' e' v A He H; cbn [take_streams] in H.
  - injection H as <- <- <-. split; [exact A|]. split; [exact He|apply trees_refs_nil].
  - destruct (lookup e j) as [[l|t|w]|] eqn:Ej; try discriminate. pose proof (env_refs_lookup x e j _ He Ej) as Zl.
    destruct (make_owned h l) as [[h1 v1]| |] eqn:E1; try discriminate. cbn [obind] in H.
    destruct (take_streams h1 (assign e j None) js) as [[[h2 e2] w]| |] eqn:E; try discriminate. injection H as <- <- <-.
    destruct (alone_owned x _ _ _ _ _ A Zl E1) as [A1 Z1].
    destruct (IH _ _ _ _ _ A1 (env_refs_put x e j None He eq_refl) E) as (A2 & Z2 & Z3). split; [exact A2|]. split; [exact Z2|].
    rewrite trees_refs_app. lia.
Qed.
Lemma env_refs_pushed x e y : env_refs x e = 0 -> value_refs x y = 0 -> env_refs x (e ++ [y]) = 0.
Proof. intros He Hy. rewrite env_refs_app, env_refs_one. lia. Qed.

Lemma exec_alone x h e o h' e' : alone x h 0 -> env_refs x e = 0 -> exec (h, e) o = Done (h', e') ->
  alone x h' 0 /\ env_refs x e' = 0.
Proof.
  intros A He H.
  assert (Hlk : forall i v, lookup e i = Some v -> value_refs x (Some v) = 0) by (intros; eapply env_refs_lookup; eauto).
  assert (Hclone : forall g g' l, alone x g 0 -> rc_clone g l = Done g' -> alone x g' 0).
  { intros g g' l [G1 G2] E. unfold rc_clone in E. destruct (get g l) as [c|] eqn:Hc; [|discriminate]. injection E as <-.
    split; [rewrite set_length; exact G1|]. now rewrite set_rc_refs. }
  destruct o as [|ts|t|d i|i|i sp|i|i|js|i js|i j|js|i js|i|i|i]; cbn [exec] in H; unfold alloc in H;
    try (destruct (lookup e i) as [[l|t|v]|] eqn:Ei; try discriminate; pose proof (Hlk i _ Ei) as Zi; cbn [value_refs] in Zi).
  - injection H as <- <-. destruct (alone_alloc x h [] 0 A (trees_refs_nil x)) as [A1 Z1]. split; [exact A1|].
    now apply env_refs_pushed.
  - destruct (alloc_trees ts h) as [h1 v] eqn:E1. injection H as <- <-. destruct (alone_alloc_trees x _ _ _ _ _ A E1) as [A1 Z1].
    destruct (alone_alloc x h1 v 0 A1 Z1) as [A2 Z2]. split; [exact A2|]. now apply env_refs_pushed.
  - destruct t; cbn [leaf] in H; try discriminate; injection H as <- <-; (split; [exact A|now apply env_refs_pushed]).
  - injection H as <- <-. split; [exact A|]. now apply env_refs_put.
  - destruct t as [d l sp|s r sp|c s sp|r sp]; try discriminate. destruct (rc_clone h l) as [h1| |] eqn:E; try discriminate.
    injection H as <- <-. split; [eapply Hclone; eauto|]. now apply env_refs_pushed.
  - injection H as <- <-. split; [exact A|]. apply env_refs_put; [exact He|]. destruct t; exact Zi.
  - destruct (rc_clone h l) as [h1| |] eqn:E; try discriminate.
    injection H as <- <-. split; [eapply Hclone; eauto|]. now apply env_refs_pushed.
  - destruct (clone_tree h t) as [h1| |] eqn:E; try discriminate. injection H as <- <-. split; [|now apply env_refs_pushed].
    destruct t; cbn [clone_tree] in E; try (injection E as <-; exact A). eapply Hclone; eauto.
  - destruct (clone_trees h v) as [h1| |] eqn:E; try discriminate. injection H as <- <-. split; [|now apply env_refs_pushed].
    destruct A as [A1 A2]. split; [rewrite (clone_trees_length _ _ _ E); exact A1|]. now rewrite (clone_trees_refs x _ _ _ E).
  - injection H as <- <-.
    assert (Zp : trees_refs x (push_htree [] t) = 0) by (rewrite push_refs, trees_refs_nil; exact Zi).
    destruct (alone_alloc x h _ 0 A Zp) as [A1 Z1]. split; [exact A1|]. now apply env_refs_put.
  - destruct (alone_alloc x h [] 0 A (trees_refs_nil x)) as [A1 Z1].
    destruct (take_trees e js) as [[e1 v]| |] eqn:E1; try discriminate. cbn [obind] in H.
    destruct (take_trees_refs x _ _ _ _ He E1) as [Z2 Z3].
    destruct (make_mut _ _) as [[h2 l2]| |] eqn:E2; try discriminate. cbn [obind] in H.
    destruct (alone_mut x _ _ _ _ _ A1 Z1 E2) as [A2 Z4].
    destruct (append _ _ _) as [h3| |] eqn:E3; try discriminate. injection H as <- <-. split; [|now apply env_refs_pushed].
    eapply alone_append; [exact A2| |exact E3]. rewrite pushes_refs, trees_refs_nil. lia.
  - destruct (make_mut _ _) as [[h2 l2]| |] eqn:E2; try discriminate. cbn [obind] in H.
    destruct (alone_mut x _ _ _ _ _ A Zi E2) as [A2 Z4].
    destruct (take_trees e js) as [[e1 v]| |] eqn:E1; try discriminate. cbn [obind] in H.
    destruct (take_trees_refs x _ _ _ _ He E1) as [Z2 Z3].
    destruct (append _ _ _) as [h3| |] eqn:E3; try discriminate. injection H as <- <-. split; [|now apply env_refs_put].
    eapply alone_append; [exact A2| |exact E3]. rewrite pushes_refs, trees_refs_nil. lia.
  - destruct (lookup e j) as [[l0|t|v]|] eqn:Ej; try discriminate. pose proof (Hlk j _ Ej) as Zj. cbn [value_refs] in Zj.
    destruct (make_mut _ _) as [[h2 l2]| |] eqn:E2; try discriminate. cbn [obind] in H.
    destruct (alone_mut x _ _ _ _ _ A Zi E2) as [A2 Z4].
    destruct (append _ _ _) as [h3| |] eqn:E3; try discriminate. injection H as <- <-.
    split; [|apply env_refs_put; [now apply env_refs_put|exact Z4]].
    eapply alone_append; [exact A2| |exact E3]. rewrite pushes_refs, trees_refs_nil. lia.
  - destruct (take_streams h e js) as [[[h1 e1] v]| |] eqn:E1; try discriminate. cbn [obind] in H. injection H as <- <-.
    destruct (alone_take_streams x _ _ _ _ _ _ A He E1) as (A1 & Z1 & Z2).
    destruct (alone_alloc x h1 v 0 A1 Z2) as [A2 Z3]. split; [exact A2|]. now apply env_refs_pushed.
  - destruct (make_mut _ _) as [[h2 l2]| |] eqn:E2; try discriminate. cbn [obind] in H.
    destruct (alone_mut x _ _ _ _ _ A Zi E2) as [A2 Z4].
    destruct (take_streams h2 _ js) as [[[h1 e1] v]| |] eqn:E1; try discriminate. cbn [obind] in H.
    destruct (alone_take_streams x _ _ _ _ _ _ A2 (env_refs_put x e i None He eq_refl) E1) as (A1 & Z1 & Z2).
    destruct (append _ _ _) as [h3| |] eqn:E3; try discriminate. injection H as <- <-. split; [|now apply env_refs_put].
    eapply alone_append; [exact A1|exact Z2|exact E3].
  - destruct (make_owned h l) as [[h1 v]| |] eqn:E1; try discriminate. injection H as <- <-.
    destruct (alone_owned x _ _ _ _ _ A Zi E1) as [A1 Z1]. split; [exact A1|]. now apply env_refs_put.
  - destruct v as [|t v]; injection H as <- <-; (split; [exact A|]); [now apply env_refs_pushed|].
    rewrite trees_refs_cons in Zi. apply env_refs_pushed; [|cbn [value_refs]; lia]. apply env_refs_put; [exact He|cbn [value_refs]; lia].
  - destruct (drop_stream h l) as [h1| |] eqn:E1; try discriminate. injection H as <- <-.
    split; [|now apply env_refs_put]. eapply alone_drop; [exact A| |exact E1]. exact Zi.
  - destruct (drop_tree h t) as [h1| |] eqn:E1; try discriminate. injection H as <- <-. split; [|now apply env_refs_put].
    destruct t; cbn [drop_tree] in E1; try (injection E1 as <-; exact A). eapply alone_drop; [exact A| |exact E1]. exact Zi.
  - destruct (drop_iter h v) as [h1| |] eqn:E1; try discriminate. injection H as <- <-. split; [|now apply env_refs_put].
    eapply alone_drop; [exact A| |exact E1]. exact Zi.
Qed.

(** ** A variable that is moved out stays so *)
Definition gone (e : env) (i : nat) : Prop := i < length e /\ lookup e i = None.
Lemma gone_push e y i : gone e i -> gone (e ++ [y]) i.
Proof.
  intros [G1 G2]. split; [rewrite app_length; lia|]. unfold lookup in *. now rewrite nth_error_app1.
Qed.
Lemma gone_assign e i j y : gone e i -> j <> i -> gone (assign e j y) i.
Proof. intros [G1 G2] Hne. split; [now rewrite assign_length|]. rewrite lookup_assign_other; auto. Qed.
Lemma gone_ne e i j v : gone e i -> lookup e j = Some v -> j <> i.
Proof. intros [_ G] Hj ->. congruence. Qed.
Lemma gone_take_trees i js : forall e e' v, gone e i -> take_trees e js = Done (e', v) -> gone e' i.
Proof.
  induction js as [|j js IH]; intros e e' v G H; cbn [take_trees] in H; [injection H as <- <-; exact G|].
  destruct (lookup e j) as [[l|t|w]|] eqn:Ej; try discriminate.
  destruct (take_trees (assign e j None) js) as [[e1 v1]| |] eqn:E; try discriminate. injection H as <- <-.
  eapply IH; [|exact E]. apply gone_assign; [exact G|]. eapply gone_ne; eauto.
Qed.
Lemma gone_take_streams i js : forall h e h' e' v, gone e i -> take_streams h e js = Done (h', e', v) -> gone e' i.
Proof.
  induction js as [|j js IH]; intros h e h' e' v G H; cbn [take_streams] in H; [injection H as <- <- <-; exact G|].
  destruct (lookup e j) as [[l|t|w]|] eqn:Ej; try discriminate.
  destruct (make_owned h l) as [[h1 v1]| |]; try discriminate. cbn [obind] in H.
  destruct (take_streams h1 (assign e j None) js) as [[[h2 e1] w]| |] eqn:E; try discriminate. injection H as <- <- <-.
  eapply IH; [|exact E]. apply gone_assign; [exact G|]. eapply gone_ne; eauto.
Qed.
Lemma gone_self e i : i < length e -> gone (assign e i None) i.
Proof. intro H. split; [now rewrite assign_length|]. now apply lookup_assign_same. Qed.
Lemma exec_gone h e o h' e' i : gone e i -> exec (h, e) o = Done (h', e') -> gone e' i.
Proof.
  intros G H.
  destruct o as [|ts|t|d j|j|j sp|j|j|js|j js|j k|js|j js|j|j|j]; cbn [exec] in *; unfold alloc in H;
    try (destruct (lookup e j) as [[l|t|w]|] eqn:Ej; try discriminate; assert (Hne := gone_ne _ _ _ _ G Ej));
    repeat destr_do H;
    repeat match goal with p : (_ * _)%type |- _ => destruct p end; repeat destr_do H;
    try (injection H as <- <-);
    try (apply gone_push; exact G);
    try (apply gone_assign; [exact G|exact Hne]).
  - destruct (leaf t); [|discriminate]. injection H as <- <-. now apply gone_push.
  - destruct t as [d g sp|s r sp|c s sp|r sp]; try discriminate. repeat destr_do H. injection H as <- <-. now apply gone_push.
  - apply gone_push. eapply gone_take_trees; eauto.
  - apply gone_assign; [|exact Hne]. eapply gone_take_trees; eauto.
  - destruct (lookup e k) as [[lk|tk|w]|] eqn:Ek; try discriminate. repeat destr_do H.
    repeat match goal with p : (_ * _)%type |- _ => destruct p end. repeat destr_do H. injection H as <- <-.
    apply gone_assign; [|exact Hne]. apply gone_assign; [exact G|]. eapply gone_ne; eauto.
  - apply gone_push. eapply gone_take_streams; eauto.
  - apply gone_assign; [|exact Hne]. eapply gone_take_streams; [|eassumption]. now apply gone_assign.
  - destruct w as [|t w]; injection H as <- <-; apply gone_push; [exact G|]. now apply gone_assign.
Qed.

(** ** The simulation *)
Scheme lop_mut := Induction for lop Sort Prop with liter_mut := Induction for liter Sort Prop.
Combined Scheme lazy_ind from lop_mut, liter_mut.

Definition sink_roots (s : sink) : roots := match s with SCell l => one l | SVec v => of_trees v end.
Definition sink_ok (h : heap) (s : sink) (ts : list token) : Prop :=
  match s with
  | SCell l => exists v, get h l = Some (mkcell 1 v) /\ sees h v ts
  | SVec v => sees h v ts
  end.
Definition same_place (s s' : sink) : Prop :=
  match s, s' with SCell l, SCell l' => l = l' | SVec _, SVec _ => True | _, _ => False end.
Lemma same_place_refl s : same_place s s.
Proof. destruct s; cbn; auto. Qed.
Lemma same_place_trans a b c : same_place a b -> same_place b c -> same_place a c.
Proof. destruct a, b, c; cbn; try tauto; congruence. Qed.

(** The sink is untouched while nobody else refers to it. *)
Lemma sink_keep h h' Q Q' s ts : wf h (Q +++ sink_roots s) -> wf h' (Q' +++ sink_roots s) -> sink_ok h s ts ->
  keeps (sink_roots s) h h' -> (forall x, alone x h 0 -> Q x = 0 -> heap_refs x h' = 0 /\ Q' x = 0) -> sink_ok h' s ts.
Proof.
  intros W W' Hs K F. destruct s as [l|v]; cbn [sink_ok sink_roots] in *.
  - destruct Hs as (v & Hg & Hv). destruct (wf_rc _ _ _ _ W Hg) as [Hrc _]. cbn [rc] in Hrc. unfold plus in Hrc.
    rewrite one_same in Hrc. destruct (F l) as [F1 F2]; [split; [eapply get_lt; eauto|lia]|lia|].
    assert (L : looks h' (VStream l) (AStream ts)).
    { eapply looks_keeps; [exact K| |exists (mkcell 1 v); split; [exact Hg|exact Hv]].
      intros x Hx. cbn [value_refs] in Hx. unfold one. exact Hx. }
    destruct L as ([n w] & Hg' & Hw). exists w. split; [|exact Hw]. rewrite Hg'. f_equal. f_equal.
    destruct (wf_rc _ _ _ _ W' Hg') as [Hrc' _]. cbn [rc] in Hrc'. unfold plus in Hrc'. rewrite one_same in Hrc'. lia.
  - apply K; [|exact Hs]. intros x Hx. exact Hx.
Qed.

Definition fresh_kept (h : heap) (e : env) (h' : heap) (e' : env) : Prop :=
  forall x, alone x h 0 -> env_refs x e = 0 -> alone x h' 0 /\ env_refs x e' = 0.
Definition op_agrees (R : roots) (h : heap) (e : env) (r : out (state * bool)) (a : option (aenv * bool)) : Prop :=
  match r, a with
  | Done (h', e', b), Some (ae', b') =>
      b = b' /\ Inv h' e' ae' R /\ keeps R h h' /\ fresh_kept h e h' e' /\ (forall i, gone e i -> gone e' i)
  | Illtyped, None => True
  | _, _ => False
  end.
Definition run_agrees (R : roots) (h : heap) (e : env) (s : sink) (ts : list token)
    (r : out (heap * env * sink * bool)) (a : option (aenv * list token * bool)) : Prop :=
  match r, a with
  | Done (h', e', s', b), Some (ae', us, b') =>
      b = b' /\ Inv h' e' ae' (R +++ sink_roots s') /\ sink_ok h' s' (ts ++ us) /\ same_place s s' /\ keeps R h h' /\
      (forall x, alone x h 0 -> env_refs x e = 0 -> sink_roots s x = 0 ->
        alone x h' 0 /\ env_refs x e' = 0 /\ sink_roots s' x = 0) /\ (forall i, gone e i -> gone e' i)
  | Illtyped, None => True
  | _, _ => False
  end.

Lemma give_ok h e ae R s ts w us : Inv h e ae (R +++ sink_roots s +++ of_trees w) -> sink_ok h s ts -> sees h w us ->
  exists h' s', give h s w = Done (h', s') /\ Inv h' e ae (R +++ sink_roots s') /\ sink_ok h' s' (ts ++ us) /\ same_place s s' /\
    keeps R h h' /\ (forall x, alone x h 0 -> sink_roots s x = 0 -> trees_refs x w = 0 -> alone x h' 0 /\ sink_roots s' x = 0).
Proof.
  intros H Hs Hw. destruct s as [l|v]; cbn [give].
  - destruct Hs as (v & Hg & Hv).
    destruct (Inv_append h e ae R l v ts w us) as (h' & E & I' & L & K); [|exact Hg|exact Hv|exact Hw|].
    { eapply Inv_ext; [|exact H]. intro x. unfold plus, ev, one. cbn [sink_roots value_refs]. unfold one. lia. }
    rewrite E. cbn [obind]. exists h', (SCell l). split; [reflexivity|]. split; [|split; [|split; [reflexivity|split; [exact K|]]]].
    + eapply Inv_ext; [|exact I']. intro x. unfold plus, ev, one. cbn [sink_roots value_refs]. unfold one. lia.
    + cbn [sink_ok]. destruct L as (c & Hc & Hsee). unfold append in E. rewrite Hg in E. cbn [rc elems] in E. injection E as <-.
      rewrite get_set_same in * by (eapply get_lt; eauto). injection Hc as <-. cbn [elems] in Hsee. eauto.
    + intros x A Z1 Z2. split; [|exact Z1]. eapply alone_append; eauto.
  - exists h, (SVec (v ++ w)). split; [reflexivity|]. split; [|split; [|split; [exact I|split; [apply keeps_refl|]]]].
    + eapply Inv_ext; [|exact H]. intro x. unfold plus, of_trees. cbn [sink_roots]. unfold of_trees. rewrite trees_refs_app. lia.
    + cbn [sink_ok] in *. now apply sees_app.
    + intros x A Z1 Z2. split; [exact A|]. cbn [sink_roots] in *. unfold of_trees in *. rewrite trees_refs_app. lia.
Qed.

Definition op_claim (o : lop) : Prop := forall h e ae R, Inv h e ae R -> op_agrees R h e (lexec (h, e) o) (alexec ae o).
Definition run_claim (it : liter) : Prop := forall b h e ae R s ts,
  Inv h e ae (R +++ sink_roots s) -> sink_ok h s ts -> run_agrees R h e s ts (lrun b h e s it) (alrun b ae it).

Lemma run_sub R h e s ts h1 e1 s1 ts1 r a :
  sink_ok h1 s1 (ts ++ ts1) -> same_place s s1 -> keeps R h h1 ->
  (forall x, alone x h 0 -> env_refs x e = 0 -> sink_roots s x = 0 -> alone x h1 0 /\ env_refs x e1 = 0 /\ sink_roots s1 x = 0) ->
  (forall i, gone e i -> gone e1 i) ->
  run_agrees R h1 e1 s1 (ts ++ ts1) r a ->
  run_agrees R h e s ts r (match a with Some (ae, us, ok) => Some (ae, ts1 ++ us, ok) | None => None end).
Proof.
  intros Hs P K F G H. unfold run_agrees in *. destruct r as [[[[h2 e2] s2] b]| |], a as [[[ae2 us] b']|]; try exact H.
  destruct H as (Eb & I2 & S2 & P2 & K2 & F2 & G2). split; [exact Eb|]. split; [exact I2|].
  split; [rewrite app_assoc; exact S2|]. split; [eapply same_place_trans; eauto|]. split; [eapply keeps_trans; eauto|].
  split; [|auto]. intros x A Z1 Z2. destruct (F x A Z1 Z2) as (A' & Z1' & Z2'). auto.
Qed.

Lemma do_step o h e ae R s ts : op_claim o -> Inv h e ae (R +++ sink_roots s) -> sink_ok h s ts ->
  match lexec (h, e) o, alexec ae o with
  | Done (h1, e1, b), Some (ae1, b') =>
      b = b' /\ Inv h1 e1 ae1 (R +++ sink_roots s) /\ sink_ok h1 s ts /\ keeps R h h1 /\
      (forall x, alone x h 0 -> env_refs x e = 0 -> sink_roots s x = 0 ->
        alone x h1 0 /\ env_refs x e1 = 0 /\ sink_roots s x = 0) /\ (forall i, gone e i -> gone e1 i)
  | Illtyped, None => True
  | _, _ => False
  end.
Proof.
  intros IH H Hs. specialize (IH h e ae _ H). unfold op_agrees in IH.
  destruct (lexec (h, e) o) as [[[h1 e1] b]| |], (alexec ae o) as [[ae1 b']|]; try exact IH.
  destruct IH as (Eb & I1 & K1 & F1 & G1). split; [exact Eb|]. split; [exact I1|].
  split; [|split; [eapply keeps_mono; [|exact K1]; intro x; unfold plus; lia|split; [|exact G1]]].
  - apply (sink_keep h h1 (R +++ er e) (R +++ er e1) s ts).
    + eapply wf_ext; [|exact (inv_wf _ _ _ _ H)]. intro x. unfold plus. lia.
    + eapply wf_ext; [|exact (inv_wf _ _ _ _ I1)]. intro x. unfold plus. lia.
    + exact Hs.
    + eapply keeps_mono; [|exact K1]. intro x. unfold plus. lia.
    + intros x A Z. unfold plus, er in *. destruct (F1 x A ltac:(lia)) as [[_ A1] Z1]. lia.
  - intros x A Z1 Z2. destruct (F1 x A Z1). auto.
Qed.

Lemma yield_ok b h e ae R s ts j : Inv h e ae (R +++ sink_roots s) -> sink_ok h s ts ->
  match yield b h e j, ayield b ae j with
  | Done (h1, e1, w), Some (ae1, us) =>
      Inv h1 e1 ae1 (R +++ sink_roots s +++ of_trees w) /\ sink_ok h1 s ts /\ sees h1 w us /\ keeps R h h1 /\
      (forall x, alone x h 0 -> env_refs x e = 0 -> sink_roots s x = 0 ->
        alone x h1 0 /\ env_refs x e1 = 0 /\ trees_refs x w = 0) /\ (forall i, gone e i -> gone e1 i)
  | Illtyped, None => True
  | _, _ => False
  end.
Proof.
  intros H Hs. unfold yield, ayield. pose proof (lookup_olooks h e ae j (inv_looks _ _ _ _ H)) as Hj.
  destruct (lookup e j) as [vj|] eqn:Ej, (alookup ae j) as [aj|] eqn:Aj; try contradiction; [|destruct b; exact I].
  destruct vj as [l|t|v], aj as [us|u|us]; try (cbn [looks] in Hj; contradiction); destruct b; try exact I.
  - (* a stream *)
    assert (H1 := Inv_take _ _ _ _ _ _ H Ej).
    destruct (Inv_owned _ _ _ _ _ _ H1 Hj) as (h1 & v & E1 & I1 & S1 & K1). rewrite E1. cbn [obind].
    split; [exact I1|]. split; [|split; [exact S1|split; [eapply keeps_mono; [|exact K1]; intro x; unfold plus; lia|split]]].
    + apply (sink_keep h h1 (R +++ er (assign e j None) +++ ev (Some (VStream l))) (R +++ er (assign e j None) +++ of_trees v) s ts).
      * eapply wf_ext; [|exact (inv_wf _ _ _ _ H1)]. intro x. unfold plus. lia.
      * eapply wf_ext; [|exact (inv_wf _ _ _ _ I1)]. intro x. unfold plus. lia.
      * exact Hs.
      * eapply keeps_mono; [|exact K1]. intro x. unfold plus. lia.
      * intros x A Z. unfold plus in Z. destruct (alone_owned x h l h1 v 0 A) as [[_ A1] Z1]; [unfold ev in Z; cbn [value_refs] in Z; unfold one; lia|exact E1|].
        unfold plus, of_trees. lia.
    + intros x A Z1 Z2. pose proof (env_refs_lookup x e j _ Z1 Ej) as Z3.
      destruct (alone_owned x h l h1 v 0 A Z3 E1) as [A1 Z4]. split; [exact A1|]. split; [now apply env_refs_put|exact Z4].
    + intros i G. apply gone_assign; [exact G|]. eapply gone_ne; eauto.
  - (* a tree *)
    assert (H1 := Inv_take _ _ _ _ _ _ H Ej). cbn [looks] in Hj.
    destruct (push_one h [] t [] u (sees_nil h) Hj) as [S1 R1].
    split; [|split; [exact Hs|split; [exact S1|split; [apply keeps_refl|split]]]].
    + eapply Inv_ext; [|exact H1]. intro x. unfold plus, ev, of_trees. rewrite R1, trees_refs_nil. cbn [value_refs]. lia.
    + intros x A Z1 Z2. pose proof (env_refs_lookup x e j _ Z1 Ej) as Z3. split; [exact A|]. split; [now apply env_refs_put|].
      rewrite R1, trees_refs_nil. exact Z3.
    + intros i G. apply gone_assign; [exact G|]. eapply gone_ne; eauto.
Qed.

Lemma extend_case b i it : run_claim it -> forall h e ae R, Inv h e ae R ->
  op_agrees R h e
    (match lookup e i with
     | Some (VStream l) =>
         do (h, l) <- make_mut h l;;
         do (h, e, s, ok) <- lrun b h (assign e i None) (SCell l) it;;
         Done (h, assign e i (Some (VStream l)), ok)
     | _ => Illtyped
     end)
    (match alookup ae i with
     | Some (AStream ts) =>
         match alrun b (assign ae i None) it with
         | Some (e, us, ok) => Some (assign e i (Some (AStream (ts ++ us))), ok)
         | None => None
         end
     | _ => None
     end).
Proof.
  intros IH h e ae R H. pose proof (lookup_olooks h e ae i (inv_looks _ _ _ _ H)) as Hi.
  destruct (lookup e i) as [vi|] eqn:Ei, (alookup ae i) as [ai|] eqn:Ai; try contradiction; try exact I.
  destruct vi as [l|t|v], ai as [ts|u|ts]; try (cbn [looks] in Hi; contradiction); try exact I.
  assert (H1 := Inv_take _ _ _ _ _ _ H Ei).
  destruct (Inv_mut _ _ _ _ _ _ H1 Hi) as (h2 & l' & w & E2 & I2 & G2 & S2 & K2). rewrite E2. cbn [obind].
  assert (I2' : Inv h2 (assign e i None) (assign ae i None) (R +++ sink_roots (SCell l'))) by (eapply Inv_ext; [|exact I2]; reflexivity).
  pose proof (IH b h2 (assign e i None) (assign ae i None) R (SCell l') ts I2') as Q.
  specialize (Q (ex_intro _ w (conj G2 S2))). unfold run_agrees in Q.
  destruct (lrun b h2 (assign e i None) (SCell l') it) as [[[[h3 e3] s3] ok]| |], (alrun b (assign ae i None) it) as [[[ae3 us] ok']|];
    cbn [obind]; try contradiction; try exact I.
  destruct Q as (<- & I3 & S3 & P3 & K3 & F3 & G3). destruct s3 as [l3|]; [|contradiction]. cbn [same_place] in P3. subst l3.
  assert (G : gone e3 i) by (apply G3; apply gone_self; eapply lookup_lt; eauto). destruct G as [Gl Gn].
  cbn [op_agrees]. split; [reflexivity|]. split; [|split; [|split]].
  - apply Inv_fill; [exact Gl|exact Gn| |].
    + eapply Inv_ext; [|exact I3]. reflexivity.
    + destruct S3 as (v & Hg & Hv). exists (mkcell 1 v). auto.
  - eapply keeps_trans; [|exact K3]. eapply keeps_mono; [|exact K2]. intro x. unfold plus. lia.
  - intros x A Z. pose proof (env_refs_lookup x e i _ Z Ei) as Z1.
    destruct (alone_mut x h l h2 l' 0 A Z1 E2) as [A2 Z2].
    destruct (F3 x A2 (env_refs_put x e i None Z eq_refl) Z2) as (A3 & Z3 & Z4). split; [exact A3|]. now apply env_refs_put.
  - intros k G. assert (Hne := gone_ne _ _ _ _ G Ei). apply gone_assign; [|exact Hne]. apply G3. now apply gone_assign.
Qed.

Lemma collect_trees_case it : run_claim it -> forall h e ae R, Inv h e ae R ->
  op_agrees R h e
    (let (h, l) := alloc h [] in
     do (h, l) <- make_mut h l;;
     do (h, e, s, ok) <- lrun true h e (SCell l) it;;
     if ok : bool then Done (h, e ++ [Some (VStream l)], true)
     else do h <- drop_stream h l;; Done (h, e ++ [None], false))
    (match alrun true ae it with
     | Some (e, us, true) => Some (e ++ [Some (AStream us)], true)
     | Some (e, _, false) => Some (e ++ [None], false)
     | None => None
     end).
Proof.
  intros IH h e ae R H. unfold alloc. set (h1 := h ++ [Some (mkcell 1 [])]). set (l := length h).
  assert (E1 : make_mut h1 l = Done (h1, l)) by (unfold make_mut, h1, l; now rewrite get_alloc). rewrite E1. cbn [obind].
  assert (I1 : Inv h1 e ae (R +++ sink_roots (SCell l))).
  { eapply Inv_ext; [|apply (Inv_alloc h e ae R [] []); [|constructor]]; [reflexivity|]. eapply Inv_ext; [|exact H]. roots. }
  pose proof (IH true h1 e ae R (SCell l) [] I1) as Q.
  specialize (Q (ex_intro _ [] (conj (get_alloc h (mkcell 1 [])) (sees_nil _)))). unfold run_agrees in Q.
  assert (K1 : keeps R h h1).
  { apply keeps_same. intros y c Hg. unfold h1. rewrite get_app by (eapply get_lt; eauto). eauto. }
  destruct (lrun true h1 e (SCell l) it) as [[[[h3 e3] s3] ok]| |], (alrun true ae it) as [[[ae3 us] ok']|];
    cbn [obind]; try contradiction; try exact I.
  destruct Q as (<- & I3 & S3 & P3 & K3 & F3 & G3). destruct s3 as [l3|]; [|contradiction]. cbn [same_place] in P3. subst l3.
  destruct ok; cbn [op_agrees].
  - split; [reflexivity|]. split; [|split; [eapply keeps_trans; eauto|split]].
    + apply Inv_push; [eapply Inv_ext; [|exact I3]; reflexivity|]. destruct S3 as (v & Hg & Hv). exists (mkcell 1 v). auto.
    + intros x A Z. destruct (alone_alloc x h [] 0 A (trees_refs_nil x)) as [A1 Z1].
      destruct (F3 x A1 Z Z1) as (A3 & Z3 & Z4). split; [exact A3|]. now apply env_refs_pushed.
    + intros i G. apply gone_push. auto.
  - destruct (Inv_drop_stream h3 e3 ae3 R l) as (h4 & E4 & I4 & K4); [eapply Inv_ext; [|exact I3]; reflexivity|].
    rewrite E4. cbn [obind]. split; [reflexivity|]. split; [|split; [|split]].
    + apply Inv_push; [|exact I]. eapply Inv_ext; [|exact I4]. roots.
    + eapply keeps_trans; [exact K1|]. eapply keeps_trans; [exact K3|]. eapply keeps_mono; [|exact K4]. intro x. unfold plus. lia.
    + intros x A Z. destruct (alone_alloc x h [] 0 A (trees_refs_nil x)) as [A1 Z1].
      destruct (F3 x A1 Z Z1) as (A3 & Z3 & Z4). split; [|now apply env_refs_pushed]. eapply alone_drop; [exact A3| |exact E4].
      exact Z4.
    + intros i G. apply gone_push. auto.
Qed.

Lemma collect_streams_case it : run_claim it -> forall h e ae R, Inv h e ae R ->
  op_agrees R h e
    (do (h, e, s, ok) <- lrun false h e (SVec []) it;;
     match s with
     | SVec v =>
         if ok : bool then let (h, l) := alloc h v in Done (h, e ++ [Some (VStream l)], true)
         else do h <- drop_iter h v;; Done (h, e ++ [None], false)
     | SCell _ => Fault
     end)
    (match alrun false ae it with
     | Some (e, us, true) => Some (e ++ [Some (AStream us)], true)
     | Some (e, _, false) => Some (e ++ [None], false)
     | None => None
     end).
Proof.
  intros IH h e ae R H.
  assert (I1 : Inv h e ae (R +++ sink_roots (SVec []))) by (eapply Inv_ext; [|exact H]; cbn [sink_roots]; roots).
  pose proof (IH false h e ae R (SVec []) [] I1 (sees_nil h)) as Q. unfold run_agrees in Q.
  destruct (lrun false h e (SVec []) it) as [[[[h3 e3] s3] ok]| |], (alrun false ae it) as [[[ae3 us] ok']|];
    cbn [obind]; try contradiction; try exact I.
  destruct Q as (<- & I3 & S3 & P3 & K3 & F3 & G3). destruct s3 as [|v]; [contradiction|]. cbn [sink_roots sink_ok app] in *.
  assert (Z0 : forall x, of_trees [] x = 0) by (intro; apply trees_refs_nil).
  destruct ok; cbn [op_agrees].
  - unfold alloc. split; [reflexivity|]. split; [|split; [|split]].
    + apply Inv_push; [|now apply stream_looks_alloc]. apply (Inv_alloc h3 _ _ R _ us); [exact I3|exact S3].
    + eapply keeps_trans; [exact K3|]. apply keeps_same. intros y c Hg. rewrite get_app by (eapply get_lt; eauto). eauto.
    + intros x A Z. destruct (F3 x A Z (Z0 x)) as (A3 & Z3 & Z4). destruct (alone_alloc x h3 v 0 A3 Z4) as [A4 Z5].
      split; [exact A4|]. now apply env_refs_pushed.
    + intros i G. apply gone_push. auto.
  - destruct (drop_iter_ok h3 v (R +++ er e3)) as (h4 & E4 & W4 & K4).
    { eapply wf_ext; [|exact (inv_wf _ _ _ _ I3)]. intro x. unfold plus. lia. }
    rewrite E4. cbn [obind]. split; [reflexivity|]. split; [|split; [|split]].
    + apply Inv_push; [|exact I]. eapply (Inv_step h3); [exact I3| |eapply keeps_mono; [|exact K4]; intro x; unfold plus; lia].
      eapply wf_ext; [|exact W4]. roots.
    + eapply keeps_trans; [exact K3|]. eapply keeps_mono; [|exact K4]. intro x. unfold plus. lia.
    + intros x A Z. destruct (F3 x A Z (Z0 x)) as (A3 & Z3 & Z4). split; [|now apply env_refs_pushed].
      eapply alone_drop; [exact A3| |exact E4]. exact Z4.
    + intros i G. apply gone_push. auto.
Qed.

Theorem lazy_agrees : (forall o, op_claim o) /\ (forall it, run_claim it).
Proof.
  apply lazy_ind.
  - (* one operation *)
    intros o h e ae R H. cbn [lexec alexec]. pose proof (exec_inv h e ae R o H) as A. unfold agree_on in A.
    destruct (exec (h, e) o) as [[h1 e1]| |] eqn:E, (aexec ae o) as [ae1|]; cbn [obind op_agrees]; try contradiction; try exact I.
    destruct A as [A1 A2]. split; [reflexivity|]. split; [exact A1|]. split; [exact A2|]. split.
    + intros x Ax Zx. eapply exec_alone; eauto.
    + intros i G. eapply exec_gone; eauto.
  - intros i it IH h e ae R H. cbn [lexec alexec]. apply (extend_case true i it IH h e ae R H).
  - intros i it IH h e ae R H. cbn [lexec alexec]. apply (extend_case false i it IH h e ae R H).
  - intros it IH h e ae R H. cbn [lexec alexec]. apply (collect_trees_case it IH h e ae R H).
  - intros it IH h e ae R H. cbn [lexec alexec]. apply (collect_streams_case it IH h e ae R H).
  - intros b h e ae R s ts H Hs. cbn [lrun alrun run_agrees]. rewrite app_nil_r. split; [reflexivity|]. split; [exact H|]. split; [exact Hs|]. split; [apply same_place_refl|]. split; [apply keeps_refl|]. auto.
  - intros b h e ae R s ts H Hs. cbn [lrun alrun run_agrees]. rewrite app_nil_r. split; [reflexivity|]. split; [exact H|]. split; [exact Hs|]. split; [apply same_place_refl|]. split; [apply keeps_refl|]. auto.
  - intros o IHo k IHk b h e ae R s ts H Hs. cbn [lrun alrun].
    pose proof (do_step o h e ae R s ts IHo H Hs) as D.
    destruct (lexec (h, e) o) as [[[h1 e1] b1]| |], (alexec ae o) as [[ae1 b1']|]; cbn [obind]; try contradiction; try exact I.
    destruct D as (<- & I1 & S1 & K1 & F1 & G1). destruct b1.
    + pose proof (run_sub R h e s ts h1 e1 s [] (lrun b h1 e1 s k) (alrun b ae1 k)) as Q.
      rewrite app_nil_r in Q. specialize (Q S1 (same_place_refl s) K1 F1 G1 (IHk b h1 e1 ae1 R s ts I1 S1)).
      destruct (alrun b ae1 k) as [[[? ?] ?]|]; exact Q.
    + cbn [run_agrees]. rewrite app_nil_r. split; [reflexivity|]. split; [exact I1|]. split; [exact S1|]. split; [apply same_place_refl|]. split; [exact K1|]. auto.
  - intros o IHo k IHk b h e ae R s ts H Hs. cbn [lrun alrun].
    pose proof (do_step o h e ae R s ts IHo H Hs) as D.
    destruct (lexec (h, e) o) as [[[h1 e1] b1]| |], (alexec ae o) as [[ae1 b1']|]; cbn [obind]; try contradiction; try exact I.
    destruct D as (_ & I1 & S1 & K1 & F1 & G1).
    pose proof (run_sub R h e s ts h1 e1 s [] (lrun b h1 e1 s k) (alrun b ae1 k)) as Q.
    rewrite app_nil_r in Q. specialize (Q S1 (same_place_refl s) K1 F1 G1 (IHk b h1 e1 ae1 R s ts I1 S1)).
    destruct (alrun b ae1 k) as [[[? ?] ?]|]; exact Q.
  - intros j k IHk b h e ae R s ts H Hs. cbn [lrun alrun].
    pose proof (yield_ok b h e ae R s ts j H Hs) as Y.
    destruct (yield b h e j) as [[[h1 e1] w]| |], (ayield b ae j) as [[ae1 us]|]; cbn [obind]; try contradiction; try exact I.
    destruct Y as (I1 & S1 & W1 & K1 & F1 & G1).
    destruct (give_ok h1 e1 ae1 R s ts w us I1 S1 W1) as (h2 & s2 & E2 & I2 & S2 & P2 & K2 & F2). rewrite E2. cbn [obind].
    apply (run_sub R h e s ts h2 e1 s2 us); [exact S2|exact P2|eapply keeps_trans; eauto| |exact G1|exact (IHk b _ _ _ _ _ _ I2 S2)].
    intros x A Z1 Z2. destruct (F1 x A Z1 Z2) as (A1 & Z3 & Z4). destruct (F2 x A1 Z2 Z4). auto.
Qed.

(** ** Histories *)
Lemma lexec_all_agree os : forall st ae, related st ae ->
  match lexec_all st os, alexec_all ae os with
  | Done (h', e', bs), Some (ae', bs') => bs = bs' /\ Inv h' e' ae' zero
  | Illtyped, None => True
  | _, _ => False
  end.
Proof.
  induction os as [|o os IH]; intros [h e] ae H; cbn [lexec_all alexec_all]; [split; [reflexivity|exact H]|].
  pose proof (proj1 lazy_agrees o h e ae zero H) as A. unfold op_agrees in A.
  destruct (lexec (h, e) o) as [[[h1 e1] b]| |], (alexec ae o) as [[ae1 b']|]; cbn [obind]; try contradiction; try exact I.
  destruct A as (<- & I1 & _). specialize (IH (h1, e1) ae1 I1).
  destruct (lexec_all (h1, e1) os) as [[[h2 e2] bs]| |], (alexec_all ae1 os) as [[ae2 bs']|]; cbn [obind]; try contradiction; try exact I.
  destruct IH as (<- & I2). split; [reflexivity|exact I2].
Qed.
Lemma lazy_history os :
  match lexec_all ([], []) os, alexec_all [] os with
  | Done (h, e, oks), Some (ae, oks') => oks = oks' /\ Forall2 (olooks h) e ae
  | Illtyped, None => True
  | _, _ => False
  end.
Proof.
  pose proof (lexec_all_agree os _ _ related_start) as A.
  destruct (lexec_all ([], []) os) as [[[h e] bs]| |], (alexec_all [] os) as [[ae bs']|]; try exact A.
  destruct A as [E A]. split; [exact E|exact (inv_looks _ _ _ _ A)].
Qed.
Lemma lazy_related os h e oks : lexec_all ([], []) os = Done (h, e, oks) -> exists ae, alexec_all [] os = Some (ae, oks) /\ Inv h e ae zero.
Proof.
  intro E. pose proof (lexec_all_agree os _ _ related_start) as A. rewrite E in A.
  destruct (alexec_all [] os) as [[ae bs']|]; [|contradiction]. destruct A as [<- A]. eauto.
Qed.
Lemma lazy_wf os h e oks : lexec_all ([], []) os = Done (h, e, oks) -> wf h (er e).
Proof. intro E. destruct (lazy_related _ _ _ _ E) as (ae & _ & R). exact (related_wf _ _ _ R). Qed.
Lemma lazy_counts os h e oks : lexec_all ([], []) os = Done (h, e, oks) ->
  (forall l, match get h l with
             | Some c => rc c = env_refs l e + heap_refs l h /\ rc c <> 0
             | None => env_refs l e = 0 /\ heap_refs l h = 0
             end) /\
  (forall l c, get h l = Some c -> reachable h e l) /\
  ((forall i, lookup e i = None) -> forall l, get h l = None).
Proof.
  intro E. pose proof (lazy_wf _ _ _ _ E) as W. split; [|split; [exact (wf_no_garbage _ _ W)|exact (wf_frees _ _ W)]].
  intro l. pose proof (wf_count _ _ W l) as Q. unfold er in Q. destruct (get h l); [exact Q|lia].
Qed.

(** ** An interrupted call *)
Lemma alrun_trees ok js : forall ae, alrun true ae (yields js (last_of ok)) =
  match atake_trees ae js with Some (ae, ts) => Some (ae, split_negatives ts, ok) | None => None end.
Proof.
  induction js as [|j js IH]; intro ae; cbn [yields].
  - destruct ok; reflexivity.
  - cbn [alrun atake_trees]. unfold ayield. destruct (alookup ae j) as [[|u|]|]; try reflexivity.
    rewrite IH. destruct (atake_trees (assign ae j None) js) as [[ae1 ts]|]; reflexivity.
Qed.
Lemma alrun_streams ok js : forall ae, alrun false ae (yields js (last_of ok)) =
  match atake_streams ae js with Some (ae, ts) => Some (ae, ts, ok) | None => None end.
Proof.
  induction js as [|j js IH]; intro ae; cbn [yields].
  - destruct ok; reflexivity.
  - cbn [alrun atake_streams]. unfold ayield. destruct (alookup ae j) as [[v|u|]|]; try reflexivity.
    rewrite IH. destruct (atake_streams (assign ae j None) js) as [[ae1 ts]|]; reflexivity.
Qed.
Lemma assign_assign_trees (ae ae3 : aenv) i ts : assign (assign ae3 i None) i ts = assign ae3 i ts.
Proof. apply assign_assign. Qed.
Lemma alexec_extend_trees ok i js ae : alexec ae (LExtendTrees i (yields js (last_of ok))) =
  match aexec ae (OExtendTrees i js) with Some ae => Some (ae, ok) | None => None end.
Proof.
  cbn [alexec aexec]. destruct (alookup ae i) as [[ts|u|us]|] eqn:Ai; try reflexivity. rewrite alrun_trees.
  rewrite (atake_trees_assign js ae i None ts Ai I). destruct (atake_trees ae js) as [[ae1 vs]|]; [|reflexivity].
  now rewrite assign_assign.
Qed.
Lemma alexec_extend_streams ok i js ae : alexec ae (LExtendStreams i (yields js (last_of ok))) =
  match aexec ae (OExtendStreams i js) with Some ae => Some (ae, ok) | None => None end.
Proof.
  cbn [alexec aexec]. destruct (alookup ae i) as [[ts|u|us]|] eqn:Ai; try reflexivity. rewrite alrun_streams.
  destruct (atake_streams (assign ae i None) js) as [[ae1 vs]|]; reflexivity.
Qed.
Lemma looks_det_env h e ae ae' : Forall2 (olooks h) e ae -> Forall2 (olooks h) e ae' -> ae = ae'.
Proof.
  intro H. revert ae'. induction H as [|v a e ae Hv H IH]; intros ae' H'; inversion H' as [|v' a' e' ae'' Hv' H'']; subst; [reflexivity|].
  rewrite (IH _ H''). f_equal. unfold olooks in Hv, Hv'. destruct v, a, a'; try contradiction; try reflexivity.
  f_equal. eapply looks_det; eauto.
Qed.
Lemma same_looks ok h e ae o o' : Inv h e ae zero ->
  alexec ae o = match aexec ae o' with Some ae => Some (ae, ok) | None => None end ->
  same_result ok (lexec (h, e) o) (exec (h, e) o').
Proof.
  intros H E. pose proof (proj1 lazy_agrees o h e ae zero H) as A. pose proof (exec_inv h e ae zero o' H) as B.
  unfold op_agrees in A. unfold agree_on in B. unfold same_result. rewrite E in A.
  destruct (aexec ae o') as [ae1|]; destruct (lexec (h, e) o) as [[[h1 e1] b]| |], (exec (h, e) o') as [[h2 e2]| |];
    try contradiction; try exact I.
  destruct A as (-> & A & _). destruct B as [B _]. split; [reflexivity|]. apply inv_looks in A. apply inv_looks in B.
  intro ae'. split; intro L; [rewrite <- (looks_det_env _ _ _ _ A L)|rewrite <- (looks_det_env _ _ _ _ B L)]; assumption.
Qed.
Lemma interrupted_trees os h e oks : lexec_all ([], []) os = Done (h, e, oks) -> forall ok i js,
  same_result ok (lexec (h, e) (LExtendTrees i (yields js (last_of ok)))) (exec (h, e) (OExtendTrees i js)).
Proof.
  intros E ok i js. destruct (lazy_related _ _ _ _ E) as (ae & _ & R). apply (same_looks ok h e ae _ _ R), alexec_extend_trees.
Qed.
Lemma interrupted_streams os h e oks : lexec_all ([], []) os = Done (h, e, oks) -> forall ok i js,
  same_result ok (lexec (h, e) (LExtendStreams i (yields js (last_of ok)))) (exec (h, e) (OExtendStreams i js)).
Proof.
  intros E ok i js. destruct (lazy_related _ _ _ _ E) as (ae & _ & R). apply (same_looks ok h e ae _ _ R), alexec_extend_streams.
Qed.

(** ** Other variables *)
Lemma lookup_push_same e y i v : lookup e i = Some v -> lookup (e ++ [y]) i = Some v.
Proof. apply lookup_push. Qed.
Lemma lazy_other : 
  (forall o h e h' e' b i v, lexec (h, e) o = Done (h', e', b) -> ~ In i (lwrites o) -> lookup e i = Some v -> lookup e' i = Some v) /\
  (forall it tr h e s h' e' s' b i v, lrun tr h e s it = Done (h', e', s', b) -> ~ In i (iwrites it) -> lookup e i = Some v -> lookup e' i = Some v).
Proof.
  apply lazy_ind.
  - intros o h e h' e' b i v H Hi Hv. cbn [lexec lwrites] in *. destruct (exec (h, e) o) as [[h1 e1]| |] eqn:E; try discriminate.
    cbn [obind] in H. injection H as <- <- <-. eapply exec_other; eauto.
  - intros j it IH h e h' e' b i v H Hi Hv. cbn [lexec lwrites] in *. destruct (lookup e j) as [[l|t|w]|] eqn:Ej; try discriminate.
    destruct (make_mut h l) as [[h1 l1]| |]; try discriminate. cbn [obind] in H.
    destruct (lrun true h1 (assign e j None) (SCell l1) it) as [[[[h2 e2] s2] ok]| |] eqn:E; try discriminate. injection H as <- <- <-.
    assert (Hne : i <> j) by (intros ->; apply Hi; now left).
    rewrite lookup_assign_other by exact Hne. eapply IH; [exact E|intro; apply Hi; now right|]. now rewrite lookup_assign_other.
  - intros j it IH h e h' e' b i v H Hi Hv. cbn [lexec lwrites] in *. destruct (lookup e j) as [[l|t|w]|] eqn:Ej; try discriminate.
    destruct (make_mut h l) as [[h1 l1]| |]; try discriminate. cbn [obind] in H.
    destruct (lrun false h1 (assign e j None) (SCell l1) it) as [[[[h2 e2] s2] ok]| |] eqn:E; try discriminate. injection H as <- <- <-.
    assert (Hne : i <> j) by (intros ->; apply Hi; now left).
    rewrite lookup_assign_other by exact Hne. eapply IH; [exact E|intro; apply Hi; now right|]. now rewrite lookup_assign_other.
  - intros it IH h e h' e' b i v H Hi Hv. cbn [lexec lwrites] in *. unfold alloc in H.
    destruct (make_mut _ _) as [[h1 l1]| |]; try discriminate. cbn [obind] in H.
    destruct (lrun true h1 e (SCell l1) it) as [[[[h2 e2] s2] ok]| |] eqn:E; try discriminate. cbn [obind] in H.
    destruct ok; [|destruct (drop_stream h2 l1) as [h3| |]; try discriminate]; injection H as <- <- <-;
      apply lookup_push; eapply IH; eauto.
  - intros it IH h e h' e' b i v H Hi Hv. cbn [lexec lwrites] in *.
    destruct (lrun false h e (SVec []) it) as [[[[h2 e2] s2] ok]| |] eqn:E; try discriminate. cbn [obind] in H.
    destruct s2 as [|w]; [discriminate|]. unfold alloc in H.
    destruct ok; [|destruct (drop_iter h2 w) as [h3| |]; try discriminate]; injection H as <- <- <-;
      apply lookup_push; eapply IH; eauto.
  - intros tr h e s h' e' s' b i v H _ Hv. injection H as <- <- <- <-. exact Hv.
  - intros tr h e s h' e' s' b i v H _ Hv. injection H as <- <- <- <-. exact Hv.
  - intros o IHo k IHk tr h e s h' e' s' b i v H Hi Hv. cbn [lrun iwrites] in *.
    destruct (lexec (h, e) o) as [[[h1 e1] b1]| |] eqn:E; try discriminate. cbn [obind] in H.
    assert (H1 : lookup e1 i = Some v) by (eapply IHo; [exact E|intro; apply Hi, in_or_app; now left|exact Hv]).
    destruct b1; [|now injection H as <- <- <- <-]. eapply IHk; [exact H|intro; apply Hi, in_or_app; now right|exact H1].
  - intros o IHo k IHk tr h e s h' e' s' b i v H Hi Hv. cbn [lrun iwrites] in *.
    destruct (lexec (h, e) o) as [[[h1 e1] b1]| |] eqn:E; try discriminate. cbn [obind] in H.
    assert (H1 : lookup e1 i = Some v) by (eapply IHo; [exact E|intro; apply Hi, in_or_app; now left|exact Hv]).
    eapply IHk; [exact H|intro; apply Hi, in_or_app; now right|exact H1].
  - intros j k IHk tr h e s h' e' s' b i v H Hi Hv. cbn [lrun iwrites] in *.
    assert (Hne : i <> j) by (intros ->; apply Hi; now left).
    destruct (yield tr h e j) as [[[h1 e1] w]| |] eqn:E; try discriminate. cbn [obind] in H.
    assert (E1 : e1 = assign e j None).
    { unfold yield in E. destruct tr, (lookup e j) as [[l|t|u]|]; try discriminate; [injection E as _ <- _; reflexivity|].
      destruct (make_owned h l) as [[h2 v2]| |]; try discriminate. injection E as _ <- _. reflexivity. }
    destruct (give h1 s w) as [[h2 s2]| |]; try discriminate. cbn [obind] in H.
    eapply IHk; [exact H|intro; apply Hi; now right|]. subst e1. now rewrite lookup_assign_other.
Qed.
Lemma alookup_push_same (f : aenv) y i a : alookup f i = Some a -> alookup (f ++ [y]) i = Some a.
Proof. intro Hf. unfold alookup in *. rewrite nth_error_app1; [exact Hf|]. apply nth_error_Some. destruct (nth_error f i); congruence. Qed.
Lemma alazy_other : 
  (forall o e e' b i v, alexec e o = Some (e', b) -> ~ In i (lwrites o) -> alookup e i = Some v -> alookup e' i = Some v) /\
  (forall it tr e e' us b i v, alrun tr e it = Some (e', us, b) -> ~ In i (iwrites it) -> alookup e i = Some v -> alookup e' i = Some v).
Proof.
  apply lazy_ind.
  - intros o e e' b i v H Hi Hv. cbn [alexec lwrites] in *. destruct (aexec e o) as [e1|] eqn:E; [|discriminate].
    injection H as <- <-. eapply aexec_other; eauto.
  - intros j it IH e e' b i v H Hi Hv. cbn [alexec lwrites] in *. destruct (alookup e j) as [[ts| |]|]; try discriminate.
    destruct (alrun true (assign e j None) it) as [[[e2 us] ok]|] eqn:E; [|discriminate]. injection H as <- <-.
    assert (Hne : i <> j) by (intros ->; apply Hi; now left).
    rewrite alookup_assign_other by exact Hne. eapply IH; [exact E|intro; apply Hi; now right|]. now rewrite alookup_assign_other.
  - intros j it IH e e' b i v H Hi Hv. cbn [alexec lwrites] in *. destruct (alookup e j) as [[ts| |]|]; try discriminate.
    destruct (alrun false (assign e j None) it) as [[[e2 us] ok]|] eqn:E; [|discriminate]. injection H as <- <-.
    assert (Hne : i <> j) by (intros ->; apply Hi; now left).
    rewrite alookup_assign_other by exact Hne. eapply IH; [exact E|intro; apply Hi; now right|]. now rewrite alookup_assign_other.
  - intros it IH e e' b i v H Hi Hv. cbn [alexec lwrites] in *. destruct (alrun true e it) as [[[e2 us] ok]|] eqn:E; [|discriminate].
    destruct ok; injection H as <- <-; apply alookup_push_same; eapply IH; eauto.
  - intros it IH e e' b i v H Hi Hv. cbn [alexec lwrites] in *. destruct (alrun false e it) as [[[e2 us] ok]|] eqn:E; [|discriminate].
    destruct ok; injection H as <- <-; apply alookup_push_same; eapply IH; eauto.
  - intros tr e e' us b i v H _ Hv. injection H as <- <- <-. exact Hv.
  - intros tr e e' us b i v H _ Hv. injection H as <- <- <-. exact Hv.
  - intros o IHo k IHk tr e e' us b i v H Hi Hv. cbn [alrun iwrites] in *.
    destruct (alexec e o) as [[e1 b1]|] eqn:E; [|discriminate].
    assert (H1 : alookup e1 i = Some v) by (eapply IHo; [exact E|intro; apply Hi, in_or_app; now left|exact Hv]).
    destruct b1; [|now injection H as <- <- <-]. eapply IHk; [exact H|intro; apply Hi, in_or_app; now right|exact H1].
  - intros o IHo k IHk tr e e' us b i v H Hi Hv. cbn [alrun iwrites] in *.
    destruct (alexec e o) as [[e1 b1]|] eqn:E; [|discriminate].
    assert (H1 : alookup e1 i = Some v) by (eapply IHo; [exact E|intro; apply Hi, in_or_app; now left|exact Hv]).
    eapply IHk; [exact H|intro; apply Hi, in_or_app; now right|exact H1].
  - intros j k IHk tr e e' us b i v H Hi Hv. cbn [alrun iwrites] in *.
    assert (Hne : i <> j) by (intros ->; apply Hi; now left).
    destruct (ayield tr e j) as [[e1 w]|] eqn:E; [|discriminate].
    assert (E1 : e1 = assign e j None).
    { unfold ayield in E. destruct tr, (alookup e j) as [[l|t|u]|]; try discriminate; injection E as <- _; reflexivity. }
    destruct (alrun tr e1 k) as [[[e2 vs] ok]|] eqn:E2; [|discriminate]. injection H as <- _ _.
    eapply IHk; [exact E2|intro; apply Hi; now right|]. subst e1. now rewrite alookup_assign_other.
Qed.
Lemma lazy_others_unchanged os h e oks o h' e' ok i v : lexec_all ([], []) os = Done (h, e, oks) ->
  lexec (h, e) o = Done (h', e', ok) -> ~ In i (lwrites o) -> lookup e i = Some v ->
  lookup e' i = Some v /\ forall a, looks h v a <-> looks h' v a.
Proof.
  intros E E' Hi Hv. assert (Hv' := proj1 lazy_other _ _ _ _ _ _ _ _ E' Hi Hv). split; [exact Hv'|].
  destruct (lazy_related _ _ _ _ E) as (ae & Ea & R). pose proof (proj1 lazy_agrees o h e ae zero R) as A. rewrite E' in A. unfold op_agrees in A.
  destruct (alexec ae o) as [[ae' b']|] eqn:Eo; [|contradiction]. destruct A as (<- & A & _).
  destruct (env_looks_some _ _ _ _ _ (inv_looks _ _ _ _ R) Hv) as (b & Hb & Hl).
  pose proof (proj1 alazy_other _ _ _ _ _ _ Eo Hi Hb) as Hb'.
  destruct (env_looks_some _ _ _ _ _ (inv_looks _ _ _ _ A) Hv') as (b' & Hb'' & Hl').
  assert (b' = b) by congruence. subst b'.
  intro a. split; intro H.
  - pose proof (looks_det _ _ _ _ H Hl). now subst.
  - pose proof (looks_det _ _ _ _ H Hl'). now subst.
Qed.

(** ** Negative literals *)
Section Api.
Context {U : unicode} (UO : unicode_ok U).
Lemma clean_lazy :
  (forall o e e' b, lapi_op o -> clean_env e -> alexec e o = Some (e', b) -> clean_env e') /\
  (forall it tr e e' us b, iapi it -> clean_env e -> alrun tr e it = Some (e', us, b) -> clean_env e' /\ clean us).
Proof.
  apply lazy_ind.
  - intros o e e' b Ho He H. cbn [alexec lapi_op] in *. destruct (aexec e o) as [e1|] eqn:E; [|discriminate].
    injection H as <- <-. eapply clean_exec; [exact He|exact (api_clean UO _ Ho)|exact E].
  - intros j it IH e e' b Ho He H. cbn [alexec lapi_op] in *. destruct (alookup e j) as [[ts| |]|] eqn:Ej; try discriminate.
    destruct (alrun true (assign e j None) it) as [[[e2 us] ok]|] eqn:E; [|discriminate]. injection H as <- <-.
    destruct (IH _ _ _ _ _ Ho (clean_assign e j None He ltac:(discriminate)) E) as [C1 C2].
    apply clean_assign; [exact C1|]. intros a Ea. injection Ea as <-. apply clean_app; [exact (He _ _ Ej)|exact C2].
  - intros j it IH e e' b Ho He H. cbn [alexec lapi_op] in *. destruct (alookup e j) as [[ts| |]|] eqn:Ej; try discriminate.
    destruct (alrun false (assign e j None) it) as [[[e2 us] ok]|] eqn:E; [|discriminate]. injection H as <- <-.
    destruct (IH _ _ _ _ _ Ho (clean_assign e j None He ltac:(discriminate)) E) as [C1 C2].
    apply clean_assign; [exact C1|]. intros a Ea. injection Ea as <-. apply clean_app; [exact (He _ _ Ej)|exact C2].
  - intros it IH e e' b Ho He H. cbn [alexec lapi_op] in *. destruct (alrun true e it) as [[[e2 us] ok]|] eqn:E; [|discriminate].
    destruct (IH _ _ _ _ _ Ho He E) as [C1 C2]. destruct ok; injection H as <- <-; (apply clean_push; [exact C1|]); [|discriminate].
    intros a Ea. injection Ea as <-. exact C2.
  - intros it IH e e' b Ho He H. cbn [alexec lapi_op] in *. destruct (alrun false e it) as [[[e2 us] ok]|] eqn:E; [|discriminate].
    destruct (IH _ _ _ _ _ Ho He E) as [C1 C2]. destruct ok; injection H as <- <-; (apply clean_push; [exact C1|]); [|discriminate].
    intros a Ea. injection Ea as <-. exact C2.
  - intros tr e e' us b _ He H. injection H as <- <- <-. split; [exact He|exact clean_nil].
  - intros tr e e' us b _ He H. injection H as <- <- <-. split; [exact He|exact clean_nil].
  - intros o IHo k IHk tr e e' us b [Ho Hk] He H. cbn [alrun] in *. destruct (alexec e o) as [[e1 b1]|] eqn:E; [|discriminate].
    pose proof (IHo _ _ _ Ho He E) as C1. destruct b1; [eapply IHk; eauto|]. injection H as <- <- <-. split; [exact C1|exact clean_nil].
  - intros o IHo k IHk tr e e' us b [Ho Hk] He H. cbn [alrun] in *. destruct (alexec e o) as [[e1 b1]|] eqn:E; [|discriminate].
    pose proof (IHo _ _ _ Ho He E) as C1. eapply IHk; eauto.
  - intros j k IHk tr e e' us b Hk He H. cbn [alrun iapi] in *. destruct (ayield tr e j) as [[e1 w]|] eqn:E; [|discriminate].
    destruct (alrun tr e1 k) as [[[e2 vs] ok]|] eqn:E2; [|discriminate]. injection H as <- <- <-.
    assert (C : clean_env e1 /\ clean w).
    { unfold ayield in E. destruct tr, (alookup e j) as [[l|t|u]|] eqn:Ej; try discriminate; injection E as <- <-;
        (split; [apply clean_assign; [exact He|discriminate]|]); [apply clean_split|]; exact (He _ _ Ej). }
    destruct C as [C1 C2]. destruct (IHk _ _ _ _ _ Hk C1 E2) as [C3 C4]. split; [exact C3|now apply clean_app].
Qed.
Lemma clean_lexec_all os : forall e e' bs, clean_env e -> Forall lapi_op os -> alexec_all e os = Some (e', bs) -> clean_env e'.
Proof.
  induction os as [|o os IH]; intros e e' bs He Ho H; cbn [alexec_all] in H; [injection H as <- <-; exact He|].
  inversion Ho; subst. destruct (alexec e o) as [[e1 b]|] eqn:E; [|discriminate].
  destruct (alexec_all e1 os) as [[e2 bs2]|] eqn:E2; [|discriminate]. injection H as <- <-.
  eapply IH; [|eassumption|exact E2]. eapply (proj1 clean_lazy); eauto.
Qed.
Lemma lazy_no_negative os h e oks i v a : Forall lapi_op os -> lexec_all ([], []) os = Done (h, e, oks) ->
  lookup e i = Some v -> looks h v a ->
  match a with
  | AStream ts | AIter ts => forall repr sp, SpecTree.occurs (TLiteral repr sp) ts -> ~ negative repr
  | ATree (TGroup _ ts _) => forall repr sp, SpecTree.occurs (TLiteral repr sp) ts -> ~ negative repr
  | ATree _ => True
  end.
Proof.
  intros Ho E Hi Hl. destruct (lazy_related _ _ _ _ E) as (ae & Ea & R).
  assert (C : clean_env ae).
  { eapply clean_lexec_all; [|exact Ho|exact Ea]. intros j b Hj. destruct j; discriminate. }
  destruct (env_looks_some _ _ _ _ _ (inv_looks _ _ _ _ R) Hi) as (b & Hb & Hlb).
  pose proof (looks_det _ _ _ _ Hl Hlb) as <-. pose proof (C _ _ Hb) as Hc. destruct a as [ts|t|ts]; try exact Hc.
  destruct t; try exact I. exact Hc.
Qed.
End Api.
