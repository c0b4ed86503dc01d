(** * The drop loop: terminates, frees what is unreachable, keeps the rest, and
    uses a bounded native stack. *)
From Verif Require Import Base Unicode Tokens RcHeap SpecStreams RcFacts.
Import ListNotations.

Local Arguments heap_refs : simpl never.
Local Arguments trees_refs : simpl never.
Local Arguments heap_size : simpl never.

(** [n] steps during which the native stack holds at most [D] activations. *)
Inductive steps (D : nat) : nat -> heap -> list frame -> heap -> list frame -> Prop :=
| steps_refl h fs : length fs <= D -> steps D 0 h fs h fs
| steps_step n h f fs h1 fs1 h' fs' :
    length (f :: fs) <= D -> step h f fs = Done (h1, fs1) -> steps D n h1 fs1 h' fs' ->
    steps D (S n) h (f :: fs) h' fs'.
Lemma steps_trans D n m h fs h1 fs1 h2 fs2 :
  steps D n h fs h1 fs1 -> steps D m h1 fs1 h2 fs2 -> steps D (n + m) h fs h2 fs2.
Proof. induction 1 as [|n h f fs ha fa hb fb Hl Hs H IH]; intro H2; [exact H2|]. cbn. econstructor; eauto. Qed.
Lemma steps_one D h f fs h1 fs1 : length (f :: fs) <= D -> length fs1 <= D -> step h f fs = Done (h1, fs1) ->
  steps D 1 h (f :: fs) h1 fs1.
Proof. intros H1 H2 H3. econstructor; eauto. now constructor. Qed.
Lemma steps_mono D D' n h fs h1 fs1 : D <= D' -> steps D n h fs h1 fs1 -> steps D' n h fs h1 fs1.
Proof.
  intros Hle H. induction H as [h fs Hl|n h f fs ha fa hb fb Hl Hs H IH]; [constructor; lia|].
  econstructor; eauto. lia.
Qed.
Lemma steps_run D n h fs h' : steps D n h fs h' [] -> forall fuel, n <= fuel -> run_drop fuel h fs = Finished h'.
Proof.
  intro H. remember [] as e eqn:E. induction H as [h fs Hl|n h f fs ha fa hb fb Hl Hs H IH]; intros fuel Hf.
  - subst fs. destruct fuel; reflexivity.
  - destruct fuel as [|fuel]; [lia|]. cbn [run_drop]. rewrite Hs. apply IH; [exact E|lia].
Qed.

Lemma of_trees_group d g sp v x : of_trees (HGroup d g sp :: v) x = one g x + of_trees v x.
Proof. unfold of_trees. rewrite trees_refs_cons. cbn [tree_refs]. unfold one. reflexivity. Qed.
Lemma of_trees_leaf t v x : (match t with HGroup _ _ _ => False | _ => True end) -> of_trees (t :: v) x = of_trees v x.
Proof. intro H. unfold of_trees. rewrite trees_refs_cons. destruct t; [contradiction|reflexivity..]. Qed.

(** Dropping the field of a stream whose vector has been taken. *)
Lemma rc_empty D h l R fs : wf h (R +++ one l) -> get h l = Some (mkcell 1 []) -> S (length fs) <= D ->
  steps D 2 h (GRc l :: fs) (set h l None) fs /\ wf (set h l None) R /\ keeps R h (set h l None).
Proof.
  intros H Hg Hd. destruct (wf_free h R l H Hg) as [W K]. split; [|split; assumption].
  eapply (steps_step _ 1 _ _ _ (set h l (Some (mkcell 0 []))) (GVec l [] :: fs)).
  - exact Hd.
  - cbn. now rewrite Hg.
  - apply steps_one.
    + exact Hd.
    + lia.
    + cbn. rewrite get_set_same by (eapply get_lt; eauto). now rewrite set_set.
Qed.
(** Dropping one of several references. *)
Lemma enter_shared D h l c R fs : wf h (R +++ one l) -> get h l = Some c -> rc c <> 1 -> S (length fs) <= D ->
  let h' := set h l (Some (mkcell (rc c - 1) (elems c))) in
  steps D 2 h (GEnter l :: fs) h' fs /\ wf h' R /\ same_elems h h'.
Proof.
  intros H Hg Hr Hd. cbn zeta. destruct (wf_dec h R l c H Hg Hr) as [W K]. split; [|split; assumption].
  assert (E : (rc c =? 1) = false) by now apply Nat.eqb_neq.
  eapply (steps_step _ 1 _ _ _ h (GRc l :: fs)).
  - exact Hd.
  - cbn. now rewrite Hg, E.
  - apply steps_one; [exact Hd|lia|]. cbn. now rewrite Hg, E.
Qed.
Lemma enter_empty D h l R fs : wf h (R +++ one l) -> get h l = Some (mkcell 1 []) -> S (length fs) <= D ->
  steps D 4 h (GEnter l :: fs) (set h l None) fs /\ wf (set h l None) R /\ keeps R h (set h l None).
Proof.
  intros H Hg Hd. destruct (rc_empty D h l R fs H Hg Hd) as (S1 & W & K). split; [|split; assumption].
  eapply (steps_step _ 3 _ _ _ (set h l (Some (mkcell 1 []))) (GLoop l [] [] :: fs)).
  - exact Hd.
  - cbn. now rewrite Hg.
  - assert (E : set h l (Some (mkcell 1 [])) = h).
    { clear - Hg. unfold get in Hg. revert l Hg. induction h as [|y h IH]; intros [|l] Hg; cbn in *; try discriminate.
      - now rewrite Hg.
      - now rewrite IH. }
    rewrite E. eapply (steps_step _ 2); [exact Hd|reflexivity|exact S1].
Qed.

Definition concat_refs (stk : list (list htree)) : roots := of_trees (concat stk).

Lemma loop_drops D l fs : 2 + length fs <= D -> forall m h cur stk R,
  10 * (heap_size h + length cur + length (concat stk)) + length stk <= m ->
  wf h (R +++ one l +++ of_trees (cur ++ concat stk)) -> get h l = Some (mkcell 1 []) ->
  exists n h', steps D n h (GLoop l cur stk :: fs) h' (GRc l :: fs) /\
    n + 10 * heap_size h' <= 10 * (heap_size h + length cur + length (concat stk)) + length stk + 1 /\
    wf h' (R +++ one l) /\ get h' l = Some (mkcell 1 []) /\ keeps R h h'.
Proof.
  intro HD. induction m as [m IH] using lt_wf_ind. intros h cur stk R Hm H Hg.
  destruct cur as [|t cur].
  - destruct stk as [|next stk].
    + exists 1, h. split; [|split; [cbn; lia|split; [|split; [exact Hg|apply keeps_refl]]]].
      * apply steps_one; [cbn; lia|cbn; lia|reflexivity].
      * eapply wf_ext; [|exact H]. intro x. unfold plus, of_trees. cbn. rewrite trees_refs_nil. lia.
    + cbn [concat app length] in *. rewrite app_length in *.
      destruct (IH (10 * (heap_size h + length next + length (concat stk)) + length stk) ltac:(lia) h next stk R
                  ltac:(lia) H Hg) as (n & h' & S1 & Hn & W & G & K).
      exists (S n), h'. split; [|split; [lia|auto]].
      econstructor; [cbn; lia|reflexivity|exact S1].
  - cbn [length] in *.
    assert (Hleaf : match t with HGroup _ _ _ => False | _ => True end ->
      step h (GLoop l (t :: cur) stk) fs = Done (h, GLoop l cur stk :: fs) ->
      exists n h', steps D n h (GLoop l (t :: cur) stk :: fs) h' (GRc l :: fs) /\
        n + 10 * heap_size h' <= 10 * (heap_size h + S (length cur) + length (concat stk)) + length stk + 1 /\
        wf h' (R +++ one l) /\ get h' l = Some (mkcell 1 []) /\ keeps R h h').
    { intros Ht Hs.
      destruct (IH (10 * (heap_size h + length cur + length (concat stk)) + length stk) ltac:(lia) h cur stk R
                  ltac:(lia)) as (n & h' & S1 & Hn & W & G & K).
      - eapply wf_ext; [|exact H]. intro x. unfold plus. cbn [app]. rewrite of_trees_leaf by exact Ht. reflexivity.
      - exact Hg.
      - exists (S n), h'. split; [|split; [lia|auto]]. econstructor; [cbn; lia|exact Hs|exact S1]. }
    destruct t as [d g sp|sym raw sp|c s sp|repr sp]; try (apply Hleaf; [exact I|reflexivity]). clear Hleaf.
    set (R1 := R +++ one l +++ of_trees (cur ++ concat stk)).
    assert (H1 : wf h (R1 +++ one g)).
    { eapply wf_ext; [|exact H]. intro x. unfold R1, plus. cbn [app]. rewrite of_trees_group. lia. }
    destruct (wf_live _ _ g H1) as [c Hc]; [unfold plus; rewrite one_same; lia|].
    assert (Hgl : g <> l).
    { intros ->. destruct (wf_rc _ _ _ _ H1 Hg) as [Hrc _]. unfold R1, plus in Hrc. rewrite one_same in Hrc. cbn in Hrc. lia. }
    destruct (Nat.eqb_spec (rc c) 1) as [Hr|Hr].
    + (* the only reference *)
      destruct (wf_take h R1 g c H1 Hc Hr) as (W1 & K1 & Z1 & Z2).
      set (h1 := set h g (Some (mkcell 1 []))) in *.
      assert (Hg1 : get h1 g = Some (mkcell 1 [])) by (apply get_set_same; eapply get_lt; eauto).
      set (R2 := R +++ one l +++ of_trees (elems c ++ concat (cur :: stk))).
      assert (W1' : wf h1 (R2 +++ one g)).
      { eapply wf_ext; [|exact W1]. intro x. unfold R1, R2, plus, of_trees. cbn [concat].
        rewrite !trees_refs_app. lia. }
      destruct (enter_empty D h1 g R2 (GLoop l (elems c) (cur :: stk) :: fs) W1' Hg1 ltac:(cbn; lia)) as (S2 & W2 & K2).
      set (h2 := set h1 g None) in *.
      assert (Hl2 : get h2 l = Some (mkcell 1 [])).
      { unfold h2, h1. rewrite !get_set_other by congruence. exact Hg. }
      assert (Hsz : heap_size h2 + length (elems c) = heap_size h).
      { pose proof (heap_size_set h g None (get_lt _ _ _ Hc)) as E. rewrite Hc in E.
        unfold h2, h1. rewrite set_set. lia. }
      destruct (IH (10 * (heap_size h2 + length (elems c) + length (concat (cur :: stk))) + length (cur :: stk))
                  ltac:(cbn [concat length]; rewrite app_length; lia) h2 (elems c) (cur :: stk) R
                  ltac:(lia) W2 Hl2) as (n & h' & S3 & Hn & W3 & G3 & K3).
      exists (S (4 + n)), h'. split; [|split; [|split; [exact W3|split; [exact G3|]]]].
      * econstructor; [cbn; lia| |eapply steps_trans; [exact S2|exact S3]]. cbn. rewrite Hc, Hr. reflexivity.
      * cbn [concat length] in Hn. rewrite app_length in Hn. lia.
      * eapply keeps_trans; [|eapply keeps_trans; [|exact K3]].
        -- eapply keeps_mono; [|exact K1]. intro x. unfold R1, plus. lia.
        -- eapply keeps_mono; [|exact K2]. intro x. unfold R2, plus. lia.
    + (* shared *)
      destruct (enter_shared D h g c R1 (GLoop l cur stk :: fs) H1 Hc Hr ltac:(cbn; lia)) as (S1 & W1 & K1).
      set (h1 := set h g _) in *.
      assert (Hl1 : get h1 l = Some (mkcell 1 [])) by (unfold h1; rewrite get_set_other by congruence; exact Hg).
      assert (Hsz : heap_size h1 = heap_size h).
      { pose proof (heap_size_set h g (Some (mkcell (rc c - 1) (elems c))) (get_lt _ _ _ Hc)) as E. rewrite Hc in E.
        cbn in E. unfold h1. lia. }
      destruct (IH (10 * (heap_size h1 + length cur + length (concat stk)) + length stk) ltac:(lia) h1 cur stk R
                  ltac:(lia) W1 Hl1) as (n & h' & S3 & Hn & W3 & G3 & K3).
      exists (S (2 + n)), h'. split; [|split; [|split; [exact W3|split; [exact G3|]]]].
      * econstructor; [cbn; lia| |eapply steps_trans; [exact S1|exact S3]]. cbn. rewrite Hc.
        destruct (Nat.eqb_spec (rc c) 1); [contradiction|reflexivity].
      * lia.
      * eapply keeps_trans; [|exact K3]. now apply keeps_same.
Qed.

Lemma enter_drops D l fs h R : 2 + length fs <= D -> wf h (R +++ one l) ->
  exists n h', steps D n h (GEnter l :: fs) h' fs /\ n + 10 * heap_size h' <= 10 * heap_size h + 4 /\
    wf h' R /\ keeps R h h'.
Proof.
  intros HD H. destruct (wf_live _ _ l H) as [c Hc]; [unfold plus; rewrite one_same; lia|].
  destruct (Nat.eqb_spec (rc c) 1) as [Hr|Hr].
  - destruct (wf_take h R l c H Hc Hr) as (W1 & K1 & Z1 & Z2).
    set (h1 := set h l (Some (mkcell 1 []))) in *.
    assert (Hl1 : get h1 l = Some (mkcell 1 [])) by (apply get_set_same; eapply get_lt; eauto).
    assert (Hsz : heap_size h1 + length (elems c) = heap_size h).
    { pose proof (heap_size_set h l (Some (mkcell 1 [])) (get_lt _ _ _ Hc)) as E. rewrite Hc in E. cbn in E. unfold h1. lia. }
    destruct (loop_drops D l fs HD _ h1 (elems c) [] R (le_n _)) as (n & h2 & S2 & Hn & W2 & G2 & K2).
    + cbn [concat]. rewrite app_nil_r. exact W1.
    + exact Hl1.
    + destruct (rc_empty D h2 l R fs W2 G2 ltac:(lia)) as (S3 & W3 & K3).
      assert (Hsz3 : heap_size (set h2 l None) = heap_size h2).
      { pose proof (heap_size_set h2 l None (get_lt _ _ _ G2)) as E. rewrite G2 in E. cbn in E. lia. }
      exists (S (n + 2)), (set h2 l None). split; [|split; [|split; [exact W3|]]].
      * econstructor; [cbn; lia| |eapply steps_trans; [exact S2|exact S3]]. cbn. rewrite Hc, Hr. reflexivity.
      * cbn [concat length] in Hn. lia.
      * eapply keeps_trans; [|eapply keeps_trans; [exact K2|exact K3]].
        eapply keeps_mono; [|exact K1]. intro x. unfold plus. lia.
  - destruct (enter_shared D h l c R fs H Hc Hr ltac:(lia)) as (S1 & W1 & K1).
    eexists 2, _. split; [exact S1|]. split; [|split; [exact W1|now apply keeps_same]].
    pose proof (heap_size_set h l (Some (mkcell (rc c - 1) (elems c))) (get_lt _ _ _ Hc)) as E. rewrite Hc in E.
    cbn in E. lia.
Qed.

Lemma iter_drops D fs : 3 + length fs <= D -> forall v h R, wf h (R +++ of_trees v) ->
  exists n h', steps D n h (GIter v :: fs) h' fs /\ n + 10 * heap_size h' <= 10 * (heap_size h + length v) + 1 /\
    wf h' R /\ keeps R h h'.
Proof.
  intros HD v. induction v as [|t v IH]; intros h R H.
  - exists 1, h. split; [apply steps_one; [cbn; lia|lia|reflexivity]|]. split; [cbn; lia|]. split; [|apply keeps_refl].
    eapply wf_ext; [|exact H]. intro x. unfold plus, of_trees. rewrite trees_refs_nil. lia.
  - assert (Hleaf : match t with HGroup _ _ _ => False | _ => True end ->
      step h (GIter (t :: v)) fs = Done (h, GIter v :: fs) ->
      exists n h', steps D n h (GIter (t :: v) :: fs) h' fs /\
        n + 10 * heap_size h' <= 10 * (heap_size h + length (t :: v)) + 1 /\ wf h' R /\ keeps R h h').
    { intros Ht Hs. destruct (IH h R) as (n & h' & S1 & Hn & W & K).
      - eapply wf_ext; [|exact H]. intro x. unfold plus. now rewrite of_trees_leaf.
      - exists (S n), h'. split; [econstructor; [cbn; lia|exact Hs|exact S1]|]. split; [cbn; lia|auto]. }
    destruct t as [d g sp|sym raw sp|c s sp|repr sp]; try (apply Hleaf; [exact I|reflexivity]). clear Hleaf.
    destruct (enter_drops D g (GIter v :: fs) h (R +++ of_trees v) ltac:(cbn; lia)) as (n & h1 & S1 & Hn & W1 & K1).
    { eapply wf_ext; [|exact H]. intro x. unfold plus. rewrite of_trees_group. lia. }
    destruct (IH h1 R W1) as (m & h2 & S2 & Hm & W2 & K2).
    exists (S (n + m)), h2. split; [|split; [cbn; lia|split; [exact W2|]]].
    + econstructor; [cbn; lia|reflexivity|]. eapply steps_trans; eauto.
    + eapply keeps_trans; [|exact K2]. eapply keeps_mono; [|exact K1]. intro x. unfold plus. lia.
Qed.

(** *** The operations *)
Lemma drop_stream_ok h l R : wf h (R +++ one l) -> exists h', drop_stream h l = Done h' /\ wf h' R /\ keeps R h h'.
Proof.
  intro H. destruct (enter_drops 2 l [] h R ltac:(cbn; lia) H) as (n & h' & S1 & Hn & W & K).
  exists h'. split; [|auto]. unfold drop_stream, drop_frame. erewrite steps_run; [reflexivity|exact S1|lia].
Qed.
Lemma drop_iter_ok h v R : wf h (R +++ of_trees v) -> exists h', drop_iter h v = Done h' /\ wf h' R /\ keeps R h h'.
Proof.
  intro H. destruct (iter_drops 3 [] ltac:(cbn; lia) v h R H) as (n & h' & S1 & Hn & W & K).
  exists h'. split; [|auto]. unfold drop_iter, drop_frame. erewrite steps_run; [reflexivity|exact S1|lia].
Qed.
Lemma drop_tree_ok h t R : wf h (R +++ of_trees [t]) -> exists h', drop_tree h t = Done h' /\ wf h' R /\ keeps R h h'.
Proof.
  intro H. destruct t as [d g sp|sym raw sp|c s sp|repr sp]; cbn [drop_tree];
    try (exists h; split; [reflexivity|]; split; [|apply keeps_refl]; eapply wf_ext; [|exact H]; intro x;
         unfold plus; rewrite of_trees_leaf by exact I; unfold of_trees; rewrite trees_refs_nil; lia).
  apply drop_stream_ok. eapply wf_ext; [|exact H]. intro x. unfold plus. rewrite of_trees_group.
  unfold of_trees. rewrite trees_refs_nil. lia.
Qed.
Lemma drop_rc_shared h l c R : wf h (R +++ one l) -> get h l = Some c -> rc c <> 1 ->
  exists h', drop_rc h l = Done h' /\ wf h' R /\ same_elems h h'.
Proof.
  intros H Hg Hr. destruct (wf_dec h R l c H Hg Hr) as [W K]. eexists. split; [|split; [exact W|exact K]].
  unfold drop_rc, drop_frame. rewrite Nat.add_comm. cbn [run_drop Nat.add step]. rewrite Hg.
  destruct (Nat.eqb_spec (rc c) 1); [contradiction|]. cbn. reflexivity.
Qed.
Lemma drop_rc_empty h l R : wf h (R +++ one l) -> get h l = Some (mkcell 1 []) ->
  exists h', drop_rc h l = Done h' /\ wf h' R /\ keeps R h h'.
Proof.
  intros H Hg. destruct (rc_empty 2 h l R [] H Hg ltac:(cbn; lia)) as (S1 & W & K).
  exists (set h l None). split; [|auto]. unfold drop_rc, drop_frame. erewrite steps_run; [reflexivity|exact S1|lia].
Qed.

(** Cloning. *)
Lemma rc_clone_ok h l R : wf h R -> (exists c, get h l = Some c) ->
  exists h', rc_clone h l = Done h' /\ wf h' (R +++ one l) /\ same_elems h h'.
Proof.
  intros H [c Hc]. unfold rc_clone. rewrite Hc. eexists. split; [reflexivity|]. split; [|now apply set_rc_same].
  apply (wf_set_rc h R); auto.
  - unfold plus. rewrite one_same. lia.
  - intros x Hx. unfold plus. rewrite one_other by exact Hx. lia.
Qed.
Lemma clone_trees_ok v : forall h ts R, wf h R -> sees h v ts ->
  exists h', clone_trees h v = Done h' /\ wf h' (R +++ of_trees v) /\ same_elems h h'.
Proof.
  induction v as [|t v IH]; intros h ts R H Hv.
  - exists h. split; [reflexivity|]. split; [|apply same_elems_refl].
    eapply wf_ext; [|exact H]. intro x. unfold plus, of_trees. rewrite trees_refs_nil. lia.
  - cbn [clone_trees]. destruct (sees_cons_inv _ _ _ _ Hv) as (u & us & -> & Ht & Hv').
    assert (Hone : exists h1, clone_tree h t = Done h1 /\ wf h1 (R +++ of_trees [t]) /\ same_elems h h1).
    { destruct t as [d g sp|sym raw sp|c s sp|repr sp]; cbn [clone_tree];
        try (exists h; split; [reflexivity|]; split; [|apply same_elems_refl]; eapply wf_ext; [|exact H]; intro x;
             unfold plus; rewrite of_trees_leaf by exact I; unfold of_trees; rewrite trees_refs_nil; lia).
      destruct (rc_clone_ok h g R H) as (h1 & E & W & K).
      - eapply sees_live; [exact Ht|]. rewrite trees_refs_cons. cbn. rewrite Nat.eqb_refl. lia.
      - exists h1. split; [exact E|]. split; [|exact K]. eapply wf_ext; [|exact W]. intro x. unfold plus.
        rewrite of_trees_group. unfold of_trees. rewrite trees_refs_nil. lia. }
    destruct Hone as (h1 & E1 & W1 & K1). rewrite E1. cbn [obind].
    destruct (IH h1 us _ W1 (sees_same _ _ _ _ K1 Hv')) as (h2 & E2 & W2 & K2). exists h2. split; [exact E2|].
    split; [|eapply same_elems_trans; eauto]. eapply wf_ext; [|exact W2]. intro x. unfold plus, of_trees.
    rewrite !trees_refs_cons, trees_refs_nil. lia.
Qed.

Lemma heap_refs_same x h : forall h', same_elems h h' -> heap_refs x h <= heap_refs x h'.
Proof.
  induction h as [|z h IH]; intros h' K; [unfold heap_refs; cbn; lia|].
  rewrite heap_refs_cons. destruct h' as [|z' h'].
  - destruct z as [c|]; [destruct (K 0 c eq_refl) as (c' & Hc' & _); discriminate|].
    cbn [cell_refs]. assert (G : heap_refs x h <= heap_refs x []); [|exact G]. apply IH.
    intros l d Hd. destruct (K (S l) d Hd) as (c' & Hc' & _). discriminate.
  - rewrite heap_refs_cons. assert (cell_refs x z <= cell_refs x z').
    { destruct z as [c|]; [|cbn; lia]. destruct (K 0 c eq_refl) as (c' & Hc' & Ec). cbn in Hc'. subst z'.
      cbn [cell_refs]. rewrite Ec. lia. }
    specialize (IH h' (fun l d Hd => K (S l) d Hd)). lia.
Qed.

(** Copy on write. *)
Lemma make_mut_ok h l c ts R : wf h (R +++ one l) -> get h l = Some c -> sees h (elems c) ts ->
  exists h' l', make_mut h l = Done (h', l') /\ wf h' (R +++ one l') /\ keeps R h h' /\
    get h' l' = Some (mkcell 1 (elems c)) /\ sees h' (elems c) ts.
Proof.
  intros H Hc Hts. unfold make_mut. rewrite Hc. destruct (Nat.eqb_spec (rc c) 1) as [Hr|Hr].
  - exists h, l. split; [reflexivity|]. split; [exact H|]. split; [apply keeps_refl|]. split; [|exact Hts].
    rewrite Hc. destruct c as [n e]. cbn in *. now subst.
  - destruct (clone_trees_ok (elems c) h ts _ H Hts) as (h1 & E1 & W1 & K1). rewrite E1. cbn [obind].
    unfold alloc. destruct (wf_alloc h1 (R +++ one l) (elems c) ts W1 (sees_same _ _ _ _ K1 Hts)) as [W2 K2].
    set (h2 := h1 ++ [Some (mkcell 1 (elems c))]) in *.
    destruct (K1 l c Hc) as (c1 & Hc1 & Ec1).
    assert (Hc2 : get h2 l = Some c1) by (unfold h2; rewrite get_app by (eapply get_lt; eauto); exact Hc1).
    assert (W2' : wf h2 (R +++ one (length h1) +++ one l)).
    { eapply wf_ext; [|exact W2]. intro x. unfold plus. lia. }
    assert (Hlt : l < length h1) by (eapply get_lt; eauto).
    assert (Hr1 : rc c1 <> 1).
    { destruct (wf_rc _ _ _ _ H Hc) as [A _]. destruct (wf_rc _ _ _ _ W1 Hc1) as [B _].
      destruct (wf_rc _ _ _ _ H Hc) as [_ A0].
      intro E. rewrite E in B. unfold plus, of_trees in A, B. rewrite one_same in A, B.
      assert (rc c = 1); [|contradiction].
      pose proof (heap_refs_ge l h l c Hc) as Hge.
      pose proof (heap_refs_same l h h1 K1) as Hsame.
      lia. }
    destruct (drop_rc_shared h2 l c1 _ W2' Hc2 Hr1) as (h3 & E3 & W3 & K3).
    rewrite E3. cbn [obind]. exists h3, (length h1). split; [reflexivity|]. split; [exact W3|].
    assert (K : same_elems h h3).
    { eapply same_elems_trans; [exact K1|]. eapply same_elems_trans; [exact K2|exact K3]. }
    split; [now apply keeps_same|]. split; [|eapply sees_same; eauto].
    destruct (K3 (length h1) (mkcell 1 (elems c))) as (c3 & Hc3 & Ec3); [apply get_alloc|].
    rewrite Hc3. f_equal. destruct c3 as [n e]. cbn in Ec3. subst e. f_equal.
    unfold drop_rc, drop_frame in E3. rewrite Nat.add_comm in E3. cbn [run_drop Nat.add step] in E3. rewrite Hc2 in E3.
    destruct (Nat.eqb_spec (rc c1) 1); [contradiction|]. cbn in E3. injection E3 as <-.
    rewrite get_set_other in Hc3 by lia. unfold h2 in Hc3. rewrite get_alloc in Hc3. congruence.
Qed.

Lemma make_owned_ok h l c ts R : wf h (R +++ one l) -> get h l = Some c -> sees h (elems c) ts ->
  exists h', make_owned h l = Done (h', elems c) /\ wf h' (R +++ of_trees (elems c)) /\ keeps R h h' /\
    sees h' (elems c) ts.
Proof.
  intros H Hc Hts. unfold make_owned. rewrite Hc. destruct (Nat.eqb_spec (rc c) 1) as [Hr|Hr].
  - destruct (wf_take h R l c H Hc Hr) as (W1 & K1 & Z1 & Z2).
    set (h1 := set h l (Some (mkcell 1 []))) in *.
    assert (Hl1 : get h1 l = Some (mkcell 1 [])) by (apply get_set_same; eapply get_lt; eauto).
    destruct (drop_rc_empty h1 l (R +++ of_trees (elems c))) as (h2 & E2 & W2 & K2).
    { eapply wf_ext; [|exact W1]. intro x. unfold plus. lia. }
    { exact Hl1. }
    rewrite E2. cbn [obind]. exists h2. split; [reflexivity|]. split; [exact W2|].
    assert (K : keeps (R +++ of_trees (elems c)) h h2) by (eapply keeps_trans; eauto).
    split; [eapply keeps_mono; [|exact K]; intro x; unfold plus; lia|].
    apply K; [|exact Hts]. intros x Hx. unfold plus, of_trees. lia.
  - destruct (clone_trees_ok (elems c) h ts _ H Hts) as (h1 & E1 & W1 & K1). rewrite E1. cbn [obind].
    destruct (K1 l c Hc) as (c1 & Hc1 & Ec1).
    assert (W1' : wf h1 (R +++ of_trees (elems c) +++ one l)).
    { eapply wf_ext; [|exact W1]. intro x. unfold plus. lia. }
    destruct (Nat.eq_dec (rc c1) 1) as [Hr1|Hr1].
    + exfalso. destruct (wf_rc _ _ _ _ H Hc) as [A A0]. destruct (wf_rc _ _ _ _ W1 Hc1) as [B _].
      rewrite Hr1 in B. unfold plus, of_trees in A, B. rewrite one_same in A, B.
      pose proof (heap_refs_same l h h1 K1) as G.
      lia.
    + destruct (drop_rc_shared h1 l c1 _ W1' Hc1 Hr1) as (h2 & E2 & W2 & K2). rewrite E2. cbn [obind].
      exists h2. assert (K : same_elems h h2) by (eapply same_elems_trans; eauto).
      split; [reflexivity|]. split; [exact W2|]. split; [now apply keeps_same|]. eapply sees_same; eauto.
Qed.

(** [make_owned] creates no references to what nothing stored refers to. *)
Lemma clone_trees_refs x v : forall h h', clone_trees h v = Done h' -> heap_refs x h' = heap_refs x h.
Proof.
  induction v as [|t v IH]; intros h h' H; cbn [clone_trees] in H.
  - now injection H as ->.
  - destruct (clone_tree h t) as [h1| |] eqn:E; try discriminate. cbn [obind] in H. rewrite (IH _ _ H). clear IH H.
    destruct t as [d g sp|s r sp|c s sp|r sp]; cbn [clone_tree] in E; try (now injection E as ->).
    unfold rc_clone in E. destruct (get h g) as [c|] eqn:Eg; [|discriminate]. injection E as <-. now apply set_rc_refs.
Qed.
Lemma make_owned_refs h l R h' v : wf h (R +++ one l) -> make_owned h l = Done (h', v) ->
  forall x, heap_refs x h' <= heap_refs x h /\ trees_refs x v <= heap_refs x h.
Proof.
  intros H E x. unfold make_owned in E. destruct (get h l) as [c|] eqn:Hc; [|discriminate].
  destruct (Nat.eqb_spec (rc c) 1) as [Hr|Hr].
  - destruct (wf_take h R l c H Hc Hr) as (W1 & K1 & Z1 & Z2). set (h1 := set h l (Some (mkcell 1 []))) in *.
    assert (Hl1 : get h1 l = Some (mkcell 1 [])) by (apply get_set_same; eapply get_lt; eauto).
    assert (W1' : wf h1 (R +++ of_trees (elems c) +++ one l)) by (eapply wf_ext; [|exact W1]; intro y; unfold plus; lia).
    destruct (rc_empty 2 h1 l (R +++ of_trees (elems c)) [] W1' Hl1 ltac:(cbn; lia)) as (S1 & _ & _).
    unfold drop_rc, drop_frame in E. erewrite steps_run in E; [|exact S1|lia]. cbn [obind] in E. injection E as <- <-.
    unfold h1. rewrite set_set. pose proof (heap_refs_set x h l None (get_lt _ _ _ Hc)) as Q. rewrite Hc in Q.
    cbn [cell_refs] in Q. pose proof (heap_refs_ge x h l c Hc). lia.
  - destruct (wf_sees _ _ H l c Hc) as [ts Hts].
    destruct (clone_trees_ok (elems c) h ts _ H Hts) as (h1 & E1 & W1 & K1). rewrite E1 in E. cbn [obind] in E.
    destruct (K1 l c Hc) as (c1 & Hc1 & Ec1).
    assert (Hr1 : rc c1 <> 1).
    { destruct (wf_rc _ _ _ _ H Hc) as [A A0]. destruct (wf_rc _ _ _ _ W1 Hc1) as [B _].
      intro Hr1. rewrite Hr1 in B. unfold plus, of_trees in A, B. rewrite one_same in A, B.
      pose proof (heap_refs_same l h h1 K1) as G. lia. }
    unfold drop_rc, drop_frame in E. rewrite Nat.add_comm in E. cbn [run_drop Nat.add step] in E. rewrite Hc1 in E.
    destruct (Nat.eqb_spec (rc c1) 1); [contradiction|]. cbn in E. injection E as <- <-.
    rewrite set_rc_refs by exact Hc1. rewrite (clone_trees_refs x _ _ _ E1). pose proof (heap_refs_ge x h l c Hc). lia.
Qed.
