(** * The heap of shared vectors refines plain lists. *)
From Verif Require Import Base Unicode Tokens RcHeap SpecStreams.
Import ListNotations.

Local Arguments heap_refs : simpl never.
Local Arguments trees_refs : simpl never.
Local Arguments heap_size : simpl never.

Definition roots := loc -> nat.
Definition one (l : loc) : roots := fun x => if x =? l then 1 else 0.
Definition of_trees (v : list htree) : roots := fun x => trees_refs x v.
Definition plus (a b : roots) : roots := fun x => a x + b x.
Infix "+++" := plus (at level 50, left associativity).

(** *** Heap updates *)
Lemma set_length h l x : length (set h l x) = length h.
Proof. revert l. induction h as [|y h IH]; intros [|l]; cbn; auto. Qed.
Lemma get_lt h l c : get h l = Some c -> l < length h.
Proof. unfold get. intro H. apply nth_error_Some. destruct (nth_error h l); congruence. Qed.
Lemma get_set_same h l x : l < length h -> get (set h l x) l = x.
Proof.
  unfold get. revert l. induction h as [|y h IH]; intros [|l] H; cbn in *; try lia; [reflexivity|].
  apply IH. lia.
Qed.
Lemma get_set_other h l l' x : l' <> l -> get (set h l x) l' = get h l'.
Proof.
  unfold get. revert l l'. induction h as [|y h IH]; intros [|l] [|l'] H; cbn in *; try congruence; try reflexivity.
  apply IH. lia.
Qed.
Lemma set_set h l x y : set (set h l x) l y = set h l y.
Proof. revert l. induction h as [|z h IH]; intros [|l]; cbn; f_equal; auto. Qed.
Lemma get_app h x l : l < length h -> get (h ++ x) l = get h l.
Proof. intro H. unfold get. now rewrite nth_error_app1. Qed.
Lemma get_alloc h c : get (h ++ [Some c]) (length h) = Some c.
Proof. unfold get. rewrite nth_error_app2, Nat.sub_diag by lia. reflexivity. Qed.
Lemma get_beyond h l : length h <= l -> get h l = None.
Proof. intro H. unfold get. now rewrite (proj2 (nth_error_None h l) H). Qed.

Lemma list_sum_app' a b : list_sum (a ++ b) = list_sum a + list_sum b.
Proof. apply list_sum_app. Qed.
Lemma trees_refs_app x v w : trees_refs x (v ++ w) = trees_refs x v + trees_refs x w.
Proof. unfold trees_refs. now rewrite map_app, list_sum_app. Qed.
Lemma trees_refs_nil x : trees_refs x [] = 0.
Proof. reflexivity. Qed.
Lemma trees_refs_cons x t v : trees_refs x (t :: v) = tree_refs x t + trees_refs x v.
Proof. reflexivity. Qed.
Definition cell_refs (x : loc) (c : option cell) : nat :=
  match c with Some c => trees_refs x (elems c) | None => 0 end.
Lemma heap_refs_cons x z h : heap_refs x (z :: h) = cell_refs x z + heap_refs x h.
Proof. reflexivity. Qed.
Lemma heap_refs_set x h l y : l < length h ->
  heap_refs x (set h l y) + cell_refs x (get h l) = heap_refs x h + cell_refs x y.
Proof.
  unfold get. revert l. induction h as [|z h IH]; intros [|l] H; cbn [length] in H; try lia; cbn [set nth_error].
  - rewrite !heap_refs_cons. lia.
  - specialize (IH l ltac:(lia)). rewrite !heap_refs_cons. lia.
Qed.
Lemma heap_refs_alloc x h c : heap_refs x (h ++ [Some c]) = heap_refs x h + trees_refs x (elems c).
Proof. unfold heap_refs. rewrite map_app, list_sum_app. cbn. lia. Qed.
Lemma heap_refs_ge x h l c : get h l = Some c -> trees_refs x (elems c) <= heap_refs x h.
Proof.
  unfold get. revert l. induction h as [|z h IH]; intros [|l] H; cbn [nth_error] in H; try discriminate;
    rewrite heap_refs_cons.
  - subst z. cbn [cell_refs]. lia.
  - specialize (IH l H). lia.
Qed.
Lemma heap_size_cons z h :
  heap_size (z :: h) = match z with Some c => length (elems c) | None => 0 end + heap_size h.
Proof. destruct z; reflexivity. Qed.
Lemma heap_size_set h l y : l < length h ->
  heap_size (set h l y) + match get h l with Some c => length (elems c) | None => 0 end
  = heap_size h + match y with Some c => length (elems c) | None => 0 end.
Proof.
  unfold get. revert l. induction h as [|z h IH]; intros [|l] H; cbn [length] in H; try lia; cbn [set nth_error];
    rewrite !heap_size_cons.
  - destruct z, y; lia.
  - specialize (IH l ltac:(lia)). destruct z; lia.
Qed.

(** *** What is seen through the heap *)
Definition same_elems (h h' : heap) : Prop :=
  forall l c, get h l = Some c -> exists c', get h' l = Some c' /\ elems c' = elems c.
Lemma same_elems_refl h : same_elems h h.
Proof. intros l c H. eauto. Qed.
Lemma same_elems_trans a b c : same_elems a b -> same_elems b c -> same_elems a c.
Proof.
  intros H1 H2 l x Hx. destruct (H1 l x Hx) as (y & Hy & Ey). destruct (H2 l y Hy) as (z & Hz & Ez).
  exists z. split; [exact Hz|congruence].
Qed.
Lemma sees_same h h' v ts : same_elems h h' -> sees h v ts -> sees h' v ts.
Proof.
  intros Hs H. induction H as [|d l sp c inner v ts Hg Hi IHi Hv IH| | |]; try (constructor; assumption).
  destruct (Hs l c Hg) as (c' & Hg' & E). apply (sees_group h' d l sp c'); auto. now rewrite E.
Qed.
Lemma sees_set h l x v ts : heap_refs l h = 0 -> trees_refs l v = 0 -> sees h v ts -> sees (set h l x) v ts.
Proof.
  intros Hh Hv H. induction H as [|d l' sp c inner v ts Hg Hi IHi H IH|s r sp v ts H IH|c s sp v ts H IH|r sp v ts H IH];
    rewrite ?trees_refs_cons in Hv; cbn [tree_refs] in Hv; try (constructor; apply IH; lia).
  destruct (Nat.eqb_spec l l') as [E|E]; [discriminate|].
  apply (sees_group _ d l' sp c).
  - rewrite get_set_other by congruence. exact Hg.
  - apply IHi. pose proof (heap_refs_ge l h l' c Hg). lia.
  - apply IH. lia.
Qed.
Lemma sees_det h v ts ts' : sees h v ts -> sees h v ts' -> ts = ts'.
Proof.
  intros H. revert ts'. induction H as [|d l sp c inner v ts Hg Hi IHi H IH|s r sp v ts H IH|c s sp v ts H IH|r sp v ts H IH];
    intros ts' H'; inversion H'; subst; try (f_equal; auto; fail).
  assert (c0 = c) by congruence. subst c0. f_equal; [f_equal|]; auto.
Qed.
Lemma sees_app h v ts w us : sees h v ts -> sees h w us -> sees h (v ++ w) (ts ++ us).
Proof.
  intros H Hw. induction H; cbn; try assumption; try (constructor; assumption).
  eapply sees_group; eauto.
Qed.
Lemma sees_cons_inv h t v ts : sees h (t :: v) ts -> exists u us, ts = u :: us /\ sees h [t] [u] /\ sees h v us.
Proof.
  intro H. inversion H; subst; eexists _, _; (split; [reflexivity|]); (split; [|eassumption]).
  - eapply sees_group; eauto. constructor.
  - constructor. constructor.
  - constructor. constructor.
  - constructor. constructor.
Qed.
Lemma sees_cons h t v u us : sees h [t] [u] -> sees h v us -> sees h (t :: v) (u :: us).
Proof. intros H1 H2. exact (sees_app h [t] [u] v us H1 H2). Qed.
Lemma sees_live h v ts l : sees h v ts -> trees_refs l v <> 0 -> exists c, get h l = Some c.
Proof.
  intros H. induction H as [|d l' sp c inner v ts Hg Hi IHi H IH|s r sp v ts H IH|c s sp v ts H IH|r sp v ts H IH];
    rewrite ?trees_refs_cons; cbn [tree_refs]; intro Hn; auto; [contradiction|].
  destruct (Nat.eqb_spec l l') as [E|E]; [subst; eauto|auto].
Qed.

(** *** The invariant *)
Record wf (h : heap) (R : roots) : Prop := {
  wf_count : forall l, match get h l with
    | Some c => rc c = R l + heap_refs l h /\ rc c <> 0
    | None => R l + heap_refs l h = 0
    end;
  wf_sees : forall l c, get h l = Some c -> exists ts, sees h (elems c) ts
}.
Lemma wf_ext h R R' : (forall l, R l = R' l) -> wf h R -> wf h R'.
Proof.
  intros E [H1 H2]. split; [|exact H2]. intro l. specialize (H1 l). now rewrite E in H1.
Qed.
Lemma wf_live h R l : wf h R -> R l <> 0 -> exists c, get h l = Some c.
Proof. intros [H _] Hl. specialize (H l). destruct (get h l); [eauto|lia]. Qed.
Lemma wf_rc h R l c : wf h R -> get h l = Some c -> rc c = R l + heap_refs l h /\ rc c <> 0.
Proof. intros [H _] Hg. specialize (H l). now rewrite Hg in H. Qed.
Lemma one_same l : one l l = 1.
Proof. unfold one. now rewrite Nat.eqb_refl. Qed.
Lemma one_other l x : x <> l -> one l x = 0.
Proof. unfold one. intro H. now destruct (Nat.eqb_spec x l). Qed.
Lemma wf_empty : wf [] (fun _ => 0).
Proof. split; intros l; unfold get; destruct l; cbn; try reflexivity; intros; discriminate. Qed.

(** What the roots [R] can see is unchanged. *)
Definition keeps (R : roots) (h h' : heap) : Prop :=
  forall v ts, (forall l, trees_refs l v <> 0 -> R l <> 0) -> sees h v ts -> sees h' v ts.
Lemma keeps_refl R h : keeps R h h.
Proof. intros v ts _ H. exact H. Qed.
Lemma keeps_trans R a b c : keeps R a b -> keeps R b c -> keeps R a c.
Proof. intros H1 H2 v ts Hv H. apply H2; auto. Qed.
Lemma keeps_mono (R R' : roots) a b : (forall l, R l <= R' l) -> keeps R' a b -> keeps R a b.
Proof. intros Hle H v ts Hv. apply H. intros l Hl. specialize (Hv l Hl). specialize (Hle l). lia. Qed.
Lemma keeps_same R h h' : same_elems h h' -> keeps R h h'.
Proof. intros H v ts _. now apply sees_same. Qed.

(** Changing only the count of a cell. *)
Lemma set_rc_same h l c n : get h l = Some c -> same_elems h (set h l (Some (mkcell n (elems c)))).
Proof.
  intros Hg x d Hd. destruct (Nat.eq_dec x l) as [->|Hn].
  - rewrite get_set_same by (eapply get_lt; eauto). assert (d = c) by congruence. subst. eauto.
  - rewrite get_set_other by exact Hn. eauto.
Qed.
Lemma set_rc_refs x h l c n : get h l = Some c -> heap_refs x (set h l (Some (mkcell n (elems c)))) = heap_refs x h.
Proof.
  intro Hg. pose proof (heap_refs_set x h l (Some (mkcell n (elems c))) (get_lt _ _ _ Hg)) as H.
  rewrite Hg in H. cbn in H. lia.
Qed.
Lemma wf_set_rc h R R' l c n : wf h R -> get h l = Some c -> n <> 0 -> n + R l = rc c + R' l ->
  (forall x, x <> l -> R x = R' x) -> wf h R -> wf (set h l (Some (mkcell n (elems c)))) R'.
Proof.
  intros H Hg Hn Hl Hx _. destruct (wf_rc _ _ _ _ H Hg) as [Hr _]. split.
  - intro x. rewrite (set_rc_refs x h l c n Hg). destruct (Nat.eq_dec x l) as [->|Hne].
    + rewrite get_set_same by (eapply get_lt; eauto). cbn [rc]. split; [lia|exact Hn].
    + rewrite get_set_other by exact Hne. rewrite <- (Hx x Hne). apply (wf_count h R H).
  - intros x d Hd. destruct (Nat.eq_dec x l) as [->|Hne].
    + rewrite get_set_same in Hd by (eapply get_lt; eauto). injection Hd as <-. cbn [elems].
      destruct (wf_sees h R H l c Hg) as [ts Hts]. exists ts. eapply sees_same; [|exact Hts]. now apply set_rc_same.
    + rewrite get_set_other in Hd by exact Hne. destruct (wf_sees h R H x d Hd) as [ts Hts]. exists ts.
      eapply sees_same; [|exact Hts]. now apply set_rc_same.
Qed.

(** A cell with one reference, from a root: nothing in the heap refers to it. *)
Lemma unique_root h R l c : wf h R -> get h l = Some c -> rc c = 1 -> R l <> 0 -> R l = 1 /\ heap_refs l h = 0.
Proof. intros H Hg Hr Hl. destruct (wf_rc _ _ _ _ H Hg). lia. Qed.

(** Replacing the contents of such a cell. *)
Lemma wf_set_unique h R R' l c x : wf h R -> get h l = Some c -> rc c = 1 -> R l <> 0 ->
  (forall y, R' y + cell_refs y x = R y + trees_refs y (elems c) - (match x with None => one l y | Some _ => 0 end)) ->
  match x with
  | Some d => rc d = 1 /\ R' l = 1 /\ trees_refs l (elems d) = 0 /\ exists ts, sees h (elems d) ts
  | None => True
  end ->
  wf (set h l x) R' /\ (forall v ts, trees_refs l v = 0 -> sees h v ts -> sees (set h l x) v ts).
Proof.
  intros H Hg Hr Hl HR Hx. destruct (unique_root _ _ _ _ H Hg Hr Hl) as [HR1 Hz].
  assert (Hk : forall v ts, trees_refs l v = 0 -> sees h v ts -> sees (set h l x) v ts).
  { intros v ts Hv. now apply sees_set. }
  assert (Hlt := get_lt _ _ _ Hg).
  assert (Hcl : trees_refs l (elems c) = 0) by (pose proof (heap_refs_ge l h l c Hg); lia).
  split; [|exact Hk]. split.
  - intro y. assert (Hy := heap_refs_set y h l x Hlt). rewrite Hg in Hy. cbn [cell_refs] in Hy.
    specialize (HR y). destruct (Nat.eq_dec y l) as [->|Hne].
    + rewrite get_set_same by exact Hlt. rewrite Hcl in Hy. destruct x as [d|].
      * destruct Hx as (Hd & HR' & Hdl & _). cbn [cell_refs] in *. lia.
      * rewrite one_same in HR. cbn [cell_refs] in *. lia.
    + rewrite get_set_other by exact Hne. pose proof (wf_count h R H y) as Hc.
      assert (E : R' y + heap_refs y (set h l x) = R y + heap_refs y h).
      { destruct x; [|rewrite one_other in HR by exact Hne]; pose proof (heap_refs_ge y h l c Hg); lia. }
      destruct (get h y); [|lia]. destruct Hc as [Hc1 Hc2]. split; [lia|exact Hc2].
  - intros y d Hd. destruct (Nat.eq_dec y l) as [->|Hne].
    + rewrite get_set_same in Hd by exact Hlt. subst x. destruct Hx as (_ & _ & Hdl & ts & Hts). exists ts. auto.
    + rewrite get_set_other in Hd by exact Hne. destruct (wf_sees h R H y d Hd) as [ts Hts]. exists ts.
      apply Hk; [|exact Hts]. pose proof (heap_refs_ge l h y d Hd). lia.
Qed.

Lemma wf_take h R l c : wf h (R +++ one l) -> get h l = Some c -> rc c = 1 ->
  wf (set h l (Some (mkcell 1 []))) (R +++ one l +++ of_trees (elems c)) /\
  keeps (R +++ of_trees (elems c)) h (set h l (Some (mkcell 1 []))) /\ R l = 0 /\ heap_refs l h = 0.
Proof.
  intros H Hg Hr. assert (Hl : (R +++ one l) l <> 0) by (unfold plus; rewrite one_same; lia).
  destruct (unique_root _ _ _ _ H Hg Hr Hl) as [HR1 Hz]. unfold plus in HR1. rewrite one_same in HR1.
  assert (Hcl : trees_refs l (elems c) = 0) by (pose proof (heap_refs_ge l h l c Hg); lia).
  destruct (wf_set_unique h (R +++ one l) (R +++ one l +++ of_trees (elems c)) l c (Some (mkcell 1 [])) H Hg Hr Hl)
    as [W K].
  - intro y. unfold plus, of_trees. cbn. rewrite trees_refs_nil. lia.
  - cbn. unfold plus, of_trees. rewrite one_same, trees_refs_nil. repeat split; try lia. exists []. constructor.
  - split; [exact W|]. split; [|split; [lia|exact Hz]]. intros v ts Hv. apply K.
    destruct (Nat.eq_dec (trees_refs l v) 0) as [E|E]; [exact E|]. specialize (Hv l E). unfold plus, of_trees in Hv. lia.
Qed.
Lemma wf_free h R l : wf h (R +++ one l) -> get h l = Some (mkcell 1 []) ->
  wf (set h l None) R /\ keeps R h (set h l None).
Proof.
  intros H Hg. assert (Hl : (R +++ one l) l <> 0) by (unfold plus; rewrite one_same; lia).
  destruct (unique_root _ _ _ _ H Hg eq_refl Hl) as [HR1 Hz]. unfold plus in HR1. rewrite one_same in HR1.
  destruct (wf_set_unique h (R +++ one l) R l _ None H Hg eq_refl Hl) as [W K].
  - intro y. unfold plus. cbn. rewrite trees_refs_nil. lia.
  - exact I.
  - split; [exact W|]. intros v ts Hv. apply K.
    destruct (Nat.eq_dec (trees_refs l v) 0) as [E|E]; [exact E|]. specialize (Hv l E). lia.
Qed.
Lemma wf_put h R l c w ts : wf h (R +++ one l +++ of_trees w) -> get h l = Some c -> rc c = 1 -> sees h w ts ->
  wf (set h l (Some (mkcell 1 (elems c ++ w)))) (R +++ one l) /\
  keeps R h (set h l (Some (mkcell 1 (elems c ++ w)))) /\
  (forall us, sees h (elems c) us -> sees (set h l (Some (mkcell 1 (elems c ++ w)))) (elems c ++ w) (us ++ ts)).
Proof.
  intros H Hg Hr Hw. assert (Hl : (R +++ one l +++ of_trees w) l <> 0) by (unfold plus; rewrite one_same; lia).
  destruct (unique_root _ _ _ _ H Hg Hr Hl) as [HR1 Hz]. unfold plus, of_trees in HR1. rewrite one_same in HR1.
  assert (Hcl : trees_refs l (elems c) = 0) by (pose proof (heap_refs_ge l h l c Hg); lia).
  assert (Hwl : trees_refs l w = 0) by lia.
  destruct (wf_sees _ _ H l c Hg) as [us Hus].
  destruct (wf_set_unique h (R +++ one l +++ of_trees w) (R +++ one l) l c (Some (mkcell 1 (elems c ++ w))) H Hg Hr Hl)
    as [W K].
  - intro y. unfold plus, of_trees. cbn. rewrite trees_refs_app. lia.
  - cbn. unfold plus. rewrite one_same, trees_refs_app. repeat split; try lia. exists (us ++ ts). now apply sees_app.
  - split; [exact W|]. split.
    + intros v vs Hv. apply K. destruct (Nat.eq_dec (trees_refs l v) 0) as [E|E]; [exact E|]. specialize (Hv l E). lia.
    + intros us' Hus'. apply K; [rewrite trees_refs_app; lia|]. now apply sees_app.
Qed.
Lemma wf_dec h R l c : wf h (R +++ one l) -> get h l = Some c -> rc c <> 1 ->
  wf (set h l (Some (mkcell (rc c - 1) (elems c)))) R /\ same_elems h (set h l (Some (mkcell (rc c - 1) (elems c)))).
Proof.
  intros H Hg Hr. destruct (wf_rc _ _ _ _ H Hg) as [H1 H2]. split; [|now apply set_rc_same].
  apply (wf_set_rc h (R +++ one l)); auto.
  - lia.
  - unfold plus. rewrite one_same. lia.
  - intros x Hx. unfold plus. rewrite one_other by exact Hx. lia.
Qed.
Lemma wf_alloc h R v ts : wf h (R +++ of_trees v) -> sees h v ts ->
  wf (h ++ [Some (mkcell 1 v)]) (R +++ one (length h)) /\ same_elems h (h ++ [Some (mkcell 1 v)]).
Proof.
  intros H Hv.
  assert (Hs : same_elems h (h ++ [Some (mkcell 1 v)])).
  { intros l c Hg. rewrite get_app by (eapply get_lt; eauto). eauto. }
  split; [|exact Hs]. split.
  - intro y. rewrite heap_refs_alloc. cbn [elems]. pose proof (wf_count _ _ H y) as Hc. unfold plus, of_trees in Hc.
    unfold plus. destruct (lt_dec y (length h)) as [Hy|Hy].
    + rewrite get_app by exact Hy. rewrite one_other by lia. destruct (get h y); lia.
    + rewrite get_beyond in Hc by lia. destruct (Nat.eq_dec y (length h)) as [->|Hne].
      * rewrite get_alloc, one_same. cbn [rc]. lia.
      * rewrite get_beyond by (rewrite app_length; cbn; lia). rewrite one_other by exact Hne. lia.
  - intros l c Hg. destruct (lt_dec l (length h)) as [Hy|Hy].
    + rewrite get_app in Hg by exact Hy. destruct (wf_sees _ _ H l c Hg) as [us Hus]. exists us.
      eapply sees_same; eauto.
    + destruct (Nat.eq_dec l (length h)) as [->|Hne].
      * rewrite get_alloc in Hg. injection Hg as <-. exists ts. eapply sees_same; eauto.
      * rewrite get_beyond in Hg by (rewrite app_length; cbn; lia). discriminate.
Qed.
