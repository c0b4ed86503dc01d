(** * Proofs about copying *)
From Coq Require Import Lia.
From Verif Require Import Base Tokens RcHeap SpecStreams SpecCopy RcFacts RcDrop RcSim RcProofs.

Ltac break H :=
  match type of H with
  | context [match ?x with _ => _ end] => let E := fresh "E" in destruct x eqn:E
  | context [obind ?x _] => let E := fresh "E" in destruct x eqn:E; cbn [obind] in H
  end.

(** ** Lengths *)
Lemma step_length h f fs h' fs' : step h f fs = Done (h', fs') -> length h' = length h.
Proof.
  intro H. destruct f as [l|l [|[d g sp|s r sp|c s sp|r sp] cur] [|nxt stk]|l|l [|[d g sp|s r sp|c s sp|r sp] v]|[|[d g sp|s r sp|c s sp|r sp] v]];
  cbn [step] in H; repeat break H; try discriminate H; injection H as <- <-; rewrite ?set_length; reflexivity.
Qed.
Lemma run_drop_length fuel : forall h fs h', run_drop fuel h fs = Finished h' -> length h' = length h.
Proof.
  induction fuel as [|fuel IH]; intros h [|f fs] h' H; cbn [run_drop] in H; try discriminate H; try (injection H as <-; reflexivity).
  destruct (step h f fs) as [[h1 fs1]| |] eqn:E; try discriminate H. apply IH in H. apply step_length in E. lia.
Qed.
Lemma drop_frame_length h f n h' : drop_frame h f n = Done h' -> length h' = length h.
Proof.
  unfold drop_frame. destruct (run_drop _ h [f]) as [x| |] eqn:E; try discriminate. intros [= <-]. eapply run_drop_length; eauto.
Qed.
Lemma rc_clone_length h l h' : rc_clone h l = Done h' -> length h' = length h.
Proof. unfold rc_clone. destruct (get h l); [|discriminate]. intros [= <-]. apply set_length. Qed.
Lemma clone_tree_length h t h' : clone_tree h t = Done h' -> length h' = length h.
Proof. destruct t; cbn [clone_tree]; try (intros [= <-]; reflexivity). apply rc_clone_length. Qed.
Lemma clone_trees_length v : forall h h', clone_trees h v = Done h' -> length h' = length h.
Proof.
  induction v as [|t v IH]; intros h h'; cbn [clone_trees]; [intros [= <-]; reflexivity|].
  destruct (clone_tree h t) as [h1| |] eqn:E; cbn [obind]; try discriminate. intro H. apply IH in H. apply clone_tree_length in E. lia.
Qed.
Lemma make_mut_length h l h' l' : make_mut h l = Done (h', l') ->
  exists c, get h l = Some c /\ length h' = length h + (if rc c =? 1 then 0 else 1).
Proof.
  unfold make_mut. destruct (get h l) as [c|]; [|discriminate]. intro H. exists c. split; [reflexivity|].
  destruct (rc c =? 1); [injection H as <- _; lia|].
  destruct (clone_trees h (elems c)) as [h1| |] eqn:E1; cbn [obind] in H; try discriminate H. unfold alloc in H.
  destruct (drop_rc _ l) as [h2| |] eqn:E2; cbn [obind] in H; try discriminate H. injection H as <- _.
  apply drop_frame_length in E2. apply clone_trees_length in E1. rewrite app_length in E2. cbn in E2. lia.
Qed.
Lemma make_owned_length h l h' v : make_owned h l = Done (h', v) -> length h' = length h.
Proof.
  unfold make_owned. destruct (get h l) as [c|]; [|discriminate]. destruct (rc c =? 1).
  - destruct (drop_rc _ l) as [h1| |] eqn:E; cbn [obind]; try discriminate. intros [= <- _].
    apply drop_frame_length in E. now rewrite set_length in E.
  - destruct (clone_trees h (elems c)) as [h1| |] eqn:E1; cbn [obind]; try discriminate.
    destruct (drop_rc _ l) as [h2| |] eqn:E2; cbn [obind]; try discriminate. intros [= <- _].
    apply drop_frame_length in E2. apply clone_trees_length in E1. lia.
Qed.
Lemma take_streams_length js : forall h e h' e' v, take_streams h e js = Done (h', e', v) -> length h' = length h.
Proof.
  induction js as [|j js IH]; intros h e h' e' v; cbn [take_streams]; [intros [= <- _ _]; reflexivity|].
  destruct (lookup e j) as [[l|t|w]|]; try discriminate.
  destruct (make_owned h l) as [[h1 w]| |] eqn:E1; cbn [obind]; try discriminate.
  destruct (take_streams h1 _ js) as [[[h2 e2] u]| |] eqn:E2; cbn [obind]; try discriminate. intros [= <- _ _].
  apply IH in E2. apply make_owned_length in E1. lia.
Qed.
Lemma append_length h l v h' : append h l v = Done h' -> length h' = length h.
Proof. unfold append. destruct (get h l); [|discriminate]. intros [= <-]. apply set_length. Qed.

(** ** Parsed streams *)
Lemma alloc_trees_length_of ts : Forall (fun t => forall h, length (fst (alloc_tree t h)) = length h + tree_groups t) ts ->
  forall h, length (fst (alloc_trees ts h)) = length h + groups ts.
Proof.
  induction 1 as [|t ts T F IH]; intro h; cbn [alloc_trees]; [cbn; lia|].
  specialize (T h). destruct (alloc_tree t h) as [h1 x]. specialize (IH h1). destruct (alloc_trees ts h1) as [h2 v].
  cbn [fst] in *. unfold groups in *. cbn [map list_sum fold_right]. unfold list_sum in *. lia.
Qed.
Lemma alloc_tree_length t : forall h, length (fst (alloc_tree t h)) = length h + tree_groups t.
Proof.
  induction t as [d ts sp IH|s r sp|c s sp|r sp] using token_ind'; intro h; try (cbn; lia).
  rewrite alloc_tree_group. pose proof (alloc_trees_length_of ts IH h) as H.
  destruct (alloc_trees ts h) as [h1 v]. cbn [fst] in *. unfold alloc. cbn [fst]. rewrite app_length. cbn [length tree_groups]. fold (groups ts). lia.
Qed.
Lemma alloc_trees_length ts h : length (fst (alloc_trees ts h)) = length h + groups ts.
Proof. apply alloc_trees_length_of. apply Forall_forall. intros t _. apply alloc_tree_length. Qed.

(** ** Counts *)
Lemma copies_rc os h e i l c : exec_all ([], []) os = Done (h, e) -> lookup e i = Some (VStream l) -> get h l = Some c ->
  copies h e i = if rc c =? 1 then 0 else 1.
Proof.
  intros R L G. pose proof (counts_exact _ _ _ R l) as C. rewrite G in C. destruct C as [C _].
  unfold copies, holders. rewrite L, <- C. reflexivity.
Qed.

Lemma cells_exact os h e o h' e' : exec_all ([], []) os = Done (h, e) -> exec (h, e) o = Done (h', e') ->
  length h' = length h + cells_made h e o.
Proof.
  intros R H. destruct o as [|ts|t|d i|i|i sp|i|i|js|i js|i j|js|i js|i|i|i]; cbn [exec] in H; cbn [cells_made].
  - unfold alloc in H. injection H as <- _. rewrite app_length. reflexivity.
  - pose proof (alloc_trees_length ts h) as L. destruct (alloc_trees ts h) as [h1 v]. unfold alloc in H. injection H as <- _.
    cbn [fst] in L. rewrite app_length. cbn [length]. lia.
  - destruct (leaf t); [|discriminate H]. injection H as <- _. lia.
  - destruct (lookup e i) as [[l|t|v]|]; try discriminate H. injection H as <- _. lia.
  - destruct (lookup e i) as [[l|[d l sp|s r sp|c s sp|r sp]|v]|]; try discriminate H.
    destruct (rc_clone h l) as [h1| |] eqn:E; cbn [obind] in H; try discriminate H. injection H as <- _. apply rc_clone_length in E. lia.
  - destruct (lookup e i) as [[l|t|v]|]; try discriminate H. injection H as <- _. lia.
  - destruct (lookup e i) as [[l|t|v]|]; try discriminate H.
    + destruct (rc_clone h l) as [h1| |] eqn:E; cbn [obind] in H; try discriminate H. injection H as <- _. apply rc_clone_length in E. lia.
    + destruct (clone_tree h t) as [h1| |] eqn:E; cbn [obind] in H; try discriminate H. injection H as <- _. apply clone_tree_length in E. lia.
    + destruct (clone_trees h v) as [h1| |] eqn:E; cbn [obind] in H; try discriminate H. injection H as <- _. apply clone_trees_length in E. lia.
  - destruct (lookup e i) as [[l|t|v]|]; try discriminate H. unfold alloc in H. injection H as <- _. rewrite app_length. reflexivity.
  - unfold alloc in H. destruct (take_trees e js) as [[e1 ts]| |]; cbn [obind] in H; try discriminate H.
    destruct (make_mut _ _) as [[h1 l1]| |] eqn:E1; cbn [obind] in H; try discriminate H.
    destruct (append h1 l1 _) as [h2| |] eqn:E2; cbn [obind] in H; try discriminate H. injection H as <- _.
    apply append_length in E2. apply make_mut_length in E1 as (c & G & L). rewrite get_alloc in G. injection G as <-.
    cbn in L. rewrite app_length in L. cbn in L. lia.
  - destruct (lookup e i) as [[l|t|v]|] eqn:L; try discriminate H.
    destruct (make_mut _ _) as [[h1 l1]| |] eqn:E1; cbn [obind] in H; try discriminate H.
    destruct (take_trees e js) as [[e1 ts]| |]; cbn [obind] in H; try discriminate H.
    destruct (append h1 l1 _) as [h2| |] eqn:E2; cbn [obind] in H; try discriminate H. injection H as <- _.
    apply append_length in E2. apply make_mut_length in E1 as (c & G & Ln). rewrite (copies_rc os h e i l c R L G). lia.
  - destruct (lookup e i) as [[l|t|v]|] eqn:L; try discriminate H. destruct (lookup e j) as [[l'|t|v]|]; try discriminate H.
    destruct (make_mut _ _) as [[h1 l1]| |] eqn:E1; cbn [obind] in H; try discriminate H.
    destruct (append h1 l1 _) as [h2| |] eqn:E2; cbn [obind] in H; try discriminate H. injection H as <- _.
    apply append_length in E2. apply make_mut_length in E1 as (c & G & Ln). rewrite (copies_rc os h e i l c R L G). lia.
  - destruct (take_streams h e js) as [[[h1 e1] v]| |] eqn:E; cbn [obind] in H; try discriminate H. unfold alloc in H. injection H as <- _.
    apply take_streams_length in E. rewrite app_length. cbn. lia.
  - destruct (lookup e i) as [[l|t|v]|] eqn:L; try discriminate H.
    destruct (make_mut _ _) as [[h1 l1]| |] eqn:E1; cbn [obind] in H; try discriminate H.
    destruct (take_streams h1 _ js) as [[[h2 e2] v]| |] eqn:E; cbn [obind] in H; try discriminate H.
    destruct (append h2 l1 _) as [h3| |] eqn:E2; cbn [obind] in H; try discriminate H. injection H as <- _.
    apply append_length in E2. apply take_streams_length in E. apply make_mut_length in E1 as (c & G & Ln).
    rewrite (copies_rc os h e i l c R L G). lia.
  - destruct (lookup e i) as [[l|t|v]|] eqn:L; try discriminate H.
    destruct (make_owned h l) as [[h1 v]| |] eqn:E; cbn [obind] in H; try discriminate H. injection H as <- _. apply make_owned_length in E. lia.
  - destruct (lookup e i) as [[l|t|[|t v]]|]; try discriminate H; injection H as <- _; lia.
  - destruct (lookup e i) as [[l|t|v]|]; try discriminate H.
    + destruct (drop_stream h l) as [h1| |] eqn:E; cbn [obind] in H; try discriminate H. injection H as <- _. apply drop_frame_length in E. lia.
    + destruct (drop_tree h t) as [h1| |] eqn:E; cbn [obind] in H; try discriminate H. injection H as <- _.
      destruct t; cbn [drop_tree] in E; try (injection E as <-; lia). apply drop_frame_length in E. lia.
    + destruct (drop_iter h v) as [h1| |] eqn:E; cbn [obind] in H; try discriminate H. injection H as <- _. apply drop_frame_length in E. lia.
Qed.

(** ** In place *)
Lemma holders_rc os h e l : exec_all ([], []) os = Done (h, e) -> forall n, holders h e l = S n ->
  exists c, get h l = Some c /\ rc c = S n.
Proof.
  intros R n H. pose proof (counts_exact _ _ _ R l) as C. unfold holders in H. destruct (get h l) as [c|]; [|lia].
  exists c. split; [reflexivity|lia].
Qed.
Lemma take_trees_env js : forall e e' v, take_trees e js = Done (e', v) -> length e' = length e.
Proof.
  induction js as [|j js IH]; intros e e' v; cbn [take_trees]; [intros [= <- _]; reflexivity|].
  destruct (lookup e j) as [[l|t|w]|]; try discriminate.
  destruct (take_trees _ js) as [[e1 w]| |] eqn:E; cbn [obind]; try discriminate. intros [= <- _]. apply IH in E. now rewrite assign_length in E.
Qed.
Lemma take_streams_env js : forall h e h' e' v, take_streams h e js = Done (h', e', v) -> length e' = length e.
Proof.
  induction js as [|j js IH]; intros h e h' e' v; cbn [take_streams]; [intros [= _ <- _]; reflexivity|].
  destruct (lookup e j) as [[l|t|w]|]; try discriminate.
  destruct (make_owned h l) as [[h1 w]| |] eqn:E1; cbn [obind]; try discriminate.
  destruct (take_streams h1 _ js) as [[[h2 e2] u]| |] eqn:E2; cbn [obind]; try discriminate. intros [= _ <- _].
  apply IH in E2. now rewrite assign_length in E2.
Qed.
Lemma make_mut_alone h l c : get h l = Some c -> rc c = 1 -> make_mut h l = Done (h, l).
Proof. intros G E. unfold make_mut. rewrite G, E. reflexivity. Qed.

(** What extending by trees does after [make_mut]. *)
Lemma extend_shape h e i o h' e' l : extends_trees i o -> lookup e i = Some (VStream l) -> exec (h, e) o = Done (h', e') ->
  exists h1 l1 w, make_mut h l = Done (h1, l1) /\ append h1 l1 w = Done h' /\ lookup e' i = Some (VStream l1).
Proof.
  intros X L H. assert (Li := lookup_lt _ _ _ L). destruct X as [js|j]; cbn [exec] in H; rewrite L in H.
  - destruct (make_mut h l) as [[h1 l1]| |] eqn:E1; cbn [obind] in H; try discriminate H.
    destruct (take_trees e js) as [[e1 ts]| |] eqn:E; cbn [obind] in H; try discriminate H.
    destruct (append h1 l1 _) as [h2| |] eqn:E2; cbn [obind] in H; try discriminate H. injection H as <- <-.
    apply take_trees_env in E. exists h1, l1. eexists. split; [reflexivity|]. split; [exact E2|].
    apply lookup_assign_same. lia.
  - destruct (lookup e j) as [[l'|t|v]|]; try discriminate H.
    destruct (make_mut h l) as [[h1 l1]| |] eqn:E1; cbn [obind] in H; try discriminate H.
    destruct (append h1 l1 _) as [h2| |] eqn:E2; cbn [obind] in H; try discriminate H. injection H as <- <-.
    exists h1, l1. eexists. split; [reflexivity|]. split; [exact E2|]. apply lookup_assign_same. now rewrite assign_length.
Qed.
Lemma extends_in_place os h e i l c o h' e' : exec_all ([], []) os = Done (h, e) ->
  lookup e i = Some (VStream l) -> get h l = Some c -> holders h e l = 1 -> extends_trees i o -> exec (h, e) o = Done (h', e') ->
  lookup e' i = Some (VStream l) /\ same_but l h h' /\ exists w, get h' l = Some (mkcell 1 (elems c ++ w)).
Proof.
  intros R L G U X H. destruct (extend_shape _ _ _ _ _ _ _ X L H) as (h1 & l1 & w & M & A & L').
  destruct (holders_rc _ _ _ _ R 0 U) as (c0 & G0 & Ec). rewrite G in G0. injection G0 as <-.
  rewrite (make_mut_alone _ _ _ G Ec) in M. injection M as <- <-. unfold append in A. rewrite G in A. injection A as <-.
  split; [exact L'|]. split.
  - intros l' N. now apply get_set_other.
  - exists w. rewrite get_set_same by (eapply get_lt; eauto). now rewrite Ec.
Qed.
Lemma extends_streams_in_place os h e i l c js h' e' : exec_all ([], []) os = Done (h, e) ->
  lookup e i = Some (VStream l) -> get h l = Some c -> holders h e l = 1 -> exec (h, e) (OExtendStreams i js) = Done (h', e') ->
  lookup e' i = Some (VStream l).
Proof.
  intros R L G U H. destruct (holders_rc _ _ _ _ R 0 U) as (c0 & G0 & Ec). rewrite G in G0. injection G0 as <-.
  assert (Li := lookup_lt _ _ _ L). cbn [exec] in H. rewrite L, (make_mut_alone _ _ _ G Ec) in H. cbn [obind] in H.
  destruct (take_streams h _ js) as [[[h2 e2] v]| |] eqn:E; cbn [obind] in H; try discriminate H.
  destruct (append h2 l _) as [h3| |] eqn:E2; cbn [obind] in H; try discriminate H. injection H as <- <-.
  apply lookup_assign_same. apply take_streams_env in E. rewrite assign_length in E. lia.
Qed.

(** ** Copies *)
Lemma rc_clone_cells h l h' : rc_clone h l = Done h' -> same_cells h h' /\
  forall x c c', get h x = Some c -> get h' x = Some c' -> rc c <= rc c'.
Proof.
  unfold rc_clone. destruct (get h l) as [c|] eqn:G; [|discriminate]. intros [= <-]. pose proof (get_lt _ _ _ G) as Lt. split.
  - intro x. destruct (Nat.eq_dec x l) as [->|N]; [rewrite get_set_same by exact Lt; rewrite G; reflexivity|now rewrite get_set_other].
  - intros x d d' D D'. destruct (Nat.eq_dec x l) as [->|N].
    + rewrite get_set_same in D' by exact Lt. injection D' as <-. rewrite G in D. injection D as <-. cbn. lia.
    + rewrite get_set_other in D' by exact N. rewrite D in D'. injection D' as <-. lia.
Qed.
Lemma same_cells_refl h : same_cells h h. Proof. intro l. reflexivity. Qed.
Lemma same_cells_trans a b c : same_cells a b -> same_cells b c -> same_cells a c.
Proof. intros H K l. now rewrite K, H. Qed.
Lemma same_cells_get h h' l c : same_cells h h' -> get h l = Some c -> exists c', get h' l = Some c' /\ elems c' = elems c.
Proof. intros S G. specialize (S l). rewrite G in S. destruct (get h' l) as [c'|]; [|discriminate]. injection S as S. eauto. Qed.
Lemma clone_tree_cells h t h' : clone_tree h t = Done h' -> same_cells h h' /\
  forall x c c', get h x = Some c -> get h' x = Some c' -> rc c <= rc c'.
Proof.
  destruct t; cbn [clone_tree]; try (intros [= <-]; split; [apply same_cells_refl|intros x c c' E E'; rewrite E in E'; injection E' as <-; lia]).
  apply rc_clone_cells.
Qed.
Lemma clone_trees_cells v : forall h h', clone_trees h v = Done h' -> same_cells h h' /\
  forall x c c', get h x = Some c -> get h' x = Some c' -> rc c <= rc c'.
Proof.
  induction v as [|t v IH]; intros h h'; cbn [clone_trees].
  - intros [= <-]. split; [apply same_cells_refl|]. intros x c c' E E'. rewrite E in E'. injection E' as <-. lia.
  - destruct (clone_tree h t) as [h1| |] eqn:E; cbn [obind]; try discriminate. intro H.
    apply IH in H as [S1 C1]. apply clone_tree_cells in E as [S2 C2]. split; [eapply same_cells_trans; eauto|].
    intros x c c' G G'. destruct (same_cells_get _ _ _ _ S2 G) as (c1 & G1 & _). specialize (C1 _ _ _ G1 G'). specialize (C2 _ _ _ G G1). lia.
Qed.
(** Releasing one of several handles. *)
Lemma drop_rc_many h l c h' : get h l = Some c -> 2 <= rc c -> drop_rc h l = Done h' ->
  h' = set h l (Some (mkcell (rc c - 1) (elems c))).
Proof.
  intros G N. unfold drop_rc, drop_frame. rewrite Nat.add_comm. cbn [run_drop Nat.add step]. rewrite G.
  destruct (Nat.eqb_spec (rc c) 1); [lia|]. cbn [run_drop]. intros [= <-]. reflexivity.
Qed.
Lemma set_elems_cells h l c n : get h l = Some c -> same_cells h (set h l (Some (mkcell n (elems c)))).
Proof.
  intros G x. destruct (Nat.eq_dec x l) as [->|N]; [rewrite get_set_same by (eapply get_lt; eauto); rewrite G; reflexivity|now rewrite get_set_other].
Qed.
Lemma make_mut_shared h l c h' l' : get h l = Some c -> 2 <= rc c -> make_mut h l = Done (h', l') ->
  l' = length h /\ get h' l' = Some (mkcell 1 (elems c)) /\ forall x, x < length h -> option_map elems (get h' x) = option_map elems (get h x).
Proof.
  intros G N. unfold make_mut. rewrite G. destruct (Nat.eqb_spec (rc c) 1); [lia|].
  destruct (clone_trees h (elems c)) as [h1| |] eqn:E1; cbn [obind]; try discriminate. unfold alloc.
  destruct (clone_trees_cells _ _ _ E1) as [S1 C1]. apply clone_trees_length in E1.
  destruct (same_cells_get _ _ _ _ S1 G) as (c1 & G1 & Ec1). specialize (C1 _ _ _ G G1). pose proof (get_lt _ _ _ G1) as Lt.
  assert (G2 : get (h1 ++ [Some (mkcell 1 (elems c))]) l = Some c1) by (rewrite get_app; assumption).
  destruct (drop_rc _ l) as [h2| |] eqn:E2; cbn [obind]; try discriminate. intros [= <- <-].
  apply (drop_rc_many _ _ _ _ G2) in E2; [|lia]. subst h2. split; [exact E1|]. split.
  - rewrite get_set_other by lia. apply get_alloc.
  - intros x Lx. rewrite (set_elems_cells _ _ _ _ G2 x), get_app by lia. apply S1.
Qed.
Lemma extends_copy os h e i l c o h' e' : exec_all ([], []) os = Done (h, e) ->
  lookup e i = Some (VStream l) -> get h l = Some c -> 2 <= holders h e l -> extends_trees i o -> exec (h, e) o = Done (h', e') ->
  lookup e' i = Some (VStream (length h)) /\ (exists w, get h' (length h) = Some (mkcell 1 (elems c ++ w))) /\
  forall x, x < length h -> option_map elems (get h' x) = option_map elems (get h x).
Proof.
  intros R L G U X H. destruct (extend_shape _ _ _ _ _ _ _ X L H) as (h1 & l1 & w & M & A & L').
  destruct (holders h e l) as [|n] eqn:Eh; [lia|]. destruct (holders_rc _ _ _ _ R _ Eh) as (c0 & G0 & Ec). rewrite G in G0. injection G0 as <-.
  destruct (make_mut_shared _ _ _ _ _ G ltac:(lia) M) as (-> & G1 & K). unfold append in A. rewrite G1 in A. injection A as <-.
  split; [exact L'|]. split.
  - exists w. rewrite get_set_same by (eapply get_lt; eauto). reflexivity.
  - intros x Lx. rewrite get_set_other by lia. now apply K.
Qed.
Lemma clones_nothing os h e i h' e' : exec_all ([], []) os = Done (h, e) -> exec (h, e) (OClone i) = Done (h', e') \/ exec (h, e) (OStreamOf i) = Done (h', e') ->
  length h' = length h /\ same_cells h h'.
Proof.
  intros R H. split.
  - destruct H as [H|H]; rewrite (cells_exact _ _ _ _ _ _ R H); cbn; lia.
  - destruct H as [H|H]; cbn [exec] in H.
    + destruct (lookup e i) as [[l|t|v]|]; try discriminate H.
      * destruct (rc_clone h l) as [h1| |] eqn:E; cbn [obind] in H; try discriminate H. injection H as <- _. now apply rc_clone_cells in E.
      * destruct (clone_tree h t) as [h1| |] eqn:E; cbn [obind] in H; try discriminate H. injection H as <- _. now apply clone_tree_cells in E.
      * destruct (clone_trees h v) as [h1| |] eqn:E; cbn [obind] in H; try discriminate H. injection H as <- _. now apply clone_trees_cells in E.
    + destruct (lookup e i) as [[l|[d l sp|s r sp|c s sp|r sp]|v]|]; try discriminate H.
      destruct (rc_clone h l) as [h1| |] eqn:E; cbn [obind] in H; try discriminate H. injection H as <- _. now apply rc_clone_cells in E.
Qed.

(** ** Iterators *)
Lemma into_iter_moves os h e i l c h' e' : exec_all ([], []) os = Done (h, e) ->
  lookup e i = Some (VStream l) -> get h l = Some c -> exec (h, e) (OIntoIter i) = Done (h', e') ->
  lookup e' i = Some (VIter (elems c)) /\
  (holders h e l = 1 -> get h' l = None /\ same_but l h h') /\ (2 <= holders h e l -> same_cells h h').
Proof.
  intros R L G H. assert (Li := lookup_lt _ _ _ L). cbn [exec] in H. rewrite L in H.
  destruct (make_owned h l) as [[h1 v]| |] eqn:E; cbn [obind] in H; try discriminate H. injection H as <- <-.
  unfold make_owned in E. rewrite G in E.
  pose proof (counts_exact _ _ _ R l) as C. rewrite G in C. fold (holders h e l) in C. destruct C as [C _].
  pose proof (get_lt _ _ _ G) as Lt.
  destruct (Nat.eqb_spec (rc c) 1) as [E1|E1].
  - destruct (drop_rc _ l) as [h2| |] eqn:E2; cbn [obind] in E; try discriminate E. injection E as <- <-.
    split; [now apply lookup_assign_same|]. split; [|lia]. intros _.
    unfold drop_rc, drop_frame in E2. rewrite Nat.add_comm in E2. cbn [run_drop Nat.add step] in E2.
    rewrite get_set_same in E2 by exact Lt. cbn [rc Nat.eqb elems run_drop step] in E2.
    rewrite get_set_same in E2 by (rewrite set_length; exact Lt). cbn [run_drop] in E2. injection E2 as <-. rewrite !set_set.
    split; [now apply get_set_same|]. intros l' N. now apply get_set_other.
  - destruct (clone_trees h (elems c)) as [h2| |] eqn:E2; cbn [obind] in E; try discriminate E.
    destruct (drop_rc _ l) as [h3| |] eqn:E3; cbn [obind] in E; try discriminate E. injection E as <- <-.
    split; [now apply lookup_assign_same|]. split; [lia|]. intros N.
    destruct (clone_trees_cells _ _ _ E2) as [S2 C2]. destruct (same_cells_get _ _ _ _ S2 G) as (c2 & G2 & _). specialize (C2 _ _ _ G G2).
    apply (drop_rc_many _ _ _ _ G2) in E3; [|lia]. subst h3. eapply same_cells_trans; [exact S2|]. now apply set_elems_cells.
Qed.
