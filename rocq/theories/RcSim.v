(** * Every history of stream operations behaves as on plain lists. *)
From Verif Require Import Base Unicode Tokens RcHeap SpecStreams RcFacts RcDrop.
Import ListNotations.

Local Arguments heap_refs : simpl never.
Local Arguments trees_refs : simpl never.
Local Arguments heap_size : simpl never.

(** ** Values as trees *)
Definition vtrees (v : value) : list htree :=
  match v with VStream l => [HGroup Parenthesis l call_site] | VTree t => [t] | VIter v => v end.
Definition same_kind (v : value) (a : avalue) : Prop :=
  match v, a with VStream _, AStream _ | VTree _, ATree _ | VIter _, AIter _ => True | _, _ => False end.
Definition vtokens (a : avalue) : list token :=
  match a with AStream ts => [TGroup Parenthesis ts call_site] | ATree t => [t] | AIter ts => ts end.
Lemma sees_stream h d l sp ts : sees h [HGroup d l sp] [TGroup d ts sp] <-> exists c, get h l = Some c /\ sees h (elems c) ts.
Proof.
  split.
  - intro H. inversion H; subst. eauto.
  - intros (c & Hc & Hs). econstructor; eauto. constructor.
Qed.
Lemma looks_iff h v a : looks h v a <-> same_kind v a /\ sees h (vtrees v) (vtokens a).
Proof.
  destruct v, a; cbn; try tauto. rewrite sees_stream. tauto.
Qed.
Lemma value_refs_trees x v : value_refs x (Some v) = trees_refs x (vtrees v).
Proof. destruct v; cbn; try reflexivity; rewrite trees_refs_cons, trees_refs_nil; cbn; lia. Qed.
Definition ev (v : option value) : roots := fun x => value_refs x v.
Definition er (e : env) : roots := fun x => env_refs x e.
Lemma looks_keeps h h' R v a : keeps R h h' -> (forall x, value_refs x (Some v) <> 0 -> R x <> 0) -> looks h v a -> looks h' v a.
Proof.
  rewrite !looks_iff. intros K Hv [H1 H2]. split; [exact H1|]. apply K; [|exact H2]. intros x Hx. apply Hv.
  now rewrite value_refs_trees.
Qed.

(** ** Environments *)
Lemma env_refs_cons x v e : env_refs x (v :: e) = value_refs x v + env_refs x e.
Proof. reflexivity. Qed.
Lemma env_refs_app x e f : env_refs x (e ++ f) = env_refs x e + env_refs x f.
Proof. unfold env_refs. rewrite map_app. apply list_sum_app'. Qed.
Lemma env_refs_one x v : env_refs x [v] = value_refs x v.
Proof. unfold env_refs. cbn. lia. Qed.
Lemma lookup_lt e i v : lookup e i = Some v -> i < length e.
Proof. unfold lookup. intro H. apply nth_error_Some. destruct (nth_error e i); congruence. Qed.
Lemma env_refs_assign x e i y : i < length e -> env_refs x (assign e i y) + value_refs x (lookup e i) = env_refs x e + value_refs x y.
Proof.
  revert i. induction e as [|z e IH]; intros [|i] Hi; cbn [length] in Hi; try lia.
  - cbn [assign]. rewrite !env_refs_cons. cbn. lia.
  - cbn [assign]. rewrite !env_refs_cons. assert (E : lookup (z :: e) (S i) = lookup e i) by reflexivity. rewrite E.
    specialize (IH i ltac:(lia)). lia.
Qed.
Lemma assign_length {A} (e : list (option A)) i y : length (assign e i y) = length e.
Proof. revert i. induction e as [|z e IH]; intros [|i]; cbn; auto. Qed.
Lemma lookup_assign_other e i j y : j <> i -> lookup (assign e i y) j = lookup e j.
Proof.
  unfold lookup. revert i j. induction e as [|z e IH]; intros [|i] [|j] H; cbn; try reflexivity; try congruence. apply IH. lia.
Qed.
Lemma lookup_assign_same e i y : i < length e -> lookup (assign e i y) i = y.
Proof.
  unfold lookup. revert i. induction e as [|z e IH]; intros [|i] H; cbn in *; try lia; try reflexivity. apply IH. lia.
Qed.
(** Move the references of a variable in and out. *)
Lemma er_take e i v : lookup e i = Some v -> forall x, er e x = (er (assign e i None) +++ ev (Some v)) x.
Proof.
  intros H x. pose proof (env_refs_assign x e i None (lookup_lt _ _ _ H)) as E. rewrite H in E.
  unfold er, ev, plus. cbn [value_refs] in E. cbn [value_refs]. lia.
Qed.
Lemma er_put e i v w : lookup e i = Some v -> forall x, er (assign e i w) x = (er (assign e i None) +++ ev w) x.
Proof.
  intros H x. pose proof (env_refs_assign x e i None (lookup_lt _ _ _ H)) as E.
  pose proof (env_refs_assign x e i w (lookup_lt _ _ _ H)) as E'.
  unfold er, ev, plus. cbn [value_refs] in E. lia.
Qed.
Lemma er_push e v x : er (e ++ [v]) x = (er e +++ ev v) x.
Proof. unfold er, ev, plus. rewrite env_refs_app, env_refs_one. reflexivity. Qed.

Definition env_looks (h : heap) (e : env) (ae : aenv) : Prop := Forall2 (olooks h) e ae.
Lemma value_le_env e i v x : lookup e i = Some v -> value_refs x (Some v) <= env_refs x e.
Proof. intro H. pose proof (er_take e i v H x) as E. unfold er, ev, plus in E. lia. Qed.
Lemma env_looks_keeps h h' R e ae : keeps R h h' -> (forall x, er e x <= R x) -> env_looks h e ae -> env_looks h' e ae.
Proof.
  intros K Hle H. induction H as [|v a e ae Hva H IH]; [constructor|].
  assert (Hx : forall x, value_refs x v + env_refs x e <= R x) by (intro x; specialize (Hle x); unfold er in Hle; now rewrite env_refs_cons in Hle).
  constructor.
  - destruct v as [v|], a as [a|]; cbn [olooks] in Hva |- *; try tauto. eapply looks_keeps; [exact K| |exact Hva].
    intros x Hv. specialize (Hx x). lia.
  - apply IH. intro x. specialize (Hx x). unfold er. lia.
Qed.
Lemma env_looks_lookup h e ae i : env_looks h e ae -> olooks h (lookup e i) (alookup ae i).
Proof.
  unfold lookup, alookup. intro H. revert i. induction H as [|v a e ae Hva H IH]; intros [|i]; cbn; auto; exact I.
Qed.
Lemma env_looks_assign h e ae i v a : env_looks h e ae -> olooks h v a -> env_looks h (assign e i v) (assign ae i a).
Proof.
  intros H Hv. revert i. induction H as [|v' a' e ae Hva H IH]; intros [|i]; cbn; constructor; auto. exact (IH i).
Qed.
Lemma env_looks_push h e ae v a : env_looks h e ae -> olooks h v a -> env_looks h (e ++ [v]) (ae ++ [a]).
Proof. intros H Hv. apply Forall2_app; [exact H|]. constructor; [exact Hv|constructor]. Qed.
(** The kind of a variable is known from either side. *)
Lemma env_looks_some h e ae i v : env_looks h e ae -> lookup e i = Some v -> exists a, alookup ae i = Some a /\ looks h v a.
Proof.
  intros H Hv. pose proof (env_looks_lookup _ _ _ i H) as Ho. rewrite Hv in Ho. destruct (alookup ae i); [eauto|contradiction].
Qed.
Lemma env_looks_none h e ae i : env_looks h e ae -> lookup e i = None -> alookup ae i = None.
Proof.
  intros H Hv. pose proof (env_looks_lookup _ _ _ i H) as Ho. rewrite Hv in Ho. destruct (alookup ae i); [contradiction|auto].
Qed.

(** [Inv h e ae R]: the program's variables and the further roots [R]. *)
Record Inv (h : heap) (e : env) (ae : aenv) (R : roots) : Prop := {
  inv_wf : wf h (R +++ er e);
  inv_looks : env_looks h e ae
}.
Lemma Inv_ext h e ae R R' : (forall x, R x = R' x) -> Inv h e ae R -> Inv h e ae R'.
Proof. intros E [H1 H2]. split; [|exact H2]. eapply wf_ext; [|exact H1]. intro x. unfold plus. now rewrite E. Qed.
(** A heap step that keeps what is visible. *)
Lemma Inv_step h h' e ae R R' : Inv h e ae R -> wf h' (R' +++ er e) -> keeps (er e) h h' -> Inv h' e ae R'.
Proof. intros [H1 H2] W K. split; [exact W|]. eapply env_looks_keeps; eauto. Qed.
(** Move a variable's references to the side. *)
Lemma Inv_take h e ae R i v : Inv h e ae R -> lookup e i = Some v ->
  Inv h (assign e i None) (assign ae i None) (R +++ ev (Some v)).
Proof.
  intros [H1 H2] Hv. split.
  - eapply wf_ext; [|exact H1]. intro x. unfold plus. rewrite (er_take e i v Hv x). unfold plus. lia.
  - now apply env_looks_assign.
Qed.
Lemma Inv_put h e ae R i v w a : lookup e i = Some v -> Inv h (assign e i None) (assign ae i None) (R +++ ev w) ->
  olooks h w a -> Inv h (assign e i w) (assign ae i a) R.
Proof.
  intros Hv [H1 H2] Hw. split.
  - eapply wf_ext; [|exact H1]. intro x. unfold plus. rewrite (er_put e i v w Hv x). unfold plus. lia.
  - assert (E : forall (A : Type) (e : list (option A)) i y z, assign (assign e i y) i z = assign e i z).
    { clear. induction e as [|q e IH]; intros [|i] y z; cbn; try reflexivity. now rewrite IH. }
    rewrite <- (E _ e i None w), <- (E _ ae i None a). now apply env_looks_assign.
Qed.
Lemma Inv_push h e ae R w a : Inv h e ae (R +++ ev w) -> olooks h w a -> Inv h (e ++ [w]) (ae ++ [a]) R.
Proof.
  intros [H1 H2] Hw. split; [|now apply env_looks_push].
  eapply wf_ext; [|exact H1]. intro x. unfold plus. rewrite er_push. unfold plus. lia.
Qed.

(** ** Allocation *)
Lemma stream_looks_alloc h v ts : sees h v ts -> olooks (h ++ [Some (mkcell 1 v)]) (Some (VStream (length h))) (Some (AStream ts)).
Proof.
  intro H. cbn. eexists. split; [apply get_alloc|]. eapply sees_same; [|exact H].
  intros l c Hg. rewrite get_app by (eapply get_lt; eauto). eauto.
Qed.
Lemma Inv_alloc h e ae R v ts : Inv h e ae (R +++ of_trees v) -> sees h v ts ->
  Inv (h ++ [Some (mkcell 1 v)]) e ae (R +++ ev (Some (VStream (length h)))).
Proof.
  intros [H1 H2] Hv. destruct (wf_alloc h (R +++ er e) v ts) as [W K]; [|exact Hv|].
  - eapply wf_ext; [|exact H1]. intro x. unfold plus. lia.
  - eapply (Inv_step h); [split; eassumption| |now apply keeps_same].
    eapply wf_ext; [|exact W]. intro x. unfold plus, ev, one. cbn [value_refs]. lia.
Qed.

Lemma token_ind' (Q : token -> Prop) :
  (forall d ts sp, Forall Q ts -> Q (TGroup d ts sp)) -> (forall s r sp, Q (TIdent s r sp)) ->
  (forall c s sp, Q (TPunct c s sp)) -> (forall r sp, Q (TLiteral r sp)) -> forall t, Q t.
Proof.
  intros HG HI HP HL. fix F 1. intros [d ts sp|s r sp|c s sp|r sp]; [|apply HI|apply HP|apply HL].
  apply HG. induction ts as [|t ts IH]; constructor; [apply F|exact IH].
Qed.

Lemma alloc_tree_group d ts sp h :
  alloc_tree (TGroup d ts sp) h = (let (h, v) := alloc_trees ts h in let (h, l) := alloc h v in (h, HGroup d l sp)).
Proof.
  cbn [alloc_tree].
  assert (E : forall h, (fix go (ts : list token) (h : heap) : heap * list htree :=
        match ts with
        | [] => (h, [])
        | t :: ts => let (h, x) := alloc_tree t h in let (h, v) := go ts h in (h, x :: v)
        end) ts h = alloc_trees ts h).
  { induction ts as [|t ts IH]; intro h'; [reflexivity|]. cbn [alloc_trees]. destruct (alloc_tree t h').
    now rewrite IH. }
  now rewrite E.
Qed.

Lemma alloc_tree_ok t : forall h R, wf h R ->
  exists h' x, alloc_tree t h = (h', x) /\ wf h' (R +++ of_trees [x]) /\ same_elems h h' /\ sees h' [x] [t].
Proof.
  induction t as [d ts sp IH|s r sp|c s sp|r sp] using token_ind'; intros h R W.
  2-4: eexists _, _; split; [reflexivity|]; split; [|split; [apply same_elems_refl|repeat constructor]];
       eapply wf_ext; [|exact W]; intro x; unfold plus; rewrite of_trees_leaf by exact I;
       unfold of_trees; rewrite trees_refs_nil; lia.
  rewrite alloc_tree_group.
  assert (HT : forall h R, wf h R -> exists h' v, alloc_trees ts h = (h', v) /\ wf h' (R +++ of_trees v) /\
                same_elems h h' /\ sees h' v ts).
  { clear h R W. induction IH as [|t ts Ht Hts IHts]; intros h R W.
    - exists h, []. split; [reflexivity|]. split; [|split; [apply same_elems_refl|constructor]].
      eapply wf_ext; [|exact W]. intro x. unfold plus, of_trees. rewrite trees_refs_nil. lia.
    - cbn [alloc_trees]. destruct (Ht h R W) as (h1 & x & -> & W1 & K1 & S1).
      destruct (IHts h1 _ W1) as (h2 & v & -> & W2 & K2 & S2). exists h2, (x :: v). split; [reflexivity|].
      split; [|split; [eapply same_elems_trans; eauto|]].
      + eapply wf_ext; [|exact W2]. intro y. unfold plus, of_trees. rewrite !trees_refs_cons, trees_refs_nil. lia.
      + apply sees_cons; [eapply sees_same; eauto|exact S2]. }
  destruct (HT h R W) as (h1 & v & -> & W1 & K1 & S1). unfold alloc.
  destruct (wf_alloc h1 R v ts W1 S1) as [W2 K2]. eexists _, _. split; [reflexivity|].
  split; [|split; [eapply same_elems_trans; eauto|]].
  - eapply wf_ext; [|exact W2]. intro x. unfold plus. rewrite of_trees_group. unfold of_trees. rewrite trees_refs_nil. lia.
  - econstructor; [apply get_alloc| |constructor]. eapply sees_same; eauto.
Qed.
Lemma alloc_trees_ok ts : forall h R, wf h R ->
  exists h' v, alloc_trees ts h = (h', v) /\ wf h' (R +++ of_trees v) /\ same_elems h h' /\ sees h' v ts.
Proof.
  induction ts as [|t ts IHts]; intros h R W.
  - exists h, []. split; [reflexivity|]. split; [|split; [apply same_elems_refl|constructor]].
    eapply wf_ext; [|exact W]. intro x. unfold plus, of_trees. rewrite trees_refs_nil. lia.
  - cbn [alloc_trees]. destruct (alloc_tree_ok t h R W) as (h1 & x & -> & W1 & K1 & S1).
    destruct (IHts h1 _ W1) as (h2 & v & -> & W2 & K2 & S2). exists h2, (x :: v). split; [reflexivity|].
    split; [|split; [eapply same_elems_trans; eauto|]].
    + eapply wf_ext; [|exact W2]. intro y. unfold plus, of_trees. rewrite !trees_refs_cons, trees_refs_nil. lia.
    + apply sees_cons; [eapply sees_same; eauto|exact S2].
Qed.

(** ** Pushing *)
Lemma push_one h v t ts u : sees h v ts -> sees h [t] [u] -> sees h (push_htree v t) (ts ++ split_negative u) /\
  forall x, trees_refs x (push_htree v t) = trees_refs x v + tree_refs x t.
Proof.
  intros Hv Ht. inversion Ht; subst; cbn [push_htree split_negative].
  1-3: split; [apply sees_app; assumption|intro x; now rewrite trees_refs_app, trees_refs_cons, trees_refs_nil, Nat.add_0_r].
  destruct r as [|c r].
  - split; [apply sees_app; assumption|intro x; now rewrite trees_refs_app, trees_refs_cons, trees_refs_nil, Nat.add_0_r].
  - destruct (c =? "-"%ch)%N.
    + split; [apply sees_app; [assumption|repeat constructor]|intro x; now rewrite trees_refs_app, !trees_refs_cons, trees_refs_nil].
    + split; [apply sees_app; assumption|intro x; now rewrite trees_refs_app, trees_refs_cons, trees_refs_nil, Nat.add_0_r].
Qed.
Lemma push_all h w us : sees h w us -> forall v ts, sees h v ts ->
  sees h (fold_left push_htree w v) (ts ++ split_negatives us) /\
  forall x, trees_refs x (fold_left push_htree w v) = trees_refs x v + trees_refs x w.
Proof.
  revert us. induction w as [|t w IH]; intros us Hw v ts Hv.
  - inversion Hw; subst. cbn. rewrite app_nil_r. split; [exact Hv|intro x; rewrite trees_refs_nil; lia].
  - destruct (sees_cons_inv _ _ _ _ Hw) as (u & us' & -> & Ht & Hw'). cbn [fold_left split_negatives flat_map].
    destruct (push_one h v t ts u Hv Ht) as [H1 H2]. destruct (IH us' Hw' _ _ H1) as [H3 H4].
    split; [rewrite app_assoc; exact H3|]. intro x. rewrite H4, H2, trees_refs_cons. lia.
Qed.
Lemma push_list h w us : sees h w us -> sees h (fold_left push_htree w []) (split_negatives us) /\
  forall x, of_trees (fold_left push_htree w []) x = of_trees w x.
Proof.
  intro Hw. destruct (push_all h w us Hw [] [] (sees_nil h)) as [H1 H2]. split; [exact H1|].
  intro x. unfold of_trees. rewrite H2, trees_refs_nil. reflexivity.
Qed.

(** ** Moving trees and streams out of variables *)
Lemma take_trees_ok h js : forall e ae R, Inv h e ae R ->
  match take_trees e js, atake_trees ae js with
  | Done (e', v), Some (ae', ts) => Inv h e' ae' (R +++ of_trees v) /\ sees h v ts
  | Illtyped, None => True
  | _, _ => False
  end.
Proof.
  induction js as [|j js IH]; intros e ae R H; cbn [take_trees atake_trees].
  - split; [|constructor]. eapply Inv_ext; [|exact H]. intro x. unfold plus, of_trees. rewrite trees_refs_nil. lia.
  - destruct (lookup e j) as [v|] eqn:Ej.
    + destruct (env_looks_some h e ae j v (inv_looks _ _ _ _ H) Ej) as (a & Ea & Hl). rewrite Ea.
      destruct v as [l|t|v], a as [ts|u|ts]; cbn [looks] in Hl; try contradiction; try exact I.
      assert (H1 := Inv_take _ _ _ _ _ _ H Ej). specialize (IH _ _ _ H1).
      destruct (take_trees _ js) as [[e' v]| |], (atake_trees _ js) as [[ae' ts]|]; cbn; try contradiction; try exact I.
      destruct IH as [IH1 IH2]. split; [|now apply sees_cons].
      eapply Inv_ext; [|exact IH1]. intro x. unfold plus, of_trees, ev. cbn [value_refs]. rewrite trees_refs_cons. lia.
    + now rewrite (env_looks_none h e ae j (inv_looks _ _ _ _ H) Ej).
Qed.

Lemma Inv_owned h e ae R l ts : Inv h e ae (R +++ ev (Some (VStream l))) -> looks h (VStream l) (AStream ts) ->
  exists h' v, make_owned h l = Done (h', v) /\ Inv h' e ae (R +++ of_trees v) /\ sees h' v ts /\ keeps (R +++ er e) h h'.
Proof.
  intros H (c & Hc & Hs). destruct H as [H1 H2].
  destruct (make_owned_ok h l c ts (R +++ er e)) as (h' & E & W & K & S); [|exact Hc|exact Hs|].
  { eapply wf_ext; [|exact H1]. intro x. unfold plus, ev, one. cbn [value_refs]. lia. }
  exists h', (elems c). split; [exact E|]. split; [|split; [exact S|exact K]].
  eapply (Inv_step h); [split; eassumption| |].
  - eapply wf_ext; [|exact W]. intro x. unfold plus. lia.
  - eapply keeps_mono; [|exact K]. intro x. unfold plus. lia.
Qed.
Lemma take_streams_ok js : forall h e ae R, Inv h e ae R ->
  match take_streams h e js, atake_streams ae js with
  | Done (h', e', v), Some (ae', ts) => Inv h' e' ae' (R +++ of_trees v) /\ sees h' v ts /\ keeps R h h'
  | Illtyped, None => True
  | _, _ => False
  end.
Proof.
  induction js as [|j js IH]; intros h e ae R H; cbn [take_streams atake_streams].
  - split; [|split; [constructor|apply keeps_refl]]. eapply Inv_ext; [|exact H]. intro x. unfold plus, of_trees.
    rewrite trees_refs_nil. lia.
  - destruct (lookup e j) as [v|] eqn:Ej.
    + destruct (env_looks_some h e ae j v (inv_looks _ _ _ _ H) Ej) as (a & Ea & Hl). rewrite Ea.
      destruct v as [l|t|v], a as [ts|u|ts]; try (cbn [looks] in Hl; contradiction); try exact I.
      assert (H1 := Inv_take _ _ _ _ _ _ H Ej).
      destruct (Inv_owned _ _ _ _ _ _ H1 Hl) as (h1 & v & E1 & H2 & S1 & K1). rewrite E1. cbn [obind].
      specialize (IH _ _ _ _ H2).
      destruct (take_streams _ _ js) as [[[h2 e'] w]| |], (atake_streams _ js) as [[ae' us]|]; cbn [obind];
        try contradiction; try exact I.
      destruct IH as (IH1 & IH2 & IH3). split; [|split].
      * eapply Inv_ext; [|exact IH1]. intro x. unfold plus, of_trees. rewrite trees_refs_app. lia.
      * apply sees_app; [|exact IH2]. apply IH3; [|exact S1]. intros x Hx. unfold plus, of_trees. lia.
      * eapply keeps_trans; [|eapply keeps_mono; [|exact IH3]; intro x; unfold plus; lia].
        eapply keeps_mono; [|exact K1]. intro x. unfold plus. lia.
    + now rewrite (env_looks_none h e ae j (inv_looks _ _ _ _ H) Ej).
Qed.

(** Copy on write of a stream held on the side. *)
Lemma Inv_mut h e ae R l ts : Inv h e ae (R +++ ev (Some (VStream l))) -> looks h (VStream l) (AStream ts) ->
  exists h' l' v, make_mut h l = Done (h', l') /\ Inv h' e ae (R +++ ev (Some (VStream l'))) /\
    get h' l' = Some (mkcell 1 v) /\ sees h' v ts /\ keeps (R +++ er e) h h'.
Proof.
  intros [H1 H2] (c & Hc & Hs).
  destruct (make_mut_ok h l c ts (R +++ er e)) as (h' & l' & E & W & K & G & S); [|exact Hc|exact Hs|].
  { eapply wf_ext; [|exact H1]. intro x. unfold plus, ev, one. cbn [value_refs]. lia. }
  exists h', l', (elems c). split; [exact E|]. split; [|auto].
  eapply (Inv_step h); [split; eassumption| |].
  - eapply wf_ext; [|exact W]. intro x. unfold plus, ev, one. cbn [value_refs]. lia.
  - eapply keeps_mono; [|exact K]. intro x. unfold plus. lia.
Qed.
Lemma Inv_append h e ae R l v ts w us : Inv h e ae (R +++ ev (Some (VStream l)) +++ of_trees w) ->
  get h l = Some (mkcell 1 v) -> sees h v ts -> sees h w us ->
  exists h', append h l w = Done h' /\ Inv h' e ae (R +++ ev (Some (VStream l))) /\
    looks h' (VStream l) (AStream (ts ++ us)) /\ keeps R h h'.
Proof.
  intros [H1 H2] Hg Hv Hw. unfold append. rewrite Hg. cbn [rc elems].
  destruct (wf_put h (R +++ er e) l (mkcell 1 v) w us) as (W & K & S); [|exact Hg|reflexivity|exact Hw|].
  { eapply wf_ext; [|exact H1]. intro x. unfold plus, ev, one. cbn [value_refs]. lia. }
  cbn [elems] in *. eexists. split; [reflexivity|]. split.
  - eapply (Inv_step h); [split; eassumption| |].
    + eapply wf_ext; [|exact W]. intro x. unfold plus, ev, one. cbn [value_refs]. lia.
    + eapply keeps_mono; [|exact K]. intro x. unfold plus. lia.
  - split; [cbn; eexists; split; [apply get_set_same; eapply get_lt; eauto|]; cbn [elems]; auto|].
    eapply keeps_mono; [|exact K]. intro x. unfold plus. lia.
Qed.

(** ** One operation *)
Definition zero : roots := fun _ => 0.
Definition related (st : state) (ae : aenv) : Prop := Inv (fst st) (snd st) ae zero.

Definition agree (r : out state) (a : option aenv) : Prop :=
  match r, a with
  | Done st, Some ae => related st ae
  | Illtyped, None => True
  | _, _ => False
  end.

Lemma zero_ev h e ae w : Inv h e ae (ev w) -> Inv h e ae (zero +++ ev w).
Proof. apply Inv_ext. intro x. reflexivity. Qed.
Ltac roots := let x := fresh "x" in intro x; unfold plus, zero, ev, one, of_trees; cbn [value_refs];
  rewrite ?trees_refs_cons, ?trees_refs_nil, ?trees_refs_app; cbn [set_hspan tree_refs]; lia.

Lemma lookup_olooks h e ae i : env_looks h e ae ->
  match lookup e i, alookup ae i with
  | Some v, Some a => looks h v a
  | None, None => True
  | _, _ => False
  end.
Proof. intro H. pose proof (env_looks_lookup _ _ _ i H) as Ho. unfold olooks in Ho. exact Ho. Qed.
Lemma assign_swap {A} (e : list (option A)) i j x y : i <> j -> assign (assign e i x) j y = assign (assign e j y) i x.
Proof. revert i j. induction e as [|z e IH]; intros [|i] [|j] H; cbn; try reflexivity; try congruence. rewrite IH; congruence. Qed.
Lemma take_trees_lookup js : forall e e' v i s, take_trees e js = Done (e', v) -> lookup e i = Some (VStream s) ->
  lookup e' i = Some (VStream s).
Proof.
  induction js as [|j js IH]; intros e e' v i s H Hi; cbn [take_trees] in H.
  - injection H as <- <-. exact Hi.
  - destruct (lookup e j) as [[l|t|w]|] eqn:Ej; try discriminate.
    destruct (take_trees (assign e j None) js) as [[e1 v1]| |] eqn:E; try discriminate. cbn in H. injection H as <- <-.
    eapply IH; [exact E|]. rewrite lookup_assign_other; [exact Hi|]. intros ->. congruence.
Qed.
Lemma take_trees_assign js : forall e i y s, lookup e i = Some (VStream s) -> (match y with Some (VTree _) => False | _ => True end) ->
  take_trees (assign e i y) js = (do (e', v) <- take_trees e js;; Done (assign e' i y, v)).
Proof.
  induction js as [|j js IH]; intros e i y s Hi Hy; cbn [take_trees]; [reflexivity|].
  destruct (Nat.eq_dec j i) as [->|Hne].
  - rewrite Hi, lookup_assign_same by (eapply lookup_lt; eauto). now destruct y as [[| |]|].
  - rewrite lookup_assign_other by exact Hne. destruct (lookup e j) as [[l|t|w]|] eqn:Ej; try reflexivity.
    rewrite assign_swap by auto. rewrite (IH _ _ _ s); [|rewrite lookup_assign_other by auto; exact Hi|exact Hy].
    destruct (take_trees (assign e j None) js) as [[e1 v1]| |]; reflexivity.
Qed.
Lemma atake_trees_assign js : forall (e : aenv) i y s, alookup e i = Some (AStream s) -> (match y with Some (ATree _) => False | _ => True end) ->
  atake_trees (assign e i y) js = match atake_trees e js with Some (e', v) => Some (assign e' i y, v) | None => None end.
Proof.
  assert (Hs : forall (e : aenv) i y, i < length e -> alookup (assign e i y) i = y).
  { unfold alookup. induction e as [|z e IH]; intros [|i] y H; cbn in *; try lia; try reflexivity. apply IH. lia. }
  assert (Ho : forall (e : aenv) i j y, j <> i -> alookup (assign e i y) j = alookup e j).
  { unfold alookup. induction e as [|z e IH]; intros [|i] [|j] y H; cbn; try reflexivity; try congruence. apply IH. lia. }
  induction js as [|j js IH]; intros e i y s Hi Hy; cbn [atake_trees]; [reflexivity|].
  destruct (Nat.eq_dec j i) as [->|Hne].
  - rewrite Hi, Hs by (apply nth_error_Some; unfold alookup in Hi; destruct (nth_error e i); congruence).
    now destruct y as [[| |]|].
  - rewrite Ho by exact Hne. destruct (alookup e j) as [[l|t|w]|] eqn:Ej; try reflexivity.
    rewrite assign_swap by auto. rewrite (IH _ _ _ s); [|rewrite Ho by auto; exact Hi|exact Hy].
    destruct (atake_trees (assign e j None) js) as [[e1 v1]|]; reflexivity.
Qed.
Lemma assign_assign {A} (e : list (option A)) i y z : assign (assign e i y) i z = assign e i z.
Proof. revert i. induction e as [|q e IH]; intros [|i]; cbn; try reflexivity. now rewrite IH. Qed.

Lemma er_fill e i w : i < length e -> lookup e i = None -> forall x, er (assign e i w) x = (er e +++ ev w) x.
Proof.
  intros Hi Hn x. pose proof (env_refs_assign x e i w Hi) as E. rewrite Hn in E. unfold er, ev, plus. cbn [value_refs] in E. lia.
Qed.
Lemma Inv_fill h e ae R i w a : i < length e -> lookup e i = None -> Inv h e ae (R +++ ev w) ->
  olooks h w a -> Inv h (assign e i w) (assign ae i a) R.
Proof.
  intros Hi Hn [H1 H2] Hw. split; [|now apply env_looks_assign].
  eapply wf_ext; [|exact H1]. intro x. unfold plus. rewrite (er_fill e i w Hi Hn x). unfold plus. lia.
Qed.
Lemma take_streams_lookup js : forall h e h' e' v i, take_streams h e js = Done (h', e', v) -> lookup e i = None ->
  lookup e' i = None /\ length e' = length e.
Proof.
  induction js as [|j js IH]; intros h e h' e' v i H Hi; cbn [take_streams] in H.
  - injection H as <- <- <-. auto.
  - destruct (lookup e j) as [[l|t|w]|] eqn:Ej; try discriminate.
    destruct (make_owned h l) as [[h1 v1]| |]; try discriminate. cbn [obind] in H.
    destruct (take_streams h1 (assign e j None) js) as [[[h2 e1] w]| |] eqn:E; try discriminate. cbn in H.
    injection H as <- <- <-. destruct (IH _ _ _ _ _ i E) as [G1 G2].
    + rewrite lookup_assign_other; [exact Hi|]. intros ->. congruence.
    + split; [exact G1|]. now rewrite assign_length in G2.
Qed.

Lemma take_streams_refs js x : forall h e ae R h' e' v, Inv h e ae R -> take_streams h e js = Done (h', e', v) ->
  heap_refs x h = 0 -> env_refs x e = 0 -> heap_refs x h' = 0 /\ trees_refs x v = 0 /\ env_refs x e' = 0.
Proof.
  induction js as [|j js IH]; intros h e ae R h' e' v H E Hh He; cbn [take_streams] in E.
  - injection E as <- <- <-. auto.
  - destruct (lookup e j) as [vj|] eqn:Ej; [|discriminate]. destruct vj as [l|t|w]; try discriminate.
    destruct (env_looks_some h e ae j _ (inv_looks _ _ _ _ H) Ej) as (a & Ea & Hl).
    destruct a as [ts|u|ts]; try contradiction.
    assert (H1 := Inv_take _ _ _ _ _ _ H Ej).
    destruct (Inv_owned _ _ _ _ _ _ H1 Hl) as (h1 & w & E1 & H2 & S1 & K1). rewrite E1 in E. cbn [obind] in E.
    destruct (take_streams h1 (assign e j None) js) as [[[h2 e2] w2]| |] eqn:E2; try discriminate.
    cbn [obind] in E. injection E as <- <- <-.
    assert (W1 : wf h ((R +++ er (assign e j None)) +++ one l)) by (eapply wf_ext; [|exact (inv_wf _ _ _ _ H1)]; roots).
    destruct (make_owned_refs h l _ h1 w W1 E1 x) as [Q1 Q2].
    pose proof (env_refs_assign x e j None (lookup_lt _ _ _ Ej)) as Q3. rewrite Ej in Q3. cbn [value_refs] in Q3.
    destruct (IH _ _ _ _ _ _ _ H2 E2 ltac:(lia) ltac:(lia)) as (G1 & G2 & G3).
    split; [exact G1|]. split; [|exact G3]. rewrite trees_refs_app. lia.
Qed.
Lemma Inv_drop_stream h e ae R l : Inv h e ae (R +++ ev (Some (VStream l))) ->
  exists h', drop_stream h l = Done h' /\ Inv h' e ae R /\ keeps (R +++ er e) h h'.
Proof.
  intros [H1 H2]. destruct (drop_stream_ok h l (R +++ er e)) as (h' & E & W & K).
  { eapply wf_ext; [|exact H1]. intro x. unfold plus, ev, one. cbn [value_refs]. lia. }
  exists h'. split; [exact E|]. split; [|exact K]. eapply (Inv_step h); [split; eassumption|exact W|].
  eapply keeps_mono; [|exact K]. intro x. unfold plus. lia.
Qed.

(** With further roots [R] held on the side. *)
Definition agree_on (R : roots) (h : heap) (r : out state) (a : option aenv) : Prop :=
  match r, a with
  | Done (h', e), Some ae => Inv h' e ae R /\ keeps R h h'
  | Illtyped, None => True
  | _, _ => False
  end.
Theorem exec_inv h e ae R o : Inv h e ae R -> agree_on R h (exec (h, e) o) (aexec ae o).
Proof.
  intro H.
  assert (HL := inv_looks _ _ _ _ H).
  assert (KA : forall h v, keeps R h (h ++ [Some (mkcell 1 v)])).
  { intros g v. apply keeps_same. intros l c Hg. rewrite get_app by (eapply get_lt; eauto). eauto. }
  destruct o as [|ts|t|d i|i|i sp|i|i|js|i js|i j|js|i js|i|i|i]; cbn [exec aexec];
    try (pose proof (lookup_olooks h e ae i HL) as Hi;
         destruct (lookup e i) as [vi|] eqn:Ei, (alookup ae i) as [ai|] eqn:Ai; try contradiction; try exact I;
         [destruct vi as [l|t|v], ai as [ts|u|ts]; try (cbn [looks] in Hi; contradiction); try exact I|..]).
  - (* new *)
    unfold alloc, agree_on. split; [|apply KA]. apply Inv_push; [|apply stream_looks_alloc; constructor].
    apply (Inv_alloc h e ae R [] []); [|constructor]. eapply Inv_ext; [|exact H]. roots.
  - (* parse *)
    destruct (alloc_trees_ok ts h _ (inv_wf _ _ _ _ H)) as (h1 & v & E1 & W1 & K1 & S1). rewrite E1.
    unfold alloc, agree_on. split; [|eapply keeps_trans; [apply keeps_same; exact K1|apply KA]].
    apply Inv_push; [|apply stream_looks_alloc; exact S1].
    apply (Inv_alloc h1 e ae R v ts); [|exact S1].
    eapply (Inv_step h); [exact H| |now apply keeps_same]. eapply wf_ext; [|exact W1]. roots.
  - (* leaf *)
    destruct t as [d ts sp|s r sp|c s sp|r sp]; cbn [leaf agree_on]; try exact I; (split; [|apply keeps_refl]); apply Inv_push;
      try (eapply Inv_ext; [|exact H]; roots); repeat constructor.
  - (* Group::new *)
    split; [|apply keeps_refl].
    apply (Inv_put h e ae R i (VStream l)); [exact Ei| |cbn [olooks looks]; now apply sees_stream].
    eapply Inv_ext; [|exact (Inv_take _ _ _ _ _ _ H Ei)]. roots.
  - (* Group::stream *)
    cbn [looks] in Hi. destruct t as [d l sp|s r sp|c s sp|r sp]; inversion Hi; subst; try exact I.
    destruct (rc_clone_ok h l _ (inv_wf _ _ _ _ H)) as (h' & E & W & K); [eauto|]. rewrite E. cbn [obind agree_on].
    split; [|now apply keeps_same]. apply Inv_push.
    + eapply (Inv_step h); [exact H| |now apply keeps_same]. eapply wf_ext; [|exact W]. roots.
    + cbn [olooks looks]. match goal with [G : get h l = Some ?c |- _] => destruct (K l c G) as (c' & Hc' & Ec') end.
      exists c'. split; [exact Hc'|]. rewrite Ec'. eapply sees_same; eauto.
  - (* set_span *)
    cbn [looks] in Hi. split; [|apply keeps_refl].
    apply (Inv_put h e ae R i (VTree t)); [exact Ei| |].
    + eapply Inv_ext; [|exact (Inv_take _ _ _ _ _ _ H Ei)]. destruct t; roots.
    + cbn [olooks looks]. inversion Hi; subst; cbn [set_hspan set_span]; econstructor; eauto.
  - (* clone: stream *)
    destruct Hi as (c & Hc & Hs).
    destruct (rc_clone_ok h l _ (inv_wf _ _ _ _ H)) as (h' & E & W & K); [eauto|]. rewrite E. cbn [obind agree_on].
    split; [|now apply keeps_same]. apply Inv_push.
    + eapply (Inv_step h); [exact H| |now apply keeps_same]. eapply wf_ext; [|exact W]. roots.
    + cbn [olooks looks]. destruct (K l c Hc) as (c' & Hc' & Ec').
      exists c'. split; [exact Hc'|]. rewrite Ec'. eapply sees_same; eauto.
  - (* clone: tree *)
    cbn [looks] in Hi. destruct (clone_trees_ok [t] h _ _ (inv_wf _ _ _ _ H) Hi) as (h' & E & W & K).
    cbn [clone_trees] in E. destruct (clone_tree h t) as [h1| |]; try discriminate. cbn [obind] in E. injection E as ->.
    cbn [obind agree_on]. split; [|now apply keeps_same]. apply Inv_push.
    + eapply (Inv_step h); [exact H| |now apply keeps_same]. eapply wf_ext; [|exact W]. roots.
    + cbn [olooks looks]. eapply sees_same; eauto.
  - (* clone: iterator *)
    cbn [looks] in Hi. destruct (clone_trees_ok v h _ _ (inv_wf _ _ _ _ H) Hi) as (h' & E & W & K). rewrite E.
    cbn [obind agree_on]. split; [|now apply keeps_same]. apply Inv_push.
    + eapply (Inv_step h); [exact H| |now apply keeps_same]. eapply wf_ext; [|exact W]. roots.
    + cbn [olooks looks]. eapply sees_same; eauto.
  - (* From<TokenTree> *)
    cbn [looks] in Hi. unfold alloc. cbn [agree_on]. split; [|apply KA].
    destruct (push_one h [] t [] u (sees_nil h) Hi) as [S1 S2].
    apply (Inv_put _ e ae R i (VTree t)); [exact Ei| |now apply stream_looks_alloc].
    apply (Inv_alloc h _ _ R _ (split_negative u)); [|exact S1].
    eapply Inv_ext; [|exact (Inv_take _ _ _ _ _ _ H Ei)]. intro x. unfold plus, ev, of_trees. rewrite S2.
    cbn [value_refs]. rewrite trees_refs_nil. lia.
  - (* FromIterator<TokenTree> *)
    unfold alloc. set (h1 := h ++ [Some (mkcell 1 [])]).
    assert (H1 : Inv h1 e ae (R +++ ev (Some (VStream (length h))))).
    { apply (Inv_alloc h e ae R [] []); [|constructor]. eapply Inv_ext; [|exact H]. roots. }
    assert (L1 : looks h1 (VStream (length h)) (AStream [])) by exact (stream_looks_alloc h [] [] (sees_nil h)).
    pose proof (take_trees_ok h1 js _ _ _ H1) as T.
    destruct (take_trees e js) as [[e2 v]| |], (atake_trees ae js) as [[ae2 us]|]; cbn [obind]; try contradiction; try exact I.
    destruct T as [T1 T2].
    destruct (Inv_mut h1 e2 ae2 (R +++ of_trees v) (length h) [] ltac:(eapply Inv_ext; [|exact T1]; roots) L1)
      as (h3 & l' & w & E3 & I3 & G3 & S3 & K3). rewrite E3. cbn [obind].
    assert (T3 : sees h3 v us) by (apply K3; [intros x Hx; unfold plus, of_trees; lia|exact T2]).
    destruct (push_list h3 v us T3) as [P1 P2].
    destruct (Inv_append h3 e2 ae2 R l' w [] (fold_left push_htree v []) (split_negatives us)) as (h4 & E4 & I4 & L4 & K4);
      [|exact G3|exact S3|exact P1|].
    { eapply Inv_ext; [|exact I3]. intro x. unfold plus at 1 2 3 4. rewrite P2. unfold plus. lia. }
    rewrite E4. cbn [obind agree_on]. split.
    + apply Inv_push; [exact I4|exact L4].
    + eapply keeps_trans; [apply (KA h [])|]. eapply keeps_trans; [|exact K4]. eapply keeps_mono; [|exact K3].
      intro x. unfold plus. lia.
  - (* Extend<TokenTree> *)
    assert (H1 := Inv_take _ _ _ _ _ _ H Ei).
    destruct (Inv_mut _ _ _ _ _ _ H1 Hi) as (h2 & l' & w & E2 & I2 & G2 & S2 & K2). rewrite E2. cbn [obind].
    pose proof (take_trees_ok h2 js _ _ _ I2) as T.
    rewrite (take_trees_assign js e i None l Ei I), (atake_trees_assign js ae i None ts Ai I) in T.
    destruct (take_trees e js) as [[e3 v]| |] eqn:E3, (atake_trees ae js) as [[ae3 us]|]; cbn [obind] in *; try contradiction; try exact I.
    destruct T as [T1 T2]. destruct (push_list h2 v us T2) as [P1 P2].
    destruct (Inv_append h2 (assign e3 i None) (assign ae3 i None) R l' w ts (fold_left push_htree v []) (split_negatives us))
      as (h4 & E4 & I4 & L4 & K4); [|exact G2|exact S2|exact P1|].
    { eapply Inv_ext; [|exact T1]. intro x. unfold plus at 1 2 3 4. rewrite P2. unfold plus. lia. }
    rewrite E4. cbn [obind agree_on]. split.
    + eapply (Inv_put _ e3 ae3 R i); [eapply take_trees_lookup; eauto|exact I4|exact L4].
    + eapply keeps_trans; [|exact K4]. eapply keeps_mono; [|exact K2]. intro x. unfold plus. lia.
  - (* extend from an iterator *)
    pose proof (lookup_olooks h e ae j HL) as Hj.
    destruct (lookup e j) as [[lj|tj|v]|] eqn:Ej, (alookup ae j) as [[sj|uj|us]|] eqn:Aj; try (cbn [looks] in Hj; contradiction); try exact I.
    assert (Hne : j <> i) by (intros ->; congruence).
    assert (H0 := Inv_take _ _ _ _ _ _ H Ej).
    assert (Ei' : lookup (assign e j None) i = Some (VStream l)) by (rewrite lookup_assign_other by auto; exact Ei).
    assert (H1 := Inv_take _ _ _ _ _ _ H0 Ei'). cbn [looks] in Hj.
    destruct (Inv_mut _ _ _ _ _ _ H1 Hi) as (h2 & l' & w & E2 & I2 & G2 & S2 & K2). rewrite E2. cbn [obind].
    assert (T2 : sees h2 v us) by (apply K2; [intros x Hx; unfold plus, ev; cbn [value_refs]; lia|exact Hj]).
    destruct (push_list h2 v us T2) as [P1 P2].
    destruct (Inv_append h2 (assign (assign e j None) i None) (assign (assign ae j None) i None) R l' w ts (fold_left push_htree v []) (split_negatives us)) as (h4 & E4 & I4 & L4 & K4);
      [|exact G2|exact S2|exact P1|].
    { eapply Inv_ext; [|exact I2]. intro x. unfold plus at 1 2 3 4. rewrite P2. unfold plus, ev, of_trees. cbn [value_refs]. lia. }
    rewrite E4. cbn [obind agree_on]. split.
    + eapply (Inv_put _ (assign e j None) (assign ae j None) R i); [exact Ei'|exact I4|exact L4].
    + eapply keeps_trans; [|exact K4]. eapply keeps_mono; [|exact K2]. intro x. unfold plus. lia.
  - (* FromIterator<TokenStream> *)
    pose proof (take_streams_ok js h _ _ _ H) as T.
    destruct (take_streams h e js) as [[[h2 e2] v]| |], (atake_streams ae js) as [[ae2 us]|]; cbn [obind]; try contradiction; try exact I.
    destruct T as (T1 & T2 & T3). unfold alloc. cbn [agree_on]. split.
    + apply Inv_push; [|now apply stream_looks_alloc]. apply (Inv_alloc h2 _ _ R _ us); [exact T1|exact T2].
    + eapply keeps_trans; [exact T3|apply KA].
  - (* Extend<TokenStream> *)
    assert (H1 := Inv_take _ _ _ _ _ _ H Ei).
    destruct (Inv_mut _ _ _ _ _ _ H1 Hi) as (h2 & l' & w & E2 & I2 & G2 & S2 & K2). rewrite E2. cbn [obind].
    pose proof (take_streams_ok js h2 _ _ _ I2) as T.
    destruct (take_streams h2 (assign e i None) js) as [[[h3 e3] v]| |] eqn:E3, (atake_streams (assign ae i None) js) as [[ae3 us]|];
      cbn [obind]; try contradiction; try exact I.
    destruct T as (T1 & T2 & T3).
    assert (Hl : lookup e3 i = None /\ length e3 = length (assign e i None)).
    { eapply take_streams_lookup; [exact E3|]. apply lookup_assign_same. eapply lookup_lt; eauto. }
    destruct Hl as [Hl1 Hl2]. rewrite assign_length in Hl2.
    assert (L3 : looks h3 (VStream l') (AStream ts)).
    { eapply looks_keeps; [exact T3| |]; [intros x Hx; unfold plus, ev; lia|]. cbn. eexists. split; [exact G2|]. exact S2. }
    destruct L3 as (c3 & G3 & S3).
    destruct (wf_rc _ _ _ _ (inv_wf _ _ _ _ T1) G3) as [Hrc _].
    (* nobody else can have got hold of it *)
    assert (Hc3 : c3 = mkcell 1 (elems c3)).
    { destruct (wf_rc _ _ _ _ (inv_wf _ _ _ _ I2) G2) as [Hrc2 _]. cbn [rc] in Hrc2.
      unfold plus, ev, er in Hrc2. cbn [value_refs] in Hrc2. rewrite Nat.eqb_refl in Hrc2.
      destruct (take_streams_refs js l' _ _ _ _ _ _ _ I2 E3 ltac:(lia) ltac:(lia)) as (Q1 & Q2 & Q3).
      unfold plus, ev, er, of_trees in Hrc. cbn [value_refs] in Hrc. rewrite Nat.eqb_refl in Hrc.
      destruct c3 as [n w3]. cbn [rc elems] in *. f_equal. lia. }
    rewrite Hc3 in G3.
    destruct (Inv_append h3 e3 ae3 R l' (elems c3) ts v us T1 G3 S3 T2) as (h4 & E4 & I4 & L4 & K4).
    rewrite E4. cbn [obind agree_on]. split.
    + apply Inv_fill; [|exact Hl1|exact I4|exact L4]. rewrite Hl2. eapply lookup_lt; eauto.
    + eapply keeps_trans; [|eapply keeps_trans; [|exact K4]].
      * eapply keeps_mono; [|exact K2]. intro x. unfold plus. lia.
      * eapply keeps_mono; [|exact T3]. intro x. unfold plus. lia.
  - (* into_iter *)
    destruct (Inv_owned _ _ _ _ _ _ (Inv_take _ _ _ _ _ _ H Ei) Hi) as (h1 & v & E1 & I1 & S1 & K1). rewrite E1. cbn [obind agree_on].
    split; [eapply Inv_put; [exact Ei|exact I1|exact S1]|]. eapply keeps_mono; [|exact K1]. intro x. unfold plus. lia.
  - (* next *)
    cbn [looks] in Hi. inversion Hi as [|d l sp c inner w us Hg Hin Hw|s r sp w us Hw|c s sp w us Hw|r sp w us Hw]; subst; cbn [agree_on];
      (split; [|apply keeps_refl]).
    { apply Inv_push; [|exact I]. eapply Inv_ext; [|exact H]. roots. }
    all: apply Inv_push; [|cbn [olooks looks]; econstructor; eauto; constructor];
      (eapply (Inv_put h e ae _ i); [exact Ei| |exact Hw]);
      (eapply Inv_ext; [|exact (Inv_take _ _ _ _ _ _ H Ei)]); roots.
  - (* drop: stream *)
    destruct (Inv_drop_stream _ _ _ _ _ (Inv_take _ _ _ _ _ _ H Ei)) as (h1 & E1 & I1 & K1). rewrite E1. cbn [obind agree_on].
    split; [exact I1|]. eapply keeps_mono; [|exact K1]. intro x. unfold plus. lia.
  - destruct (drop_tree_ok h t (R +++ er (assign e i None))) as (h1 & E1 & W1 & K1).
    { eapply wf_ext; [|exact (inv_wf _ _ _ _ (Inv_take _ _ _ _ _ _ H Ei))]. roots. }
    rewrite E1. cbn [obind agree_on]. split; [|eapply keeps_mono; [|exact K1]; intro x; unfold plus; lia].
    eapply (Inv_step h); [exact (Inv_take _ _ _ _ _ _ H Ei)|exact W1|eapply keeps_mono; [|exact K1]; intro x; unfold plus; lia].
  - destruct (drop_iter_ok h v (R +++ er (assign e i None))) as (h1 & E1 & W1 & K1).
    { eapply wf_ext; [|exact (inv_wf _ _ _ _ (Inv_take _ _ _ _ _ _ H Ei))]. roots. }
    rewrite E1. cbn [obind agree_on]. split; [|eapply keeps_mono; [|exact K1]; intro x; unfold plus; lia].
    eapply (Inv_step h); [exact (Inv_take _ _ _ _ _ _ H Ei)|exact W1|eapply keeps_mono; [|exact K1]; intro x; unfold plus; lia].
Qed.
Theorem exec_agree st ae o : related st ae -> agree (exec st o) (aexec ae o).
Proof.
  destruct st as [h e]. intro H. pose proof (exec_inv h e ae zero o H) as A. unfold agree, agree_on in *.
  destruct (exec (h, e) o) as [[h' e']| |], (aexec ae o) as [ae'|]; tauto.
Qed.
