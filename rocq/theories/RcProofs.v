(** * Consequences of the simulation (C32-C36). *)
From Verif Require Import Base Unicode Tokens Lexer SpecText SpecTree Fallback PureLexer LexerEquiv4 LexProofs
  LitProofs PrintProofs Roundtrip RcHeap SpecStreams RcFacts RcDrop RcSim.
Import ListNotations.

Local Arguments heap_refs : simpl never.
Local Arguments trees_refs : simpl never.
Local Arguments heap_size : simpl never.

Lemma related_start : related ([], []) [].
Proof. split; [|constructor]. apply (wf_ext [] (fun _ => 0)); [reflexivity|exact wf_empty]. Qed.
Lemma exec_all_agree os : forall st ae, related st ae -> agree (exec_all st os) (aexec_all ae os).
Proof.
  induction os as [|o os IH]; intros st ae H; cbn [exec_all aexec_all]; [exact H|].
  pose proof (exec_agree st ae o H) as A. destruct (exec st o) as [st'| |], (aexec ae o) as [ae'|]; cbn in *; try contradiction; try exact I.
  now apply IH.
Qed.
Lemma run_related os st : exec_all ([], []) os = Done st -> exists ae, aexec_all [] os = Some ae /\ related st ae.
Proof.
  intro E. pose proof (exec_all_agree os _ _ related_start) as A. rewrite E in A. unfold agree in A.
  destruct (aexec_all [] os) as [ae|]; [eauto|contradiction].
Qed.
Lemma related_wf h e ae : related (h, e) ae -> wf h (er e).
Proof. intros [W _]. eapply wf_ext; [|exact W]. reflexivity. Qed.

(** ** C32 *)
Lemma history_is_lists os :
  match exec_all ([], []) os, aexec_all [] os with
  | Done (h, e), Some ae => Forall2 (olooks h) e ae
  | Illtyped, None => True
  | _, _ => False
  end.
Proof.
  pose proof (exec_all_agree os _ _ related_start) as A. unfold agree in A.
  destruct (exec_all ([], []) os) as [[h e]| |], (aexec_all [] os) as [ae|]; try exact A. exact (inv_looks _ _ _ _ A).
Qed.
Lemma sees_length h v ts : sees h v ts -> length v = length ts.
Proof. induction 1; cbn; congruence. Qed.
Lemma stream_observed h l ts : looks h (VStream l) (AStream ts) ->
  stream_len h l = Done (length ts) /\ (stream_is_empty h l = Done true <-> ts = []) /\
  (stream_is_empty h l = Done false <-> ts <> []).
Proof.
  intros (c & Hc & Hs). unfold stream_len, stream_is_empty. rewrite Hc, (sees_length _ _ _ Hs). split; [reflexivity|].
  destruct ts; cbn; (split; split; intro; (reflexivity || discriminate || congruence)).
Qed.
Lemma iter_observed h v ts : looks h (VIter v) (AIter ts) -> size_hint v = (length ts, Some (length ts)).
Proof. intro H. unfold size_hint. now rewrite (sees_length _ _ _ H). Qed.
Lemma looks_det h v a b : looks h v a -> looks h v b -> a = b.
Proof.
  rewrite !looks_iff. intros [H1 H2] [H3 H4]. pose proof (sees_det _ _ _ _ H2 H4) as E.
  destruct v, a, b; cbn in *; try contradiction; congruence.
Qed.

(** ** C33 *)
Definition clean (ts : list token) : Prop := forall repr sp, occurs (TLiteral repr sp) ts -> ~ negative repr.
Definition clean_tree (t : token) : Prop :=
  match t with
  | TGroup _ ts _ => clean ts
  | TLiteral repr _ => forall r, repr = "-"%ch :: r -> ~ negative r
  | _ => True
  end.
Definition clean_value (a : avalue) : Prop :=
  match a with AStream ts | AIter ts => clean ts | ATree t => clean_tree t end.
Definition clean_env (e : aenv) : Prop := forall i a, alookup e i = Some a -> clean_value a.

Lemma occurs_app t a b : occurs t (a ++ b) <-> occurs t a \/ occurs t b.
Proof.
  split.
  - inversion 1 as [ts Hi|d inner sp ts Hi Ho]; subst.
    + apply in_app_or in Hi as [Hi|Hi]; [left|right]; now constructor.
    + apply in_app_or in Hi as [Hi|Hi]; [left|right]; eapply occurs_inside; eauto.
  - intros [H|H]; inversion H as [ts Hi|d inner sp ts Hi Ho]; subst;
      try (apply occurs_here; apply in_or_app; tauto);
      (apply (occurs_inside t d inner sp); [apply in_or_app; tauto|exact Ho]).
Qed.
Lemma clean_app a b : clean a -> clean b -> clean (a ++ b).
Proof. intros Ha Hb repr sp Ho. apply occurs_app in Ho as [Ho|Ho]; [eapply Ha|eapply Hb]; eauto. Qed.
Lemma clean_nil : clean [].
Proof. intros repr sp H. inversion H as [ts Hi|d inner sp' ts Hi Ho]; subst; contradiction. Qed.
Lemma clean_app_inv a b : clean (a ++ b) -> clean a /\ clean b.
Proof. intro H. split; intros r sp Ho; apply (H r sp), occurs_app; tauto. Qed.
Lemma clean_cons_tree t ts : clean (t :: ts) -> clean_tree t /\ clean ts.
Proof.
  intro H. apply (clean_app_inv [t] ts) in H as [H1 H2]. split; [|exact H2]. destruct t as [d inner sp|s r sp|c s sp|r sp]; try exact I.
  - intros repr sp' Ho. apply (H1 repr sp'). eapply occurs_inside; [now left|exact Ho].
  - intros q -> _. apply (H1 ("-"%ch :: q) sp); [constructor; now left|eexists; reflexivity].
Qed.
Lemma clean_one t : (match t with TGroup _ ts _ => clean ts | TLiteral r _ => ~ negative r | _ => True end) -> clean [t].
Proof.
  intros H repr sp Ho. inversion Ho as [ts Hin|d inner sp' ts Hin Ho']; subst; destruct Hin as [E|[]]; subst t.
  - exact H.
  - exact (H repr sp Ho').
Qed.
Lemma clean_split t : clean_tree t -> clean (split_negative t).
Proof.
  intro H. destruct t as [d inner sp|s r sp|c s sp|r sp]; cbn [split_negative]; try (now apply clean_one).
  destruct r as [|c r]; [apply clean_one; intros [q E]; discriminate|].
  destruct (N.eqb_spec c "-"%ch) as [->|Hne].
  - apply (clean_app [TPunct "-"%ch Alone sp] [TLiteral r sp]); apply clean_one; [exact I|]. now apply (H r).
  - apply clean_one. intros [q E]. injection E as E _. contradiction.
Qed.
Lemma clean_splits ts : Forall clean_tree ts -> clean (split_negatives ts).
Proof.
  induction 1 as [|t ts Ht H IH]; [exact clean_nil|]. cbn [split_negatives flat_map].
  apply clean_app; [now apply clean_split|exact IH].
Qed.
Lemma clean_trees ts : clean ts -> Forall clean_tree ts.
Proof. induction ts as [|t ts IH]; intro H; constructor; apply clean_cons_tree in H; tauto. Qed.

Lemma alookup_assign_other (e : aenv) i j y : j <> i -> alookup (assign e i y) j = alookup e j.
Proof. unfold alookup. revert i j. induction e as [|z e IH]; intros [|i] [|j] H; cbn; try reflexivity; try congruence. apply IH. lia. Qed.
Lemma alookup_assign_some (e : aenv) i y a : alookup (assign e i y) i = Some a -> y = Some a.
Proof.
  unfold alookup. revert i. induction e as [|z e IH]; intros [|i] H; cbn in *; try discriminate; [exact H|]. now apply IH in H.
Qed.
Lemma alookup_push (e : aenv) y i a : alookup (e ++ [y]) i = Some a -> alookup e i = Some a \/ y = Some a.
Proof.
  unfold alookup. revert i. induction e as [|z e IH]; intros [|i] H; cbn in *; auto.
  destruct i; discriminate.
Qed.
Lemma clean_push e y : clean_env e -> (forall a, y = Some a -> clean_value a) -> clean_env (e ++ [y]).
Proof. intros He Hy i a H. apply alookup_push in H as [H|H]; eauto. Qed.
Lemma clean_assign e i y : clean_env e -> (forall a, y = Some a -> clean_value a) -> clean_env (assign e i y).
Proof.
  intros He Hy j a H. destruct (Nat.eq_dec j i) as [->|Hne].
  - apply alookup_assign_some in H. auto.
  - rewrite alookup_assign_other in H by exact Hne. eauto.
Qed.
Lemma clean_take_trees js : forall e e' ts, clean_env e -> atake_trees e js = Some (e', ts) -> clean_env e' /\ Forall clean_tree ts.
Proof.
  induction js as [|j js IH]; intros e e' ts He H; cbn [atake_trees] in H; [injection H as <- <-; auto|].
  destruct (alookup e j) as [[|u|]|] eqn:Ej; try discriminate.
  destruct (atake_trees (assign e j None) js) as [[e1 v]|] eqn:E; [|discriminate]. injection H as <- <-.
  destruct (IH _ _ _ (clean_assign e j None He ltac:(discriminate)) E) as [G1 G2]. split; [exact G1|].
  constructor; [exact (He _ _ Ej)|exact G2].
Qed.
Lemma clean_take_streams js : forall e e' ts, clean_env e -> atake_streams e js = Some (e', ts) -> clean_env e' /\ clean ts.
Proof.
  induction js as [|j js IH]; intros e e' ts He H; cbn [atake_streams] in H; [injection H as <- <-; split; [auto|exact clean_nil]|].
  destruct (alookup e j) as [[u| |]|] eqn:Ej; try discriminate.
  destruct (atake_streams (assign e j None) js) as [[e1 v]|] eqn:E; [|discriminate]. injection H as <- <-.
  destruct (IH _ _ _ (clean_assign e j None He ltac:(discriminate)) E) as [G1 G2]. split; [exact G1|].
  apply clean_app; [exact (He _ _ Ej)|exact G2].
Qed.
Lemma clean_set_span t sp : clean_tree t -> clean_tree (set_span t sp).
Proof. destruct t; auto. Qed.

Definition clean_op (o : op) : Prop :=
  match o with OParse ts => clean ts | OLeaf t => clean_tree t | _ => True end.
Ltac clean_tac := first [assumption | apply clean_push | apply clean_assign | discriminate].
Lemma clean_exec e o e' : clean_env e -> clean_op o -> aexec e o = Some e' -> clean_env e'.
Proof.
  intros He Ho H.
  assert (Hl : forall i a, alookup e i = Some a -> clean_value a) by exact He.
  destruct o as [|ts|t|d i|i|i sp|i|i|js|i js|i j|js|i js|i|i|i]; cbn [aexec] in H;
    try (destruct (alookup e i) as [ai|] eqn:Ai; [|discriminate]; assert (Ha := Hl _ _ Ai);
         try (destruct ai as [ts|u|ts]; try discriminate)).
  - injection H as <-. apply clean_push; [exact He|]. intros a E. injection E as <-. exact clean_nil.
  - injection H as <-. apply clean_push; [exact He|]. intros a E. injection E as <-. exact Ho.
  - destruct t; try discriminate; injection H as <-; (apply clean_push; [exact He|]; intros a E; injection E as <-; exact Ho).
  - injection H as <-. apply clean_assign; [exact He|]. intros a E. injection E as <-. exact Ha.
  - destruct u as [d ts sp| | |]; try discriminate. injection H as <-. apply clean_push; [exact He|]. intros a E. injection E as <-. exact Ha.
  - injection H as <-. apply clean_assign; [exact He|]. intros a E. injection E as <-. now apply clean_set_span.
  - injection H as <-. apply clean_push; [exact He|]. intros a E. injection E as <-. exact Ha.
  - injection H as <-. apply clean_push; [exact He|]. intros a E. injection E as <-. exact Ha.
  - injection H as <-. apply clean_push; [exact He|]. intros a E. injection E as <-. exact Ha.
  - injection H as <-. apply clean_assign; [exact He|]. intros a E. injection E as <-. now apply clean_split.
  - destruct (atake_trees e js) as [[e1 v]|] eqn:E; [|discriminate]. destruct (clean_take_trees _ _ _ _ He E) as [G1 G2].
    injection H as <-. apply clean_push; [exact G1|]. intros a Ea. injection Ea as <-. now apply clean_splits.
  - destruct (atake_trees e js) as [[e1 v]|] eqn:E; [|discriminate]. destruct (clean_take_trees _ _ _ _ He E) as [G1 G2].
    injection H as <-. apply clean_assign; [exact G1|]. intros a Ea. injection Ea as <-. apply clean_app; [exact Ha|now apply clean_splits].
  - destruct (alookup e j) as [[| |us]|] eqn:Aj; try discriminate. injection H as <-.
    apply clean_assign; [apply clean_assign; [exact He|discriminate]|]. intros a Ea. injection Ea as <-.
    apply clean_app; [exact Ha|]. apply clean_splits, clean_trees. exact (Hl _ _ Aj).
  - destruct (atake_streams e js) as [[e1 v]|] eqn:E; [|discriminate]. destruct (clean_take_streams _ _ _ _ He E) as [G1 G2].
    injection H as <-. apply clean_push; [exact G1|]. intros a Ea. injection Ea as <-. exact G2.
  - destruct (atake_streams (assign e i None) js) as [[e1 v]|] eqn:E; [|discriminate].
    destruct (clean_take_streams _ _ _ _ (clean_assign e i None He ltac:(discriminate)) E) as [G1 G2].
    injection H as <-. apply clean_assign; [exact G1|]. intros a Ea. injection Ea as <-. now apply clean_app.
  - injection H as <-. apply clean_assign; [exact He|]. intros a E. injection E as <-. exact Ha.
  - destruct ts as [|t ts].
    + injection H as <-. apply clean_push; [exact He|discriminate].
    + injection H as <-. apply clean_cons_tree in Ha as [H1 H2]. apply clean_push.
      * apply clean_assign; [exact He|]. intros a E. injection E as <-. exact H2.
      * intros a E. injection E as <-. exact H1.
  - injection H as <-. apply clean_assign; [exact He|discriminate].
  - injection H as <-. apply clean_assign; [exact He|discriminate].
  - injection H as <-. apply clean_assign; [exact He|discriminate].
Qed.
Lemma clean_exec_all os : forall e e', clean_env e -> Forall clean_op os -> aexec_all e os = Some e' -> clean_env e'.
Proof.
  induction os as [|o os IH]; intros e e' He Ho H; cbn [aexec_all] in H; [injection H as <-; exact He|].
  inversion Ho; subst. destruct (aexec e o) as [e1|] eqn:E; [|discriminate]. eapply IH; [|eassumption|exact H].
  eapply clean_exec; eauto.
Qed.

Section Api.
Context {U : unicode} (UO : unicode_ok U).
Lemma error_not_negative : ~ negative ERROR.
Proof using. intros [r E]. discriminate. Qed.
Lemma api_clean o : api_op o -> clean_op o.
Proof.
  destruct o; try (intros; exact I).
  - cbn [api_op clean_op]. intros (start & src & Hs & Hv & H) repr sp Ho.
    pose proof (parsed_constructible UO start src ts Hs Hv H _ Ho) as C. cbn in C. destruct C as [->|(_ & _ & C)].
    + exact error_not_negative.
    + intros [r E]. apply C. now exists r.
  - destruct t; try (intros; exact I); [contradiction|]. cbn [api_op clean_op clean_tree].
    intros (start & sp' & Hs & H) r -> [q ->].
    rewrite literal_from_str_spec in H by exact Hs.
    unfold p_literal_from_str in H. cbn in H. discriminate.
Qed.
Lemma no_negative_literal os h e i v a : Forall api_op os -> exec_all ([], []) os = Done (h, e) ->
  lookup e i = Some v -> looks h v a ->
  match a with
  | AStream ts | AIter ts => forall repr sp, occurs (TLiteral repr sp) ts -> ~ negative repr
  | ATree (TGroup _ ts _) => forall repr sp, occurs (TLiteral repr sp) ts -> ~ negative repr
  | ATree _ => True
  end.
Proof.
  intros Ho E Hi Hl. destruct (run_related _ _ E) as (ae & Ea & R).
  assert (C : clean_env ae).
  { eapply clean_exec_all; [|eapply Forall_impl; [exact api_clean|exact Ho]|exact Ea]. intros j b Hj. destruct j; discriminate. }
  destruct (env_looks_some _ _ _ _ _ (inv_looks _ _ _ _ R) Hi) as (b & Hb & Hlb).
  pose proof (looks_det _ _ _ _ Hl Hlb) as <-. pose proof (C _ _ Hb) as Hc. destruct a as [ts|t|ts]; try exact Hc.
  destruct t; try exact I. exact Hc.
Qed.
End Api.

(** ** C34 *)
Lemma lookup_push e y i v : lookup e i = Some v -> lookup (e ++ [y]) i = Some v.
Proof.
  intro H. unfold lookup in *. rewrite nth_error_app1; [exact H|]. apply nth_error_Some. destruct (nth_error e i); congruence.
Qed.
Lemma lookup_pushed e y : lookup (e ++ [y]) (length e) = y.
Proof. unfold lookup. rewrite nth_error_app2, Nat.sub_diag by lia. reflexivity. Qed.
Lemma take_trees_other js : forall e e' v i, take_trees e js = Done (e', v) -> ~ In i js -> lookup e' i = lookup e i.
Proof.
  induction js as [|j js IH]; intros e e' v i H Hi; cbn [take_trees] in H; [injection H as <- <-; reflexivity|].
  destruct (lookup e j) as [[l|t|w]|]; try discriminate.
  destruct (take_trees (assign e j None) js) as [[e1 v1]| |] eqn:E; try discriminate. injection H as <- <-.
  rewrite (IH _ _ _ i E) by (intro; apply Hi; now right). apply lookup_assign_other. intros ->. apply Hi. now left.
Qed.
Lemma take_streams_other js : forall h e h' e' v i, take_streams h e js = Done (h', e', v) -> ~ In i js -> lookup e' i = lookup e i.
Proof.
  induction js as [|j js IH]; intros h e h' e' v i H Hi; cbn [take_streams] in H; [injection H as <- <- <-; reflexivity|].
  destruct (lookup e j) as [[l|t|w]|]; try discriminate. destruct (make_owned h l) as [[h1 v1]| |]; try discriminate. cbn [obind] in H.
  destruct (take_streams h1 (assign e j None) js) as [[[h2 e1] w]| |] eqn:E; try discriminate. injection H as <- <- <-.
  rewrite (IH _ _ _ _ _ i E) by (intro; apply Hi; now right). apply lookup_assign_other. intros ->. apply Hi. now left.
Qed.
Ltac destr_do H :=
  match type of H with
  | obind ?m _ = Done _ => let E := fresh "E" in destruct m as [?| |] eqn:E; cbn [obind] in H; try discriminate
  | (let (_, _) := ?p in _) = _ => let E := fresh "E" in destruct p eqn:E
  end.
Lemma exec_other h e o h' e' i v : exec (h, e) o = Done (h', e') -> ~ In i (writes o) -> lookup e i = Some v ->
  lookup e' i = Some v.
Proof.
  intros H Hi Hv.
  destruct o as [|ts|t|d j|j|j sp|j|j|js|j js|j k|js|j js|j|j|j]; cbn [exec writes] in *; unfold alloc in H;
    try (destruct (lookup e j) as [[l|t|w]|] eqn:Ej; try discriminate);
    try (assert (Hne : i <> j) by (intros ->; apply Hi; now left));
    repeat destr_do H;
    repeat match goal with p : (_ * _)%type |- _ => destruct p end; repeat destr_do H;
    try (injection H as <- <-);
    try (apply lookup_push; exact Hv);
    try (rewrite lookup_assign_other by exact Hne; exact Hv).
  - destruct (leaf t); [|discriminate]. injection H as <- <-. now apply lookup_push.
  - destruct t as [d g sp|s r sp|c s sp|r sp]; try discriminate. repeat destr_do H. injection H as <- <-. now apply lookup_push.
  - apply lookup_push. now rewrite (take_trees_other _ _ _ _ i E).
  - rewrite lookup_assign_other by exact Hne. rewrite (take_trees_other js _ _ _ i ltac:(eassumption)); [exact Hv|].
    intro. apply Hi. now right.
  - destruct (lookup e k) as [[lk|tk|w]|] eqn:Ek; try discriminate. repeat destr_do H.
    repeat match goal with p : (_ * _)%type |- _ => destruct p end. repeat destr_do H. injection H as <- <-.
    rewrite lookup_assign_other by exact Hne. rewrite lookup_assign_other; [exact Hv|]. intros ->. apply Hi. right. now left.
  - apply lookup_push. now rewrite (take_streams_other _ _ _ _ _ _ i E).
  - rewrite lookup_assign_other by exact Hne. rewrite (take_streams_other js _ _ _ _ _ i ltac:(eassumption)).
    + now rewrite lookup_assign_other by exact Hne.
    + intro. apply Hi. now right.
  - destruct w as [|t w]; injection H as <- <-; apply lookup_push; [exact Hv|]. now rewrite lookup_assign_other by exact Hne.
Qed.

Lemma aexec_other e o e' i a : aexec e o = Some e' -> ~ In i (writes o) -> alookup e i = Some a -> alookup e' i = Some a.
Proof.
  intros H Hi Ha.
  assert (Push : forall (f : aenv) y, alookup f i = Some a -> alookup (f ++ [y]) i = Some a).
  { intros f y Hf. unfold alookup in *. rewrite nth_error_app1; [exact Hf|]. apply nth_error_Some. destruct (nth_error f i); congruence. }
  assert (TT : forall js f f' ts, atake_trees f js = Some (f', ts) -> ~ In i js -> alookup f' i = alookup f i).
  { induction js as [|j js IH]; intros f f' ts E Hj; cbn [atake_trees] in E; [injection E as <- <-; reflexivity|].
    destruct (alookup f j) as [[| |]|]; try discriminate. destruct (atake_trees (assign f j None) js) as [[f1 v]|] eqn:E1; [|discriminate].
    injection E as <- <-. rewrite (IH _ _ _ E1) by (intro; apply Hj; now right). apply alookup_assign_other. intros ->. apply Hj. now left. }
  assert (TS : forall js f f' ts, atake_streams f js = Some (f', ts) -> ~ In i js -> alookup f' i = alookup f i).
  { induction js as [|j js IH]; intros f f' ts E Hj; cbn [atake_streams] in E; [injection E as <- <-; reflexivity|].
    destruct (alookup f j) as [[| |]|]; try discriminate. destruct (atake_streams (assign f j None) js) as [[f1 v]|] eqn:E1; [|discriminate].
    injection E as <- <-. rewrite (IH _ _ _ E1) by (intro; apply Hj; now right). apply alookup_assign_other. intros ->. apply Hj. now left. }
  destruct o as [|ts|t|d j|j|j sp|j|j|js|j js|j k|js|j js|j|j|j]; cbn [aexec writes] in *;
    try (assert (Hne : i <> j) by (intros ->; apply Hi; now left));
    try (destruct (alookup e j) as [[w|t|w]|] eqn:Ej; try discriminate);
    try (injection H as <-);
    try (apply Push; exact Ha);
    try (rewrite alookup_assign_other by exact Hne; exact Ha).
  - destruct t; try discriminate; injection H as <-; now apply Push.
  - destruct t; try discriminate; injection H as <-; now apply Push.
  - destruct (atake_trees e js) as [[e1 v]|] eqn:E; [|discriminate]. injection H as <-. apply Push. now rewrite (TT _ _ _ _ E).
  - destruct (atake_trees e js) as [[e1 v]|] eqn:E; [|discriminate]. injection H as <-.
    rewrite alookup_assign_other by exact Hne. rewrite (TT _ _ _ _ E); [exact Ha|]. intro. apply Hi. now right.
  - destruct (alookup e k) as [[| |]|]; try discriminate. injection H as <-. rewrite alookup_assign_other by exact Hne.
    rewrite alookup_assign_other; [exact Ha|]. intros ->. apply Hi. right. now left.
  - destruct (atake_streams e js) as [[e1 v]|] eqn:E; [|discriminate]. injection H as <-. apply Push. now rewrite (TS _ _ _ _ E).
  - destruct (atake_streams (assign e j None) js) as [[e1 v]|] eqn:E; [|discriminate]. injection H as <-.
    rewrite alookup_assign_other by exact Hne. rewrite (TS _ _ _ _ E); [now rewrite alookup_assign_other by exact Hne|].
    intro. apply Hi. now right.
  - destruct w; injection H as <-; apply Push; [exact Ha|]. now rewrite alookup_assign_other by exact Hne.
Qed.

Lemma others_unchanged os h e o h' e' i v : exec_all ([], []) os = Done (h, e) -> exec (h, e) o = Done (h', e') ->
  ~ In i (writes o) -> lookup e i = Some v ->
  lookup e' i = Some v /\ forall a, looks h v a <-> looks h' v a.
Proof.
  intros E E' Hi Hv. assert (Hv' := exec_other _ _ _ _ _ _ _ E' Hi Hv). split; [exact Hv'|].
  destruct (run_related _ _ E) as (ae & Ea & R). pose proof (exec_agree _ _ o R) as A. rewrite E' in A. unfold agree in A.
  destruct (aexec ae o) as [ae'|] eqn:Eo; [|contradiction].
  destruct (env_looks_some _ _ _ _ _ (inv_looks _ _ _ _ R) Hv) as (b & Hb & Hl).
  pose proof (aexec_other _ _ _ _ _ Eo Hi Hb) as Hb'.
  destruct (env_looks_some _ _ _ _ _ (inv_looks _ _ _ _ A) Hv') as (b' & Hb'' & Hl'). cbn [fst snd] in *.
  assert (b' = b) by congruence. subst b'.
  intro a. split; intro H.
  - pose proof (looks_det _ _ _ _ H Hl). now subst.
  - pose proof (looks_det _ _ _ _ H Hl'). now subst.
Qed.
Lemma clone_looks os h e i h' e' v : exec_all ([], []) os = Done (h, e) -> exec (h, e) (OClone i) = Done (h', e') ->
  lookup e i = Some v ->
  lookup e' i = Some v /\ lookup e' (length e) = Some v /\ forall a, looks h v a <-> looks h' v a.
Proof.
  intros E E' Hv. destruct (others_unchanged _ _ _ _ _ _ i v E E' ltac:(cbn; tauto) Hv) as [H1 H2].
  split; [exact H1|]. split; [|exact H2]. cbn [exec] in E'. rewrite Hv in E'.
  destruct v; repeat destr_do E'; injection E' as <- <-; apply lookup_pushed.
Qed.

(** ** C35 *)
Lemma never_faults os : exec_all ([], []) os <> Fault.
Proof.
  pose proof (exec_all_agree os _ _ related_start) as A. intro E. rewrite E in A. exact A.
Qed.
Lemma counts_exact os h e : exec_all ([], []) os = Done (h, e) ->
  forall l, match get h l with
            | Some c => rc c = env_refs l e + heap_refs l h /\ rc c <> 0
            | None => env_refs l e = 0 /\ heap_refs l h = 0
            end.
Proof.
  intros E l. destruct (run_related _ _ E) as (ae & Ea & R). pose proof (wf_count _ _ (related_wf _ _ _ R) l) as H.
  unfold er in H. destruct (get h l); [exact H|lia].
Qed.

Fixpoint tsize (t : token) : nat :=
  match t with
  | TGroup _ ts _ => S ((fix go (ts : list token) := match ts with [] => 0 | t :: ts => tsize t + go ts end) ts)
  | _ => 1
  end.
Definition tssize (ts : list token) : nat := list_sum (map tsize ts).
Lemma tsize_group d ts sp : tsize (TGroup d ts sp) = S (tssize ts).
Proof. cbn [tsize]. f_equal. unfold tssize. induction ts as [|t ts IH]; [reflexivity|]. cbn. now rewrite IH. Qed.
Lemma tssize_cons t ts : tssize (t :: ts) = tsize t + tssize ts.
Proof. reflexivity. Qed.
Lemma sees_smaller h v ts l c us : sees h v ts -> trees_refs l v <> 0 -> get h l = Some c -> sees h (elems c) us ->
  tssize us < tssize ts.
Proof.
  intros H Hl Hc Hu.
  induction H as [|d g sp c' inner v ts Hg Hin IHin Hv IHv|s r sp v ts Hv IHv|c0 s sp v ts Hv IHv|r sp v ts Hv IHv];
    rewrite ?trees_refs_nil, ?trees_refs_cons in Hl; cbn [tree_refs] in Hl; [lia|..]; rewrite tssize_cons.
  2-4: specialize (IHv Hl); lia.
  rewrite tsize_group. destruct (Nat.eqb_spec l g) as [->|Hne].
  - assert (c' = c) by congruence. subst c'. pose proof (sees_det _ _ _ _ Hu Hin) as ->. lia.
  - specialize (IHv ltac:(lia)). lia.
Qed.
Lemma sizes_bounded h R : wf h R -> exists M, forall l c ts, get h l = Some c -> sees h (elems c) ts -> tssize ts <= M.
Proof.
  intro W.
  assert (G : forall n, exists M, forall l c ts, l < n -> get h l = Some c -> sees h (elems c) ts -> tssize ts <= M).
  { induction n as [|n [M HM]]; [exists 0; intros; lia|].
    destruct (get h n) as [c|] eqn:En.
    - destruct (wf_sees _ _ W n c En) as [us Hus]. exists (Nat.max M (tssize us)). intros l c' ts Hl Hc Hs.
      destruct (Nat.eq_dec l n) as [->|Hne].
      + assert (c' = c) by congruence. subst c'. rewrite (sees_det _ _ _ _ Hs Hus). lia.
      + specialize (HM l c' ts ltac:(lia) Hc Hs). lia.
    - exists M. intros l c ts Hl Hc Hs. destruct (Nat.eq_dec l n) as [->|Hne]; [congruence|]. apply (HM l c ts); auto. lia. }
  destruct (G (length h)) as [M HM]. exists M. intros l c ts Hc Hs. apply (HM l c ts); [eapply get_lt; eauto|exact Hc|exact Hs].
Qed.
Lemma heap_refs_holder l h : heap_refs l h <> 0 -> exists l' c, get h l' = Some c /\ trees_refs l (elems c) <> 0.
Proof.
  induction h as [|z h IH]; intro H; [unfold heap_refs in H; cbn in H; lia|]. rewrite heap_refs_cons in H.
  destruct (Nat.eq_dec (cell_refs l z) 0) as [E|E].
  - destruct IH as (l' & c & Hc & Hr); [lia|]. exists (S l'), c. split; [exact Hc|exact Hr].
  - destruct z as [c|]; [|cbn in E; lia]. exists 0, c. split; [reflexivity|exact E].
Qed.
Lemma wf_no_garbage h e : wf h (er e) -> forall l c, get h l = Some c -> reachable h e l.
Proof.
  intro W.
  destruct (sizes_bounded _ _ W) as [M HM].
  assert (G : forall k l c ts, get h l = Some c -> sees h (elems c) ts -> M - tssize ts < k -> reachable h e l).
  { induction k as [|k IH]; intros l c ts Hc Hs Hk; [lia|].
    destruct (wf_rc _ _ _ _ W Hc) as [Hr Hr0]. unfold er in Hr.
    destruct (Nat.eq_dec (env_refs l e) 0) as [E0|E0]; [|now apply reach_variable].
    destruct (heap_refs_holder l h ltac:(lia)) as (l' & c' & Hc' & Hr').
    destruct (wf_sees _ _ W l' c' Hc') as [us Hus].
    pose proof (sees_smaller _ _ _ _ _ _ Hus Hr' Hc Hs). pose proof (HM _ _ _ Hc' Hus).
    eapply reach_element; [|exact Hc'|exact Hr']. eapply IH; [exact Hc'|exact Hus|]. lia. }
  intros l c Hc. destruct (wf_sees _ _ W l c Hc) as [ts Hts]. eapply G; eauto.
Qed.
Lemma no_garbage os h e : exec_all ([], []) os = Done (h, e) -> forall l c, get h l = Some c -> reachable h e l.
Proof.
  intros E. destruct (run_related _ _ E) as (ae & Ea & R). exact (wf_no_garbage _ _ (related_wf _ _ _ R)).
Qed.
Lemma wf_frees h e : wf h (er e) -> (forall i, lookup e i = None) -> forall l, get h l = None.
Proof.
  intros W Hn l. destruct (get h l) as [c|] eqn:Hc; [|reflexivity]. exfalso.
  pose proof (wf_no_garbage _ _ W l c Hc) as Hr.
  assert (Z : forall x, env_refs x e = 0).
  { intro x. clear - Hn. induction e as [|z e IH]; [reflexivity|]. rewrite env_refs_cons. rewrite IH by (intro i; exact (Hn (S i))).
    specialize (Hn 0). cbn in Hn. subst z. reflexivity. }
  clear Hc. induction Hr as [l H|l l' c' Hr IH Hc' H]; [apply H, Z|exact IH].
Qed.
Lemma all_dropped_frees os h e : exec_all ([], []) os = Done (h, e) -> (forall i, lookup e i = None) -> forall l, get h l = None.
Proof.
  intros E. destruct (run_related _ _ E) as (ae & Ea & R). exact (wf_frees _ _ (related_wf _ _ _ R)).
Qed.

(** ** C36 *)
Lemma steps_drop_run D n h fs h' fs' : steps D n h fs h' fs' -> drop_run n h fs h' fs'.
Proof. induction 1; [constructor|econstructor; eauto]. Qed.
Lemma steps_depth D n h fs h' : steps D n h fs h' [] -> forall m h1 fs1, drop_run m h fs h1 fs1 -> length fs1 <= D.
Proof.
  intro H. remember [] as z eqn:Ez. induction H as [h fs Hl|n h f fs ha fa hb fb Hl Hs H IH]; intros m h1 fs1 Hr.
  - subst fs. inversion Hr; subst. exact Hl.
  - inversion Hr as [h2 fs2|k h2 f2 fs2 h3 fs3 h4 fs4 Hs2 Hr2]; subst; [exact Hl|].
    rewrite Hs in Hs2. injection Hs2 as <- <-. eapply IH; eauto.
Qed.
Lemma value_drops h v R : wf h (R +++ ev (Some v)) -> forall f, drop_entry v = Some f ->
  exists n h', steps 3 n h [f] h' [] /\ n <= 10 * (heap_size h + match v with VIter v => length v | _ => 0 end) + 4.
Proof.
  intros W f Hf. destruct v as [l|t|v]; cbn [drop_entry] in Hf.
  - injection Hf as <-. destruct (enter_drops 3 l [] h R ltac:(cbn; lia)) as (n & h' & S1 & Hn & _).
    { eapply wf_ext; [|exact W]. roots. }
    exists n, h'. split; [exact S1|lia].
  - destruct t as [d l sp|s r sp|c s sp|r sp]; try discriminate. injection Hf as <-.
    destruct (enter_drops 3 l [] h R ltac:(cbn; lia)) as (n & h' & S1 & Hn & _).
    { eapply wf_ext; [|exact W]. roots. }
    exists n, h'. split; [exact S1|lia].
  - injection Hf as <-. destruct (iter_drops 3 [] ltac:(cbn; lia) v h R) as (n & h' & S1 & Hn & _).
    { eapply wf_ext; [|exact W]. roots. }
    exists n, h'. split; [exact S1|lia].
Qed.
Lemma drop_bounded os h e i v f : exec_all ([], []) os = Done (h, e) -> lookup e i = Some v -> drop_entry v = Some f ->
  (exists n h', n <= 10 * (heap_size h + match v with VIter v => length v | _ => 0 end) + 4 /\ drop_run n h [f] h' []) /\
  (forall n h' fs, drop_run n h [f] h' fs -> length fs <= 3).
Proof.
  intros E Hi Hf. destruct (run_related _ _ E) as (ae & Ea & R).
  destruct (value_drops h v (er (assign e i None))) with (f := f) as (n & h' & S1 & Hn); [|exact Hf|].
  { eapply wf_ext; [|exact (inv_wf _ _ _ _ (Inv_take _ _ _ _ _ _ R Hi))]. intro x. unfold plus, zero. cbn [snd]. lia. }
  split.
  - exists n, h'. split; [exact Hn|eapply steps_drop_run; exact S1].
  - intros m h1 fs1 Hr. eapply steps_depth; eauto.
Qed.
