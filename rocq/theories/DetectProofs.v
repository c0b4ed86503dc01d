(** * Proofs about compiler detection *)
From Coq Require Import List Arith Bool Lia.
From Verif Require Import Detection SpecDetect.
Import ListNotations.

Section Proofs.
Context {D : detection}.

(** ** Lists *)
Lemma update_length {A} (l : list A) n a : length (update l n a) = length l.
Proof using. revert n. induction l as [|b l IH]; intros [|n]; cbn; auto. Qed.
Lemma update_same {A} (l : list A) n a b : nth_error l n = Some b -> nth_error (update l n a) n = Some a.
Proof using. revert n. induction l as [|c l IH]; intros [|n]; cbn; try discriminate; auto. Qed.
Lemma update_other {A} (l : list A) n m a : n <> m -> nth_error (update l n a) m = nth_error l m.
Proof using. revert n m. induction l as [|c l IH]; intros [|n] [|m] H; cbn; try congruence. apply IH. congruence. Qed.
Lemma update_get {A} (l : list A) n a b m x : nth_error l n = Some b -> nth_error (update l n a) m = Some x ->
  (m = n /\ x = a) \/ (m <> n /\ nth_error l m = Some x).
Proof using.
  intros H G. destruct (Nat.eq_dec n m) as [<-|N].
  - left. rewrite (update_same _ _ _ _ H) in G. injection G as <-. auto.
  - right. rewrite update_other in G by exact N. auto.
Qed.

(** The next state of every step, spelled out. *)
Ltac cases_step H :=
  destruct H as
    [s t th E A|s t th E A|s t th E A|s t th E A|s t th u thu E A Eu
    |s t th ts b E A I L|s t th ts x E A I NB L|s t th E A OI|s t th v E A OC|s t th E A OP
    |s t th ts E A FR|s t th c E A|s t th c b ts E A FR|s t th c E A
    |s t th c E A|s t th c o E A|s t th c o E A|s t th c o b ts E A FR|s t th c o E A|s t th c o g E A|s t th c E A|s t th c g E A NN];
  unfold goto, put, with_hook, with_once, with_message, finish, abort, goto, put, with_once in *; try destruct c;
  cbn [messages threads init_once the_hook view at_ fst snd] in *.

(** ** What always holds *)
Definition stored (p : init_pc) : bool :=
  match p with IDone | PTakeNull _ | PSetOriginal _ _ | PCheck _ => true | _ => false end.
Record sane (s : state) : Prop := {
  sane_zero : In (0, 0) (messages s);
  sane_values : forall ts x, In (ts, x) (messages s) -> (ts = 0 /\ x = 0) \/ (0 < ts /\ exists b, x = encode b);
  sane_views : forall t th, nth_error (threads s) t = Some th -> In (view th) (map fst (messages s));
  sane_once : forall t th p, nth_error (threads s) t = Some th -> at_ th = Initializing ByOnce p -> init_once s = Running t;
  sane_running : forall t, init_once s = Running t ->
    exists th p, nth_error (threads s) t = Some th /\ at_ th = Initializing ByOnce p;
  sane_complete : forall v, init_once s = Complete v -> 0 < v /\ In v (map fst (messages s));
  sane_stored : forall t th c p, nth_error (threads s) t = Some th -> at_ th = Initializing c p -> stored p = true -> 0 < view th;
  sane_config : forall t th c p, nth_error (threads s) t = Some th -> at_ th = Initializing c p ->
    by_hook = match p with IQuery | IStore _ | IDone => false | _ => true end
}.
Lemma sane_initial : sane initial.
Proof using.
  split; cbn.
  - auto.
  - intros ts x [[= <- <-]|[]]. auto.
  - intros [|[|t]] th; cbn; intros [=<-]. auto.
  - intros [|[|t]] th p; cbn; intros [=<-]; discriminate.
  - discriminate.
  - discriminate.
  - intros [|[|t]] th c p; cbn; intros [=<-]; discriminate.
  - intros [|[|t]] th c p; cbn; intros [=<-]; discriminate.
Qed.

Lemma app_get {A} (l : list A) a m x : nth_error (l ++ [a]) m = Some x -> x = a \/ nth_error l m = Some x.
Proof using.
  intros H. destruct (Nat.lt_ge_cases m (length l)) as [L|L]; [right; now rewrite nth_error_app1 in H|left].
  rewrite nth_error_app2 in H by exact L. destruct (m - length l) as [|[|k]]; cbn in H; congruence.
Qed.
(** A thread after the step: the one that moved, or another one. *)
Ltac get H :=
  match type of H with
  | nth_error (update ?l ?n ?a) ?m = Some ?x =>
      match goal with G : nth_error l n = Some ?b |- _ =>
        let E := fresh "E" in let N := fresh "N" in
        destruct (update_get l n a b m x G H) as [[E ->]|[N H']]; [subst m|]; cbn [view at_] in * end
  | nth_error (?l ++ [?a]) ?m = Some ?x =>
      destruct (app_get l a m x H) as [->|H']; cbn [view at_] in *
  end.
Lemma in_fst {A B} (l : list (A * B)) a b : In (a, b) l -> In a (map fst l).
Proof using. intros H. change a with (fst (a, b)). now apply in_map. Qed.
Lemma start_config : by_hook = match start_init with IQuery | IStore _ | IDone => false | _ => true end.
Proof using. unfold start_init. now destruct by_hook. Qed.
Lemma start_stored : stored start_init = false.
Proof using. unfold start_init. now destruct by_hook. Qed.

Lemma sane_step s e s' : step s e s' -> sane s -> sane s'.
Proof using.
  intros H S. destruct S as [Z V W O R K T G].
  assert (MX : forall a b, In a (map fst (messages s)) -> In b (map fst (messages s)) -> In (Nat.max a b) (map fst (messages s)))
    by (intros a b Ha Hb; destruct (Nat.max_dec a b) as [-> | ->]; assumption).
  cases_step H;
    (split; cbn [messages threads init_once the_hook view at_ fst snd map In];
    [ (* zero *) solve [auto]
    | (* values *) first [exact V | destruct FR; intros ts' x' [[= <- <-]|X]; [right; split; [lia|first [now exists false|eauto]]|eauto]]
    | (* views *) intros t' th' X; get X; solve [eauto using in_fst | apply MX; eauto; now apply K]
    | (* once *) intros t' th' p' X Y; get X;
      solve [discriminate | eauto | congruence | reflexivity | injection Y as ->; eauto
            | exfalso; pose proof (O _ _ _ H' Y); try pose proof (O _ _ _ E A); congruence]
    | (* running *) intros t' X; try discriminate X;
      first [ destruct (R _ X) as (th' & p' & X1 & X2) | injection X as <- ];
      first [ solve [eexists _, _; split; [eapply update_same; exact E|reflexivity]]
            | destruct (Nat.eq_dec t t') as [<-|NE];
              [ first [ exfalso; congruence
                      | eexists _, _; split; [eapply update_same; exact E|cbn [at_]; reflexivity] ]
              | exists th', p'; split; [rewrite update_other by exact NE; exact X1|exact X2] ]
            | exists th', p'; split; [rewrite nth_error_app1; [exact X1|apply nth_error_Some; congruence]|exact X2] ]
    | (* complete *) intros v' X; first [discriminate X | destruct (K _ X); split; solve [auto]
        | injection X as <-; split; [eapply T; [exact E|exact A|reflexivity]|eauto] ]
    | (* stored *) intros t' th' c' p' X Y ST; get X;
      solve [discriminate | eauto | destruct FR; lia | inversion Y; subst; (discriminate || eauto)
            | inversion Y; subst; rewrite start_stored in ST; discriminate
            | inversion Y; subst; eapply T; [exact E|exact A|reflexivity]]
    | (* config *) intros t' th' c' p' X Y; get X;
      solve [discriminate | eauto | inversion Y; subst; apply start_config
            | inversion Y; subst; specialize (G _ _ _ _ E A); exact G] ]).
Qed.
Lemma steps_app s es s' es' s'' : steps s es s' -> steps s' es' s'' -> steps s (es ++ es') s''.
Proof using. induction 1; cbn; intros G; [exact G|]. econstructor; eauto. Qed.
Lemma steps_snoc s es s' e s'' : steps s es s' -> step s' e s'' -> steps s (es ++ [e]) s''.
Proof using. intros H G. eapply steps_app; [exact H|]. econstructor; [exact G|constructor]. Qed.
(** Induction on an execution, last step last. *)
Lemma steps_rev (P : state -> list event -> Prop) s0 : P s0 [] ->
  (forall s es e s', steps s0 es s -> P s es -> step s e s' -> P s' (es ++ [e])) ->
  forall es s, steps s0 es s -> P s es.
Proof using.
  intros H0 HS. enough (G : forall s es s', steps s es s' -> forall es0, steps s0 es0 s -> P s es0 -> P s' (es0 ++ es)).
  { intros es s H. exact (G s0 es s H [] (steps_nil s0) H0). }
  induction 1 as [s|s e s' es s'' H1 H2 IH]; intros es0 R HP; [now rewrite app_nil_r|].
  replace (es0 ++ e :: es) with ((es0 ++ [e]) ++ es) by now rewrite <- app_assoc.
  apply IH; [eapply steps_snoc; eassumption|eapply HS; eassumption].
Qed.
Lemma sane_steps s es s' : steps s es s' -> sane s -> sane s'.
Proof using. induction 1 as [|s e s' es s'' H1 _ IH]; [auto|]. intros S. apply IH. eapply sane_step; eassumption. Qed.
Lemma sane_reachable s : reachable s -> sane s.
Proof using. intros [es H]. eapply sane_steps; [exact H|apply sane_initial]. Qed.

(** ** C48: calls return *)
Definition rank (p : init_pc) : nat :=
  match p with
  | IQuery => 4 | IStore _ => 3 | IDone => 2
  | PTake => 8 | PSetNull _ => 7 | PProbe _ => 6 | PStore _ _ => 5 | PTakeNull _ => 4 | PSetOriginal _ _ => 3 | PCheck _ => 2
  end.
Definition work (th : thread) : nat :=
  match at_ th with
  | Idle => 0
  | Loading => match view th with O => 10 | _ => 1 end
  | Entering => 9
  | Initializing _ p => rank p
  | Forcing => 1
  end.
Definition total_work (s : state) : nat := list_sum (map work (threads s)).
Lemma update_sum l n th th' : nth_error l n = Some th ->
  list_sum (map work (update l n th')) + work th = list_sum (map work l) + work th'.
Proof using.
  revert n. induction l as [|x l IH]; intros [|n]; try discriminate; intros H.
  - injection H as ->. cbn [update map list_sum fold_right]. change (fold_right Nat.add 0) with list_sum. lia.
  - cbn [update map list_sum fold_right]. change (fold_right Nat.add 0) with list_sum. specialize (IH n H). cbn in IH. lia.
Qed.
Lemma start_rank : rank start_init <= 8.
Proof using. unfold start_init. destruct by_hook; cbn; lia. Qed.

Lemma work_decreases s e s' : sane s -> step s e s' -> internal e = true -> total_work s' < total_work s.
Proof using.
  intros S H I0. unfold total_work. pose proof start_rank as SR.
  destruct S as [Z V W O R K T G].
  cases_step H; try discriminate I0;
    match goal with X : nth_error ?l ?n = Some ?x |- context [update ?l ?n ?y] =>
      assert (B : work y < work x); [|pose proof (update_sum l n x y X); lia] end;
    unfold work; rewrite A; cbn [at_ view rank]; try lia.
  - destruct (view th); lia.
  - destruct (V _ _ I) as [[-> ->]|[P [b ->]]]; [|now destruct (NB b)]. replace (view th) with 0 by lia. lia.
  - destruct (K _ OC) as [P _]. destruct (Nat.max (view th) v) eqn:M; lia.
  - pose proof (T _ _ _ _ E A eq_refl). destruct (view th); lia.
  - pose proof (T _ _ _ _ E A eq_refl). destruct (view th); lia.
Qed.
Lemma internal_bounded s es s' : reachable s -> steps s es s' -> Forall (fun e => internal e = true) es ->
  length es + total_work s' <= total_work s.
Proof using.
  intros [es0 R] H. apply sane_steps in R; [|apply sane_initial]. induction H as [s|s e s' es s'' H1 _ IH]; intros F; cbn; [lia|].
  inversion F; subst. pose proof (work_decreases _ _ _ R H1 ltac:(assumption)).
  specialize (IH (sane_step _ _ _ H1 R) ltac:(assumption)). lia.
Qed.
Lemma newest_exists s : exists ts, ~ In ts (map fst (messages s)) /\ forall m, In m (map fst (messages s)) -> m < ts.
Proof using.
  exists (S (list_max (map fst (messages s)))).
  assert (M : forall m, In m (map fst (messages s)) -> m < S (list_max (map fst (messages s)))).
  { intros m H. assert (L : list_max (map fst (messages s)) <= list_max (map fst (messages s))) by lia.
    apply list_max_le in L. rewrite Forall_forall in L. specialize (L m H). lia. }
  split; [|exact M]. intros H. specialize (M _ H). lia.
Qed.
Lemma fresh_exists s t th : sane s -> nth_error (threads s) t = Some th -> exists ts, fresh s th ts.
Proof using.
  intros S E. destruct (newest_exists s) as (ts & N & M). exists ts. split; [|exact N]. apply M. eapply sane_views; eassumption.
Qed.
(** A thread in a call moves, or waits for the one which is detecting and can move. *)
Lemma moves s t th : sane s -> nth_error (threads s) t = Some th -> at_ th <> Idle ->
  (exists e s', step s e s' /\ moved e = Some t) \/ (at_ th = Entering /\ exists u, init_once s = Running u).
Proof using.
  intros S E N. pose proof (fresh_exists s t th S E) as [ts FR].
  destruct (at_ th) as [| | |c p|] eqn:A; [now destruct N| | | |].
  - left. pose proof (sane_views s S t th E) as I. apply in_map_iff in I. destruct I as ([v x] & Ev & I). cbn in Ev. subst v.
    destruct (sane_values s S _ _ I) as [[Z ->]|[P [b ->]]].
    + do 2 eexists. split; [eapply step_load_unknown; eauto; intros []; discriminate|reflexivity].
    + do 2 eexists. split; [eapply step_load_answer; eauto|reflexivity].
  - destruct (init_once s) as [|u|v|] eqn:O; [| |left|left].
    + left. do 2 eexists. split; [eapply step_once_run; eauto|reflexivity].
    + right. eauto.
    + do 2 eexists. split; [eapply step_once_skip; eauto|reflexivity].
    + do 2 eexists. split; [eapply step_once_poisoned; eauto|reflexivity].
  - left. destruct p as [|b| | |o|o|o b|o|o g|g].
    + do 2 eexists. split; [eapply step_query; eauto|reflexivity].
    + do 2 eexists. split; [eapply step_store; eauto|reflexivity].
    + do 2 eexists. split; [eapply step_done; eauto|now destruct c].
    + do 2 eexists. split; [eapply step_take; eauto|reflexivity].
    + do 2 eexists. split; [eapply step_set_null; eauto|reflexivity].
    + do 2 eexists. split; [eapply step_probe; eauto|reflexivity].
    + do 2 eexists. split; [eapply step_probe_store; eauto|reflexivity].
    + do 2 eexists. split; [eapply step_take_null; eauto|reflexivity].
    + do 2 eexists. split; [eapply step_set_original; eauto|reflexivity].
    + assert (X : g = Null \/ g <> Null) by (destruct g; [right|right|left]; congruence). destruct X as [->|X].
      * do 2 eexists. split; [eapply step_check_ok; eauto|now destruct c].
      * do 2 eexists. split; [eapply step_check_race; eauto|reflexivity].
  - left. do 2 eexists. split; [eapply step_force; eauto|reflexivity].
Qed.
Lemma progress s t : reachable s -> in_call s t ->
  (exists e s', step s e s' /\ moved e = Some t) \/
  (exists u e s', u <> t /\ initializing s u /\ step s e s' /\ moved e = Some u).
Proof using.
  intros R (th & E & N). apply sane_reachable in R. destruct (moves s t th R E N) as [H|[A [u O]]]; [left; exact H|right].
  destruct (sane_running s R u O) as (thu & p & Eu & Au). destruct (moves s u thu R Eu) as [(e & s' & H)|[Au' _]]; [congruence| |congruence].
  exists u, e, s'. split; [|split; [exists thu, ByOnce, p; auto|exact H]]. intros ->. congruence.
Qed.
Lemma moved_internal e t : moved e = Some t -> internal e = true.
Proof using. now destruct e. Qed.
(** A call takes few steps of its own. *)
Lemma work_small th : work th <= 10.
Proof using. unfold work. destruct (at_ th) as [| | |c p|]; try destruct (view th); try destruct p; cbn [rank]; lia. Qed.
Lemma work_step q s e s' y : sane s -> step s e s' -> calls e <> Some q -> nth_error (threads s) q = Some y ->
  exists y', nth_error (threads s') q = Some y' /\
    work y' + (match moved e with Some w => if w =? q then 1 else 0 | None => 0 end) <= work y.
Proof using.
  intros S H NC EX. pose proof start_rank as SR. destruct S as [Z V W O R K T G].
  cases_step H; cbn [moved calls returned] in *; try congruence;
    try (exists y; split; [rewrite nth_error_app1; [exact EX|apply nth_error_Some; congruence]|lia]);
    (destruct (Nat.eq_dec q t) as [->|NE];
     [|exists y; split; [rewrite update_other by congruence; exact EX|rewrite ?(proj2 (Nat.eqb_neq t q)) by congruence; lia]]);
    rewrite E in EX; injection EX as <-; rewrite ?Nat.eqb_refl; (eexists; split; [eapply update_same; exact E|]);
    try (now destruct NC); unfold work; rewrite A; cbn [at_ view rank]; try lia.
  - destruct (view th); lia.
  - destruct (V _ _ I) as [[-> ->]|[P [b ->]]]; [|now destruct (NB b)]. replace (view th) with 0 by lia. lia.
  - destruct (K _ OC) as [P _]. destruct (Nat.max (view th) v) eqn:M; lia.
  - pose proof (T _ _ _ _ E A eq_refl). destruct (view th); lia.
  - pose proof (T _ _ _ _ E A eq_refl). destruct (view th); lia.
Qed.
Lemma moves_bounded s es s' t : reachable s -> steps s es s' -> (forall e, In e es -> calls e <> Some t) -> t < length (threads s) ->
  moves_of t es <= 10.
Proof using.
  intros R H NC L. apply sane_reachable in R. destruct (nth_error (threads s) t) as [x|] eqn:E; [|apply nth_error_None in E; lia].
  enough (moves_of t es <= work x) by (pose proof (work_small x); lia). clear L.
  revert x E NC. induction H as [s|s e s' es s'' H1 _ IH]; intros x E NC; [cbn; lia|].
  destruct (work_step t s e s' x R H1 (NC e (or_introl eq_refl)) E) as (x' & E' & W).
  specialize (IH (sane_step _ _ _ H1 R) x' E' (fun e' I => NC e' (or_intror I))).
  unfold moves_of in *. cbn [filter]. destruct (moved e) as [u|]; [destruct (u =? t)|]; cbn [length]; lia.
Qed.
(** Left alone, all calls return. *)
Lemma settles s : reachable s -> exists es s', steps s es s' /\ Forall (fun e => internal e = true) es /\ forall t, ~ in_call s' t.
Proof using.
  intros R. remember (total_work s) as n eqn:E. revert s R E. induction n as [n IH] using lt_wf_ind. intros s R ->.
  assert (X : (exists t, in_call s t) \/ forall t, ~ in_call s t).
  { assert (G : forall l, (exists t th, nth_error l t = Some th /\ at_ th <> Idle) \/ forall t th, nth_error l t = Some th -> at_ th = Idle).
    { induction l as [|x l [(t & th & E1 & E2)|H]].
      - right. now intros [].
      - left. now exists (S t), th.
      - destruct (at_ x) eqn:A; [right|left; exists 0, x; split; [reflexivity|congruence]..].
        intros [|t] th; cbn; [intros [=<-]; exact A|apply H]. }
    destruct (G (threads s)) as [(t & th & H)|H]; [left; exists t, th; exact H|right].
    intros t (th & E1 & E2). apply E2. eapply H; eassumption. }
  destruct X as [[t X]|X]; [|exists [], s; split; [constructor|split; [constructor|exact X]]].
  assert (exists e s', step s e s' /\ internal e = true) as (e & s' & H & I).
  { destruct (progress s t R X) as [(e & s' & H & M)|(u & e & s' & _ & _ & H & M)]; exists e, s'; eauto using moved_internal. }
  pose proof (work_decreases _ _ _ (sane_reachable _ R) H I) as W.
  assert (R' : reachable s') by (destruct R as [es0 R]; exists (es0 ++ [e]); eapply steps_snoc; eassumption).
  destruct (IH _ W s' R' eq_refl) as (es & s2 & H1 & H2 & H3). exists (e :: es), s2.
  split; [econstructor; eassumption|]. split; [constructor; assumption|exact H3].
Qed.

(** ** C50: the hook, with one initialisation at a time *)
Definition hook_at (p : init_pc) (h : hook) : Prop :=
  match p with
  | IQuery | IStore _ | IDone | PTake => h = Installed program_hook
  | PSetNull o => o = Installed program_hook
  | PProbe o | PStore o _ | PTakeNull o => o = Installed program_hook /\ h = Null
  | PSetOriginal o g => o = Installed program_hook /\ g = Null
  | PCheck g => g = Null /\ h = Installed program_hook
  end.
Record hooked (s : state) : Prop := {
  hooked_at : forall t th c p, nth_error (threads s) t = Some th -> at_ th = Initializing c p -> hook_at p (the_hook s);
  hooked_idle : the_hook s = Installed program_hook \/ exists t, initializing s t;
  hooked_once : init_once s <> Poisoned
}.
Lemma start_hook h : h = Installed program_hook -> hook_at start_init h.
Proof using. unfold start_init. now destruct by_hook. Qed.
(** The thread that moves was not initializing, and the others stay as they are. *)
Lemma hook_before s t th th' : hooked s -> nth_error (threads s) t = Some th -> (forall c p, at_ th <> Initializing c p) ->
  (forall t' u, (exists x c p, nth_error (update (threads s) t th') t' = Some x /\ at_ x = Initializing c p) ->
                (exists x c p, nth_error (update (threads s) t th') u = Some x /\ at_ x = Initializing c p) -> t' = u) ->
  (exists c p, at_ th' = Initializing c p) -> the_hook s = Installed program_hook.
Proof using.
  intros H E N S (c & p & I). destruct (hooked_idle s H) as [G|(u & x & c' & p' & Eu & Au)]; [exact G|exfalso].
  assert (NE : t <> u) by (intros <-; rewrite E in Eu; injection Eu as <-; eapply N; exact Au). apply NE.
  apply (S t u); [exists th', c, p; split; [eapply update_same; exact E|exact I]|].
  exists x, c', p'. split; [rewrite update_other by exact NE; exact Eu|exact Au].
Qed.
Definition running (th : thread) : bool := match at_ th with Initializing _ _ => true | _ => false end.
Lemma hooked_put s t th th' m o h : nth_error (threads s) t = Some th -> hooked s -> solo s ->
  solo {| messages := m; threads := update (threads s) t th'; init_once := o; the_hook := h |} -> o <> Poisoned ->
  (running th = true \/ h = the_hook s) ->
  match at_ th' with
  | Initializing _ p => hook_at p h
  | _ => running th = true -> h = Installed program_hook
  end ->
  hooked {| messages := m; threads := update (threads s) t th'; init_once := o; the_hook := h |}.
Proof using.
  intros E HK SO SO' NP K1 K2. destruct HK as [HA HI HO]. split; cbn [threads the_hook init_once].
  - intros u x c p Eu Au. destruct (update_get _ _ _ _ _ _ E Eu) as [[-> ->]|[NE Eu']]; [now rewrite Au in K2|].
    destruct (running th) eqn:RU.
    + exfalso. apply NE. apply SO; [exists x, c, p; auto|]. unfold running in RU. destruct (at_ th) as [| | |c' p'|] eqn:A; try discriminate.
      exists th, c', p'. auto.
    + destruct K1 as [K1|K1]; [discriminate|]. subst h. eapply HA; eassumption.
  - destruct (at_ th') as [| | |c p|] eqn:A'.
    4: { right. exists t, th', c, p. split; [eapply update_same; exact E|exact A']. }
    all: destruct (running th) eqn:RU; [left; now apply K2|]; destruct K1 as [K1|K1]; [discriminate|];
         subst h; destruct HI as [G|(u & x & c & p & Eu & Au)]; [left; exact G|right]; exists u, x, c, p; split; [|exact Au];
         cbn [threads]; rewrite update_other; [exact Eu|]; intros <-; rewrite E in Eu; injection Eu as <-;
         unfold running in RU; rewrite Au in RU; discriminate.
  - exact NP.
Qed.
Lemma hooked_spawn s th m : hooked s -> (forall c p, at_ th <> Initializing c p) ->
  hooked {| messages := m; threads := threads s ++ [th]; init_once := init_once s; the_hook := the_hook s |}.
Proof using.
  intros [HA HI HO] N. split; cbn [threads the_hook init_once]; [| |exact HO].
  - intros u x c p Eu Au. destruct (app_get _ _ _ _ Eu) as [->|Eu']; [now destruct (N _ _ Au)|eapply HA; eassumption].
  - destruct HI as [G|(u & x & c & p & Eu & Au)]; [auto|right]. exists u, x, c, p. split; [|exact Au]. cbn [threads].
    rewrite nth_error_app1; [exact Eu|]. apply nth_error_Some. congruence.
Qed.

Lemma hooked_step s e s' : step s e s' -> solo s -> solo s' -> hooked s -> hooked s' /\ forall t, e <> Panicked t.
Proof using.
  intros H SO SO' HK.
  assert (B : forall t th th', nth_error (threads s) t = Some th -> running th = false ->
    solo {| messages := []; threads := update (threads s) t th'; init_once := Incomplete; the_hook := Null |} ->
    running th' = true -> the_hook s = Installed program_hook).
  { intros t th th' E RU S RU'. apply (hook_before s t th th' HK E).
    - intros c p A. unfold running in RU. now rewrite A in RU.
    - exact S.
    - unfold running in RU'. destruct (at_ th'); try discriminate. eauto. }
  assert (HO := hooked_once s HK). assert (HA := hooked_at s HK).
  cases_step H; try (specialize (HA _ _ _ _ E A); cbn [hook_at] in HA);
    (split; [|try discriminate; intros ? ?]);
    try (apply hooked_spawn; [exact HK|discriminate]);
    try (apply (hooked_put s t th); cbn [at_];
         [exact E|exact HK|exact SO|exact SO'|congruence|unfold running; rewrite A; auto|
          try (apply start_hook; eapply B; [exact E|unfold running; now rewrite A|exact SO'|reflexivity]);
          try (unfold running; rewrite A; discriminate); cbn [hook_at]; intuition congruence]);
    try (exfalso; intuition congruence).
Qed.
Lemma hooked_initial : hooked initial.
Proof using.
  split; cbn; [|auto|discriminate]. intros [|[|t]] th c p; cbn; intros [=<-]; discriminate.
Qed.
Lemma solo_initial : solo initial.
Proof using. intros t u (th & c & p & E & A). destruct t as [|[|t]]; cbn in E; try discriminate. injection E as <-. discriminate. Qed.
Lemma hooked_solo s es s' : solo_steps s es s' -> solo s -> hooked s -> hooked s' /\ forall t, ~ In (Panicked t) es.
Proof using.
  induction 1 as [s|s e s' es s'' H1 H2 _ IH]; intros S HK; [now split; [|intros t []]|].
  destruct (hooked_step _ _ _ H1 S H2 HK) as [HK' N]. destruct (IH H2 HK') as [HK2 N2]. split; [exact HK2|].
  intros t [->|I]; [now apply (N t)|now apply (N2 t)].
Qed.
Lemma hook_restored es s : solo_steps initial es s ->
  ((forall t, ~ initializing s t) -> the_hook s = Installed program_hook) /\ forall t, ~ In (Panicked t) es.
Proof using.
  intros H. destruct (hooked_solo _ _ _ H solo_initial hooked_initial) as [HK N]. split; [|exact N].
  intros I. destruct (hooked_idle s HK) as [G|[t G]]; [exact G|now destruct (I t)].
Qed.
(** Without [unforce] there is at most one initialisation. *)
Definition no_direct (s : state) : Prop := forall t th p, nth_error (threads s) t = Some th -> at_ th <> Initializing ByUnforce p.
Lemma no_direct_step s e s' : step s e s' -> (forall t, e <> CallUnforce t) -> no_direct s -> no_direct s'.
Proof using.
  intros H N ND. unfold no_direct in *. cases_step H; intros t' th' p' X; get X;
    solve [discriminate | eauto | exfalso; eapply N; reflexivity | exfalso; eapply ND; eassumption].
Qed.
Lemma no_direct_initial : no_direct initial.
Proof using. intros [|[|t]] th p; cbn; intros [=<-]; discriminate. Qed.
Lemma solo_no_direct s : sane s -> no_direct s -> solo s.
Proof using.
  intros S ND t u (th & c & p & E & A) (th' & c' & p' & E' & A').
  destruct c; [|now destruct (ND _ _ _ E A)]. destruct c'; [|now destruct (ND _ _ _ E' A')].
  pose proof (sane_once s S _ _ _ E A). pose proof (sane_once s S _ _ _ E' A'). congruence.
Qed.
Lemma solo_inside s es s' : steps s es s' -> sane s -> no_direct s -> no_unforce es -> solo_steps s es s'.
Proof using.
  induction 1 as [s|s e s' es s'' H1 H2 IH]; intros S ND NU; [constructor|].
  assert (N : forall t, e <> CallUnforce t) by (intros t ->; apply (NU t); now left).
  pose proof (sane_step _ _ _ H1 S) as S'. pose proof (no_direct_step _ _ _ H1 N ND) as ND'.
  econstructor; [exact H1|now apply solo_no_direct|]. apply IH; auto. intros t I. apply (NU t). now right.
Qed.
Lemma solo_no_unforce es s : steps initial es s -> no_unforce es -> solo_steps initial es s.
Proof using. intros H N. apply solo_inside; auto using sane_initial, no_direct_initial. Qed.

(** ** C48: calls agree *)
Lemma encode_inj a b : encode a = encode b -> a = b.
Proof using. now destruct a, b. Qed.
Definition pending (p : init_pc) : option bool := match p with IStore b | PStore _ b => Some b | _ => None end.
Definition undecided (s : state) (es : list event) : Prop :=
  init_once s = Incomplete /\ (forall m, In m (messages s) -> m = (0, 0)) /\
  (forall t th, nth_error (threads s) t = Some th -> at_ th = Idle \/ at_ th = Loading \/ at_ th = Entering) /\
  (forall t b, ~ In (Returned t b) es).
Definition decided (r : nat) (s : state) (es : list event) : Prop :=
  init_once s <> Incomplete /\ (forall ts x, In (ts, x) (messages s) -> x = 0 \/ x = encode (available r)) /\
  (forall t th, nth_error (threads s) t = Some th ->
     at_ th <> Forcing /\ (forall c p, at_ th = Initializing c p -> c = ByOnce /\ t = r /\ forall b, pending p = Some b -> b = available r)) /\
  (forall t b, In (Returned t b) es -> b = available r).
Definition agreeing (s : state) (es : list event) : Prop := undecided s es \/ exists r, r < length (threads s) /\ decided r s es.
Lemma start_pending : pending start_init = None.
Proof using. unfold start_init. now destruct by_hook. Qed.

Lemma decided_step r s es e s' : step s e s' -> (forall t, e <> CallForce t) -> (forall t, e <> CallUnforce t) ->
  decided r s es -> decided r s' (es ++ [e]).
Proof using.
  intros H NF NU (O & M & TH & RE). unfold decided.
  assert (RE' : forall x, (forall t b, x = Returned t b -> b = available r) -> forall t b, In (Returned t b) (es ++ [x]) -> b = available r).
  { intros x Hx t b I. apply in_app_iff in I. destruct I as [I|[I|[]]]; [eapply RE; exact I|eapply Hx; exact I]. }
  cases_step H; try (now exfalso; eapply NF; reflexivity); try (now exfalso; eapply NU; reflexivity);
    (split; [congruence|split; [|split; [|apply RE'; try discriminate]]]);
    try exact M;
    try (intros t' th' X; get X; [split; [congruence|]|eapply TH; eassumption]; intros c' p' Y;
         solve [discriminate Y
               | inversion Y; subst; destruct (TH _ _ E) as [_ Q]; specialize (Q _ _ A);
                 destruct Q as (Q1 & Q2 & Q3); try discriminate Q1; subst;
                 (split; [reflexivity|split; [reflexivity|]]); cbn [pending] in *; intros b' Y'; try discriminate Y'; (congruence || (injection Y' as <-; auto)) ]).
  - intros t' b' [= <- <-]. destruct (M _ _ I) as [X|X]; [now destruct b|now apply encode_inj].
  - exfalso. now apply O.
  - exfalso. now apply (proj1 (TH _ _ E)).
  - destruct (TH _ _ E) as [_ Q]. destruct (Q _ _ A) as (_ & _ & Q3). rewrite (Q3 b eq_refl).
    intros ts' x [[= <- <-]|X]; [auto|eauto].
  - destruct (TH _ _ E) as [_ Q]. now destruct (Q _ _ A).
  - destruct (TH _ _ E) as [_ Q]. destruct (Q _ _ A) as (_ & _ & Q3). rewrite (Q3 b eq_refl).
    intros ts' x [[= <- <-]|X]; [auto|eauto].
  - destruct (TH _ _ E) as [_ Q]. now destruct (Q _ _ A).
Qed.
Lemma step_length s e s' : step s e s' -> length (threads s) <= length (threads s').
Proof using. intros H. cases_step H; rewrite ?update_length, ?app_length; lia. Qed.
Lemma steps_length s es s' : steps s es s' -> length (threads s) <= length (threads s').
Proof using. induction 1 as [|? ? ? ? ? H1 _ IH]; [lia|]. pose proof (step_length _ _ _ H1). lia. Qed.
Lemma undecided_step s es e s' : step s e s' -> (forall t, e <> CallForce t) -> (forall t, e <> CallUnforce t) ->
  undecided s es -> agreeing s' (es ++ [e]).
Proof using.
  intros H NF NU (O & M & TH & RE). unfold agreeing.
  assert (K : forall t th, nth_error (threads s) t = Some th -> forall c p, at_ th <> Initializing c p).
  { intros t th E c p A. destruct (TH _ _ E) as [X|[X|X]]; congruence. }
  assert (RE' : forall x, (forall t b, x <> Returned t b) -> forall t b, ~ In (Returned t b) (es ++ [x])).
  { intros x Hx t b I. apply in_app_iff in I. destruct I as [I|[I|[]]]; [eapply RE; exact I|eapply Hx; exact I]. }
  cases_step H; try (now exfalso; eapply NF; reflexivity); try (now exfalso; eapply NU; reflexivity);
    try (now exfalso; eapply K; eassumption); try congruence.
  - left. split; [exact O|]. split; [exact M|]. split; [|apply RE'; discriminate].
    intros t' th' X. cbn [threads] in X. get X; [auto|eapply TH; eassumption].
  - left. split; [exact O|]. split; [exact M|]. split; [|apply RE'; discriminate].
    intros t' th' X. cbn [threads] in X. get X; [auto|eapply TH; eassumption].
  - left. split; [exact O|]. split; [exact M|]. split; [|apply RE'; discriminate].
    intros t' th' X. cbn [threads] in X. get X; [auto|eapply TH; eassumption].
  - specialize (M _ I). now destruct b.
  - left. split; [exact O|]. split; [exact M|]. split; [|apply RE'; discriminate].
    intros t' th' X. cbn [threads] in X. get X; [auto|eapply TH; eassumption].
  - right. exists t. split; [cbn [threads]; rewrite update_length; apply nth_error_Some; congruence|].
    split; [discriminate|]. split; [intros ts x X; specialize (M _ X); left; congruence|].
    split; [|intros t' b I; exfalso; eapply RE'; [|exact I]; discriminate].
    intros t' th' X. cbn [threads] in X. get X.
    + split; [discriminate|]. intros c p [= <- <-]. rewrite start_pending. split; [reflexivity|split; [reflexivity|discriminate]].
    + split; [|intros c p Y; now destruct (K _ _ H' _ _ Y)]. destruct (TH _ _ H') as [Y|[Y|Y]]; congruence.
  - destruct (TH _ _ E) as [X|[X|X]]; congruence.
Qed.
Lemma agreeing_initial : agreeing initial [].
Proof using.
  left. split; [reflexivity|]. split; [intros m [<-|[]]; reflexivity|]. split; [|now intros t b []].
  intros [|[|t]] th; cbn; intros [=<-]; auto.
Qed.
Lemma agreement es s : steps initial es s -> no_force es -> no_unforce es ->
  exists r, r < length (threads s) /\ forall t b, In (Returned t b) es -> b = available r.
Proof using.
  intros H NF NU. enough (A : agreeing s es).
  { destruct A as [(_ & _ & _ & A)|(r & L & _ & _ & _ & A)].
    - exists 0. split; [pose proof (steps_length _ _ _ H) as G; cbn [initial threads length] in G; lia|]. intros t b I. now destruct (A t b).
    - eauto. }
  revert NF NU. revert es s H. refine (steps_rev _ initial _ _).
  - intros _ _. apply agreeing_initial.
  - intros s es e s' R IH H NF NU.
    assert (NF' : no_force es) by (intros t I; apply (NF t); apply in_app_iff; auto).
    assert (NU' : no_unforce es) by (intros t I; apply (NU t); apply in_app_iff; auto).
    assert (N1 : forall t, e <> CallForce t) by (intros t ->; apply (NF t), in_app_iff; right; now left).
    assert (N2 : forall t, e <> CallUnforce t) by (intros t ->; apply (NU t), in_app_iff; right; now left).
    destruct (IH NF' NU') as [X|(r & L & X)].
    + eapply undecided_step; eassumption.
    + right. exists r. split; [pose proof (step_length _ _ _ H); lia|]. eapply decided_step; eassumption.
Qed.

(** ** C49: force and unforce *)
(** Every message from [f] on says [b], and nothing else is going to be stored. *)
Record says (f : nat) (b : bool) (s : state) : Prop := {
  says_messages : forall ts x, In (ts, x) (messages s) -> f <= ts -> x = encode b;
  says_quiet : forall t th, nth_error (threads s) t = Some th ->
    (at_ th = Forcing -> b = false) /\ (forall c p, at_ th = Initializing c p -> stored p = true);
  says_over : detection_over s f
}.
Lemma returned_step s t b s' : step s (Returned t b) s' ->
  exists th ts, nth_error (threads s) t = Some th /\ at_ th = Loading /\ In (ts, encode b) (messages s) /\ view th <= ts.
Proof using.
  intros H. remember (Returned t b) as e. destruct H; try discriminate Heqe; try (now destruct c; discriminate Heqe).
  injection Heqe as -> ->. exists th, ts. auto.
Qed.
Lemma says_step f a s e s' : step s e s' -> (forall t, e <> CallUnforce t) -> (a = true -> forall t, e <> CallForce t) ->
  says f a s -> says f a s' /\ (forall t b, e = Returned t b -> has_seen s t f -> b = a).
Proof using.
  intros H NU NF [M Q O]. split.
  - assert (SI : forall t th c p, nth_error (threads s) t = Some th -> at_ th = Initializing c p -> stored p = true)
      by (intros t th c p E A; exact (proj2 (Q _ _ E) c p A)). unfold detection_over in O.
    cases_step H; try (now exfalso; eapply NU; reflexivity);
      try (now specialize (SI _ _ _ _ E A); discriminate); split; unfold detection_over; cbn [messages threads init_once];
      try exact M; try exact I;
      try (intros t' th' X; get X; [split; [congruence|]|eapply Q; eassumption]; intros c' p' Y; inversion Y; subst; reflexivity);
      try (destruct (init_once s) eqn:OE; try exact O; try exact I; try discriminate;
           intros t' th' X; get X; [destruct (O _ _ E); split; [lia|discriminate]|eapply O; eassumption]).
    + intros t' th' X. get X; [|eapply Q; eassumption]. split; [|discriminate].
      intros _. destruct a; [exfalso; now apply (NF eq_refl t)|reflexivity].
    + destruct (init_once s); try exact O. exfalso. destruct (O _ _ E) as [O1 _].
      specialize (M _ _ I ltac:(lia)). now apply (NB a).
    + rewrite OI in O. exfalso. now apply (proj2 (O _ _ E)).
    + rewrite OI in O. now apply (proj2 (O _ _ E)).
    + now rewrite OC.
    + now rewrite OP.
    + rewrite (proj1 (Q _ _ E) A) in *. intros ts' x [[= <- <-]|X]; [reflexivity|now apply M].
    + destruct (init_once s); try exact O. destruct FR as [FR _].
      intros t' th' X. get X; [destruct (O _ _ E); split; [lia|discriminate]|eapply O; eassumption].
  - intros t b -> (th & E & L). destruct (returned_step _ _ _ _ H) as (th' & ts & E' & _ & X & Y).
    replace th' with th in * by congruence. apply encode_inj. eapply M; [exact X|lia].
Qed.
Lemma seen_step f s e s' : step s e s' -> (forall t th, nth_error (threads s) t = Some th -> f <= view th) ->
  forall t th, nth_error (threads s') t = Some th -> f <= view th.
Proof using.
  intros H V. cases_step H; intros t' th' X; get X; try (eapply V; eassumption); specialize (V _ _ E);
    try (destruct FR); try lia. all: try specialize (V _ _ Eu); lia.
Qed.
Lemma says_steps f a s es s' : steps s es s' -> no_unforce es -> (a = true -> no_force es) -> says f a s ->
  says f a s'.
Proof using.
  induction 1 as [s|s e s' es s'' H1 H2 IH]; intros NU NF S; [exact S|].
  apply IH; [intros t I; apply (NU t); now right|intros E t I; apply (NF E t); now right|].
  apply (says_step f a s e s'); [exact H1|intros t ->; apply (NU t); now left|intros E t ->; apply (NF E t); now left|exact S].
Qed.
Lemma says_returned f a s es s' t b s'' : steps s es s' -> no_unforce es -> (a = true -> no_force es) -> says f a s ->
  step s' (Returned t b) s'' -> has_seen s' t f -> b = a.
Proof using.
  intros H NU NF S H' V. eapply says_step; [exact H'|discriminate|discriminate|eapply says_steps; eassumption|reflexivity|exact V].
Qed.
Lemma says_everywhere f a s es s' : steps s es s' -> no_unforce es -> (a = true -> no_force es) -> says f a s ->
  (forall t th, nth_error (threads s) t = Some th -> f <= view th) -> forall t b, In (Returned t b) es -> b = a.
Proof using.
  induction 1 as [s|s e s' es s'' H1 H2 IH]; intros NU NF S V t b I; [destruct I|].
  destruct (says_step f a s e s' H1) as [S' R]; [intros u ->; apply (NU u); now left|intros E u ->; apply (NF E u); now left|exact S|].
  destruct I as [->|I].
  - apply (R t b eq_refl). destruct (returned_step _ _ _ _ H1) as (th & ts & E & _). exists th. eauto.
  - eapply IH; try exact I; [intros u J; apply (NU u); now right|intros E u J; apply (NF E u); now right|exact S'|].
    eapply seen_step; eassumption.
Qed.

(** ** C49: calls that do not overlap *)
Definition pending_ok (s : state) : Prop := forall t th c p b,
  nth_error (threads s) t = Some th -> at_ th = Initializing c p -> pending p = Some b -> b = available t.
Lemma pending_step s e s' : step s e s' -> pending_ok s -> pending_ok s'.
Proof using.
  intros H P. unfold pending_ok in *.
  intros t' th' c' p' b' X Y Z. cases_step H; get X; try (eapply P; eassumption); try discriminate Y;
    inversion Y; subst; rewrite ?start_pending in Z; cbn [pending] in Z; congruence.
Qed.
Lemma pending_steps s es s' : steps s es s' -> pending_ok s -> pending_ok s'.
Proof using. induction 1; eauto using pending_step. Qed.
Lemma pending_initial : pending_ok initial.
Proof using. intros [|[|t]] th c p b; cbn; intros [=<-]; discriminate. Qed.
Definition distinct (s : state) : Prop := NoDup (map fst (messages s)).
Lemma distinct_step s e s' : step s e s' -> distinct s -> distinct s'.
Proof using. intros H P. unfold distinct in *. cases_step H; try exact P; destruct FR; cbn [map fst]; now constructor. Qed.
Lemma distinct_steps s es s' : steps s es s' -> distinct s -> distinct s'.
Proof using. induction 1; eauto using distinct_step. Qed.
Lemma distinct_get s ts x y : distinct s -> In (ts, x) (messages s) -> In (ts, y) (messages s) -> x = y.
Proof using.
  unfold distinct. induction (messages s) as [|[a b] l IH]; intros N X Y; [destruct X|].
  cbn [map fst] in N. inversion N as [|? ? N1 N2]; subst. destruct X as [X|X], Y as [Y|Y]; auto; try congruence.
  - inversion X; subst. apply in_fst in Y. contradiction.
  - inversion Y; subst. apply in_fst in X. contradiction.
Qed.
Definition latest (s : state) (b : bool) : Prop := exists ts, In (ts, encode b) (messages s) /\ newest s ts.
Definition quiet (a : option bool) (s : state) : Prop :=
  match a with None => init_once s = Incomplete /\ messages s = [(0, 0)] | Some b => latest s b end.
Definition idle (s : state) : Prop := forall t th, nth_error (threads s) t = Some th -> at_ th = Idle.
Definition busy (s : state) (t : nat) (th : thread) : Prop :=
  nth_error (threads s) t = Some th /\ at_ th <> Idle /\
  (forall u x, u <> t -> nth_error (threads s) u = Some x -> at_ x = Idle) /\ newest s (view th).
Definition doing (a : option bool) (s : state) (t : nat) (p : pc) : Prop :=
  match p with
  | Idle => False
  | Loading => quiet a s \/ (a = None /\ latest s (available t))
  | Entering => a = None /\ quiet None s
  | Forcing => True
  | Initializing ByOnce p => a = None /\ (stored p = true -> latest s (available t))
  | Initializing ByUnforce p => stored p = true -> latest s (available t)
  end.
Definition serially (a : option bool) (s : state) : Prop :=
  (idle s /\ quiet a s) \/ exists t th, busy s t th /\ doing a s t (at_ th).
Definition next (a : option bool) (e : event) : option bool :=
  match e with
  | Forced _ _ => Some false
  | Unforced t => Some (available t)
  | Returned t _ => Some match a with Some b => b | None => available t end
  | _ => a
  end.
Lemma busy_only s t th u x : busy s t th -> nth_error (threads s) u = Some x -> at_ x <> Idle -> u = t /\ x = th.
Proof using.
  intros (E & A & O & _) Eu Au. destruct (Nat.eq_dec u t) as [->|N]; [split; congruence|]. now specialize (O _ _ N Eu).
Qed.
Lemma busy_move s t th s' th' : busy s t th -> threads s' = update (threads s) t th' -> at_ th' <> Idle ->
  newest s' (view th') -> busy s' t th'.
Proof using.
  intros (E & A & O & _) U A' N. split; [rewrite U; eapply update_same; exact E|]. split; [exact A'|]. split; [|exact N].
  intros u x Nu Eu. rewrite U in Eu. get Eu; [now destruct Nu|]. eapply O; eassumption.
Qed.
Lemma busy_return s t th s' th' : busy s t th -> threads s' = update (threads s) t th' -> at_ th' = Idle -> idle s'.
Proof using.
  intros (E & A & O & _) U A' u x Eu. rewrite U in Eu. get Eu; [exact A'|]. eapply O; eassumption.
Qed.
Lemma busy_call s t th s' th' : (forall u, ~ in_call s u) -> nth_error (threads s) t = Some th ->
  threads s' = update (threads s) t th' -> at_ th' <> Idle -> newest s' (view th') -> busy s' t th'.
Proof using.
  intros I E U A' N. split; [rewrite U; eapply update_same; exact E|]. split; [exact A'|]. split; [|exact N].
  intros u x Nu Eu. rewrite U in Eu. get Eu; [now destruct Nu|]. destruct (at_ x) eqn:G; [reflexivity| | | |]; exfalso; apply (I u); exists x; split; congruence.
Qed.
Lemma newest_get s ts x : distinct s -> newest s ts -> In (ts, x) (messages s) -> forall b, latest s b -> x = encode b.
Proof using.
  intros DI N I b (ts' & I' & N'). pose proof (N _ I'). pose proof (N' _ I). cbn [fst] in *.
  assert (ts = ts') as <- by lia. eapply distinct_get; eassumption.
Qed.
Lemma latest_store s ts b t th : newest s (view th) -> fresh s th ts ->
  latest (put (with_message s (ts, encode b)) t {| view := ts; at_ := Idle |}) b /\
  newest (put (with_message s (ts, encode b)) t {| view := ts; at_ := Idle |}) ts.
Proof using.
  intros N [F _]. assert (G : newest (put (with_message s (ts, encode b)) t {| view := ts; at_ := Idle |}) ts).
  { intros m [<-|I]; cbn [fst]; [lia|]. specialize (N _ I). lia. }
  split; [|exact G]. exists ts. split; [now left|exact G].
Qed.
Lemma serially_step a s e s' : step s e s' -> distinct s -> pending_ok s ->
  (forall t, calls e = Some t -> (forall u, ~ in_call s u) /\ forall m, In m (messages s) -> has_seen s t (fst m)) ->
  (forall t, e <> Panicked t) -> serially a s ->
  serially (next a e) s' /\ forall t b, e = Returned t b -> Some b = next a e.
Proof using.
  intros H DI PO CA NP S.
  assert (BD : forall t th, nth_error (threads s) t = Some th -> at_ th <> Idle -> busy s t th /\ doing a s t (at_ th)).
  { intros t th E A. destruct S as [[I _]|(u & x & B & DO)]; [now specialize (I _ _ E)|].
    destruct (busy_only _ _ _ _ _ B E A) as [-> ->]. auto. }
  assert (QI : (forall u, ~ in_call s u) -> quiet a s).
  { intros N. destruct S as [[_ Q]|(u & x & (E & A & _) & _)]; [exact Q|]. destruct (N u). exists x. auto. }
  assert (CN : forall t th, nth_error (threads s) t = Some th -> (forall m, In m (messages s) -> has_seen s t (fst m)) -> newest s (view th)).
  { intros t th E V m I. destruct (V m I) as (x & Ex & L). replace th with x by congruence. exact L. }
  cases_step H; cbn [next calls returned] in *; try (now exfalso; eapply NP; reflexivity).
  all: try (destruct (CA _ eq_refl) as [C1 C2]; (split; [|discriminate]); right; eexists t, _;
      (split; [eapply busy_call; [exact C1|exact E|reflexivity|discriminate|exact (CN _ _ E C2)]|]);
      cbn [at_ doing]; rewrite ?start_stored; auto; fail).
  all: try (destruct (BD _ _ E ltac:(congruence)) as [B DO]; rewrite A in DO; cbn [doing stored] in DO).
  all: try (split; [|discriminate]; right; eexists t, _;
      (split; [eapply busy_move; [exact B|reflexivity|discriminate|apply B]|]); cbn [at_ doing stored]; auto; fail).
  - split; [|discriminate]. destruct (CA _ eq_refl) as [C1 C2]. right. eexists t, _.
    split; [eapply busy_call; [exact C1|exact E|reflexivity|discriminate|exact (CN _ _ E C2)]|].
    cbn [at_ doing]. rewrite start_stored. discriminate.
  - split; [|discriminate]. destruct S as [[I Q]|(u & x & (Eu & Au & O & N) & DO)].
    + left. split; [|exact Q]. intros u x X. cbn [threads] in X. get X; [reflexivity|eapply I; eassumption].
    + right. exists u, x. split; [|exact DO]. split; [|split; [exact Au|split; [|exact N]]].
      * cbn [threads]. rewrite nth_error_app1; [exact Eu|]. apply nth_error_Some. congruence.
      * intros w y Nw X. cbn [threads] in X. get X; [reflexivity|eapply O; eassumption].
  - split; [|discriminate]. destruct S as [[I Q]|(w & x & (Ew & Aw & O & N) & DO)].
    + left. split; [|exact Q]. intros w x X. cbn [threads] in X. get X; [reflexivity|eapply I; eassumption].
    + right. exists w, x. split; [|exact DO]. split; [|split; [exact Aw|split; [|exact N]]].
      * cbn [threads]. rewrite update_other; [exact Ew|]. intros ->. congruence.
      * intros v y Nv X. cbn [threads] in X. get X; [reflexivity|eapply O; eassumption].
  - assert (NT : newest s ts).
    { destruct B as (_ & _ & _ & N). pose proof (N _ I). cbn [fst] in *. assert (ts = view th) as -> by lia. exact N. }
    assert (G : Some b = Some match a with Some b0 => b0 | None => available t end).
    { f_equal. apply encode_inj. destruct DO as [Q|[-> Q]]; [destruct a as [b0|]|].
      - exact (newest_get s ts _ DI NT I _ Q).
      - destruct Q as [_ Q]. rewrite Q in I. destruct I as [[= _ X]|[]]. now destruct b.
      - exact (newest_get s ts _ DI NT I _ Q). }
    split; [|intros t' b' [= <- <-]; exact G]. rewrite <- G. left.
    split; [eapply busy_return; [exact B|reflexivity|reflexivity]|]. exists ts. split; [exact I|exact NT].
  - assert (NT : newest s ts).
    { destruct B as (_ & _ & _ & N). pose proof (N _ I). cbn [fst] in *. assert (ts = view th) as -> by lia. exact N. }
    split; [|discriminate]. right. eexists t, _. split; [eapply busy_move; [exact B|reflexivity|discriminate|exact NT]|].
    cbn [at_ doing]. destruct DO as [Q|[-> Q]]; [destruct a as [b0|]|].
    + destruct (NB b0). exact (newest_get s ts _ DI NT I _ Q).
    + split; [reflexivity|exact Q].
    + destruct (NB (available t)). exact (newest_get s ts _ DI NT I _ Q).
  - split; [|discriminate]. right. eexists t, _. split; [eapply busy_move; [exact B|reflexivity|discriminate|apply B]|].
    cbn [at_ doing]. rewrite start_stored. split; [apply DO|discriminate].
  - destruct DO as (_ & Q & _). congruence.
  - destruct (latest_store s ts false t th ltac:(apply B) FR) as [G _]. split; [|discriminate]. left.
    split; [eapply busy_return; [exact B|reflexivity|reflexivity]|exact G].
  - rewrite (PO _ _ _ _ _ E A eq_refl) in *. destruct (latest_store s ts (available t) t th ltac:(apply B) FR) as [G N].
    split; [|discriminate]. right. eexists t, _. split; [eapply busy_move; [exact B|reflexivity|discriminate|exact N]|].
    cbn [at_ doing]. split; [apply DO|intros _; exact G].
  - rewrite (PO _ _ _ _ _ E A eq_refl) in *. destruct (latest_store s ts (available t) t th ltac:(apply B) FR) as [G N].
    split; [|discriminate]. right. eexists t, _. split; [eapply busy_move; [exact B|reflexivity|discriminate|exact N]|].
    cbn [at_ doing]. intros _; exact G.
  - split; [|discriminate]. right. eexists t, _. split; [eapply busy_move; [exact B|reflexivity|discriminate|apply B]|].
    cbn [at_ doing]. right. destruct DO as [-> G]. split; [reflexivity|exact (G eq_refl)].
  - split; [|discriminate]. left. split; [eapply busy_return; [exact B|reflexivity|reflexivity]|exact (DO eq_refl)].
  - rewrite (PO _ _ _ _ _ E A eq_refl) in *. destruct (latest_store s ts (available t) t th ltac:(apply B) FR) as [G N].
    split; [|discriminate]. right. eexists t, _. split; [eapply busy_move; [exact B|reflexivity|discriminate|exact N]|].
    cbn [at_ doing]. split; [apply DO|intros _; exact G].
  - rewrite (PO _ _ _ _ _ E A eq_refl) in *. destruct (latest_store s ts (available t) t th ltac:(apply B) FR) as [G N].
    split; [|discriminate]. right. eexists t, _. split; [eapply busy_move; [exact B|reflexivity|discriminate|exact N]|].
    cbn [at_ doing]. intros _; exact G.
  - split; [|discriminate]. right. eexists t, _. split; [eapply busy_move; [exact B|reflexivity|discriminate|apply B]|].
    cbn [at_ doing]. right. destruct DO as [-> G]. split; [reflexivity|exact (G eq_refl)].
  - split; [|discriminate]. left. split; [eapply busy_return; [exact B|reflexivity|reflexivity]|exact (DO eq_refl)].
Qed.
Lemma serially_solo a s : serially a s -> solo s.
Proof using.
  intros [[I _]|(t & th & B & _)] u w (x & c & p & Eu & Au) (y & c' & p' & Ew & Aw).
  - specialize (I _ _ Eu). congruence.
  - destruct (busy_only _ _ _ _ _ B Eu) as [-> _]; [congruence|]. destruct (busy_only _ _ _ _ _ B Ew) as [-> _]; congruence.
Qed.
Lemma expected_next a e es : expected a (e :: es) =
  match e with Returned _ _ => match next a e with Some b => [b] | None => [] end | _ => [] end ++ expected (next a e) es.
Proof using. now destruct e. Qed.
Lemma panicked_step s q s' : step s (Panicked q) s' -> solo s -> solo s'.
Proof using.
  intros H S. remember (Panicked q) as e.
  assert (G : forall u, initializing s' u -> initializing s u).
  { intros w (y & c' & p' & E' & A'). revert Heqe. cases_step H; intros Heqe; try discriminate Heqe; get E'; try discriminate A';
      eexists _, _, _; split; eassumption. }
  intros u w X Y. apply S; auto.
Qed.
Lemma serially_steps a s es s' : serial_steps s es s' -> distinct s -> pending_ok s -> hooked s -> serially a s ->
  answers es = expected a es /\ forall t, ~ In (Panicked t) es.
Proof using.
  intros H. revert a. induction H as [s|s e s' es s'' H1 C H2 IH]; intros a DI PO HK S; [now split; [|intros t []]|].
  assert (NP : forall t, e <> Panicked t).
  { intros t ->. destruct (hooked_step _ _ _ H1) as [_ NP]; [eapply serially_solo; exact S| |exact HK|now apply (NP t)].
    eapply panicked_step; [exact H1|eapply serially_solo; exact S]. }
  destruct (serially_step a s e s' H1 DI PO C NP S) as [S' R].
  destruct (hooked_step _ _ _ H1) as [HK' _]; [eapply serially_solo; exact S|eapply serially_solo; exact S'|exact HK|].
  destruct (IH (next a e)) as [IH1 IH2]; [eapply distinct_step; eassumption|eapply pending_step; eassumption|exact HK'|exact S'|].
  split; [|intros t [X|X]; [now apply (NP t)|now apply (IH2 t)]].
  rewrite expected_next, <- IH1. change (answers (e :: es)) with (match e with Returned _ b => [b] | _ => [] end ++ answers es).
  f_equal. destruct e; try reflexivity. now rewrite <- (R _ _ eq_refl).
Qed.
Lemma serial_answers es s : serial_steps initial es s -> answers es = expected None es /\ forall t, ~ In (Panicked t) es.
Proof using.
  intros H. eapply serially_steps; [exact H| |apply pending_initial|apply hooked_initial|].
  - cbn. constructor; [now intros []|constructor].
  - left. split; [intros [|[|t]] th; cbn; intros [=<-]; reflexivity|]. split; reflexivity.
Qed.
(** One thread is always serial. *)
Definition alone (s : state) : Prop := exists th, threads s = [th] /\ newest s (view th).
Lemma alone_step s e s' : step s e s' -> (forall t, e <> Spawned t) -> alone s -> alone s'.
Proof using.
  intros H NS (y & Y & N).
  cases_step H; try (now exfalso; eapply NS; reflexivity);
    (destruct t as [|[|t]]; rewrite Y in E; cbn in E; try discriminate E; injection E as ->);
    try destruct FR as [F FR]; rewrite Y; cbn [update]; (eexists; split; [reflexivity|]); intros m J; cbn [view messages] in *;
    try (destruct J as [<-|J]; [cbn [fst]; lia|]); specialize (N _ J); cbn [fst] in *; lia.
Qed.
Lemma call_idle s e s' t : step s e s' -> calls e = Some t -> exists th, nth_error (threads s) t = Some th /\ at_ th = Idle.
Proof using.
  intros H C. destruct H; cbn [calls] in C; try discriminate C; try (destruct c; discriminate C); injection C as <-; eauto.
Qed.
Lemma alone_steps s es s' : steps s es s' -> (forall t, ~ In (Spawned t) es) -> alone s -> serial_steps s es s'.
Proof using.
  induction 1 as [s|s e s' es s'' H1 _ IH]; intros NS A; [constructor|].
  assert (N : forall t, e <> Spawned t) by (intros t ->; apply (NS t); now left).
  econstructor; [exact H1| |apply IH; [intros t I; apply (NS t); now right|eapply alone_step; eassumption]].
  intros t C. destruct (call_idle _ _ _ _ H1 C) as (th & E & I). destruct A as (x & L & NW). rewrite L in E.
  destruct t as [|[|t]]; cbn in E; try discriminate E. injection E as ->. split.
  - intros u (y & Eu & Au). rewrite L in Eu. destruct u as [|[|u]]; cbn in Eu; congruence.
  - intros m J. exists th. split; [now rewrite L|exact (NW _ J)].
Qed.
Lemma alone_initial : alone initial.
Proof using. exists {| view := 0; at_ := Idle |}. split; [reflexivity|]. intros m [<-|[]]. reflexivity. Qed.
Lemma alone_answers es s : steps initial es s -> (forall t, ~ In (Spawned t) es) ->
  answers es = expected None es /\ forall t, ~ In (Panicked t) es.
Proof using. intros H N. eapply serial_answers, alone_steps; [exact H|exact N|apply alone_initial]. Qed.

(** ** C49: what a store says from then on *)
Lemma distinct_initial : distinct initial.
Proof using. cbn. constructor; [now intros []|constructor]. Qed.
Lemma forced_step s t f s' : step s (Forced t f) s' ->
  exists th, nth_error (threads s) t = Some th /\ at_ th = Forcing /\ fresh s th f /\ s' = put (with_message s (f, encode false)) t {| view := f; at_ := Idle |}.
Proof using.
  intros H. remember (Forced t f) as e. destruct H; try discriminate Heqe; try (now destruct c; discriminate Heqe).
  injection Heqe as -> ->. exists th. auto.
Qed.
Lemma stored_step s t f b s' : step s (Stored t f b) s' ->
  exists th c p p', nth_error (threads s) t = Some th /\ at_ th = Initializing c p /\ pending p = Some b /\ stored p' = true /\ fresh s th f /\
    s' = put (with_message s (f, encode b)) t {| view := f; at_ := Initializing c p' |}.
Proof using.
  intros H. remember (Stored t f b) as e. destruct H; try discriminate Heqe; try (now destruct c; discriminate Heqe);
    injection Heqe as -> -> ->; eexists _, _, _, _; repeat split; eassumption || reflexivity || apply H1.
Qed.
Lemma says_message s t th f b p s' : fresh s th f -> s' = put (with_message s (f, encode b)) t {| view := f; at_ := p |} ->
  newest s' f -> forall ts x, In (ts, x) (messages s') -> f <= ts -> x = encode b.
Proof using.
  intros [_ N] -> NW ts x [[= <- <-]|I] L; [reflexivity|].
  pose proof (NW (ts, x) (or_intror I)). cbn [fst] in *. assert (ts = f) as -> by lia. destruct N. eapply in_fst. exact I.
Qed.
Lemma forced_says s t f s' : step s (Forced t f) s' -> newest s' f -> (forall u, ~ initializing s' u) -> detection_over s' f ->
  says f false s'.
Proof using.
  intros H N I O. destruct (forced_step _ _ _ _ H) as (th & E & A & FR & G). split; [|split; [reflexivity|]|exact O].
  - eapply says_message; eassumption.
  - intros c p X. destruct (I t0). exists th0, c, p. auto.
Qed.
Lemma stored_says s t f b s' : reachable s -> step s (Stored t f b) s' -> newest s' f -> (forall u, u <> t -> ~ initializing s' u) ->
  (forall u th, nth_error (threads s') u = Some th -> at_ th <> Forcing) -> detection_over s' f ->
  says f (available t) s'.
Proof using.
  intros [es R] H N I F O. destruct (stored_step _ _ _ _ _ H) as (th & c & p & p' & E & A & P & SP & FR & G).
  pose proof (pending_steps _ _ _ R pending_initial _ _ _ _ _ E A P) as ->. split; [| |exact O].
  - eapply says_message; eassumption.
  - intros u x X. split; [intros Y; now destruct (F _ _ X)|]. intros c' q Y.
    destruct (Nat.eq_dec u t) as [->|DF]; [|destruct (I u DF); exists x, c', q; auto].
    subst s'. change (nth_error (update (threads s) t {| view := f; at_ := Initializing c p' |}) t = Some x) in X.
    rewrite (update_same _ _ _ _ E) in X. injection X as <-. inversion Y; subst. exact SP.
Qed.
(** A program which forces before it starts its threads. *)
Lemma forced_first es s t f s' : steps initial es s -> (forall u, ~ In (Spawned u) es) -> step s (Forced t f) s' ->
  says f false s' /\ (forall u th, nth_error (threads s') u = Some th -> f <= view th).
Proof using.
  intros R NS H.
  assert (A : forall es s, steps initial es s -> (forall u, ~ In (Spawned u) es) -> alone s).
  { refine (steps_rev _ initial _ _); [intros _; apply alone_initial|]. intros x l e x' _ IH X Y. eapply alone_step; [exact X| |].
    - intros u ->. apply (Y u), in_app_iff. right. now left.
    - apply IH. intros u J. apply (Y u), in_app_iff. now left. }
  specialize (A _ _ R NS). pose proof (alone_step _ _ _ H ltac:(discriminate) A) as (x & L & NW).
  destruct (forced_step _ _ _ _ H) as (th & E & AT & FR & G).
  assert (t = 0 /\ x = {| view := f; at_ := Idle |}) as [-> ->].
  { destruct A as (y & Y & _). rewrite Y in E. destruct t as [|[|t]]; cbn in E; try discriminate E. subst s'. cbn in L. rewrite Y in L. cbn in L. split; congruence. }
  cbn [view] in *.
  assert (V : forall u th, nth_error (threads s') u = Some th -> th = {| view := f; at_ := Idle |}).
  { intros [|[|u]] y; rewrite L; cbn; congruence. }
  split; [|intros u y Y; now rewrite (V _ _ Y)].
  eapply forced_says; [exact H|exact NW| |].
  - intros u (y & c & p & Y & Z). rewrite (V _ _ Y) in Z. discriminate.
  - unfold detection_over. destruct (init_once s') as [|w| |] eqn:OE; auto.
    + intros u y Y. rewrite (V _ _ Y). now split; [|discriminate].
    + pose proof (sane_step _ _ _ H (sane_reachable s (ex_intro _ es R))) as S. destruct (sane_running s' S w OE) as (y & p & Y & Z).
      rewrite (V _ _ Y) in Z. discriminate.
Qed.
End Proofs.
