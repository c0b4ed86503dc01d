(** * Proofs about panics and compiler detection *)
From Coq Require Import List Arith Bool Lia.
From Verif Require Import Detection SpecDetect DetectProofs Unwind SpecUnwind.
Import ListNotations.

Section Proofs.
Context {D : detection}.

Lemma usteps_app s es s' es' s'' : usteps s es s' -> usteps s' es' s'' -> usteps s (es ++ es') s''.
Proof using. induction 1; cbn; intros G; [exact G|]. econstructor; eauto. Qed.
Lemma usteps_rev (P : ustate -> list uevent -> Prop) s0 : P s0 [] ->
  (forall s es e s', usteps s0 es s -> P s es -> ustep s e s' -> P s' (es ++ [e])) ->
  forall es s, usteps s0 es s -> P s es.
Proof using.
  intros H0 HS. enough (G : forall s es s', usteps s es s' -> forall es0, usteps s0 es0 s -> P s es0 -> P s' (es0 ++ es)).
  { intros es s H. exact (G s0 es s H [] (usteps_nil s0) H0). }
  induction 1 as [s|s e s' es s'' H1 H2 IH]; intros es0 R HP; [now rewrite app_nil_r|].
  replace (es0 ++ e :: es) with ((es0 ++ [e]) ++ es) by now rewrite <- app_assoc.
  apply IH; [eapply usteps_app; [exact R|econstructor; [exact H1|constructor]]|eapply HS; eassumption].
Qed.
Ltac ucases H :=
  destruct H as [s e b DE ST NP QU|s t p b DE DO PF UN ST|s t b DE ST UN|s t th d DE E A DU|s t th DE E A UN|s t p DE DO UN TH|s t b DE ST UN];
  cbn [base unwinding dead] in *.

(** ** It is Detection.v with panics added *)
Lemma ustep_base s e s' : ustep s e s' -> steps (base s) (detection_of e) (base s').
Proof using.
  intros H. ucases H; cbn; try constructor; (econstructor; [eassumption|constructor]).
Qed.
Lemma usteps_base s es s' : usteps s es s' -> steps (base s) (flat_map detection_of es) (base s').
Proof using.
  induction 1 as [s|s e s' es s'' H1 H2 IH]; [constructor|]. cbn [flat_map].
  eapply steps_app; [eapply ustep_base; exact H1|exact IH].
Qed.
Lemma in_detection es e : In e (flat_map detection_of es) -> (forall t, e <> Tau t) -> (forall t, e <> Panicked t) -> In (Step e) es.
Proof using.
  intros H N M. apply in_flat_map in H. destruct H as (u & I & J).
  destruct u as [e'|t h|t h|t h|t|t h]; cbn in J; try tauto; destruct J as [<-|[]]; [exact I|now destruct (N t)|now destruct (M t)].
Qed.
Lemma detection_no_unforce es : never_unforces es -> no_unforce (flat_map detection_of es).
Proof using. intros N t H. apply (N t). apply in_detection; [exact H|discriminate..]. Qed.
Lemma detection_no_spawn es : never_spawns es -> forall t, ~ In (Spawned t) (flat_map detection_of es).
Proof using. intros N t H. apply (N t). apply in_detection; [exact H|discriminate..]. Qed.
Lemma usane es s : usteps uinitial es s -> sane (base s).
Proof using. intros H. apply sane_reachable. exists (flat_map detection_of es). exact (usteps_base _ _ _ H). Qed.
Lemma doing_thread s t p : doing s t = Some p -> exists th c, nth_error (threads s) t = Some th /\ at_ th = Initializing c p.
Proof using.
  unfold doing. destruct (nth_error (threads s) t) as [th|]; [|discriminate]. destruct (at_ th) as [| | |c q|] eqn:A; try discriminate.
  intros [=->]. exists th, c. auto.
Qed.
Lemma doing_intro s t th c p : nth_error (threads s) t = Some th -> at_ th = Initializing c p -> doing s t = Some p.
Proof using. unfold doing. intros -> ->. reflexivity. Qed.
Lemma doing_initializing s t p : doing s t = Some p -> initializing s t.
Proof using. intros H. destruct (doing_thread _ _ _ H) as (th & c & E & A). exists th, c, p. auto. Qed.

(** ** A compiler with [is_available] *)
Lemma panicked_cause s t s' : step s (Panicked t) s' ->
  init_once s = Poisoned \/ exists g, doing s t = Some (PCheck g) /\ g <> Null.
Proof using.
  intros H. inversion H; subst; auto; try (destruct c; discriminate).
  right. exists g. split; [eapply doing_intro; eassumption|assumption].
Qed.
Lemma modern_step s e s' : by_hook = false -> step s e s' -> sane s ->
  the_hook s = Installed program_hook -> init_once s <> Poisoned ->
  the_hook s' = Installed program_hook /\ init_once s' <> Poisoned.
Proof using.
  intros B H S HK PO. pose proof (sane_config s S) as G.
  destruct H; try destruct c; cbn; auto; try (split; [exact HK|discriminate]);
    match goal with E : nth_error _ _ = Some _, A : at_ _ = Initializing _ _ |- _ => specialize (G _ _ _ _ E A); cbn in G; congruence end.
Qed.
Lemma modern_doing s t p : by_hook = false -> sane s -> doing s t = Some p -> touches_hook p = false /\ probe_fails t p = false /\ forall g, p <> PCheck g.
Proof using.
  intros B S H. destruct (doing_thread _ _ _ H) as (th & c & E & A). pose proof (sane_config s S _ _ _ _ E A) as G.
  rewrite B in G. destruct p; try discriminate G; now repeat split.
Qed.
Lemma modern es s : by_hook = false -> usteps uinitial es s ->
  undisturbed es /\ the_hook (base s) = Installed program_hook /\ init_once (base s) <> Poisoned.
Proof using.
  intros B. revert es s.
  refine (usteps_rev _ uinitial _ _); [split; [intros e []|cbn; split; [reflexivity|discriminate]]|].
  intros s es e s' R (U & HK & PO) H. pose proof (usane _ _ R) as S.
  assert (NPK : forall t b, ~ step (base s) (Panicked t) b).
  { intros t b X. destruct (panicked_cause _ _ _ X) as [P|(g & P & _)]; [contradiction|].
    destruct (modern_doing _ _ _ B S P) as (_ & _ & Q). now destruct (Q g). }
  assert (X : the_hook (base s') = Installed program_hook /\ init_once (base s') <> Poisoned).
  { clear U. ucases H; auto; eapply modern_step; eauto. }
  split; [|exact X]. intros e' I. apply in_app_iff in I. destruct I as [I|[<-|[]]]; [now apply U|].
  clear U X. ucases H; auto; try (eapply NPK; eassumption);
    destruct (modern_doing _ _ _ B S DO) as (Q1 & Q2 & _); [congruence|destruct TH; congruence].
Qed.

(** ** Programs which do not unforce *)
Lemma uhooked es s : usteps uinitial es s -> never_unforces es -> hooked (base s) /\ no_direct (base s) /\ solo (base s).
Proof using.
  intros H N. pose proof (usteps_base _ _ _ H) as R. cbn [base uinitial] in R.
  pose proof (detection_no_unforce _ N) as N'.
  pose proof (solo_no_unforce _ _ R N') as SO.
  assert (ND : no_direct (base s)).
  { clear SO H N. revert R N'. generalize (flat_map detection_of es). generalize (base s). intros b l R. revert l b R.
    refine (steps_rev _ initial _ _); [intros _; apply no_direct_initial|]. intros x l e x' _ IH X Y.
    eapply no_direct_step; [exact X|intros t ->; apply (Y t), in_app_iff; right; now left|].
    apply IH. intros t J. apply (Y t), in_app_iff. now left. }
  split; [|split; [exact ND|apply solo_no_direct; [exact (usane _ _ H)|exact ND]]].
  exact (proj1 (hooked_solo _ _ _ SO solo_initial hooked_initial)).
Qed.
Lemma no_crate_panic es s t b : usteps uinitial es s -> never_unforces es -> ~ step (base s) (Panicked t) b.
Proof using.
  intros H N X. destruct (uhooked _ _ H N) as (HK & _).
  destruct (panicked_cause _ _ _ X) as [P|(g & P & Q)]; [exact (hooked_once _ HK P)|].
  destruct (doing_thread _ _ _ P) as (th & c & E & A). pose proof (hooked_at _ HK _ _ _ _ E A) as G. cbn in G. tauto.
Qed.
Lemma crate_silent es s : usteps uinitial es s -> never_unforces es -> forall t h, ~ In (CratePanicked t h) es.
Proof using.
  revert es s. refine (usteps_rev _ uinitial _ _); [intros _ t h []|].
  intros s es e s' R IH H N t h I.
  assert (N' : never_unforces es) by (intros u J; apply (N u), in_app_iff; now left).
  apply in_app_iff in I. destruct I as [I|[->|[]]]; [exact (IH N' t h I)|].
  inversion H; subst. eapply no_crate_panic; [exact R|exact N'|eassumption].
Qed.
(** The panic of the probe is hidden. *)
Lemma probe_hidden es s t h s' : usteps uinitial es s -> never_unforces es -> ustep s (ProbePanicked t h) s' -> h = Null.
Proof using.
  intros H N X. destruct (uhooked _ _ H N) as (HK & _). inversion X; subst.
  match goal with G : doing _ _ = Some ?p, F : probe_fails _ ?p = true |- _ =>
    destruct (doing_thread _ _ _ G) as (th & c & E & A); destruct p; try discriminate F end.
  pose proof (hooked_at _ HK _ _ _ _ E A) as G. cbn in G. tauto.
Qed.
(** A panic of the program outside of detection is reported to its hook. *)
Lemma program_told es s t h s' : usteps uinitial es s -> never_unforces es -> ustep s (ProgramPanicked t h) s' ->
  (forall u, ~ initializing (base s) u) -> h = Installed program_hook.
Proof using.
  intros H N X I. destruct (uhooked _ _ H N) as (HK & _). inversion X; subst.
  destruct (hooked_idle _ HK) as [G|[u G]]; [exact G|now destruct (I u)].
Qed.

(** ** Threads which unwind *)
(** They do not get past the first line of [initialize] which touches the hook. *)
Definition unwound (s : ustate) : Prop :=
  forall t p, unwinding s t = true -> doing (base s) t = Some p ->
    match p with IQuery | IStore _ | IDone | PTake => True | _ => False end.
Lemma doing_step s e s' t p : step s e s' -> doing s' t = Some p ->
  (doing s t = Some p /\ t <> mover e) \/
  (t = mover e /\ (p = start_init \/ exists q, doing s t = Some q /\
     match q, p with
     | IQuery, IStore _ | IStore _, IDone | PTake, PSetNull _ | PSetNull _, PProbe _ | PProbe _, PStore _ _
     | PStore _ _, PTakeNull _ | PTakeNull _, PSetOriginal _ _ | PSetOriginal _ _, PCheck _ => True
     | _, _ => False
     end)) \/ (doing s t = Some p /\ exists u, e = Spawned u).
Proof using.
  intros H G. destruct (doing_thread _ _ _ G) as (x & c0 & Ex & Ax).
  destruct H as [s t' th E A|s t' th E A|s t' th E A|s t' th E A|s t' th u thu E A Eu
    |s t' th ts b E A I L|s t' th ts x' E A I NB L|s t' th E A OI|s t' th v E A OC|s t' th E A OP
    |s t' th ts E A FR|s t' th c E A|s t' th c b ts E A FR|s t' th c E A
    |s t' th c E A|s t' th c o E A|s t' th c o E A|s t' th c o b ts E A FR|s t' th c o E A|s t' th c o g E A|s t' th c E A|s t' th c g E A NN];
  unfold goto, put, with_hook, with_once, with_message, finish, abort, goto, put, with_once in *; try destruct c;
  cbn [messages threads init_once the_hook view at_ mover returned] in *.
  4: { right. right. destruct (app_get _ _ _ _ Ex) as [->|Ex']; [discriminate|]. split; [eapply doing_intro; eassumption|eauto]. }
  all: destruct (update_get _ _ _ _ _ _ E Ex) as [[-> ->]|[NE Ex']]; cbn [at_] in Ax;
    [|left; split; [eapply doing_intro; eassumption|exact NE]].
  all: try discriminate Ax.
  all: injection Ax as <- <-; right; left; split; [reflexivity|]; first
    [ left; reflexivity | right; eexists; split; [eapply doing_intro; eassumption|exact I] ].
Qed.
Lemma start_unwound : match start_init with IQuery | IStore _ | IDone | PTake => True | _ => False end.
Proof using. unfold start_init. now destruct by_hook. Qed.
Lemma idle_doing s t th : nth_error (threads s) t = Some th -> at_ th = Idle -> doing s t = None.
Proof using. unfold doing. intros -> ->. reflexivity. Qed.
Lemma unwound_step s e s' : ustep s e s' -> unwound s -> unwound s'.
Proof using.
  intros H U t0 p0 X Y. ucases H.
  - destruct (doing_step _ _ _ _ _ ST Y) as [[Z _]|[[-> [->|(q & Z & W)]]|[Z _]]];
      [eapply U; eassumption|apply start_unwound| |eapply U; eassumption].
    pose proof (U _ _ X Z) as Q. unfold quiet in QU. rewrite Z, X in QU.
    destruct q; try contradiction Q; destruct p0; try contradiction W; try exact I. discriminate QU.
  - destruct (doing_step _ _ _ _ _ ST Y) as [[Z _]|[[-> [->|(q & Z & W)]]|[Z _]]];
      [eapply U; eassumption|apply start_unwound| |eapply U; eassumption].
    cbn [mover] in *. congruence.
  - unfold set_unwinding in X. destruct (t0 =? t) eqn:T.
    + apply Nat.eqb_eq in T. subst t0. exfalso.
      destruct (doing_step _ _ _ _ _ ST Y) as [[_ Z]|[[_ [->|(q & Z & W)]]|[_ [u Z]]]]; [now apply Z| | |discriminate Z].
      * inversion ST; subst; try (destruct c; discriminate); try destruct c;
          unfold abort, goto, put, with_once, doing in Y; cbn in Y; erewrite update_same in Y by eassumption; discriminate Y.
      * inversion ST; subst; try (destruct c; discriminate); try destruct c;
          unfold abort, goto, put, with_once, doing in Y; cbn in Y; erewrite update_same in Y by eassumption; discriminate Y.
    + apply Nat.eqb_neq in T. destruct (doing_step _ _ _ _ _ ST Y) as [[Z _]|[[-> _]|[Z _]]]; [eapply U; eassumption|now destruct T|eapply U; eassumption].
  - unfold set_unwinding in X. destruct (t0 =? t) eqn:T; [|eapply U; eassumption].
    apply Nat.eqb_eq in T. subst t0. rewrite (idle_doing _ _ _ E A) in Y. discriminate Y.
  - unfold set_unwinding in X. destruct (t0 =? t) eqn:T; [discriminate X|eapply U; eassumption].
  - eapply U; eassumption.
  - eapply U; eassumption.
Qed.
Lemma unwound_reachable es s : usteps uinitial es s -> unwound s.
Proof using.
  intros H. enough (G : unwound uinitial -> unwound s) by (apply G; intros t p X; discriminate X).
  induction H as [s|s e s' es s'' H1 H2 IH]; [auto|]. intros U. apply IH. eapply unwound_step; eassumption.
Qed.
(** When this crate aborts the process. *)
Lemma abort_cause es s t h s' : usteps uinitial es s -> never_unforces es -> ustep s (Aborted t h) s' ->
  by_hook = true /\ unwinding s t = true /\ init_once (base s) = Running t /\ doing (base s) t = Some PTake.
Proof using.
  intros H N X. pose proof (unwound_reachable _ _ H) as U. pose proof (usane _ _ H) as S.
  destruct (uhooked _ _ H N) as (_ & ND & _).
  inversion X; subst.
  - assert (p = PTake) as ->.
    { pose proof (U t p ltac:(assumption) ltac:(assumption)) as Q.
      destruct p; try contradiction Q; try reflexivity; match goal with G : _ \/ _ |- _ => destruct G as [G|G]; discriminate G end. }
    match goal with G : doing _ _ = Some _ |- _ => destruct (doing_thread _ _ _ G) as (th & c & E & A) end.
    destruct c; [|now destruct (ND _ _ _ E A)].
    repeat split; try assumption; [exact (sane_config _ S _ _ _ _ E A)|exact (sane_once _ S _ _ _ E A)].
  - exfalso. eapply no_crate_panic; [exact H|exact N|eassumption].
Qed.
(** And there it can do nothing else. *)
Lemma mover_thread e : mover e = thread_of (Step e).
Proof using. now destruct e. Qed.
Lemma abort_certain s t0 e s' : doing (base s) t0 = Some PTake -> unwinding s t0 = true -> ustep s e s' -> thread_of e = t0 ->
  exists h, e = Aborted t0 h.
Proof using.
  intros DO' UN' H T. ucases H; rewrite <- ?mover_thread in T; cbn [thread_of] in T; subst;
    try (rewrite (idle_doing _ _ _ E A) in DO'; discriminate DO'); try congruence; try (eexists; reflexivity).
  unfold quiet in QU. rewrite DO', UN' in QU. discriminate QU.
Qed.

(** ** Nothing gets stuck *)
Lemma moved_mover e t : moved e = Some t -> mover e = t.
Proof using. destruct e; cbn; congruence. Qed.
Lemma uprogress_of s e b t : dead s = false -> step (base s) e b -> moved e = Some t ->
  exists e' s', ustep s e' s' /\ thread_of e' = t.
Proof using.
  intros DE ST M. pose proof (moved_mover _ _ M) as T. destruct (unwinding s t) eqn:UN.
  - destruct (quiet s t) eqn:Q.
    + assert ((exists u, e = Panicked u) \/ forall u, e <> Panicked u) as [[u ->]|NP] by (destruct e; eauto; right; discriminate).
      * cbn in T. subst u. eexists _, _. split; [eapply ustep_abort_crate; eassumption|reflexivity].
      * eexists _, _. split; [eapply ustep_quiet; try eassumption; now rewrite T|]. now rewrite <- mover_thread.
    + unfold quiet in Q. destruct (doing (base s) t) as [p|] eqn:DO; [|discriminate]. rewrite UN in Q.
      eexists _, _. split; [eapply (ustep_abort_hook s t p); try assumption|reflexivity].
      destruct (touches_hook p), (probe_fails t p); auto; discriminate.
  - destruct (quiet s t) eqn:Q.
    + assert ((exists u, e = Panicked u) \/ forall u, e <> Panicked u) as [[u ->]|NP] by (destruct e; eauto; right; discriminate).
      * cbn in T. subst u. eexists _, _. split; [eapply ustep_crate_panic; eassumption|reflexivity].
      * eexists _, _. split; [eapply ustep_quiet; try eassumption; now rewrite T|]. now rewrite <- mover_thread.
    + unfold quiet in Q. destruct (doing (base s) t) as [p|] eqn:DO; [|discriminate]. rewrite UN in Q. cbn [andb negb] in Q.
      rewrite andb_true_r in Q. apply negb_false_iff in Q.
      destruct p; try discriminate Q. destruct (doing_thread _ _ _ DO) as (th & c & E & A).
      eexists _, _. split; [eapply ustep_probe; try eassumption; eapply step_probe; eassumption|reflexivity].
Qed.
Lemma uprogress es s t : usteps uinitial es s -> dead s = false -> in_call (base s) t ->
  (exists e s', ustep s e s' /\ thread_of e = t) \/
  (exists u e s', u <> t /\ initializing (base s) u /\ ustep s e s' /\ thread_of e = u).
Proof using.
  intros H DE I.
  assert (R : reachable (base s)) by (exists (flat_map detection_of es); exact (usteps_base _ _ _ H)).
  destruct (progress _ _ R I) as [(e & b & ST & M)|(u & e & b & NE & IN & ST & M)].
  - left. eapply uprogress_of; eassumption.
  - right. destruct (uprogress_of _ _ _ _ DE ST M) as (e' & s' & X & Y). eauto 10.
Qed.

(** ** Asking before starting threads *)
Record settled (s : state) : Prop := {
  settled_sane : sane s;
  settled_hook : the_hook s = Installed program_hook;
  settled_views : forall t th, nth_error (threads s) t = Some th -> 0 < view th;
  settled_at : forall t th, nth_error (threads s) t = Some th -> at_ th = Idle \/ at_ th = Loading \/ at_ th = Forcing
}.
Lemma settled_step s e s' : step s e s' -> (forall t, e <> CallUnforce t) -> settled s -> settled s' /\ forall t, e <> Panicked t.
Proof using.
  intros H NU [S HK V A0]. pose proof (sane_step _ _ _ H S) as S'. pose proof (sane_values _ S) as SV.
  destruct H as [s t' th E A|s t' th E A|s t' th E A|s t' th E A|s t' th u thu E A Eu
    |s t' th ts b E A I L|s t' th ts x' E A I NB L|s t' th E A OI|s t' th v E A OC|s t' th E A OP
    |s t' th ts E A FR|s t' th c E A|s t' th c b ts E A FR|s t' th c E A
    |s t' th c E A|s t' th c o E A|s t' th c o E A|s t' th c o b ts E A FR|s t' th c o E A|s t' th c o g E A|s t' th c E A|s t' th c g E A NN];
  try (destruct (A0 _ _ E) as [Q|[Q|Q]]; congruence); try (now destruct (NU t'));
  pose proof (V _ _ E) as VE.
  all: try (destruct (SV _ _ I) as [[-> ->]|[P (b' & ->)]]; [lia|try now destruct (NB b')]).
  all: split; [|discriminate]; split; [exact S'|exact HK|..];
    unfold goto, put, with_message; cbn [threads]; intros t th0 X.
  all: first [ destruct (update_get _ _ _ _ _ _ E X) as [[-> ->]|[NE X']] | destruct (app_get _ _ _ _ X) as [->|X'] ]; cbn [view at_]; eauto; try lia.
  destruct FR. lia.
Qed.
Lemma settled_usteps s es s' : usteps s es s' -> never_unforces es -> settled (base s) -> undisturbed es /\ settled (base s').
Proof using.
  induction 1 as [s|s e s' es s'' H1 H2 IH]; intros N S; [split; [intros e []|exact S]|].
  assert (N' : never_unforces es) by (intros t I; apply (N t); now right).
  assert (N0 : forall t, e <> Step (CallUnforce t)) by (intros t ->; apply (N t); now left).
  assert (DN : forall t, doing (base s) t = None).
  { intros t. unfold doing. destruct (nth_error (threads (base s)) t) as [th|] eqn:E; [|reflexivity].
    destruct (settled_at _ S _ _ E) as [->|[->| ->]]; reflexivity. }
  assert (X : settled (base s') /\ match e with
    | ProgramPanicked _ h => h = Installed program_hook
    | ProbePanicked _ _ | CratePanicked _ _ | Aborted _ _ => False
    | Step _ | Caught _ => True end).
  { clear IH H2 N N'. ucases H1; try (rewrite DN in DO; discriminate DO).
    - split; [|exact I]. refine (proj1 (settled_step _ _ _ ST _ S)). intros t ->. now apply (N0 t).
    - exfalso. refine (proj2 (settled_step _ _ _ ST _ S) t eq_refl). discriminate.
    - split; [exact S|]. apply (settled_hook _ S).
    - split; [exact S|exact I].
    - exfalso. refine (proj2 (settled_step _ _ _ ST _ S) t eq_refl). discriminate. }
  destruct X as [S' X]. destruct (IH N' S') as [U S'']. split; [|exact S''].
  intros e' [<-|I]; [exact X|exact (U _ I)].
Qed.
Lemma asked_first es1 s1 t b s2 es2 s3 :
  usteps uinitial es1 s1 -> never_spawns es1 -> ustep s1 (Step (Returned t b)) s2 -> usteps s2 es2 s3 ->
  never_unforces es1 -> never_unforces es2 -> undisturbed es2.
Proof using.
  intros H NS RT H2 N1 N2. refine (proj1 (settled_usteps _ _ _ H2 N2 _)).
  pose proof (usane _ _ H) as S.
  assert (A : alone (base s1)).
  { pose proof (usteps_base _ _ _ H) as R. pose proof (detection_no_spawn _ NS) as NS'. cbn [base uinitial] in R.
    revert R NS'. generalize (flat_map detection_of es1). generalize (base s1). intros x l R. revert l x R.
    refine (steps_rev _ initial _ _); [intros _; apply alone_initial|]. intros x l e x' _ IH X Y. eapply alone_step; [exact X| |].
    - intros u ->. apply (Y u), in_app_iff. right. now left.
    - apply IH. intros u J. apply (Y u), in_app_iff. now left. }
  assert (H' : usteps uinitial (es1 ++ [Step (Returned t b)]) s2) by (eapply usteps_app; [exact H|econstructor; [exact RT|constructor]]).
  assert (N' : never_unforces (es1 ++ [Step (Returned t b)])).
  { intros u I. apply in_app_iff in I. destruct I as [I|[I|[]]]; [now apply (N1 u)|discriminate I]. }
  destruct (uhooked _ _ H' N') as (HK & _).
  destruct A as (y & Y & _). inversion RT; subst. cbn [base] in *.
  match goal with G : step _ _ _ |- _ => inversion G; subst; try (destruct c; discriminate) end.
  assert (t = 0) as ->.
  { match goal with G : nth_error _ t = Some _ |- _ => rewrite Y in G; destruct t as [|[|t]]; cbn in G; try discriminate G; reflexivity end. }
  assert (P : 0 < ts).
  { match goal with G : In _ (messages _) |- _ => destruct (sane_values _ S _ _ G) as [[_ Q]|[Q _]]; [destruct b; discriminate Q|exact Q] end. }
  pose proof (usane _ _ H') as S'. cbn [base] in S'.
  assert (V : forall u th, nth_error (update (threads (base s1)) 0 {| view := ts; at_ := Idle |}) u = Some th -> th = {| view := ts; at_ := Idle |}).
  { rewrite Y. intros [|[|u]] z; cbn; congruence. }
  split; [exact S'| | |].
  - destruct (hooked_idle _ HK) as [G|(u & z & c & p & E & A)]; [exact G|]. cbn [put threads] in E. rewrite (V _ _ E) in A. discriminate A.
  - cbn [put threads]. intros u z E. now rewrite (V _ _ E).
  - cbn [put threads]. intros u z E. rewrite (V _ _ E). auto.
Qed.
End Proofs.
