(** * The build script: two runs compared, and conditional compilation *)
From Verif Require Import Base BaseFacts BuildWorld Build SpecBuild BuildProofs BuildClaims BuildRuns.
Import ListNotations.
Local Open Scope N_scope.

(** ** C71: when to run again *)

Lemma bootstrap_watched w m es : main w 0%nat = (Some (tt, m), es) ->
  (In watches_bootstrap es <->
   macro_feature w = true /\
   ~ (var w (lit "RUSTC_STAGE") = None /\ accepted w (lit "proc_macro_span") false) /\
   ((var w (lit "RUSTC_STAGE") = None /\ accepted w (lit "proc_macro_span") true) \/
    var w (lit "RUSTC_BOOTSTRAP") <> Some (lit "1"))).
Proof.
  intro H. apply main_finished in H as [D H].
  assert (X : forall k, ~ In watches_bootstrap (heads w k)).
  { intros k I. unfold heads in I. rewrite !in_app_iff, !in_opt, in_map_iff in I. cbn [In] in I. fall I; try contradiction; try discriminate.
    match goal with H : exists x, _ |- _ => destruct H as (x & E & _) end. discriminate E. }
  assert (Q : forall f k n b j e, do_compile_probe w f k n = (Some (b, j), e) -> ~ In watches_bootstrap e).
  { intros f k n b j e R I. apply probe_done in R as (_ & _ & _ & dir & c & _ & -> & _).
    cbn [In] in I. fall I; try contradiction; discriminate. }
  assert (U : forall f k n b j e, compile_probe_unstable w f k n = (Some (b, j), e) -> ~ In watches_bootstrap e).
  { unfold compile_probe_unstable. intros f k n b j e R. destruct (var w (lit "RUSTC_STAGE")); [|eauto].
    injection R as <- <- <-. intros []. }
  assert (T : forall a c f n b j e, or_else a c (compile_probe_stable w f) n = (Some (b, j), e) -> ~ In watches_bootstrap e).
  { unfold or_else, compile_probe_stable. intros a c f n b j e R.
    destruct a; [|destruct c; [destruct (var w (lit "RUSTC_STAGE"))|]]; try (injection R as <- <- <-; intros []). eauto. }
  destruct H as [(M & _ & ->)|(M & p & s & l & f & e1 & n1 & e2 & n2 & e3 & E1 & E2 & E3 & ->)].
  - rewrite in_app_iff. cbn [In]. split; [|intuition congruence].
    intros [K|[K|[]]]; [now apply X in K|discriminate K].
  - apply T in E2. apply T in E3.
    assert (K1 : ~ In watches_bootstrap e1).
    { unfold probe_span in E1. apply bind_done in E1 as (b & k1 & d1 & d2 & H1 & H & ->).
      apply U in H1. rewrite in_app_iff. intros [I|I]; [easy|].
      destruct b; [injection H as <- <- <- <-; easy|].
      destruct (var w (lit "RUSTC_BOOTSTRAP")); [|injection H as <- <- <- <-; easy].
      apply bind_done in H as (b & k2 & d3 & d4 & H2 & H & ->).
      apply U in H2. apply in_app_iff in I as [I|I]; [easy|].
      destruct b; [|destruct (str_eqb _ _)]; injection H as <- <- <- <-; easy. }
    apply span_run in E1 as (_ & _ & _ & _ & S).
    rewrite !in_app_iff, !in_opt. cbn [In]. specialize (X (number_of w)).
    split.
    + intros K. split; [assumption|]. apply S. fall K; try contradiction; try discriminate; assumption.
    + intros [_ K]. apply S in K. do 9 right. auto.
Qed.

Lemma same_release w v n : same_but_bootstrap w v -> release v n <-> release w n.
Proof.
  intros (V & _ & _ & _ & _ & E & _). unfold release. rewrite (V (lit "RUSTC")) by discriminate. rewrite E. tauto.
Qed.
Lemma same_probe w v feature keep dir c : same_but_bootstrap w v ->
  probe v feature keep dir c ->
  probe w feature keep dir {| program := program c; arguments := arguments c;
    BuildWorld.bootstrap := if keep then var w (lit "RUSTC_BOOTSTRAP") else None |}.
Proof.
  intros (V & _). unfold probe, filled, flags, target. rewrite !V by discriminate.
  intros (a1 & a2 & a3 & a4 & a5 & a6 & H). exists a1, a2, a3, a4, a5, a6. cbn [program arguments BuildWorld.bootstrap].
  destruct H as (A1 & A2 & A3 & A4 & A5 & A6 & A7 & A8 & _). repeat (split; [assumption|]). reflexivity.
Qed.
Lemma same_sym w v : same_but_bootstrap w v -> same_but_bootstrap v w.
Proof. intros (A & B). split; [intros k K; symmetry; now apply A|]. intuition. Qed.
Lemma same_without w v feature : same_but_bootstrap w v -> accepted v feature false -> accepted w feature false.
Proof.
  intros S (dir & c & P & K). exists dir. eexists. split; [eapply same_probe; eassumption|].
  destruct S as (_ & _ & _ & _ & _ & _ & <- & _). rewrite <- K. f_equal.
  destruct P as (? & ? & ? & ? & ? & ? & _ & _ & _ & _ & _ & _ & _ & _ & B). destruct c. cbn in *. congruence.
Qed.
Lemma same_stable w v feature : same_but_bootstrap w v -> stable_anyway w -> feature <> lit "proc_macro_span" ->
  (accepted v feature true <-> accepted w feature true).
Proof.
  intros S A F. assert (C : compile v = compile w) by (destruct S; intuition).
  split; intros (dir & c & P & K).
  - pose proof (same_probe w v _ _ _ _ S P) as P'. exists dir. eexists. split; [exact P'|].
    rewrite <- K, C. symmetry. eapply A; [exact F|exact P'|reflexivity|reflexivity].
  - pose proof (same_probe v w _ _ _ _ (same_sym _ _ S) P) as P'. exists dir. eexists. split; [exact P'|].
    rewrite <- K, C. eapply A; [exact F|exact P|reflexivity|reflexivity].
Qed.

Lemma wanted_same w v : (forall n, release v n <-> release w n) ->
  semver_exempt v = semver_exempt w -> span_feature v = span_feature w -> macro_feature v = macro_feature w ->
  (nightly v <-> nightly w) ->
  (~ nightly w -> stable v (lit "proc_macro_span_location") <-> stable w (lit "proc_macro_span_location")) ->
  (~ nightly w -> stable v (lit "proc_macro_span_file") <-> stable w (lit "proc_macro_span_file")) ->
  (nightly w \/ ~ nightly w) ->
  forall name, wanted v name -> wanted w name.
Proof.
  intros R E1 E2 E3 N S1 S2 X name K.
  assert (O : forall j, older v j -> older w j) by (intros j (m & A & B); exists m; split; [now apply R|assumption]).
  destruct K; constructor; rewrite <- ?E1, <- ?E2, <- ?E3; auto; try tauto.
Qed.

Lemma nightly_dec w m es : main w 0%nat = (Some (tt, m), es) -> nightly w \/ ~ nightly w.
Proof.
  intro H. apply main_finished in H as [_ [(M & _)|(M & p & s & l & f & e1 & n1 & e2 & n2 & e3 & E1 & _)]].
  - right. intros [K _]. congruence.
  - apply span_run in E1 as (_ & _ & _ & P & _). unfold nightly. destruct p.
    + left. split; [assumption|]. now apply P.
    + right. intros [_ K]. apply P in K. discriminate.
Qed.

Lemma without_dec w m es : main w 0%nat = (Some (tt, m), es) -> macro_feature w = true -> var w (lit "RUSTC_STAGE") = None ->
  accepted w (lit "proc_macro_span") false \/ ~ accepted w (lit "proc_macro_span") false.
Proof.
  intros H M T. apply main_finished in H as [_ [(M' & _)|(_ & p & s & l & f & e1 & n1 & e2 & n2 & e3 & E1 & _)]]; [congruence|].
  unfold probe_span in E1. apply bind_done in E1 as (b & k1 & d1 & d2 & H1 & _).
  apply unstable_run in H1 as (_ & _ & B & _); [|left; reflexivity]. destruct b; [left; now apply B|].
  right. intro Q. assert (false = true) by (apply B; auto). discriminate.
Qed.

Lemma bootstrap_unwatched w m es v m' es' :
  main w 0%nat = (Some (tt, m), es) -> ~ In watches_bootstrap es ->
  same_but_bootstrap w v -> one_is_most w -> stable_anyway w ->
  main v 0%nat = (Some (tt, m'), es') -> forall name, In (cfg name) es' <-> In (cfg name) es.
Proof.
  intros H N S O A H'. pose proof (cfgs_exact _ _ _ H) as X. pose proof (cfgs_exact _ _ _ H') as X'.
  rewrite (bootstrap_watched _ _ _ H) in N. pose proof (nightly_dec _ _ _ H) as ND.
  pose proof (nightly_dec _ _ _ H') as ND'.
  assert (Es := S). destruct Es as (V & F1 & F2 & F3 & _ & _ & C & _).
  assert (St : var v (lit "RUSTC_STAGE") = var w (lit "RUSTC_STAGE")) by (apply V; discriminate).
  assert (NN : nightly v <-> nightly w).
  { unfold nightly. rewrite F3, St. split; intros (M & T & K); (split; [assumption|]); (split; [assumption|]).
    - destruct ND as [D|D]; [apply D|]. exfalso. apply N. split; [assumption|].
      assert (D1 : ~ accepted w (lit "proc_macro_span") false) by (intro; apply D; unfold nightly; auto).
      assert (D2 : ~ accepted w (lit "proc_macro_span") true) by (intro; apply D; unfold nightly; auto).
      split; [tauto|]. right. intro B.
      destruct K as [K|K]; [apply D1; eapply same_without; eassumption|].
      destruct K as (dir & c & P & K). apply D2. exists dir. eexists. split; [eapply same_probe; eassumption|].
      rewrite C in K. revert K. apply O; [reflexivity|reflexivity|exact B].
    - left. eapply same_without; [apply same_sym; eassumption|].
      destruct K as [K|K]; [assumption|]. destruct (without_dec _ _ _ H M T) as [D|D]; [assumption|].
      exfalso. apply N. rewrite T. tauto. }
  assert (R : forall n, release v n <-> release w n) by (intro; now apply same_release).
  assert (SS : forall f, f <> lit "proc_macro_span" -> (stable v f <-> stable w f)).
  { intros f D. unfold stable, since. rewrite F3, St. pose proof (same_stable w v f S A D) as Q.
    split; intros (M & L & K); (split; [assumption|]); (split; [intros n; rewrite <- (R n) || rewrite (R n); apply L|]); tauto. }
  intro name. rewrite X, X'. split; apply wanted_same; auto; try tauto; try (intros _; apply SS; discriminate);
    try (intros _; symmetry; apply SS; discriminate).
  intro n. symmetry. apply R.
Qed.

(** Nothing else hangs on the variable when it is not looked at. *)
Lemma same_command w v r dir feature : same_but_bootstrap w v ->
  probe_command v r dir feature false = probe_command w r dir feature false.
Proof. intros (V & _). unfold probe_command. rewrite !V by discriminate. reflexivity. Qed.
Lemma same_probe_run w v feature n : same_but_bootstrap w v ->
  do_compile_probe v feature false n = do_compile_probe w feature false n.
Proof.
  intro S. pose proof S as (V & _ & _ & _ & L & _ & C & M & R).
  unfold do_compile_probe, cargo_env_var. rewrite !V by discriminate.
  unfold create_dir, remove_dir. rewrite L, M, R, C.
  destruct (var w (lit "RUSTC")) as [r|]; [|reflexivity]. destruct (var w (lit "OUT_DIR")) as [o|]; [|reflexivity].
  unfold bind, println, emit, ret. rewrite (same_command w v) by assumption. reflexivity.
Qed.
Lemma same_heads w v k : same_but_bootstrap w v -> heads v k = heads w k.
Proof. intros (_ & A & B & _). unfold heads. now rewrite A, B. Qed.
Lemma same_number w v : same_but_bootstrap w v -> number_of v = number_of w.
Proof. intros (V & _ & _ & _ & _ & A & _). unfold number_of. rewrite V by discriminate. now rewrite A. Qed.

Lemma span_known w n : var w (lit "RUSTC_STAGE") = None -> accepted w (lit "proc_macro_span") false ->
  probe_span w n = match do_compile_probe w (lit "proc_macro_span") false n with
    | (Some (_, m), es) => (Some ((true, false), m), es)
    | (None, es) => (None, es)
    end.
Proof.
  intros T K. unfold probe_span, compile_probe_unstable. rewrite T. unfold bind at 1.
  destruct (do_compile_probe w (lit "proc_macro_span") false n) as [[[b m]|] es] eqn:E; [|reflexivity].
  apply probe_answer in E. assert (b = true) as -> by (now apply E). cbn. now rewrite app_nil_r.
Qed.
Lemma bind_same {A B} (m1 m2 : script A) (f1 f2 : A -> script B) n : m1 n = m2 n ->
  (forall a n1 e1, m2 n = (Some (a, n1), e1) -> f1 a n1 = f2 a n1) -> bind m1 f1 n = bind m2 f2 n.
Proof.
  intros E H. unfold bind. rewrite E. destruct (m2 n) as [[[a n1]|] e1]; [|reflexivity].
  cbv zeta. now rewrite (H a n1 e1 eq_refl).
Qed.

Lemma bootstrap_ignored w v : same_but_bootstrap w v ->
  macro_feature w = false \/ (var w (lit "RUSTC_STAGE") = None /\ accepted w (lit "proc_macro_span") false) ->
  main v 0%nat = main w 0%nat.
Proof.
  intros S K. rewrite !main_eq. rewrite (same_number w v), (same_heads w v) by assumption.
  pose proof S as (V & F1 & F2 & F3 & _ & _ & C & _).
  rewrite V by discriminate. destruct (var w (lit "RUSTC")) as [rustc|]; [|reflexivity].
  assert (E : tails v 0%nat = tails w 0%nat); [|now rewrite E].
  unfold tails. rewrite F3. destruct (macro_feature w); [|reflexivity]. cbn [negb].
  destruct K as [[=]|[T K]]. rewrite F1.
  assert (T' : var v (lit "RUSTC_STAGE") = None) by (rewrite V by discriminate; assumption).
  assert (K' : accepted v (lit "proc_macro_span") false) by (eapply same_without; [apply same_sym; eassumption|assumption]).
  apply bind_same.
  - rewrite !span_known by assumption. now rewrite (same_probe_run w v).
  - intros [p s] n1 e1 E. rewrite span_known in E by assumption.
    destruct (do_compile_probe w _ _ _) as [[[b m]|] e]; [|discriminate E]. injection E as <- <- <- <-. reflexivity.
Qed.

(** The answers to probes whose files are not watched are not used. *)
Definition agree (w v : world) (es : list event) : Prop :=
  forall feature keep dir c, probe w feature keep dir c -> In (watches_file feature) es -> compile v c = compile w c.
Definition tracks {A} (w v : world) (mv mw : script A) : Prop := forall n, agree w v (snd (mw n)) -> mv n = mw n.
Lemma tracks_same {A} w v (m : script A) : tracks w v m m.
Proof. intros n _. reflexivity. Qed.
Lemma tracks_bind {A B} w v (mv mw : script A) (fv fw : A -> script B) :
  tracks w v mv mw -> (forall a, tracks w v (fv a) (fw a)) -> tracks w v (bind mv fv) (bind mw fw).
Proof.
  intros M F n H. unfold bind in H. apply bind_same.
  - apply M. destruct (mw n) as [[[a n1]|] e1]; [|exact H]. intros f k d c P I. apply (H f k d c P).
    cbv zeta. cbn [snd] in *. apply in_app_iff. now left.
  - intros a n1 e1 E. rewrite E in H. apply F. intros f k d c P I. apply (H f k d c P).
    cbv zeta. cbn [snd]. apply in_app_iff. now right.
Qed.

Lemma tracks_probe w v feature keep : same_but_compile w v ->
  tracks w v (do_compile_probe v feature keep) (do_compile_probe w feature keep).
Proof.
  intros (V & _ & _ & _ & L & _ & M & R) n H.
  assert (K : forall dir c, probe w feature keep dir c -> compile v c = compile w c).
  { intros dir c P. apply (H feature keep dir c P). unfold do_compile_probe. unfold bind at 1, println at 1, emit at 1.
    cbv zeta. cbn [snd app]. now left. }
  unfold do_compile_probe, cargo_env_var, create_dir, remove_dir. rewrite !V, L, M, R.
  destruct (var w (lit "RUSTC")) as [r|] eqn:Er; [|reflexivity]. destruct (var w (lit "OUT_DIR")) as [o|] eqn:Eo; [|reflexivity].
  assert (Pc : forall d, probe_command v r d feature keep = probe_command w r d feature keep)
    by (intro d; unfold probe_command; now rewrite !V).
  unfold bind, println, emit, ret. rewrite Pc.
  rewrite (K (join_path o (lit "probe"))); [reflexivity|]. apply probe_iff. eauto 6.
Qed.

Lemma unwatched_unused w v : same_but_compile w v -> agree w v (snd (main w 0%nat)) -> main v 0%nat = main w 0%nat.
Proof.
  intros S H. pose proof S as (V & F1 & F2 & F3 & L & N & M & R).
  assert (T : tracks w v (main v) (main w)); [|now apply T].
  assert (U : forall f k, tracks w v (compile_probe_unstable v f k) (compile_probe_unstable w f k)).
  { intros f k. unfold compile_probe_unstable. rewrite V. destruct (var w (lit "RUSTC_STAGE")); [apply tracks_same|now apply tracks_probe]. }
  assert (O : forall a b f, tracks w v (or_else a b (compile_probe_stable v f)) (or_else a b (compile_probe_stable w f))).
  { intros a b f. unfold or_else, compile_probe_stable. destruct a; [apply tracks_same|]. destruct b; [|apply tracks_same].
    rewrite V. destruct (var w (lit "RUSTC_STAGE")); [apply tracks_same|now apply tracks_probe]. }
  unfold main. rewrite F1, F2, F3.
  apply tracks_bind; [unfold rustc_minor_version, cargo_env_var; rewrite V, N; apply tracks_same|intro minor].
  do 6 (apply tracks_bind; [apply tracks_same|intros _]).
  destruct (negb (macro_feature w)); [apply tracks_same|].
  apply tracks_bind.
  - unfold probe_span. apply tracks_bind; [apply U|]. intros [|]; [apply tracks_same|].
    rewrite V. destruct (var w (lit "RUSTC_BOOTSTRAP")); [|apply tracks_same].
    apply tracks_bind; [apply U|]. intros b. apply tracks_same.
  - intros pr. do 2 (apply tracks_bind; [apply tracks_same|intros _]).
    apply tracks_bind; [apply O|intro l]. apply tracks_bind; [apply tracks_same|intros _].
    apply tracks_bind; [apply O|intro f]. apply tracks_same.
Qed.

(** ** C72: what is switched on can be used *)

Lemma usable_span w m es : value_allows w -> main w 0%nat = (Some (tt, m), es) ->
  In (cfg (lit "proc_macro_span")) es -> accepted w (lit "proc_macro_span") true.
Proof.
  intros A H I. apply (cfgs_exact _ _ _ H) in I. inversion I as [| | | | | | | N| | |].
  destruct N as (_ & _ & [(dir & c & P & K)|N]); [|assumption].
  exists dir, {| program := program c; arguments := arguments c; BuildWorld.bootstrap := var w (lit "RUSTC_BOOTSTRAP") |}.
  split.
  - destruct P as (a1 & a2 & a3 & a4 & a5 & a6 & P). exists a1, a2, a3, a4, a5, a6.
    cbn [program arguments BuildWorld.bootstrap]. tauto.
  - revert K. apply A; [reflexivity|reflexivity|].
    destruct P as (? & ? & ? & ? & ? & ? & _ & _ & _ & _ & _ & _ & _ & _ & B). exact B.
Qed.
Lemma usable_part w m es : value_allows w -> var w (lit "RUSTC_STAGE") = None -> main w 0%nat = (Some (tt, m), es) ->
  forall part, part = lit "proc_macro_span_location" \/ part = lit "proc_macro_span_file" ->
  In (cfg part) es -> accepted w (lit "proc_macro_span") true \/ (since w 88 /\ accepted w part true).
Proof.
  intros A T H part E I. assert (W := I). apply (cfgs_exact _ _ _ H) in W.
  assert (K : nightly w \/ stable w part).
  { destruct E as [->| ->]; inversion W; assumption. }
  destruct K as [K|(_ & S & [K|K])]; [left|congruence|auto].
  eapply usable_span; [assumption|exact H|]. apply (cfgs_exact _ _ _ H). now constructor.
Qed.

(** ** C69: conditional compilation *)

Section gates.
Context (w : world) (m : nat) (es : list event) (extra flag feature : str -> bool).
Hypotheses (run : main w 0%nat = (Some (tt, m), es)) (with_flags : compiled_with es extra flag)
  (own : forall name, printable name -> extra name = true -> name = lit "procmacro2_semver_exempt")
  (features : feature (lit "proc-macro") = macro_feature w).

Lemma flag_wanted name : printable name -> name <> lit "procmacro2_semver_exempt" ->
  (flag name = true <-> wanted w name).
Proof using run with_flags own.
  intros P D. rewrite (with_flags name), (cfgs_exact _ _ _ run). split; [|auto].
  intros [K|K]; [assumption|]. now apply own in K.
Qed.
Lemma flag_exempt : flag (lit "procmacro2_semver_exempt") = true <->
  semver_exempt w = true \/ extra (lit "procmacro2_semver_exempt") = true.
Proof using run with_flags.
  rewrite (with_flags _), (cfgs_exact _ _ _ run). split; intros [K|K]; auto.
  - inversion K. auto.
  - left. now constructor.
Qed.
Lemma flag_wrap : flag (lit "wrap_proc_macro") = true <-> macro_feature w = true /\ (semver_exempt w = false \/ nightly w).
Proof using run with_flags own.
  rewrite flag_wanted; [|cbv [printable In]; tauto|discriminate].
  split; [intro K; inversion K; auto|]. intros [A B]. now constructor.
Qed.
Lemma flag_span : flag (lit "proc_macro_span") = true <-> nightly w.
Proof using run with_flags own.
  rewrite flag_wanted; [|cbv [printable In]; tauto|discriminate].
  split; [intro K; now inversion K|]. now constructor.
Qed.
Lemma flag_unstable : flag (lit "super_unstable") = true <-> semver_exempt w = true /\ nightly w.
Proof using run with_flags own.
  rewrite flag_wanted; [|cbv [printable In]; tauto|discriminate].
  split; [intro K; now inversion K|]. intros [A B]. now constructor.
Qed.
Lemma flag_part part : part = lit "proc_macro_span_location" \/ part = lit "proc_macro_span_file" ->
  flag part = true -> macro_feature w = true.
Proof using run with_flags own.
  intros E. rewrite flag_wanted; [|destruct E as [->| ->]; cbv [printable In]; tauto|destruct E as [->| ->]; discriminate].
  intro K. destruct E as [->| ->]; inversion K; match goal with H : _ \/ _ |- _ => destruct H as [N|N]; apply N end.
Qed.

Lemma exempt_error_iff : holds flag feature exempt_error = true <->
  macro_feature w = true /\ extra (lit "procmacro2_semver_exempt") = true /\ semver_exempt w = false.
Proof using run with_flags own.
  unfold exempt_error. cbn [holds forallb]. rewrite !andb_true_iff, negb_true_iff, <- not_true_iff_false.
  rewrite flag_exempt, flag_wrap, flag_unstable. destruct (semver_exempt w).
  - intuition discriminate.
  - intuition discriminate.
Qed.
Lemma testing_error_iff : holds flag feature testing_error = true <->
  flag (lit "procmacro2_nightly_testing") = true /\ macro_feature w = true /\ ~ nightly w.
Proof using run with_flags own features.
  unfold testing_error. cbn [holds forallb]. rewrite !andb_true_iff, negb_true_iff, <- not_true_iff_false, flag_span, features.
  tauto.
Qed.

Lemma uses_defined : holds flag feature exempt_error = false ->
  forall use item, In (use, item) gated_uses -> holds flag feature use = true -> holds flag feature item = true.
Proof using run with_flags own features.
  intros X use item I.
  assert (W1 : flag (lit "wrap_proc_macro") = true -> feature (lit "proc-macro") = true)
    by (rewrite features, flag_wrap; tauto).
  assert (W2 : flag (lit "proc_macro_span") = true -> feature (lit "proc-macro") = true)
    by (rewrite features, flag_span; unfold nightly; tauto).
  assert (W3 : flag (lit "proc_macro_span_location") = true -> feature (lit "proc-macro") = true)
    by (rewrite features; apply flag_part; auto).
  assert (W4 : flag (lit "proc_macro_span_file") = true -> feature (lit "proc-macro") = true)
    by (rewrite features; apply flag_part; auto).
  assert (W5 : flag (lit "super_unstable") = true -> flag (lit "procmacro2_semver_exempt") = true)
    by (rewrite flag_unstable, flag_exempt; tauto).
  unfold exempt_error in X. cbn [holds forallb] in X. unfold gated_uses in I. cbn [In] in I.
  clear - I X W1 W2 W3 W4 W5.
  set (a1 := flag (lit "wrap_proc_macro")) in *. set (a2 := flag (lit "proc_macro_span")) in *.
  set (a3 := flag (lit "proc_macro_span_location")) in *. set (a4 := flag (lit "proc_macro_span_file")) in *.
  set (a5 := flag (lit "super_unstable")) in *. set (a6 := flag (lit "procmacro2_semver_exempt")) in *.
  set (a7 := feature (lit "proc-macro")) in *. set (a8 := flag (lit "span_locations")).
  fall I; try contradiction; match goal with H : (_, _) = (_, _) |- _ => injection H as <- <- end;
    cbn [holds forallb existsb]; fold a1 a2 a3 a4 a5 a6 a7 a8; clearbody a1 a2 a3 a4 a5 a6 a7 a8;
    destruct a1, a2, a3, a4, a5, a6, a7, a8; cbn in *; auto.
Qed.

Lemma versions_enough : forall use n, In (use, n) version_uses -> holds flag feature use = true -> since w n.
Proof using run with_flags own features.
  intros use n I. assert (D : var w (lit "RUSTC") <> None) by (apply main_finished in run; apply run).
  assert (Q : forall j name, printable name -> name <> lit "procmacro2_semver_exempt" ->
    (older w j -> wanted w name) -> flag name = false -> j <= u32_max -> since w j).
  { intros j name P N O F L. apply since_iff; [assumption|assumption|]. destruct (N.leb_spec j (number_of w)) as [K|K]; [reflexivity|].
    exfalso. assert (flag name = true); [|congruence]. apply flag_wanted; [assumption|assumption|].
    apply O, older_iff; [assumption|assumption|]. now apply N.ltb_lt. }
  unfold version_uses in I. cbn [In] in I.
  fall I; try contradiction; match goal with H : (_, _) = (_, _) |- _ => injection H as <- <- end;
    cbn [holds forallb]; rewrite !andb_true_iff, negb_true_iff; intros (_ & F & _);
    (refine (Q _ _ _ _ _ F _); [cbv [printable In]; tauto|discriminate|now constructor|unfold u32_max; lia]).
Qed.
End gates.

(** ** For the theorems *)

Lemma version_compared w n m es j : rustc_minor_version w n = (Some (m, n), es) -> j < 2 ^ 32 ->
  (match m with Some k => k <? j | None => false end = true <-> older w j) /\
  (match m with Some k => j <=? k | None => true end = true <-> since w j).
Proof.
  unfold rustc_minor_version, cargo_env_var. destruct (var w (lit "RUSTC")) as [rustc|] eqn:R; [|discriminate].
  intros [= <- _] J. change (2 ^ 32) with (u32_max + 1) in J.
  assert (D : var w (lit "RUSTC") <> None) by congruence.
  rewrite <- (older_iff w j D), <- (since_iff w j D) by lia. unfold number_of. rewrite R.
  destruct (version w rustc) as [stdout|]; [destruct (minor_of stdout)|]; (split; [|lia || reflexivity]); try tauto;
    split; try discriminate; lia.
Qed.
Lemma wanted_declared w name : wanted w name -> In name declared.
Proof. intros []; cbv [declared In]; tauto. Qed.
Lemma existsb_str name l : existsb (str_eqb name) l = true <-> In name l.
Proof.
  rewrite existsb_exists. split.
  - intros (x & I & E). destruct (str_eqb_spec name x); [now subst|discriminate].
  - intro I. exists name. split; [assumption|apply str_eqb_refl].
Qed.
Lemma in_set_names name es : In name (set_names es) <-> In (cfg name) es.
Proof.
  unfold set_names. rewrite in_flat_map. split.
  - intros (e & I & K). destruct e as [t| | |]; try contradiction K. cbn [set_name] in K.
    destruct (starts_with t (lit "cargo:rustc-cfg=")) eqn:E; [|contradiction K].
    apply starts_with_spec in E as [r ->]. destruct K as [K|[]]. cbn in K. now subst.
  - intro I. exists (cfg name). split; [assumption|]. now left.
Qed.

(** A nightly compiler that is told by the value [-1] to allow nothing unstable. *)
Definition told_not_to : world := {|
  var := fun key =>
    if str_eqb key (lit "RUSTC") then Some (lit "rustc")
    else if str_eqb key (lit "OUT_DIR") then Some (lit "/out")
    else if str_eqb key (lit "RUSTC_BOOTSTRAP") then Some (lit "-1")
    else None;
  semver_exempt := false; span_feature := false; macro_feature := true; linux := true;
  version := fun _ => Some (lit "rustc 1.90.0-nightly");
  compile := fun c => match BuildWorld.bootstrap c with None => Some true | Some _ => Some false end;
  mkdir := fun _ => DirMade; rmdir := fun _ => DirRemoved |}.
Lemma unusable : exists w m es, main w 0%nat = (Some (tt, m), es) /\
  In (cfg (lit "proc_macro_span")) es /\ ~ accepted w (lit "proc_macro_span") true.
Proof.
  exists told_not_to. do 2 eexists. split; [vm_compute; reflexivity|]. split.
  - apply in_set_names. vm_compute. auto.
  - intros (dir & c & P & K). destruct P as (? & ? & ? & ? & ? & ? & _ & _ & _ & _ & _ & _ & _ & _ & B).
    cbn in K, B. rewrite B in K. discriminate.
Qed.

(** The same compiler in and out of a bootstrap, watching nothing. *)
Definition staged (stage : option (list byte)) : world := {|
  var := fun key =>
    if str_eqb key (lit "RUSTC") then Some (lit "rustc")
    else if str_eqb key (lit "OUT_DIR") then Some (lit "/out")
    else if str_eqb key (lit "RUSTC_STAGE") then stage
    else None;
  semver_exempt := false; span_feature := false; macro_feature := true; linux := true;
  version := fun _ => Some (lit "rustc 1.90.0-nightly");
  compile := fun _ => Some true;
  mkdir := fun _ => DirMade; rmdir := fun _ => DirRemoved |}.
Lemma stage_unwatched : exists w v m es m' es', same_but_stage w v /\
  main w 0%nat = (Some (tt, m), es) /\ main v 0%nat = (Some (tt, m'), es') /\
  set_names es <> set_names es' /\
  ~ In (Line (lit "cargo:rerun-if-env-changed=RUSTC_STAGE")) (es ++ es').
Proof.
  exists (staged None), (staged (Some (lit "1"))). do 4 eexists. split.
  { split; [|repeat split]. intros key D. unfold staged. cbn [var].
    destruct (str_eqb_spec key (lit "RUSTC_STAGE")); [contradiction|reflexivity]. }
  split; [vm_compute; reflexivity|]. split; [vm_compute; reflexivity|]. split.
  - vm_compute. discriminate.
  - vm_compute. intros H. repeat (destruct H as [H|H]; [discriminate H|]). exact H.
Qed.
