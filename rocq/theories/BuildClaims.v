(** * The build script: the claims C67-C72 *)
From Verif Require Import Base BaseFacts BuildWorld Build SpecBuild BuildProofs.
Import ListNotations.
Local Open Scope N_scope.

Definition advances (w : world) (n : nat) (es : list event) (m : nat) : Prop :=
  forall rest, course w m rest -> course w n (es ++ rest).
Definition quiet (es : list event) : Prop := forall name, ~ In (cfg name) es.

Lemma advances_nil w n : advances w n [] n.
Proof. intros rest H. exact H. Qed.
Lemma advances_app w n a m b k : advances w n a m -> advances w m b k -> advances w n (a ++ b) k.
Proof. intros A B rest H. rewrite <- app_assoc. auto. Qed.
Lemma advances_opt w n b s : advances w n (opt b [Line s]) n.
Proof. destruct b; intros rest H; [now constructor|exact H]. Qed.
Lemma advances_lines w n l : Forall (fun e => exists s, e = Line s) l -> advances w n l n.
Proof. induction 1 as [|? l [s ->] _ IH]; intros rest H; [exact H|]. constructor. now apply IH. Qed.

Lemma cfg_not_watch name feature : watches_file feature <> cfg name.
Proof. unfold watches_file, cfg. intros [= _]. Qed.

Lemma probe_run w feature keep n b m es : probed feature ->
  do_compile_probe w feature keep n = (Some (b, m), es) ->
  advances w n es m /\ quiet es /\ (b = true <-> accepted w feature keep) /\ (m = S n).
Proof.
  intros P H. split; [|split; [|split; [now apply probe_answer in H|now apply probe_done in H]]];
    apply probe_done in H as (-> & M & C & dir & c & K & -> & _).
  - intros rest R. now apply course_probe with (keep := keep).
  - intros name [E|[E|[E|[E|[]]]]]; discriminate E.
Qed.

Lemma unstable_run w feature keep n b m es : probed feature ->
  compile_probe_unstable w feature keep n = (Some (b, m), es) ->
  advances w n es m /\ quiet es /\ (b = true <-> var w (lit "RUSTC_STAGE") = None /\ accepted w feature keep) /\ (m <= S n)%nat.
Proof.
  unfold compile_probe_unstable. intros P H. destruct (var w (lit "RUSTC_STAGE")).
  - injection H as <- <- <-. split; [apply advances_nil|]. split; [intros name []|]. split; [|lia].
    split; [discriminate|intros [[=] _]].
  - apply probe_run in H as (A & Q & B & ->); [|assumption]. repeat split; auto; tauto.
Qed.

Lemma stable_run w feature n b m es : probed feature ->
  compile_probe_stable w feature n = (Some (b, m), es) ->
  advances w n es m /\ quiet es /\ (b = true <-> var w (lit "RUSTC_STAGE") <> None \/ accepted w feature true) /\ (m <= S n)%nat.
Proof.
  unfold compile_probe_stable. intros P H. destruct (var w (lit "RUSTC_STAGE")).
  - injection H as <- <- <-. split; [apply advances_nil|]. split; [intros name []|]. split; [|lia].
    split; [left; discriminate|reflexivity].
  - apply probe_run in H as (A & Q & B & ->); [|assumption]. repeat split; auto; tauto.
Qed.

Lemma or_else_run w a b feature n r m es : probed feature ->
  or_else a b (compile_probe_stable w feature) n = (Some (r, m), es) ->
  advances w n es m /\ quiet es /\ (m <= S n)%nat /\
  (r = true <-> a = true \/ (b = true /\ (var w (lit "RUSTC_STAGE") <> None \/ accepted w feature true))).
Proof.
  unfold or_else. intros P H. destruct a; [|destruct b].
  - injection H as <- <- <-. split; [apply advances_nil|]. split; [intros name []|]. split; [lia|tauto].
  - apply stable_run in H as (A & Q & B & L); [|assumption]. split; [assumption|]. split; [assumption|]. split; [assumption|]. rewrite B. intuition discriminate.
  - injection H as <- <- <-. split; [apply advances_nil|]. split; [intros name []|]. split; [lia|].
    split; [discriminate|intros [[=]|[[=] _]]].
Qed.

(** With the variable unset the two probes are the same. *)
Lemma probe_unset w feature dir c : var w (lit "RUSTC_BOOTSTRAP") = None ->
  probe w feature true dir c -> probe w feature false dir c.
Proof. unfold probe. intros ->. auto. Qed.

Lemma span_run w n p s m es : probe_span w n = (Some ((p, s), m), es) ->
  advances w n es m /\ quiet es /\ (m <= S (S n))%nat /\
  (p = true <-> var w (lit "RUSTC_STAGE") = None /\
     (accepted w (lit "proc_macro_span") false \/ accepted w (lit "proc_macro_span") true)) /\
  (s = true <->
     ~ (var w (lit "RUSTC_STAGE") = None /\ accepted w (lit "proc_macro_span") false) /\
     ((var w (lit "RUSTC_STAGE") = None /\ accepted w (lit "proc_macro_span") true) \/
      var w (lit "RUSTC_BOOTSTRAP") <> Some (lit "1"))).
Proof.
  assert (P : probed (lit "proc_macro_span")) by (left; reflexivity).
  unfold probe_span. intro H.
  apply bind_done in H as (b & n1 & e1 & e2 & H1 & H & ->).
  apply unstable_run in H1 as (A1 & Q1 & B1 & L1); [|assumption].
  destruct b.
  - injection H as <- <- <- <-. rewrite app_nil_r. split; [assumption|]. split; [assumption|]. split; [lia|].
    assert (K := proj1 B1 eq_refl). split; [tauto|]. split; [discriminate|tauto].
  - assert (N : ~ (var w (lit "RUSTC_STAGE") = None /\ accepted w (lit "proc_macro_span") false)).
    { intro K. apply B1 in K. discriminate. }
    destruct (var w (lit "RUSTC_BOOTSTRAP")) as [v|] eqn:V.
    + apply bind_done in H as (b & n2 & e3 & e4 & H1 & H & ->).
      apply unstable_run in H1 as (A2 & Q2 & B2 & L2); [|assumption].
      assert (Q : quiet (e1 ++ e3)) by (intros name I; apply in_app_iff in I as [I|I]; [now apply Q1 in I|now apply Q2 in I]).
      assert (A : advances w n (e1 ++ e3) n2) by (eapply advances_app; eassumption).
      destruct b; [|destruct (str_eqb_spec v (lit "1")) as [->|D]]; injection H as <- <- <- <-;
        rewrite app_nil_r; (split; [assumption|]); (split; [assumption|]); (split; [lia|]).
      * assert (K := proj1 B2 eq_refl). split; tauto.
      * split; [|split; [discriminate|]].
        -- split; [discriminate|]. intros [S [K|K]]; [tauto|]. apply B2. auto.
        -- intros [_ [K|K]]; [now apply B2 in K|easy].
      * split.
        -- split; [discriminate|]. intros [S [K|K]]; [tauto|]. apply B2. auto.
        -- split; [|reflexivity]. intros _. split; [assumption|]. right. congruence.
    + injection H as <- <- <- <-. rewrite app_nil_r. split; [assumption|]. split; [assumption|]. split; [lia|].
      split.
      * split; [discriminate|]. intros [S [K|(dir & c & K & K')]]; [tauto|].
        exfalso. apply N. split; [assumption|]. exists dir, c. split; [now apply probe_unset|assumption].
      * split; [|reflexivity]. intros _. split; [assumption|]. right. discriminate.
Qed.

(** The whole of a finished run. *)
Record finished (w : world) (m : nat) (es : list event) : Prop := {
  fin_rustc : var w (lit "RUSTC") <> None;
  fin_parts :
    (macro_feature w = false /\ m = 0%nat /\
     es = heads w (number_of w) ++ [Line (lit "cargo:rerun-if-changed=build.rs")]) \/
    (macro_feature w = true /\ exists p s l f e1 n1 e2 n2 e3,
      probe_span w 0%nat = (Some ((p, s), n1), e1) /\
      or_else p (88 <=? number_of w) (compile_probe_stable w (lit "proc_macro_span_location")) n1 = (Some (l, n2), e2) /\
      or_else p (88 <=? number_of w) (compile_probe_stable w (lit "proc_macro_span_file")) n2 = (Some (f, m), e3) /\
      es = heads w (number_of w) ++ e1 ++
        opt (p || negb (semver_exempt w)) [cfg (lit "wrap_proc_macro")] ++ opt p [cfg (lit "proc_macro_span")] ++
        e2 ++ opt l [cfg (lit "proc_macro_span_location")] ++ e3 ++ opt f [cfg (lit "proc_macro_span_file")] ++
        opt (semver_exempt w && p) [cfg (lit "super_unstable")] ++ opt s [watches_bootstrap]) }.

Lemma main_finished w m es : main w 0%nat = (Some (tt, m), es) -> finished w m es.
Proof.
  rewrite main_eq. destruct (var w (lit "RUSTC")) as [rustc|] eqn:R; [|discriminate].
  intros [= T <-]. split; [congruence|].
  destruct (tails w 0%nat) as [o es] eqn:E. cbn [fst snd] in *. subst o. unfold tails in E.
  destruct (macro_feature w); cbn [negb] in E.
  - right. split; [reflexivity|].
    apply bind_done in E as ([p s] & n1 & e1 & r1 & E1 & E & ->). cbn [fst snd] in E.
    rewrite (bind_run _ _ _ _ _ _ (when_cfg _ _ _)), (bind_run _ _ _ _ _ _ (when_cfg _ _ _)) in E.
    cbn [fst snd] in E. injection E as E <-.
    match type of E with fst ?x = _ => destruct x as [o r] eqn:E' end. cbn [fst snd] in *. subst o.
    apply bind_done in E' as (l & n2 & e2 & r2 & E2 & E & ->).
    rewrite (bind_run _ _ _ _ _ _ (when_cfg _ _ _)) in E. injection E as E <-.
    match type of E with fst ?x = _ => destruct x as [o r] eqn:E' end. cbn [fst snd] in *. subst o.
    apply bind_done in E' as (f & n3 & e3 & r3 & E3 & E & ->).
    rewrite !(bind_run _ _ _ _ _ _ (when_cfg _ _ _)) in E. injection E as E <-.
    exists p, s, l, f, e1, n1, e2, n2, e3.
    assert (X : forall n, when s (println (lit "cargo:rerun-if-env-changed=RUSTC_BOOTSTRAP")) n = (Some (tt, n), opt s [watches_bootstrap]))
      by (intro; now destruct s).
    rewrite X in *. cbn [fst snd] in *. injection E as <-. repeat split; auto.
  - left. injection E as <- <-. auto.
Qed.

(** ** C68: the configuration *)

Lemma in_opt (b : bool) (e : event) es : In e (opt b es) <-> b = true /\ In e es.
Proof. destruct b; cbn; intuition discriminate. Qed.
Lemma cfg_inj a b : cfg a = cfg b <-> a = b.
Proof. split; [|now intros ->]. intros [= E]. exact E. Qed.
Lemma check_not_cfg name l : ~ In (cfg name) (map check_cfg l).
Proof. intro H. apply in_map_iff in H as (x & E & _). discriminate E. Qed.

Lemma in_heads w k name : In (cfg name) (heads w k) <->
  (semver_exempt w = true /\ name = lit "procmacro2_semver_exempt") \/
  (semver_exempt w || span_feature w = true /\ name = lit "span_locations") \/
  (k <? 57 = true /\ name = lit "no_is_available") \/
  (k <? 66 = true /\ name = lit "no_source_text") \/
  (k <? 79 = true /\ (name = lit "no_literal_byte_character" \/ name = lit "no_literal_c_string")).
Proof.
  unfold heads. rewrite !in_app_iff, !in_opt. cbn [In]. rewrite !cfg_inj.
  pose proof (check_not_cfg name check_cfgs) as C. set (X := In _ (map check_cfg check_cfgs)) in *.
  split; intro H.
  - decompose [or and] H; try easy; subst; auto 10.
  - decompose [or and] H; subst; auto 12.
Qed.

Ltac pick := first
  [solve [split; [solve [auto|tauto]|solve [reflexivity|left; reflexivity|right; reflexivity]]]|left; pick|right; pick].
Ltac fall K := match type of K with
  | _ \/ _ => let L := fresh in destruct K as [L|L]; fall L
  | _ /\ _ => let A := fresh in let B := fresh in destruct K as [A B]; fall A; fall B
  | _ => idtac end.
Lemma cfgs_exact w m es : main w 0%nat = (Some (tt, m), es) -> forall name, In (cfg name) es <-> wanted w name.
Proof.
  intros H name. apply main_finished in H as [D H].
  assert (LE : forall j, j <= 100 -> j <= u32_max) by (intros j L; unfold u32_max; lia).
  assert (O1 := older_iff w 57 D (LE 57 ltac:(lia))). assert (O2 := older_iff w 66 D (LE 66 ltac:(lia))).
  assert (O3 := older_iff w 79 D (LE 79 ltac:(lia))). assert (S := since_iff w 88 D (LE 88 ltac:(lia))).
  destruct H as [(M & _ & ->)|(M & p & s & l & f & e1 & n1 & e2 & n2 & e3 & E1 & E2 & E3 & ->)].
  - rewrite in_app_iff, in_heads. split.
    + intros [K|[K|[]]]; [|discriminate K]. rewrite orb_true_iff, O1, O2, O3 in K.
      decompose [or and] K; subst name; constructor; auto.
    + intro K. left. rewrite orb_true_iff, O1, O2, O3.
      destruct K; auto 12; exfalso; unfold nightly, stable in *; intuition congruence.
  - apply span_run in E1 as (_ & Q1 & _ & P & _).
    apply or_else_run in E2 as (_ & Q2 & _ & L); [|right; left; reflexivity].
    apply or_else_run in E3 as (_ & Q3 & _ & F); [|right; right; reflexivity].
    assert (N : p = true <-> nightly w) by (rewrite P; clear - M; unfold nightly; tauto). clear P.
    assert (L' : l = true <-> nightly w \/ stable w (lit "proc_macro_span_location")).
    { rewrite L, N, S. clear - M. unfold stable. tauto. }
    assert (F' : f = true <-> nightly w \/ stable w (lit "proc_macro_span_file")).
    { rewrite F, N, S. clear - M. unfold stable. tauto. }
    clear L F.
    rewrite !in_app_iff, in_heads, !in_opt, !orb_true_iff, andb_true_iff, negb_true_iff.
    rewrite O1, O2, O3, N, L', F'. cbn [In]. rewrite !cfg_inj.
    assert (W : watches_bootstrap = cfg name <-> False) by (split; [discriminate|easy]). rewrite W.
    split.
    + intros K. specialize (Q1 name). specialize (Q2 name). specialize (Q3 name).
      fall K; try contradiction; subst name; constructor; auto.
    + intros K. clear - K M. destruct K; pick.
Qed.
