(** * The build script: the course of a run, and two runs compared *)
From Verif Require Import Base BaseFacts BuildWorld Build SpecBuild BuildProofs BuildClaims.
Import ListNotations.
Local Open Scope N_scope.

(** ** C68: declarations, and no flag twice *)

Lemma declared_exact w m es : main w 0%nat = (Some (tt, m), es) ->
  forall name, In (declares name) es <-> since w 80 /\ In name declared.
Proof.
  intros H name. apply main_finished in H as [D H].
  assert (S := since_iff w 80 D ltac:(unfold u32_max; lia)). rewrite <- S.
  assert (X : In (declares name) (heads w (number_of w)) <-> 80 <=? number_of w = true /\ In name declared).
  { unfold heads. rewrite !in_app_iff, !in_opt, in_map_iff. change declared with check_cfgs. split.
    - intros K. fall K; try (match goal with H : In _ _ |- _ => cbn [In] in H; fall H end); try contradiction; try discriminate.
      split; [assumption|]. match goal with H : exists x, _ |- _ => destruct H as (x & E & I) end.
      injection E as E. apply app_inv_tail in E. now subst.
    - intros [A I]. left. split; [assumption|]. exists name. auto. }
  assert (Q : forall f k n b j e, probed f -> do_compile_probe w f k n = (Some (b, j), e) -> ~ In (declares name) e).
  { intros f k n b j e P R I. apply probe_done in R as (_ & _ & _ & dir & c & _ & -> & _).
    cbn [In] in I. fall I; try contradiction; discriminate. }
  assert (U : forall f k n b j e, probed f -> compile_probe_unstable w f k n = (Some (b, j), e) -> ~ In (declares name) e).
  { unfold compile_probe_unstable. intros f k n b j e P R. destruct (var w (lit "RUSTC_STAGE")); [|eauto].
    injection R as <- <- <-. intros []. }
  assert (T : forall a c f n b j e, probed f -> or_else a c (compile_probe_stable w f) n = (Some (b, j), e) -> ~ In (declares name) e).
  { unfold or_else, compile_probe_stable. intros a c f n b j e P R.
    destruct a; [|destruct c; [destruct (var w (lit "RUSTC_STAGE"))|]]; try (injection R as <- <- <-; intros []). eauto. }
  destruct H as [(M & _ & ->)|(M & p & s & l & f & e1 & n1 & e2 & n2 & e3 & E1 & E2 & E3 & ->)].
  - rewrite in_app_iff, X. cbn [In]. split; [|auto]. intros [K|[K|[]]]; [exact K|discriminate K].
  - apply T in E2; [|right; left; reflexivity]. apply T in E3; [|right; right; reflexivity].
    assert (K1 : ~ In (declares name) e1).
    { unfold probe_span in E1. apply bind_done in E1 as (b & k1 & d1 & d2 & H1 & H & ->).
      apply U in H1; [|left; reflexivity]. rewrite in_app_iff. intros [I|I]; [easy|].
      destruct b; [injection H as <- <- <- <-; easy|].
      destruct (var w (lit "RUSTC_BOOTSTRAP")); [|injection H as <- <- <- <-; easy].
      apply bind_done in H as (b & k2 & d3 & d4 & H2 & H & ->).
      apply U in H2; [|left; reflexivity]. apply in_app_iff in I as [I|I]; [easy|].
      destruct b; [|destruct (str_eqb _ _)]; injection H as <- <- <- <-; easy. }
    rewrite !in_app_iff, X, !in_opt. cbn [In]. split; [|auto].
    intros K. fall K; try contradiction; try discriminate; auto.
Qed.

(** The flags among the lines. *)
Lemma set_app a b : set_names (a ++ b) = set_names a ++ set_names b.
Proof. unfold set_names. now rewrite flat_map_app. Qed.
Lemma set_nil e1 : quiet e1 -> set_names e1 = [].
Proof.
  intro Q. unfold set_names. induction e1 as [|e e1 IH]; [reflexivity|].
  cbn [flat_map]. rewrite IH by (intros n I; apply (Q n); now right). rewrite app_nil_r.
  destruct e as [t| | |]; try reflexivity. cbn [set_name].
  destruct (starts_with t (lit "cargo:rustc-cfg=")) eqn:E; [|reflexivity].
  exfalso. apply starts_with_spec in E as [r ->]. apply (Q r). now left.
Qed.
Lemma set_checks l : set_names (map check_cfg l) = [].
Proof. apply set_nil. intros name H. now apply check_not_cfg in H. Qed.
Lemma set_opt b l : set_names (opt b (map cfg l)) = if b then l else [].
Proof.
  destruct b; [|reflexivity]. unfold set_names. cbn [opt]. induction l as [|x l IH]; [reflexivity|].
  cbn [map flat_map]. rewrite IH. reflexivity.
Qed.

(** A list with elements left out. *)
Fixpoint chosen (l : list (bool * str)) : list str :=
  match l with
  | [] => []
  | (b, x) :: l => (if b then [x] else []) ++ chosen l
  end.
Lemma chosen_in l x : In x (chosen l) -> In x (map snd l).
Proof.
  induction l as [|[[] y] l IH]; cbn; [tauto| |]; intros; intuition.
Qed.
Lemma chosen_nodup l : NoDup (map snd l) -> NoDup (chosen l).
Proof.
  induction l as [|[b y] l IH]; cbn; intro H; [constructor|].
  inversion H; subst. destruct b; cbn; auto. constructor; auto. intro I. now apply chosen_in in I.
Qed.

Definition in_turn (w : world) (k : N) (p l f : bool) : list (bool * str) := [
  (semver_exempt w, lit "procmacro2_semver_exempt"); (semver_exempt w || span_feature w, lit "span_locations");
  (k <? 57, lit "no_is_available"); (k <? 66, lit "no_source_text"); (k <? 79, lit "no_literal_byte_character");
  (k <? 79, lit "no_literal_c_string"); (macro_feature w && (p || negb (semver_exempt w)), lit "wrap_proc_macro");
  (p, lit "proc_macro_span"); (l, lit "proc_macro_span_location"); (f, lit "proc_macro_span_file");
  (semver_exempt w && p, lit "super_unstable")].

Lemma names_in_turn w m es : main w 0%nat = (Some (tt, m), es) ->
  exists p l f, set_names es = chosen (in_turn w (number_of w) p l f).
Proof.
  intro H. apply main_finished in H as [D H].
  assert (X : forall k, set_names (heads w k) = chosen (firstn 6 (in_turn w k true true true))).
  { intro k. unfold heads.
    change [cfg (lit "procmacro2_semver_exempt")] with (map cfg [lit "procmacro2_semver_exempt"]).
    change [cfg (lit "span_locations")] with (map cfg [lit "span_locations"]).
    change [cfg (lit "no_is_available")] with (map cfg [lit "no_is_available"]).
    change [cfg (lit "no_source_text")] with (map cfg [lit "no_source_text"]).
    change [cfg (lit "no_literal_byte_character"); cfg (lit "no_literal_c_string")]
      with (map cfg [lit "no_literal_byte_character"; lit "no_literal_c_string"]).
    rewrite !set_app, !set_opt. cbn [in_turn firstn chosen].
    assert (E : set_names (opt (80 <=? k) (map check_cfg check_cfgs)) = [])
      by (destruct (80 <=? k); [apply set_checks|reflexivity]).
    rewrite E. rewrite app_nil_r. now destruct (k <? 79). }
  destruct H as [(M & _ & ->)|(M & p & s & l & f & e1 & n1 & e2 & n2 & e3 & E1 & E2 & E3 & ->)].
  - exists false, false, false. rewrite set_app, X.
    assert (E : set_names [Line (lit "cargo:rerun-if-changed=build.rs")] = []) by reflexivity.
    rewrite E, app_nil_r. unfold in_turn. rewrite M, andb_false_r. reflexivity.
  - apply span_run in E1 as (_ & Q1 & _).
    apply or_else_run in E2 as (_ & Q2 & _); [|right; left; reflexivity].
    apply or_else_run in E3 as (_ & Q3 & _); [|right; right; reflexivity].
    exists p, l, f.
    change [cfg (lit "wrap_proc_macro")] with (map cfg [lit "wrap_proc_macro"]).
    change [cfg (lit "proc_macro_span")] with (map cfg [lit "proc_macro_span"]).
    change [cfg (lit "proc_macro_span_location")] with (map cfg [lit "proc_macro_span_location"]).
    change [cfg (lit "proc_macro_span_file")] with (map cfg [lit "proc_macro_span_file"]).
    change [cfg (lit "super_unstable")] with (map cfg [lit "super_unstable"]).
    rewrite !set_app, !set_opt, X, !set_nil by assumption. unfold in_turn. rewrite M. cbn [firstn chosen andb app].
    assert (E : set_names (opt s [watches_bootstrap]) = []) by (now destruct s).
    rewrite E, !app_nil_r, <- !app_assoc. reflexivity.
Qed.

Lemma set_once w m es : main w 0%nat = (Some (tt, m), es) -> NoDup (set_names es).
Proof.
  intro H. destruct (names_in_turn _ _ _ H) as (p & l & f & ->).
  apply chosen_nodup. cbn [map snd in_turn]. 
  repeat (constructor; [cbn [In]; intro I; fall I; try contradiction; discriminate|]). constructor.
Qed.

(** ** C70: the course of a run *)

Lemma run_course w m es : main w 0%nat = (Some (tt, m), es) -> course w 0 es /\ (m <= 4)%nat.
Proof.
  intro H. apply main_finished in H as [D H].
  assert (X : forall n, advances w n (heads w (number_of w)) n).
  { intro n. unfold heads. repeat eapply advances_app; try apply advances_opt.
    - destruct (80 <=? number_of w); [|apply advances_nil]. apply advances_lines. apply Forall_map, Forall_forall.
      intros x _. unfold check_cfg. eauto.
    - destruct (number_of w <? 79); [|apply advances_nil]. apply advances_lines. repeat constructor; unfold cfg; eauto. }
  destruct H as [(M & -> & ->)|(M & p & s & l & f & e1 & n1 & e2 & n2 & e3 & E1 & E2 & E3 & ->)].
  - split; [|lia]. apply X. repeat constructor.
  - apply span_run in E1 as (A1 & _ & L1 & _).
    apply or_else_run in E2 as (A2 & _ & L2 & _); [|right; left; reflexivity].
    apply or_else_run in E3 as (A3 & _ & L3 & _); [|right; right; reflexivity].
    split; [|lia]. apply X, A1. apply advances_opt with (n := n1). apply advances_opt with (n := n1).
    apply A2. apply advances_opt with (n := n2). apply A3. apply advances_opt with (n := m). apply advances_opt with (n := m).
    destruct s; repeat constructor.
Qed.

Lemma cleaned_dec w n : cleaned w n \/ ~ cleaned w n.
Proof.
  unfold cleaned. destruct (rmdir w n) as [| |[x|]]; auto.
  - destruct (linux w); [|right; intuition congruence].
    destruct (N.eq_dec x 39) as [->|E]; [auto|right; intuition congruence].
  - right. intuition congruence.
Qed.
Lemma remove_ok w dir n : cleaned w n -> remove_dir w dir n = (Some (tt, S n), [Rmdir dir]).
Proof. unfold cleaned, remove_dir. intros [->|[->|[-> ->]]]; reflexivity. Qed.
Lemma remove_bad w dir n : ~ cleaned w n -> remove_dir w dir n = (None, [Rmdir dir]).
Proof.
  intro C. destruct (remove_dir w dir n) as [o es] eqn:E. unfold remove_dir in E. unfold cleaned in C.
  destruct (rmdir w n) as [| |[x|]]; try (exfalso; tauto); [|congruence].
  destruct (N.eq_dec x 39) as [->|D].
  - destruct (linux w); [exfalso; auto|congruence].
  - assert (X : match x with 39 => if linux w then Some (tt, S n) else None | _ => None end = None).
    { destruct x; try reflexivity. repeat (destruct p; try reflexivity; try (exfalso; now apply D)). }
    congruence.
Qed.

(** A probe that stops the script. *)
Lemma probe_stops w feature keep n es : do_compile_probe w feature keep n = (None, es) ->
  var w (lit "RUSTC") = None \/ var w (lit "OUT_DIR") = None \/ mkdir w n = DirFailed \/ ~ cleaned w n.
Proof.
  unfold do_compile_probe, cargo_env_var. intro H.
  destruct (var w (lit "RUSTC")) as [r|]; [|auto]. destruct (var w (lit "OUT_DIR")) as [o|]; [|auto]. right. right.
  destruct (mkdir w n) eqn:M; [| |auto]; right;
  intro C; cbv beta iota zeta delta [bind println emit ret create_dir] in H; rewrite M in H;
  rewrite (remove_ok w _ n C) in H; discriminate H.
Qed.
Lemma probe_stopped w feature keep n :
  var w (lit "RUSTC") = None \/ var w (lit "OUT_DIR") = None \/ mkdir w n = DirFailed \/ ~ cleaned w n ->
  exists es, do_compile_probe w feature keep n = (None, es).
Proof.
  intro H. destruct (do_compile_probe w feature keep n) as [[[b m]|] es] eqn:E; [|eauto].
  exfalso. apply probe_done in E as (_ & M & C & dir & c & P & _).
  apply probe_iff in P as (r & o & R & O & _). intuition congruence.
Qed.

Lemma stable_stops w feature a b n es : or_else a b (compile_probe_stable w feature) n = (None, es) ->
  var w (lit "RUSTC_STAGE") = None /\
  (var w (lit "RUSTC") = None \/ var w (lit "OUT_DIR") = None \/ mkdir w n = DirFailed \/ ~ cleaned w n).
Proof.
  unfold or_else, compile_probe_stable. destruct a; [discriminate|]. destruct b; [|discriminate].
  destruct (var w (lit "RUSTC_STAGE")); [discriminate|]. intro H. split; [reflexivity|]. eapply probe_stops, H.
Qed.
Lemma unstable_stops w feature k n es : compile_probe_unstable w feature k n = (None, es) ->
  var w (lit "RUSTC_STAGE") = None /\
  (var w (lit "RUSTC") = None \/ var w (lit "OUT_DIR") = None \/ mkdir w n = DirFailed \/ ~ cleaned w n).
Proof.
  unfold compile_probe_unstable. destruct (var w (lit "RUSTC_STAGE")); [discriminate|].
  intro H. split; [reflexivity|]. eapply probe_stops, H.
Qed.

Lemma exits_for_reason w es : main w 0%nat = (None, es) -> trouble w.
Proof.
  rewrite main_eq. unfold trouble. destruct (var w (lit "RUSTC")) as [rustc|] eqn:R; [|auto]. intros [= T _]. right.
  destruct (tails w 0%nat) as [o e] eqn:E. cbn [fst] in T. subst o. unfold tails in E.
  destruct (macro_feature w); [|discriminate E]. split; [reflexivity|]. cbn [negb] in E.
  assert (Y : forall n, (n < 4)%nat -> var w (lit "RUSTC_STAGE") = None /\
    (var w (lit "RUSTC") = None \/ var w (lit "OUT_DIR") = None \/ mkdir w n = DirFailed \/ ~ cleaned w n) ->
    var w (lit "RUSTC_STAGE") = None /\
    (var w (lit "OUT_DIR") = None \/ exists n, (n < 4)%nat /\ (mkdir w n = DirFailed \/ ~ cleaned w n))).
  { intros n L [S [K|[K|K]]]; [congruence|auto|]. split; [assumption|]. right. eauto. }
  apply bind_exit in E as [E|([p s] & n1 & e1 & r1 & E1 & E & _)].
  - unfold probe_span in E. apply bind_exit in E as [E|(b & n1 & e1 & r1 & E1 & E & _)].
    + apply unstable_stops in E. now apply (Y 0%nat); [lia|].
    + apply unstable_run in E1 as (_ & _ & _ & L); [|left; reflexivity].
      destruct b; [discriminate E|]. destruct (var w (lit "RUSTC_BOOTSTRAP")); [|discriminate E].
      apply bind_exit in E as [E|(b & n2 & e2 & r2 & E1 & E & _)].
      * apply unstable_stops in E. now apply (Y n1); [lia|].
      * destruct b; [|destruct (str_eqb _ _)]; discriminate E.
  - apply span_run in E1 as (_ & _ & L1 & _). cbn [fst snd] in E.
    rewrite (bind_run _ _ _ _ _ _ (when_cfg _ _ _)), (bind_run _ _ _ _ _ _ (when_cfg _ _ _)) in E.
    cbn [fst snd] in E. injection E as E _.
    match type of E with fst ?x = _ => destruct x as [o r] eqn:E' end. cbn [fst] in E. subst o.
    apply bind_exit in E' as [E|(l & n2 & e2 & r2 & E2 & E & _)].
    + apply stable_stops in E. now apply (Y n1); [lia|].
    + apply or_else_run in E2 as (_ & _ & L2 & _); [|right; left; reflexivity].
      rewrite (bind_run _ _ _ _ _ _ (when_cfg _ _ _)) in E. injection E as E _.
      match type of E with fst ?x = _ => destruct x as [o r'] eqn:E' end. cbn [fst] in E. subst o.
      apply bind_exit in E' as [E|(f & n3 & e3 & r3 & E3 & E & _)].
      * apply stable_stops in E. now apply (Y n2); [lia|].
      * rewrite !(bind_run _ _ _ _ _ _ (when_cfg _ _ _)) in E. cbn [fst snd] in E. injection E as E _.
        destruct s; discriminate E.
Qed.

Lemma finishes w : ~ trouble w -> exists m es, main w 0%nat = (Some (tt, m), es).
Proof.
  intro T. destruct (main w 0%nat) as [[[[] m]|] es] eqn:E; [eauto|]. now apply exits_for_reason in E.
Qed.

Lemma exits_when w :
  var w (lit "RUSTC") = None \/
  (macro_feature w = true /\ var w (lit "RUSTC_STAGE") = None /\
   (var w (lit "OUT_DIR") = None \/ mkdir w 0%nat = DirFailed \/ ~ cleaned w 0)) ->
  exists es, main w 0%nat = (None, es).
Proof.
  intro H. rewrite main_eq. destruct (var w (lit "RUSTC")) as [rustc|] eqn:R; [|eauto].
  destruct H as [[=]|(M & S & K)]. unfold tails. rewrite M. cbn [negb].
  destruct (probe_stopped w (lit "proc_macro_span") false 0%nat) as [e E]; [auto|].
  unfold probe_span, compile_probe_unstable. rewrite S. unfold bind. rewrite E. cbn [fst snd]. eauto.
Qed.
