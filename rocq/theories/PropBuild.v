(** * Properties of the build script (C67-C72) *)
From Verif Require Import Base BaseFacts BuildWorld Build SpecBuild BuildProofs BuildClaims BuildRuns BuildPairs.
Import ListNotations.
Local Open Scope N_scope.

(** Surroundings for the examples: Cargo's variables, [RUSTC_BOOTSTRAP] as
    given, and a compiler that allows the unstable probe as [allows] says of
    the value it sees. *)
Definition mentions (x : str) (c : command) : bool := existsb (fun a => str_eqb a x) (arguments c).
Definition sample (release : str) (exempt : bool) (value : option str) (allows : option (list byte) -> bool) : world := {|
  var := fun key =>
    if str_eqb key (lit "RUSTC") then Some (lit "rustc")
    else if str_eqb key (lit "OUT_DIR") then Some (lit "/out")
    else if str_eqb key (lit "RUSTC_WRAPPER") then Some []
    else if str_eqb key (lit "RUSTC_WORKSPACE_WRAPPER") then Some (lit "clippy-driver")
    else if str_eqb key (lit "CARGO_ENCODED_RUSTFLAGS") then Some (lit "-C" ++ [31] ++ lit "debuginfo=2")
    else if str_eqb key (lit "TARGET") then Some (lit "x86_64-unknown-linux-gnu")
    else if str_eqb key (lit "RUSTC_BOOTSTRAP") then value
    else None;
  semver_exempt := exempt; span_feature := false; macro_feature := true; linux := true;
  version := fun _ => Some (lit "rustc " ++ release ++ lit " (f6e511eec 2024-10-15)" ++ [10]);
  compile := fun c => Some (negb (mentions (lit "src/probe/proc_macro_span.rs") c) || allows (bootstrap c));
  mkdir := fun _ => DirMade;
  rmdir := fun n => match n with O => DirRemoved | S _ => DirError (Some 39) end |}.
Definition only_one (v : option (list byte)) : bool :=
  match v with Some x => str_eqb x (lit "1") | None => false end.

(** ** C67 *)
(** The release number is read from what the compiler prints, and only there. *)
Theorem c67_version : forall stdout n, minor_of stdout = Some n <-> says stdout n.
Proof. exact minor_of_spec. Qed.
Print Assumptions c67_version.
(** The comparisons in the script are those with the compiler's release, and an
    unknown release is newer than all that are compared with. *)
Theorem c67_compared : forall w n m es j, rustc_minor_version w n = (Some (m, n), es) -> j < 2 ^ 32 ->
  (match m with Some k => k <? j | None => false end = true <-> older w j) /\
  (match m with Some k => j <=? k | None => true end = true <-> since w j).
Proof. exact version_compared. Qed.
Print Assumptions c67_compared.
Example c67_example :
  minor_of (lit "rustc 1.82.0 (f6e511eec 2024-10-15)") = Some 82 /\
  minor_of (lit "rustc 1.82") = Some 82 /\ minor_of (lit "rustc 1.+7.0") = Some 7 /\
  minor_of (lit "rustc 1.82-dev") = None /\ minor_of (lit "rustc 2.0.0") = None /\
  minor_of (lit "rustc 1.4294967296.0") = None /\ minor_of (lit "rustc 1.82.0 " ++ [0xFF]) = None /\
  older (sample (lit "1.65.0") false None only_one) 66 /\ since (sample (lit "1.88.0-nightly") false None only_one) 88.
Proof.
  do 7 (split; [vm_compute; reflexivity|]). split.
  - destruct (c67_compared (sample (lit "1.65.0") false None only_one) 0%nat (Some 65) [] 66) as [H _];
      [vm_compute; reflexivity|reflexivity|]. now apply H.
  - destruct (c67_compared (sample (lit "1.88.0-nightly") false None only_one) 0%nat (Some 88) [] 88) as [_ H];
      [vm_compute; reflexivity|reflexivity|]. now apply H.
Qed.

(** ** C68 *)
(** The flags that a finished run sets are the wanted ones, *)
Theorem c68_flags : forall w m es, main w 0%nat = (Some (tt, m), es) -> forall name, In (cfg name) es <-> wanted w name.
Proof. exact cfgs_exact. Qed.
Print Assumptions c68_flags.
(** each set once; *)
Theorem c68_once : forall w m es, main w 0%nat = (Some (tt, m), es) -> NoDup (set_names es).
Proof. exact set_once. Qed.
Print Assumptions c68_once.
(** all names are declared to compilers that know of declarations, and to no others. *)
Theorem c68_declared : forall w m es, main w 0%nat = (Some (tt, m), es) ->
  forall name, In (declares name) es <-> since w 80 /\ In name declared.
Proof. exact declared_exact. Qed.
Print Assumptions c68_declared.
Theorem c68_all_declared : forall w name, wanted w name -> In name declared.
Proof. exact wanted_declared. Qed.
Print Assumptions c68_all_declared.
Example c68_example :
  (exists es, main (sample (lit "1.88.0") false None only_one) 0%nat = (Some (tt, 3%nat), es) /\
     set_names es = [lit "wrap_proc_macro"; lit "proc_macro_span_location"; lit "proc_macro_span_file"]) /\
  (exists es, main (sample (lit "1.60.0") true (Some (lit "1")) only_one) 0%nat = (Some (tt, 2%nat), es) /\
     set_names es = [lit "procmacro2_semver_exempt"; lit "span_locations"; lit "no_source_text";
       lit "no_literal_byte_character"; lit "no_literal_c_string"; lit "wrap_proc_macro"; lit "proc_macro_span";
       lit "proc_macro_span_location"; lit "proc_macro_span_file"; lit "super_unstable"]) /\
  (exists es, main (sample (lit "1.80.0") true None only_one) 0%nat = (Some (tt, 1%nat), es) /\
     set_names es = [lit "procmacro2_semver_exempt"; lit "span_locations"]).
Proof. repeat split; eexists; (split; [vm_compute; reflexivity|reflexivity]). Qed.

(** ** C69 *)
(** Under the flags of a finished run every use finds its item, unless the crate
    is told so by [compile_error!]: *)
Theorem c69_uses : forall w m es extra flag feature,
  main w 0%nat = (Some (tt, m), es) -> compiled_with es extra flag ->
  (forall name, printable name -> extra name = true -> name = lit "procmacro2_semver_exempt") ->
  feature (lit "proc-macro") = macro_feature w ->
  holds flag feature exempt_error = false ->
  forall use item, In (use, item) gated_uses -> holds flag feature use = true -> holds flag feature item = true.
Proof. exact uses_defined. Qed.
Print Assumptions c69_uses.
(** what only later compilers have is not asked of earlier ones; *)
Theorem c69_versions : forall w m es extra flag feature,
  main w 0%nat = (Some (tt, m), es) -> compiled_with es extra flag ->
  (forall name, printable name -> extra name = true -> name = lit "procmacro2_semver_exempt") ->
  feature (lit "proc-macro") = macro_feature w ->
  forall use n, In (use, n) version_uses -> holds flag feature use = true -> since w n.
Proof. exact versions_enough. Qed.
Print Assumptions c69_versions.
(** the first error means exactly what it says, that the crate but not the
    script has the flag, and the second that the probe failed. *)
Theorem c69_exempt : forall w m es extra flag feature,
  main w 0%nat = (Some (tt, m), es) -> compiled_with es extra flag ->
  (forall name, printable name -> extra name = true -> name = lit "procmacro2_semver_exempt") ->
  (holds flag feature exempt_error = true <->
   macro_feature w = true /\ extra (lit "procmacro2_semver_exempt") = true /\ semver_exempt w = false).
Proof. exact exempt_error_iff. Qed.
Print Assumptions c69_exempt.
Theorem c69_testing : forall w m es extra flag feature,
  main w 0%nat = (Some (tt, m), es) -> compiled_with es extra flag ->
  (forall name, printable name -> extra name = true -> name = lit "procmacro2_semver_exempt") ->
  feature (lit "proc-macro") = macro_feature w ->
  (holds flag feature testing_error = true <->
   flag (lit "procmacro2_nightly_testing") = true /\ macro_feature w = true /\ ~ nightly w).
Proof. exact testing_error_iff. Qed.
Print Assumptions c69_testing.
(** The flags of a run; other flags would leave a use without its item. *)
Definition flags_of (es : list event) (name : str) : bool := existsb (str_eqb name) (set_names es).
Example c69_example :
  let es := snd (main (sample (lit "1.80.0") true (Some (lit "1")) only_one) 0%nat) in
  compiled_with es (fun _ => false) (flags_of es) /\
  holds (flags_of es) (fun _ => true) exempt_error = false /\
  holds (flags_of es) (fun _ => true) semver = true /\
  (exists use item, In (use, item) gated_uses /\
     holds (fun name => str_eqb name (lit "wrap_proc_macro") || str_eqb name (lit "super_unstable")) (fun _ => true) use = true /\
     holds (fun name => str_eqb name (lit "wrap_proc_macro") || str_eqb name (lit "super_unstable")) (fun _ => true) item = false).
Proof.
  split; [|split; [vm_compute; reflexivity|split; [vm_compute; reflexivity|]]].
  - intro name. unfold flags_of. rewrite existsb_str. rewrite in_set_names. intuition discriminate.
  - exists (All [wrap; unstable]), semver. split; [cbv [gated_uses In]; tauto|]. split; vm_compute; reflexivity.
Qed.

(** ** C70 *)
(** A finished run prints lines and makes probes; each probe is announced, runs
    the specified command in a directory made before and removed after, and
    there are at most four. *)
Theorem c70_course : forall w m es, main w 0%nat = (Some (tt, m), es) -> course w 0 es /\ (m <= 4)%nat.
Proof. exact run_course. Qed.
Print Assumptions c70_course.
(** The command is determined. *)
Theorem c70_command : forall w feature keep dir c dir' c',
  probe w feature keep dir c -> probe w feature keep dir' c' -> dir = dir' /\ c = c'.
Proof. exact probe_unique. Qed.
Print Assumptions c70_command.
(** The script stops only for trouble with Cargo's variables or the directory, *)
Theorem c70_stops : forall w es, main w 0%nat = (None, es) -> trouble w.
Proof. exact exits_for_reason. Qed.
Print Assumptions c70_stops.
Theorem c70_finishes : forall w, ~ trouble w -> exists m es, main w 0%nat = (Some (tt, m), es).
Proof. exact finishes. Qed.
Print Assumptions c70_finishes.
(** and certainly if the compiler or the directory for the first probe is missing. *)
Theorem c70_stops_for : forall w,
  var w (lit "RUSTC") = None \/
  (macro_feature w = true /\ var w (lit "RUSTC_STAGE") = None /\
   (var w (lit "OUT_DIR") = None \/ mkdir w 0%nat = DirFailed \/ ~ cleaned w 0)) ->
  exists es, main w 0%nat = (None, es).
Proof. exact exits_when. Qed.
Print Assumptions c70_stops_for.
Example c70_example :
  probe (sample (lit "1.80.0") true (Some (lit "1")) only_one) (lit "proc_macro_span") true (lit "/out/probe")
    {| program := lit "clippy-driver";
       arguments := [lit "rustc"; lit "--cfg=procmacro2_build_probe"; lit "--edition=2021"; lit "--crate-name=proc_macro2";
         lit "--crate-type=lib"; lit "--cap-lints=allow"; lit "--emit=dep-info,metadata"; lit "--out-dir"; lit "/out/probe";
         lit "src/probe/proc_macro_span.rs"; lit "--target"; lit "x86_64-unknown-linux-gnu"; lit "-C"; lit "debuginfo=2"];
       bootstrap := Some (lit "1") |} /\
  ~ trouble (sample (lit "1.80.0") true (Some (lit "1")) only_one).
Proof.
  split.
  - apply probe_iff. exists (lit "rustc"), (lit "/out"). repeat split; vm_compute; reflexivity.
  - intros [K|(_ & _ & [K|([|n] & _ & [K|K])])]; try discriminate K; apply K; [left; reflexivity|].
    right. right. split; reflexivity.
Qed.

(** ** C71 *)
(** If Cargo is not told to watch [RUSTC_BOOTSTRAP] then another value would give
    the same flags, *)
Theorem c71_unwatched : forall w m es v m' es',
  main w 0%nat = (Some (tt, m), es) -> ~ In watches_bootstrap es ->
  same_but_bootstrap w v -> one_is_most w -> stable_anyway w ->
  main v 0%nat = (Some (tt, m'), es') -> forall name, In (cfg name) es' <-> In (cfg name) es.
Proof. exact bootstrap_unwatched. Qed.
Print Assumptions c71_unwatched.
(** and the same run, whatever compilers do with the value, if the probe
    succeeds without it or is not made. *)
Theorem c71_ignored : forall w v, same_but_bootstrap w v ->
  macro_feature w = false \/ (var w (lit "RUSTC_STAGE") = None /\ accepted w (lit "proc_macro_span") false) ->
  main v 0%nat = main w 0%nat.
Proof. exact bootstrap_ignored. Qed.
Print Assumptions c71_ignored.
(** It is told so exactly if the value matters or may come to matter. *)
Theorem c71_watched : forall w m es, main w 0%nat = (Some (tt, m), es) ->
  (In watches_bootstrap es <->
   macro_feature w = true /\
   ~ (var w (lit "RUSTC_STAGE") = None /\ accepted w (lit "proc_macro_span") false) /\
   ((var w (lit "RUSTC_STAGE") = None /\ accepted w (lit "proc_macro_span") true) \/
    var w (lit "RUSTC_BOOTSTRAP") <> Some (lit "1"))).
Proof. exact bootstrap_watched. Qed.
Print Assumptions c71_watched.
(** The answers to probes whose files Cargo is not told to watch are not used. *)
Theorem c71_files : forall w v, same_but_compile w v ->
  (forall feature keep dir c, probe w feature keep dir c -> In (watches_file feature) (snd (main w 0%nat)) ->
     compile v c = compile w c) ->
  main v 0%nat = main w 0%nat.
Proof. exact unwatched_unused. Qed.
Print Assumptions c71_files.
(** [RUSTC_STAGE] changes the flags too, and Cargo is not told to watch it. *)
Theorem c71_stage_refuted : exists w v m es m' es', same_but_stage w v /\
  main w 0%nat = (Some (tt, m), es) /\ main v 0%nat = (Some (tt, m'), es') /\
  set_names es <> set_names es' /\
  ~ In (Line (lit "cargo:rerun-if-env-changed=RUSTC_STAGE")) (es ++ es').
Proof. exact stage_unwatched. Qed.
Print Assumptions c71_stage_refuted.
Example c71_example :
  let w := sample (lit "1.88.0") false (Some (lit "1")) (fun _ => false) in
  (exists m es, main w 0%nat = (Some (tt, m), es) /\ existsb (fun e => match e with Line t => str_eqb t (lit "cargo:rerun-if-env-changed=RUSTC_BOOTSTRAP") | _ => false end) es = false) /\
  one_is_most w /\ stable_anyway w /\
  same_but_bootstrap w (sample (lit "1.88.0") false (Some (lit "0")) (fun _ => false)).
Proof.
  split; [do 2 eexists; split; vm_compute; reflexivity|]. split; [|split].
  - intros c d P A B. unfold sample. cbn [compile]. rewrite !orb_false_r. unfold mentions. now rewrite A.
  - intros f k dir c d F P E1 E2. unfold sample. cbn [compile]. rewrite !orb_false_r. unfold mentions. now rewrite E2.
  - split; [|repeat split]. intros key D. unfold sample. cbn [var]. destruct (str_eqb_spec key (lit "RUSTC_BOOTSTRAP")); [contradiction|reflexivity].
Qed.

(** ** C72 *)
(** A flag for unstable functions can be set although the compiler, with
    [RUSTC_BOOTSTRAP] as it is when the crate is compiled, refuses them: the
    first probe is made without the variable. *)
Theorem c72_usable_refuted : exists w m es, main w 0%nat = (Some (tt, m), es) /\
  In (cfg (lit "proc_macro_span")) es /\ ~ accepted w (lit "proc_macro_span") true.
Proof. exact unusable. Qed.
Print Assumptions c72_usable_refuted.
(** Not so where setting the variable never takes anything away. *)
Theorem c72_usable_partial : forall w m es, value_allows w -> main w 0%nat = (Some (tt, m), es) ->
  In (cfg (lit "proc_macro_span")) es -> accepted w (lit "proc_macro_span") true.
Proof. exact usable_span. Qed.
Print Assumptions c72_usable_partial.
Theorem c72_parts_partial : forall w m es, value_allows w -> var w (lit "RUSTC_STAGE") = None -> main w 0%nat = (Some (tt, m), es) ->
  forall part, part = lit "proc_macro_span_location" \/ part = lit "proc_macro_span_file" ->
  In (cfg part) es -> accepted w (lit "proc_macro_span") true \/ (since w 88 /\ accepted w part true).
Proof. exact usable_part. Qed.
Print Assumptions c72_parts_partial.
Example c72_example :
  let w := sample (lit "1.88.0") false (Some (lit "1")) only_one in
  value_allows w /\ exists m es, main w 0%nat = (Some (tt, m), es) /\ In (lit "proc_macro_span") (set_names es).
Proof.
  split.
  - intros c d P A B. unfold sample. cbn [compile]. unfold mentions. rewrite A, B. cbn [only_one]. rewrite orb_false_r. intros [= ->]. reflexivity.
  - do 2 eexists. split; [vm_compute; reflexivity|]. vm_compute. auto.
Qed.
