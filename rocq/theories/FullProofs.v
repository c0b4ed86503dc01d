(** * More than 2^32 characters on one thread (C79) *)
From Verif Require Import Base BaseFacts Unicode Tokens Lexer PureLexer SpecText LexerEquiv4 Spans LexProofs SourceMap SpecMap MapRelease MapFacts MapProofs.
From Coq Require Import Lia.
Import ListNotations.
Local Open Scope N_scope.

Section Agree.
Context {U : unicode} {S : std_search}.
Lemma add_u32_wrapping a b c : add_u32 a b = Ok c -> wrapping_add a b = c.
Proof.
  unfold add_u32, wrapping_add, wrap32. destruct (N.ltb_spec (a + b) two32) as [L|L]; [|discriminate].
  intros [= <-]. now apply N.mod_small.
Qed.
Lemma add_file_wrapping m src r : add_file m src = Ok r -> wrapping_add_file m src = Ok r.
Proof.
  unfold add_file, wrapping_add_file, next_start_pos, wrapping_next. cbn [lines_offsets bind].
  destruct (rev m) as [|f fs]; [discriminate|]. destruct (add_u32 (hi (fspan f)) 1) as [l| | |] eqn:E; try discriminate.
  cbn [bind]. apply add_u32_wrapping in E as ->.
  destruct (add_u32 l _) as [h| | |] eqn:E; try discriminate. cbn [bind]. now apply add_u32_wrapping in E as ->.
Qed.
Lemma step_wrapping st o r : step st o = Ok r -> wrapping_step st o = Ok r.
Proof.
  destruct o; try (intros E; exact E); cbn [step wrapping_step].
  - unfold parse, wrapping_parse. destruct (add_file _ _) as [[m sp]| | |] eqn:E; try discriminate.
    now rewrite (add_file_wrapping _ _ _ E).
  - unfold parse_literal, wrapping_literal. destruct (add_file _ _) as [[m sp]| | |] eqn:E; try discriminate.
    now rewrite (add_file_wrapping _ _ _ E).
Qed.
Lemma run_wrapping os : forall st r, run st os = Ok r -> wrapping_run st os = Ok r.
Proof.
  induction os as [|o os IH]; intros st r; [easy|]. cbn [run wrapping_run].
  destruct (step st o) as [[st1 x]| | |] eqn:E; try discriminate. rewrite (step_wrapping _ _ _ E). cbn [bind].
  destruct (run st1 os) as [[st2 xs]| | |] eqn:E2; try discriminate. now rewrite (IH _ _ E2).
Qed.
Lemma builds_agree (HS : search_ok S) os : room 1 os ->
  exists st, wrapping_run initial os = Ok (st, snd (spec_run spec_initial os)).
Proof. intros H. destruct (history HS os H) as (st & E). exists st. now apply run_wrapping. Qed.

(** ** With checks: panics exactly when there is no room *)
Lemma add_file_full ts m src : files_ok 0 ts m -> ts <> [] -> N.of_nat (length src) < two32 ->
  two32 < total ts + N.of_nat (length src) + 1 -> add_file m src = Panic.
Proof.
  intros Hok Hne Hs Hfit. destruct (files_ok_last 0 ts m Hok Hne) as (f & m' & Hr & Hh).
  unfold add_file, lines_offsets, next_start_pos. rewrite Hr. unfold add_u32. rewrite Hh, N.add_0_l.
  destruct (N.ltb_spec (total ts) two32) as [L|L]; [|reflexivity]. cbn [bind]. rewrite wrap32_small by exact Hs.
  destruct (N.ltb_spec (total ts + N.of_nat (length src)) two32); [lia|reflexivity].
Qed.
Lemma step_full st s o : related st s -> short o -> two32 < used_after (total (texts s)) o -> step st o = Panic.
Proof.
  intros Hr Hs Hu. pose proof (rel_fit _ _ Hr). pose proof (texts_nonempty _ _ Hr). pose proof (rel_files _ _ Hr).
  destruct o; cbn [used_after] in Hu; try lia; try discriminate; cbn [step]; unfold parse, parse_literal.
  - now rewrite (add_file_full (texts s)).
  - now rewrite (add_file_full (texts s)).
Qed.
Lemma run_full (HS : search_ok S) os : Forall short os -> forall st s, related st s -> ~ room (total (texts s)) os -> run st os = Panic.
Proof.
  induction 1 as [|o os Ho Hos IH]; intros st s Hr Hn; [now destruct Hn|]. cbn [run].
  destruct (N.le_gt_cases (used_after (total (texts s)) o) two32) as [L|L].
  - destruct (step_ok HS st s o Hr L) as (st' & x & E & _ & Hr' & Ht). rewrite E. cbn [bind].
    rewrite (IH st' _ Hr'); [reflexivity|]. rewrite Ht. intros R. apply Hn.
    destruct o; cbn [room used_after] in *; auto.
  - now rewrite (step_full st s o Hr Ho L).
Qed.
Lemma exact_room (HS : search_ok S) os : Forall short os -> ~ room 1 os -> run initial os = Panic.
Proof. intros Hs Hn. apply (run_full HS os Hs initial spec_initial); [apply related_initial|exact Hn]. Qed.
Lemma room_runs (HS : search_ok S) os : room 1 os ->
  exists st, run initial os = Ok (st, snd (spec_run spec_initial os)) /\ wrapping_run initial os = run initial os.
Proof.
  intros H. destruct (history HS os H) as (st & E). exists st. split; [exact E|]. rewrite E. now apply run_wrapping.
Qed.
End Agree.

Lemma spaces_parse {U : unicode} (UO : unicode_ok U) n : token_stream_from_str 1 (repeat SPACE n) = Ok (Lexed []).
Proof.
  apply (from_str_blank U UO); [reflexivity|]. apply blank_trivia.
  assert (T : trivia (repeat SPACE n)).
  { induction n as [|n IH]; cbn; [constructor|]. apply trivia_blank; [now left|exact IH]. }
  unfold strip_bom. destruct n; exact T.
Qed.
Lemma checked_full {U : unicode} {S : std_search} src : N.of_nat (length src) = two32 - 1 ->
  run initial [OParse src] = Panic.
Proof.
  intros L. cbn [run step]. unfold parse, add_file, lines_offsets. rewrite L. reflexivity.
Qed.
Lemma unchecked_full {S : std_search} (HS : search_ok S) n : N.of_nat n = two32 - 3 ->
  @wrapping_run sample_unicode S initial [OParse (repeat SPACE n); OParse (tag "a"); OFile 0] = Panic.
Proof.
  intros L. cbn [wrapping_run wrapping_step]. unfold wrapping_parse, wrapping_add_file, lines_offsets. rewrite repeat_length, L.
  change (wrapping_next (smap initial)) with (@Ok N 1). cbn [bind lo].
  rewrite (spaces_parse sample_unicode_ok n). cbn [bind smap pool].
  remember (mkfile (repeat SPACE n) _ _ _) as f1 eqn:E1.
  assert (F1 : fspan f1 = mkspan 1 (two32 - 2)) by now rewrite E1. clear E1.
  unfold wrapping_next. cbn [rev app fresh_map smap initial]. rewrite F1. cbn [hi bind lo].
  change (wrapping_add (two32 - 2) 1) with (two32 - 1).
  assert (T : @token_stream_from_str sample_unicode (two32 - 1) (tag "a") =
              Ok (Lexed [TIdent (tag "a") false (mkspan (two32 - 1) 0)])) by (vm_compute; reflexivity).
  rewrite T. cbn [bind]. remember (mkfile (tag "a") _ _ _) as f2 eqn:E2.
  assert (F2 : fspan f2 = mkspan (two32 - 1) 0) by now rewrite E2. clear E2.
  cbn [step smap pool on nth_error lexed_spans flat_map tree_spans token_span app initial].
  unfold span_file, filepath, find.
  match goal with |- context [binary_search_by ?f ?xs] =>
    pose proof (HS _ f (fun _ => Lt) xs) as H end.
  lapply H; [clear H; intros H; lapply H; [clear H; intros H1|intros j k x y _ _ _; apply le_n]
            |intros x [<-|[<-|[<-|[]]]]; rewrite ?F1, ?F2; reflexivity].
  destruct (binary_search_by _ _) as [[i|i]| | |]; [|reflexivity|destruct H1..].
  destruct H1 as (x & _ & [=]).
Qed.
Lemma spaces_of k : exists n, N.of_nat n = k.
Proof. exists (N.to_nat k). apply N2Nat.id. Qed.
Lemma checked_refuted : forall S, search_ok S -> exists src, N.of_nat (length src) < two32 /\
  @run sample_unicode S initial [OParse src] = Panic.
Proof.
  intros S _. destruct (spaces_of (two32 - 1)) as [n Hn]. exists (repeat SPACE n).
  assert (L : N.of_nat (length (repeat SPACE n)) = two32 - 1) by now rewrite repeat_length.
  split; [rewrite L; reflexivity|]. now apply checked_full.
Qed.
Lemma unchecked_refuted : forall S, search_ok S -> exists src, N.of_nat (length src) < two32 /\
  (exists st, @wrapping_run sample_unicode S initial [OParse src] = Ok (st, [Nothing])) /\
  (exists st, @wrapping_run sample_unicode S initial [OParse (tag "a"); OFile 0] = Ok (st, [Nothing; Path (tag "<parsed string 1>")])) /\
  @wrapping_run sample_unicode S initial [OParse src; OParse (tag "a"); OFile 0] = Panic.
Proof.
  intros S HS. destruct (spaces_of (two32 - 3)) as [n Hn]. exists (repeat SPACE n).
  assert (L : N.of_nat (length (repeat SPACE n)) = two32 - 3) by now rewrite repeat_length.
  split; [rewrite L; reflexivity|]. split; [|split].
  - apply (@builds_agree sample_unicode S HS [OParse (repeat SPACE n)]). cbn [room]. rewrite L. now split.
  - apply (@builds_agree sample_unicode S HS [OParse (tag "a"); OFile 0]). cbn. now split.
  - now apply (unchecked_full HS).
Qed.
Lemma room_examples : search_ok std_new /\
  room 1 [OParse (tag "a b"); OFile 0; OLiteral (tag "1")] /\ ~ room (two32 - 3) [OParse (tag "a b"); OFile 0] /\
  @wrapping_run sample_unicode std_new initial [OParse (tag "a b"); OFile 0; OLiteral (tag "1")] =
  @run sample_unicode std_new initial [OParse (tag "a b"); OFile 0; OLiteral (tag "1")].
Proof.
  split; [apply std_new_ok|]. split; [cbn; now repeat split|]. split; [|vm_compute; reflexivity].
  intros [H _]. now apply H.
Qed.
