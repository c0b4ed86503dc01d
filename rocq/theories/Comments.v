(** * The comment lexer meets the text specification.  Not a model of code. *)
From Verif Require Import Base BaseFacts Unicode Tokens Lexer PureLexer.
From Verif Require Import LexerEquiv LexerEquiv2 LexerEquiv3 LexerEquiv4 Grammar Stable Trivia SpecText.

Local Arguments is_whitespace : simpl never.

Lemma begins_starts s p : starts_with s p = true <-> begins s p.
Proof. apply starts_with_spec. Qed.
Lemma begins_starts_f s p : starts_with s p = false <-> ~ begins s p.
Proof. rewrite <- begins_starts. destruct (starts_with s p); intuition congruence. Qed.
Lemma blank_ws c : is_whitespace c = true <-> blank c.
Proof. unfold is_whitespace, blank. lia. Qed.

(** *** Nested comments *)
Lemma p_block_S n a b t : p_block (S n) (a :: b :: t) =
  if (a =? "/"%ch)%N && (b =? "*"%ch)%N then p_block (S (S n)) t
  else if (a =? "*"%ch)%N && (b =? "/"%ch)%N then
    match n with O => Some t | S _ => p_block n t end
  else p_block (S n) (b :: t).
Proof. destruct n; reflexivity. Qed.
Lemma nested_nonempty w : nested w -> exists a b t, w = a :: b :: t.
Proof.
  induction 1; cbn; eauto. destruct IHnested as (a & b & t & ->). eauto.
Qed.
Lemma nested_p_block w : nested w -> forall n s,
  p_block (S n) (w ++ s) = match n with O => Some s | S _ => p_block n s end.
Proof.
  induction 1 as [|c w Hw IH H1 H2|w1 w2 H1 IH1 H2 IH2]; intros n s.
  - reflexivity.
  - destruct (nested_nonempty _ Hw) as (a & b & t & ->).
    rewrite <- begins_starts_f in H1, H2. cbn [starts_with] in H1, H2. rewrite !andb_true_r in *.
    rewrite <- (IH n s). cbn [app].
    rewrite p_block_S.
    rewrite (N.eqb_sym c), (N.eqb_sym a), H1, (N.eqb_sym c), (N.eqb_sym a), H2. reflexivity.
  - cbn [app]. change (p_block (S n) ("/"%ch :: "*"%ch :: (w1 ++ w2) ++ s)) with (p_block (S (S n)) ((w1 ++ w2) ++ s)).
    rewrite <- app_assoc, IH1. apply IH2.
Qed.
Lemma p_block_nested s : forall n r, p_block (S n) s = Some r ->
  exists w r', s = w ++ r' /\ nested w /\ match n with O => r' = r | S _ => p_block n r' = Some r end.
Proof.
  revert s. apply (str_ind_len (fun s => forall n r, p_block (S n) s = Some r ->
    exists w r', s = w ++ r' /\ nested w /\ match n with O => r' = r | S _ => p_block n r' = Some r end)).
  intros s IH n r H. destruct s as [|a [|b t]]; try discriminate.
  rewrite p_block_S in H.
  destruct ((a =? "/"%ch)%N && (b =? "*"%ch)%N) eqn:E1.
  { apply andb_prop in E1 as [Ea Eb]. apply N.eqb_eq in Ea, Eb. subst.
    apply IH in H as (w1 & r1 & -> & Hw1 & H); [|cbn; lia].
    apply IH in H as (w2 & r2 & -> & Hw2 & H); [|cbn; rewrite app_length; lia].
    exists ((tag "/*") ++ w1 ++ w2), r2. split; [cbn; now rewrite !app_assoc|].
    split; [now apply nested_open|exact H]. }
  destruct ((a =? "*"%ch)%N && (b =? "/"%ch)%N) eqn:E2.
  { apply andb_prop in E2 as [Ea Eb]. apply N.eqb_eq in Ea, Eb. subst.
    exists (tag "*/"), t. split; [reflexivity|]. split; [apply nested_close|]. destruct n; [congruence|exact H]. }
  apply IH in H as (w & r' & E & Hw & H); [|cbn; lia].
  exists (a :: w), r'. split; [cbn; now rewrite E|]. split; [|exact H].
  destruct (nested_nonempty _ Hw) as (x & y & t' & ->). cbn in E. injection E as -> E.
  apply nested_char; [exact Hw| |]; rewrite <- begins_starts_f; cbn [starts_with]; rewrite !andb_true_r.
  - now rewrite (N.eqb_sym "/"%ch), (N.eqb_sym "*"%ch).
  - now rewrite (N.eqb_sym "/"%ch), (N.eqb_sym "*"%ch).
Qed.

(** *** Line comments *)
Lemma p_line_no_lf x s : ~ In LF x -> fst (p_line (x ++ LF :: s)) = LF :: s.
Proof.
  intros H. rewrite p_line_lf. replace (fst (p_line x)) with (@nil N); [reflexivity|].
  symmetry. induction x as [|c t IH]; [reflexivity|]. cbn [p_line].
  destruct (N.eqb_spec c LF) as [->|Hc]; [elim H; now left|].
  destruct (starts_with t [LF]) eqn:E.
  { apply begins_starts in E as [r ->]. elim H. right. now left. }
  rewrite andb_false_r. destruct (p_line t) as [r x]. apply IH. intros Hi. apply H. now right.
Qed.
Lemma p_line_no_lf_end x : ~ In LF x -> fst (p_line x) = [].
Proof.
  intros H. pose proof (p_line_no_lf x [] H) as E. rewrite p_line_lf in E.
  destruct (fst (p_line x)); [reflexivity|]. apply (f_equal (@length N)) in E. rewrite app_length in E.
  cbn in E. lia.
Qed.
(** The other way round: what [p_line] consumes. *)
Lemma p_line_split s : exists x, ~ In LF x /\ s = x ++ fst (p_line s) /\
  (fst (p_line s) = [] \/ exists t, fst (p_line s) = LF :: t).
Proof.
  induction s as [|c t IH].
  - exists []. cbn. auto.
  - cbn [p_line]. destruct (N.eqb_spec c LF) as [->|Hc].
    { exists []. cbn. split; [auto|]. split; [reflexivity|]. right. eauto. }
    destruct ((c =? CR)%N && starts_with t [LF]) eqn:E.
    { apply andb_prop in E as [E1 E2]. apply begins_starts in E2 as [r ->]. exists [c]. cbn.
      split; [intros [?|[]]; congruence|]. split; [reflexivity|]. right. eauto. }
    destruct IH as (x & H1 & H2 & H3). destruct (p_line t) as [r y]. cbn [fst] in *.
    exists (c :: x). split; [intros [?|?]; [congruence|auto]|]. split; [cbn; congruence|exact H3].
Qed.

Lemma plain_line_start x s : ~ begins x (tag "!") -> (~ begins x (tag "/") \/ begins x (tag "//")) ->
  stop s -> line_comment_start ((tag "//") ++ x ++ s) = true.
Proof.
  intros H2 H3 Hs. rewrite app_assoc, line_comment_start_stop by exact Hs.
  unfold line_comment_start. cbn [app starts_with]. rewrite N.eqb_refl. cbn [andb].
  rewrite <- !begins_starts_f, <- !begins_starts in *.
  destruct x as [|c t]; [reflexivity|]. cbn [starts_with] in *. rewrite !andb_true_r in *.
  rewrite H2. change ("/"%ch =? "/"%ch)%N with true. change ("/"%ch =? "!"%ch)%N with false. cbn [andb].
  destruct H3 as [H3|H3]; rewrite H3; [reflexivity|]. now rewrite orb_true_r.
Qed.

Lemma line_comment_inv s : line_comment_start s = true ->
  exists x, s = (tag "//") ++ x ++ fst (p_line s) /\ plain_line x
            /\ (fst (p_line s) = [] \/ exists t, fst (p_line s) = LF :: t).
Proof.
  intros H. destruct (p_line_split s) as (y & Hy & Hs & He).
  unfold line_comment_start in H. apply andb_prop in H as [H H3]. apply andb_prop in H as [H1 H2].
  pose proof H1 as H1'. apply begins_starts in H1' as [u Hu].
  rewrite Hs in H1, H2, H3.
  assert (Hstop : stop (fst (p_line s))). { destruct He as [-> |[t ->]]; [exact I|reflexivity]. }
  rewrite starts_with_stop in H1 by auto. rewrite starts_with_stop in H3 by auto.
  rewrite (starts_with_stop _ _ (tag "///")), (starts_with_stop _ _ (tag "////")) in H2 by auto.
  apply begins_starts in H1 as [x ->]. exists x. rewrite <- app_assoc in Hs. split; [exact Hs|]. split; [|exact He].
  split; [intros Hi; apply Hy; right; right; exact Hi|].
  rewrite <- !begins_starts_f, <- !begins_starts. cbn [app starts_with] in *. rewrite N.eqb_refl in *.
  cbn [andb] in *. destruct x as [|c t]; [auto|]. cbn [starts_with] in *. rewrite !andb_true_r in *.
  change ("/"%ch =? "/"%ch)%N with true in *. change ("/"%ch =? "!"%ch)%N with false in *. cbn [andb] in *.
  split; [now apply negb_true_iff in H3|]. destruct ("/"%ch =? c)%N; cbn in *; auto.
Qed.

(** *** Block comments *)
Lemma plain_block_skip b s : plain_block b -> p_skip1 (b ++ s) = Some s.
Proof.
  intros ((w & -> & Hw) & Hb). destruct (nested_nonempty _ Hw) as (x & y & t & E).
  assert (Hpb : p_block 0 (((tag "/*") ++ w) ++ s) = Some s).
  { rewrite <- app_assoc. cbn [app].
    change (p_block 0 ("/"%ch :: "*"%ch :: w ++ s)) with (p_block 1 (w ++ s)). now rewrite nested_p_block. }
  assert (Hlc : line_comment_start (((tag "/*") ++ w) ++ s) = false).
  { unfold line_comment_start. cbn [app starts_with]. reflexivity. }
  unfold p_skip1. cbn [app]. cbn [app] in Hlc, Hpb. rewrite Hlc.
  destruct Hb as [Hb|[Hb1 Hb2]].
  { cbn in Hb. injection Hb as Hb. subst w. reflexivity. }
  assert (Hst : forall p, length p <= 4 ->
     starts_with ("/"%ch :: "*"%ch :: w ++ s) p = starts_with ("/"%ch :: "*"%ch :: w) p).
  { intros p Hp. apply (starts_with_app_long ("/"%ch :: "*"%ch :: w) s). subst w. cbn. lia. }
  unfold block_comment_start. rewrite !Hst by (cbn; lia).
  replace (starts_with ("/"%ch :: "*"%ch :: w) (tag "/*!")) with false
    by (symmetry; now apply begins_starts_f).
  replace (negb (starts_with ("/"%ch :: "*"%ch :: w) (tag "/**"))
           || starts_with ("/"%ch :: "*"%ch :: w) (tag "/***")) with true.
  2: { symmetry. apply orb_true_iff. destruct Hb1 as [Hb1|Hb1].
       - left. apply negb_true_iff. now apply begins_starts_f.
       - right. now apply begins_starts. }
  destruct (starts_with _ (tag "/**/")) eqn:E4.
  { apply begins_starts in E4 as [v Ev]. destruct Hb1 as [Hb1|[v' Hb1]].
    - elim Hb1. exists ("/"%ch :: v). exact Ev.
    - cbn in Ev, Hb1. congruence. }
  cbn [starts_with andb negb]. exact Hpb.
Qed.

Lemma p_skip1_trivia s r : p_skip1 s = Some r ->
  (exists c, s = c :: r /\ blank c) \/
  (exists x, s = (tag "//") ++ x ++ r /\ plain_line x /\ (r = [] \/ exists t, r = LF :: t)) \/
  (exists b, s = b ++ r /\ plain_block b).
Proof.
  destruct s as [|c t]; [discriminate|]. unfold p_skip1.
  destruct (line_comment_start (c :: t)) eqn:E1.
  { intros H. right; left. destruct (line_comment_inv _ E1) as (x & H1 & H2 & H3).
    assert (Hr : fst (p_line (c :: t)) = r) by congruence. rewrite Hr in *. eauto. }
  destruct (starts_with (c :: t) (tag "/**/")) eqn:E2.
  { intros H. right; right. apply starts_with_skipn in E2.
    assert (Hr : skipn 4 (c :: t) = r) by congruence. rewrite E2.
    exists (tag "/**/"). split; [cbn [length] in *; congruence|]. split; [|now left].
    exists (tag "*/"). split; [reflexivity|apply nested_close]. }
  destruct (block_comment_start (c :: t)) eqn:E3.
  { intros H. right; right. unfold block_comment_start in E3.
    apply andb_prop in E3 as [E3 E6]. apply andb_prop in E3 as [E4 E5].
    pose proof E4 as E4'. apply begins_starts in E4' as [w Hw].
    rewrite Hw in H. change (p_block 0 (tag "/*" ++ w)) with (p_block 1 w) in H.
    apply p_block_nested in H as (v & r' & -> & Hv & ->).
    exists ((tag "/*") ++ v). split; [rewrite Hw; now rewrite app_assoc|].
    split; [eauto|]. right.
    assert (Hmono : forall p, begins ((tag "/*") ++ v) p -> begins (c :: t) p).
    { intros p [u Hu]. exists (u ++ r). rewrite Hw. now rewrite app_assoc, app_assoc, Hu. }
    assert (Hlong : forall p, length p <= 4 -> begins (c :: t) p -> begins ((tag "/*") ++ v) p).
    { intros p Hp Hb. apply begins_starts. apply begins_starts in Hb. rewrite Hw, app_assoc in Hb.
      rewrite starts_with_app_long in Hb; [exact Hb|].
      destruct (nested_nonempty _ Hv) as (x & y & z & ->). cbn. lia. }
    split.
    - apply orb_true_iff in E5 as [E5|E5].
      + left. apply negb_true_iff in E5. apply begins_starts_f in E5. auto.
      + right. apply begins_starts in E5. apply Hlong; [cbn; lia|exact E5].
    - apply negb_true_iff in E6. apply begins_starts_f in E6. auto. }
  destruct (is_whitespace c) eqn:E4; [|discriminate]. intros H. inv H. left.
  exists c. split; [reflexivity|]. now apply blank_ws.
Qed.

Lemma trivia_app a b : trivia a -> trivia b -> trivia (a ++ b).
Proof.
  induction 1; intros Hb; cbn [app]; auto.
  - apply trivia_blank; auto.
  - rewrite <- app_assoc. cbn [app].
    change (trivia ((tag "//") ++ x ++ LF :: (w ++ b))). apply trivia_line; auto.
  - rewrite <- app_assoc. apply trivia_block; auto.
Qed.

Lemma trivia_skip w : trivia w -> forall s, p_skip (w ++ s) = p_skip s.
Proof.
  induction 1 as [|c w Hc Hw IH|x w Hx Hw IH|b w Hb Hw IH]; intros s.
  - reflexivity.
  - cbn [app]. rewrite <- (IH s). apply p_skip_step. apply p_skip1_ws. now apply blank_ws.
  - rewrite <- (IH s). destruct Hx as (H1 & H2 & H3).
    rewrite <- app_assoc, <- app_assoc. cbn [app].
    assert (E : p_skip1 ((tag "//") ++ x ++ LF :: w ++ s) = Some (LF :: w ++ s)).
    { pose proof (plain_line_start x (LF :: w ++ s) H2 H3 eq_refl) as E. cbn [app] in *.
      unfold p_skip1. rewrite E. f_equal.
      change ("/"%ch :: "/"%ch :: x ++ LF :: w ++ s) with (("/"%ch :: "/"%ch :: x) ++ LF :: w ++ s).
      apply p_line_no_lf. intros [?|[?|?]]; [discriminate|discriminate|auto]. }
    cbn [app] in E. rewrite (p_skip_step _ _ E). apply p_skip_step. now apply p_skip1_ws.
  - rewrite <- app_assoc, <- (IH s). apply p_skip_step. now apply plain_block_skip.
Qed.

Lemma skip_trivia s : exists w, s = w ++ p_skip s /\
  (trivia w \/ (p_skip s = [] /\ blank_text w)).
Proof.
  revert s. apply (str_ind_len (fun s => exists w, s = w ++ p_skip s /\
    (trivia w \/ (p_skip s = [] /\ blank_text w)))).
  intros s IH. destruct (p_skip1 s) as [r|] eqn:E.
  2: { exists []. rewrite (p_skip_stay _ E). split; [reflexivity|left; constructor]. }
  rewrite (p_skip_step _ _ E).
  assert (Hpre : forall v, trivia v -> forall w, (trivia w \/ (p_skip r = [] /\ blank_text w)) ->
     trivia (v ++ w) \/ (p_skip r = [] /\ blank_text (v ++ w))).
  { intros v Hv w [Hw|[Hw1 Hw2]]; [left; now apply trivia_app|]. right. split; [exact Hw1|].
    inv Hw2; [constructor; now apply trivia_app|]. rewrite app_assoc. apply blank_line; [now apply trivia_app|auto]. }
  pose proof (p_skip1_shorter _ _ E) as Hshort.
  apply p_skip1_trivia in E as [(c & -> & Hc)|[(x & -> & Hx & Hr)|(b & -> & Hb)]].
  - destruct (IH r (proj2 Hshort)) as (w & Hw & Ht). exists (c :: w). split; [cbn; congruence|].
    apply (Hpre [c]); [|exact Ht]. apply trivia_blank; [exact Hc|constructor].
  - destruct Hr as [->|[t ->]].
    + exists ((tag "//") ++ x). change (p_skip []) with (@nil N). split; [now rewrite !app_nil_r|].
      right. split; [reflexivity|]. apply (blank_line []); [constructor|exact Hx].
    + assert (Hlt : length t < length ((tag "//") ++ x ++ LF :: t)).
      { cbn [app length]. rewrite app_length. cbn. lia. }
      destruct (IH t Hlt) as (w & Hw & Ht).
      assert (Es : p_skip (LF :: t) = p_skip t) by (apply p_skip_step; now apply p_skip1_ws).
      exists ((tag "//") ++ x ++ LF :: w). rewrite Es. split.
      { rewrite Hw at 1. cbn [app]. rewrite <- app_assoc. reflexivity. }
      rewrite Es in Hpre.
      assert (Hv : trivia ((tag "//") ++ x ++ [LF])) by (apply trivia_line; [exact Hx|constructor]).
      specialize (Hpre _ Hv w Ht). rewrite <- app_assoc, <- app_assoc in Hpre. exact Hpre.
  - destruct (IH r (proj2 Hshort)) as (w & Hw & Ht). exists (b ++ w). split; [rewrite <- app_assoc; congruence|].
    apply Hpre; [|exact Ht]. rewrite <- (app_nil_r b). apply trivia_block; [exact Hb|constructor].
Qed.

Lemma blank_text_skip s : p_skip s = [] <-> blank_text s.
Proof.
  split.
  - intros H. destruct (skip_trivia s) as (w & Hw & [Ht|[_ Ht]]); rewrite H, app_nil_r in Hw; subst; auto.
    now constructor.
  - intros H. inv H.
    + rewrite <- (app_nil_r s). rewrite trivia_skip by assumption. reflexivity.
    + rewrite trivia_skip by assumption. destruct H1 as (H1 & H2 & H3).
      rewrite (p_skip_step _ []); [reflexivity|].
      pose proof (plain_line_start x [] H2 H3 I) as E. rewrite app_nil_r in E.
      cbn [app] in *. unfold p_skip1. rewrite E. f_equal. apply p_line_no_lf_end.
      intros [?|[?|?]]; [discriminate|discriminate|auto].
Qed.

Section WithUnicode.
Context {U : unicode} (UO : unicode_ok U).

Lemma cur_of_char start a b : (start + N.of_nat (length a) < two32)%N ->
  cur_of (mkcur (a ++ b) start) b = mkcur b (start + N.of_nat (length a))%N.
Proof.
  intros H. unfold cur_of. cbn [rest off]. rewrite app_length.
  replace (length a + length b - length b) with (length a) by lia. now rewrite wrap32_small.
Qed.
Lemma cur_of_char0 start b : (start < two32)%N -> cur_of (mkcur b start) b = mkcur b start.
Proof.
  intros H. pose proof (cur_of_char start [] b) as E. cbn in E. rewrite N.add_0_r in E. auto.
Qed.
Lemma trivia_no_bom w s : trivia w -> w <> [] -> starts_with (w ++ s) BYTE_ORDER_MARK = false.
Proof.
  intros H Hn. destruct H as [|c w Hc Hw|x w Hx Hw|b w ((v & -> & _) & _) Hw]; try reflexivity; [congruence|].
  cbn. destruct (N.eqb_spec 0xFEFF c) as [<-|]; [|reflexivity].
  apply blank_ws in Hc. discriminate.
Qed.

(** Trivia in front only shifts the position at which parsing starts. *)
Lemma from_str_trivia start w s : trivia w -> starts_with s BYTE_ORDER_MARK = false ->
  (start + N.of_nat (length w) < two32)%N ->
  token_stream_from_str start (w ++ s) = token_stream_from_str (start + N.of_nat (length w))%N s.
Proof.
  intros Hw Hs Hr. rewrite !token_stream_from_str_run by lia.
  destruct w as [|c w]. { cbn [app length]. rewrite N.add_0_r. reflexivity. }
  rewrite !strip_bom_none; [|exact Hs|apply trivia_no_bom; [exact Hw|discriminate]].
  rewrite !cur_of_char0 by lia. f_equal.
  rewrite run_skipped by (unfold wfc; cbn [off]; lia).
  rewrite (run_skipped (mkcur s _)) by (unfold wfc; cbn [off]; lia).
  f_equal. unfold skipped. cbn [rest]. rewrite trivia_skip by exact Hw.
  unfold cur_of. cbn [rest off]. f_equal. f_equal. pose proof (suffix_length _ _ (p_skip_suffix s)).
  rewrite app_length. lia.
Qed.

Lemma blank_text_lexes s : blank_text (strip_bom s) <-> lexes s [].
Proof using UO.
  unfold lexes. rewrite <- blank_text_skip. split.
  - intros H. now apply Lex_eof.
  - intros H. inversion H as [? H0| ? ? ? H0 H1 | ? ? ? inner | |]; subst; auto.
Qed.

(** *** Doc comments *)
Lemma bare_cr_spec x : bare_cr x = true <-> has_bare_cr x.
Proof.
  unfold has_bare_cr. induction x as [|c t IH]; cbn [bare_cr].
  - split; [discriminate|]. intros ([|] & b & E & _); discriminate.
  - destruct (N.eqb_spec c CR) as [->|Hc].
    + rewrite orb_true_iff, IH. split.
      * intros [H|(a & b & -> & H)].
        { exists [], t. split; [reflexivity|]. apply negb_true_iff in H. now apply begins_starts_f. }
        { exists (CR :: a), b. auto. }
      * intros ([|d a] & b & E & H).
        { inv E. left. apply negb_true_iff. now apply begins_starts_f. }
        { inv E. right. eauto. }
    + rewrite IH. split.
      * intros (a & b & -> & H). exists (c :: a), b. auto.
      * intros ([|d a] & b & E & H); inv E; [congruence|eauto].
Qed.

Lemma p_line_text x s : ~ In LF x -> line_end s -> ~ has_bare_cr x ->
  p_line (x ++ s) = (match s with a :: t => if (a =? CR)%N then t else s | [] => s end, x).
Proof.
  intros H Hs Hb. assert (Hcr : ~ In CR x).
  { intros Hi. apply in_split in Hi as (a & b & ->). apply Hb. exists a, b. split; [reflexivity|].
    intros [r ->]. apply H. apply in_or_app. right. right. now left. }
  clear Hb. induction x as [|c t IH].
  - cbn [app]. destruct Hs as [->|[[r ->]|[r ->]]]; reflexivity.
  - cbn [app p_line]. destruct (N.eqb_spec c LF) as [->|_]; [elim H; now left|].
    destruct (N.eqb_spec c CR) as [->|_]; [elim Hcr; now left|]. cbn [andb].
    rewrite IH; [reflexivity| |]; intros Hi; [apply H|apply Hcr]; now right.
Qed.
(** With a bare carriage return in it the text is still delimited the same way. *)
Lemma p_line_bare x s : ~ In LF x -> has_bare_cr x -> (s = [] \/ begins s [LF]) ->
  (exists a b, x = a ++ CR :: b /\ b <> []) -> bare_cr (snd (p_line (x ++ s))) = true.
Proof.
  intros H _ Hs Hb. induction x as [|c t IH].
  - destruct Hb as ([|] & b & E & _); discriminate.
  - cbn [app p_line]. destruct (N.eqb_spec c LF) as [->|_]; [elim H; now left|].
    destruct Hb as (a & b & E & Hb). destruct a as [|c' a].
    + injection E as -> ->. destruct b as [|d b]; [congruence|]. cbn [app]. rewrite starts_with_single.
      destruct (N.eqb_spec LF d) as [<-|Hd]; [elim H; right; now left|]. rewrite andb_false_r.
      destruct (p_line (d :: b ++ s)) as [r y] eqn:Ep. cbn [snd bare_cr]. rewrite N.eqb_refl.
      rewrite starts_with_single. cbn [p_line] in Ep.
      destruct (N.eqb_spec d LF) as [->|_]; [congruence|].
      destruct (_ && _); [inv Ep; reflexivity|].
      destruct (p_line (b ++ s)) as [r' y']. inv Ep. cbn.
      destruct (N.eqb_spec LF d) as [Ed|_]; [congruence|reflexivity].
    + injection E as <- ->.
      assert (IH' : bare_cr (snd (p_line ((a ++ CR :: b) ++ s))) = true).
      { apply IH; [intros Hi; apply H; now right|eauto]. }
      destruct (starts_with ((a ++ CR :: b) ++ s) [LF]) eqn:Es.
      { exfalso. destruct a as [|e a]; [discriminate|]. cbn in Es.
        rewrite andb_true_r in Es. apply N.eqb_eq in Es. subst e. apply H. right. now left. }
      rewrite andb_false_r. destruct (p_line ((a ++ CR :: b) ++ s)) as [r y]. cbn [snd] in *.
      cbn [bare_cr]. rewrite IH'. destruct (c =? CR)%N; [apply orb_true_r|reflexivity].
Qed.

Lemma firstn_skipn_mid {A} (a b c : list A) :
  firstn (length (a ++ b ++ c) - (length a + length c)) (skipn (length a) (a ++ b ++ c)) = b.
Proof.
  rewrite !app_length, skipn_app, skipn_all, Nat.sub_diag. cbn [app skipn].
  rewrite firstn_app. replace (_ - _) with (length b) by lia.
  rewrite firstn_all, Nat.sub_diag. now rewrite firstn_O, app_nil_r.
Qed.

Lemma p_doc_contents_block d i x s : doc_block d i x ->
  p_skip1 (d ++ s) = None /\ p_doc_contents (d ++ s) = Some (s, (x, i)).
Proof.
  intros H. inv H.
  - assert (Hpb : p_block 0 (((tag "/**") ++ x ++ (tag "*/")) ++ s) = Some s).
    { change (p_block 0 (((tag "/**") ++ x ++ (tag "*/")) ++ s))
        with (p_block 1 (((tag "*") ++ x ++ (tag "*/")) ++ s)). now rewrite nested_p_block. }
    pose proof (prefix_of_app ((tag "/**") ++ x ++ (tag "*/")) s) as Hpre.
    pose proof (firstn_skipn_mid (tag "/**") x (tag "*/")) as Hmid.
    change (length (tag "/**") + length (tag "*/")) with 5 in Hmid. change (length (tag "/**")) with 3 in Hmid.
    destruct x as [|c t]; [congruence|].
    assert (Hc : ("*"%ch =? c)%N = false).
    { apply begins_starts_f in H1. cbn in H1. now rewrite andb_true_r in H1. }
    assert (Hc2 : ("/"%ch =? c)%N = false).
    { destruct (N.eqb_spec "/"%ch c) as [<-|]; [|reflexivity].
      cbn [app] in H2. inversion H2 as [E|c0 w0 Hw0 Hx0 Hx E|].
      - destruct t; discriminate.
      - elim Hx. eexists. reflexivity. }
    split.
    + unfold p_skip1, line_comment_start, block_comment_start. cbn [app starts_with].
      cmpc. rewrite Hc, Hc2. reflexivity.
    + unfold p_doc_contents. rewrite Hpb, Hpre, Hmid. cbn [app starts_with skipn head_is].
      cmpc. rewrite Hc. reflexivity.
  - assert (Hpb : p_block 0 (((tag "/*!") ++ x ++ (tag "*/")) ++ s) = Some s).
    { change (p_block 0 (((tag "/*!") ++ x ++ (tag "*/")) ++ s))
        with (p_block 1 (((tag "!") ++ x ++ (tag "*/")) ++ s)). now rewrite nested_p_block. }
    pose proof (prefix_of_app ((tag "/*!") ++ x ++ (tag "*/")) s) as Hpre.
    pose proof (firstn_skipn_mid (tag "/*!") x (tag "*/")) as Hmid.
    change (length (tag "/*!") + length (tag "*/")) with 5 in Hmid. change (length (tag "/*!")) with 3 in Hmid.
    split.
    + unfold p_skip1, line_comment_start, block_comment_start. cbn [app starts_with].
      cmpc. reflexivity.
    + unfold p_doc_contents. rewrite Hpb, Hpre, Hmid. cbn [app starts_with skipn head_is].
      cmpc. reflexivity.
Qed.

Lemma p_doc_block d i x s : doc_block d i x -> ~ has_bare_cr x ->
  p_skip1 (d ++ s) = None /\ p_doc (d ++ s) = Some (s, (x, i)).
Proof.
  intros H Hb. destruct (p_doc_contents_block _ _ _ s H) as [H1 H2]. split; [exact H1|].
  unfold p_doc. rewrite H2. destruct (bare_cr x) eqn:E; [|reflexivity]. now apply bare_cr_spec in E.
Qed.

Lemma doc_line_text d i x s : doc_line d i x -> stop s \/ begins s [CR; LF] ->
  p_skip1 (d ++ s) = None /\
  p_doc_contents (d ++ s) = let (r, y) := p_line (x ++ s) in Some (r, (y, i)).
Proof.
  intros H Hs.
  assert (Hh : forall c, c <> CR -> is_stop c = false -> x = [] -> head_is c s = false).
  { intros c Hc1 Hc2 _. destruct Hs as [Hs|[u ->]].
    - destruct s as [|a t]; [reflexivity|]. cbn in *. destruct (N.eqb_spec c a) as [->|]; [congruence|reflexivity].
    - cbn. now apply N.eqb_neq. }
  inversion H as [y Hl Hy|y Hl]; subst y d i.
  - assert (Hx : head_is "/"%ch (x ++ s) = false).
    { destruct x as [|c t]; [now apply Hh|]. cbn. apply begins_starts_f in Hy. cbn in Hy.
      now rewrite andb_true_r in Hy. }
    split.
    + unfold p_skip1, line_comment_start, block_comment_start. cbn [app starts_with]. cmpc. cbn [andb negb orb].
      destruct (x ++ s) as [|a t]; [reflexivity|]. cbn [head_is] in Hx. rewrite Hx. reflexivity.
    + unfold p_doc_contents. cbn [app starts_with skipn]. cmpc. cbn [andb]. now rewrite Hx.
  - split.
    + unfold p_skip1, line_comment_start, block_comment_start. cbn [app starts_with]. cmpc. cbn [andb negb orb].
      reflexivity.
    + unfold p_doc_contents. cbn [app starts_with skipn]. cmpc. cbn [andb]. reflexivity.
Qed.

Lemma p_doc_line d i x s : doc_line d i x -> line_end s -> ~ has_bare_cr x ->
  p_skip1 (d ++ s) = None /\
  exists s', p_doc (d ++ s) = Some (s', (x, i)) /\ p_skip s' = p_skip s.
Proof.
  intros H Hs Hb.
  assert (Hl : ~ In LF x) by (inv H; assumption).
  assert (Hs' : stop s \/ begins s [CR; LF]).
  { destruct Hs as [->|[[u ->]|Hs]]; [left; exact I|left; reflexivity|auto]. }
  destruct (doc_line_text _ _ _ s H Hs') as [H1 H2]. split; [exact H1|].
  rewrite p_line_text in H2 by assumption. unfold p_doc. rewrite H2.
  assert (Hbc : bare_cr x = false).
  { destruct (bare_cr x) eqn:E; [|reflexivity]. now apply bare_cr_spec in E. }
  rewrite Hbc. eexists. split; [reflexivity|].
  destruct Hs as [->|[[u ->]|[u ->]]]; try reflexivity.
Qed.

Lemma doc_head d i x : doc_line d i x \/ doc_block d i x ->
  exists t, d = "/"%ch :: "/"%ch :: t \/ d = "/"%ch :: "*"%ch :: t.
Proof. intros [H|H]; inv H; cbn; eauto. Qed.

Lemma doc_no_leaf d i x s : doc_line d i x \/ doc_block d i x ->
  p_leaf (d ++ s) = None /\ d ++ s <> [] /\ open_delim (d ++ s) = None /\ close_delim (d ++ s) = None.
Proof using UO.
  intros H. apply doc_head in H as (t & H).
  assert (Hl : p_leaf (d ++ s) = None).
  { destruct (p_leaf (d ++ s)) as [[r k]|] eqn:E; [|reflexivity]. exfalso.
    apply (p_leaf_kind UO) in E. destruct E as [r E|r c sp E|r sym raw E|E].
    - apply p_literal_first in E as (c & u & E & Hc). unfold is_dec_digit, between in Hc.
      destruct H as [-> | ->]; cbn in E; inv E; lia.
    - unfold p_punct, p_punct_char in E. destruct H as [-> | ->]; discriminate.
    - unfold p_ident in E. destruct (existsb _ _); [discriminate|].
      apply (p_ident_any_start UO) in E as (c & u & E & Hc).
      destruct H as [-> | ->]; cbn in E; inv E; rewrite (ident_start_ascii UO) in Hc by lia; discriminate.
    - destruct H as [-> | ->]; discriminate. }
  split; [exact Hl|]. destruct H as [-> | ->]; cbn [app]; repeat split; discriminate.
Qed.

(** A doc comment in front of [s] adds exactly its attribute. *)
Lemma doc_Lex d i x s ts e :
  (doc_line d i x /\ line_end s) \/ doc_block d i x -> ~ has_bare_cr x ->
  Lex (d ++ s) ts e <-> exists ts', Lex s ts' e /\ ts = doc_tokens x i call_site ++ ts'.
Proof using UO.
  intros H Hb.
  assert (Hd : p_skip1 (d ++ s) = None /\
     exists s', p_doc (d ++ s) = Some (s', (x, i)) /\ p_skip s' = p_skip s).
  { destruct H as [[H Hs]|H]; [now apply p_doc_line|].
    destruct (p_doc_block _ _ _ s H Hb). eauto. }
  destruct Hd as (H1 & s' & H2 & H3). pose proof (p_skip_stay _ H1) as Hsk. split.
  - intros HL. inversion HL as [? H0|? ? ? H0|? r y j ? ? H0|? ? ? ? ? ? ? ? H0|? ? ? ? ? H0]; subst.
    + rewrite Hsk in H0. rewrite H0 in H2. discriminate.
    + rewrite Hsk in H0. rewrite (close_no_doc _ _ _ H0) in H2. discriminate.
    + rewrite Hsk, H2 in H0. inv H0. eexists. split; [|reflexivity].
      apply Lex_skip. rewrite <- H3. now apply Lex_unskip.
    + rewrite Hsk in *. congruence.
    + rewrite Hsk in *. destruct H0. congruence.
  - intros (ts' & HL & ->). eapply Lex_doc; [rewrite Hsk; eauto|].
    apply Lex_skip. rewrite H3. now apply Lex_unskip.
Qed.

(** With a bare carriage return in it, parsing fails. *)
Lemma doc_bare_Lex d i x s ts e :
  (doc_line d i x /\ (s = [] \/ begins s [LF]) /\ exists a b, x = a ++ CR :: b /\ (b <> [] \/ s = [])) \/
  (doc_block d i x /\ has_bare_cr x) -> ~ Lex (d ++ s) ts e.
Proof using UO.
  intros H HL.
  assert (Hd : p_skip1 (d ++ s) = None /\ p_doc (d ++ s) = None).
  { destruct H as [(H & Hs & Hb)|[H Hb]].
    - assert (Hs' : stop s \/ begins s [CR; LF]).
      { destruct Hs as [->|[u ->]]; left; [exact I|reflexivity]. }
      destruct (doc_line_text _ _ _ s H Hs') as [H1 H2]. split; [exact H1|].
      assert (Hl : ~ In LF x) by (inv H; assumption).
      assert (Hbc : bare_cr (snd (p_line (x ++ s))) = true).
      { destruct Hb as (a & b & Hx & Hb). destruct b as [|c b].
        - destruct Hb as [Hb| ->]; [congruence|]. rewrite app_nil_r. clear - Hl Hx. subst x.
          induction a as [|c a IH]; [reflexivity|]. cbn [app p_line].
          destruct (N.eqb_spec c LF) as [->|_]; [elim Hl; now left|].
          destruct (starts_with (a ++ [CR]) [LF]) eqn:Es.
          { exfalso. destruct a as [|e a]; [discriminate|]. cbn in Es. rewrite andb_true_r in Es.
            apply N.eqb_eq in Es. subst e. apply Hl. right. now left. }
          rewrite andb_false_r. destruct (p_line (a ++ [CR])) as [r y]. cbn [snd bare_cr] in *.
          rewrite IH; [|intros Hi; apply Hl; now right]. destruct (c =? CR)%N; [apply orb_true_r|reflexivity].
        - apply p_line_bare; auto.
          + exists a, (c :: b). split; [exact Hx|]. intros [u E]. inv E. apply Hl.
            apply in_or_app. right. right. now left.
          + exists a, (c :: b). split; [exact Hx|discriminate]. }
      unfold p_doc. rewrite H2. destruct (p_line (x ++ s)) as [r y]. cbn [snd] in Hbc. now rewrite Hbc.
    - assert (Hbc : bare_cr x = true) by now apply bare_cr_spec.
      (* the same text without the test on the carriage return *)
      assert (Hc : p_skip1 (d ++ s) = None /\ p_doc_contents (d ++ s) = Some (s, (x, i))).
      { clear Hb. now apply p_doc_contents_block. }
      destruct Hc as [Hc1 Hc2]. split; [exact Hc1|]. unfold p_doc. now rewrite Hc2, Hbc. }
  destruct Hd as [H1 H2]. pose proof (p_skip_stay _ H1) as Hsk.
  assert (H' : doc_line d i x \/ doc_block d i x) by tauto.
  destruct (doc_no_leaf d i x s H') as (Hl & Hn & Ho & Hc).
  inversion HL as [? H0|? ? ? H0|? r y j ? ? H0|? ? ? ? ? ? ? ? H0 H0'|? ? ? ? ? H0 H0']; subst;
    rewrite Hsk in *; congruence.
Qed.

Lemma doc_tokens_attribute x i sp : doc_tokens x i sp = doc_attribute i (literal_string x) sp.
Proof. reflexivity. Qed.

End WithUnicode.
