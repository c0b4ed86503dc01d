(** * Errors at delimiters, and text that follows (C93) *)
From Verif Require Import Base BaseFacts Unicode Tokens Lexer PureLexer.
From Verif Require Import LexerEquiv LexerEquiv2 LexerEquiv3 LexerEquiv4 Grammar Stable Local.
From Verif Require Import SpecText SpecTree SpecLit SpecGrammar Comments Spans Balance LexemeProofs SpacingProofs AppendProofs.
Import ListNotations.
Local Open Scope N_scope.

Section WithUnicode.
Context {U : unicode} (UO : unicode_ok U).

(** ** Leaves *)
Lemma literal_back s f r : stop f -> p_literal (s ++ f) = Some (r ++ f) -> p_literal s = Some r.
Proof using UO.
  intros Hf H. unfold p_literal in *. apply orelse_some in H as [H|[Hq H]].
  - destruct (p_quoted (s ++ f)) as [z|] eqn:E; [|discriminate]. cbn in H. injection H as H.
    pose proof (p_suffix_suffix z) as Hs. rewrite H in Hs. destruct Hs as [w ->]. rewrite app_assoc in E, H.
    apply p_quoted_local in E. rewrite E. cbn. f_equal. rewrite (p_suffix_app UO) in H by exact Hf. now apply app_inv_tail in H.
  - destruct (p_quoted (s ++ f)) as [z|] eqn:E; [discriminate|]. rewrite (p_quoted_none _ _ E). cbn.
    rewrite (p_float_app UO), (p_int_app UO) in H by exact Hf.
    destruct (p_float s) as [y|]; cbn in *; [injection H as H; now apply app_inv_tail in H as ->|].
    destruct (p_int s) as [y|]; cbn in *; [injection H as H; now apply app_inv_tail in H as ->|discriminate].
Qed.
Lemma leaf_back s f r k : stop f -> p_leaf (s ++ f) = Some (r ++ f, k) -> p_leaf s = Some (r, k).
Proof using UO.
  intros Hf H. apply (p_leaf_kind UO). apply (p_leaf_kind UO) in H. remember (r ++ f) as x eqn:X.
  destruct H as [x H|x c sp H|x sym raw H|H].
  - subst x. apply literal_back in H; [|exact Hf]. rewrite prefix_of_stop by (now apply p_literal_suffix). now constructor.
  - constructor. rewrite (p_punct_app UO) in H by exact Hf. destruct (p_punct s) as [[y z]|]; [|discriminate].
    cbn in H. injection H as H ->. rewrite X in H. now apply app_inv_tail in H as ->.
  - constructor. rewrite (p_ident_app UO) in H by exact Hf. destruct (p_ident s) as [[y z]|]; [|discriminate].
    cbn in H. injection H as H ->. rewrite X in H. now apply app_inv_tail in H as ->.
  - assert (L : (length ERROR <= length s)%nat).
    { apply (f_equal (@length _)) in X. rewrite skipn_length, !app_length in X. apply starts_with_len in H. rewrite app_length in H. lia. }
    rewrite skipn_starts in X by exact L. apply app_inv_tail in X as <-. constructor. rewrite starts_with_app_long in H; auto.
Qed.
Lemma lexeme_more t r k f : stop f -> lexeme t r k -> lexeme t (r ++ f) k.
Proof using UO.
  intros Hf H. assert (P := proj2 (p_leaf_iff UO (t ++ r) r k) (ex_intro _ t (conj eq_refl H))).
  apply (p_leaf_app UO _ f) in P; [|exact Hf]. rewrite <- app_assoc in P.
  apply (p_leaf_iff UO) in P as (t' & E & P). apply app_inv_tail in E. now subst.
Qed.
Lemma lexeme_swap t m k f f' : stop f -> stop f' -> lexeme t (m ++ f) k -> lexeme t (m ++ f') k.
Proof using UO.
  intros Hf Hf' H. apply lexeme_more; [exact Hf'|].
  assert (P := proj2 (p_leaf_iff UO (t ++ m ++ f) (m ++ f) k) (ex_intro _ t (conj eq_refl H))).
  rewrite app_assoc in P. apply leaf_back in P; [|exact Hf].
  apply (p_leaf_iff UO) in P as (t' & E & P). apply app_inv_tail in E. now subst.
Qed.

(** ** The placeholder of the compiler *)
Lemma error_swap x c u r : ~ In c (removelast error_text) -> begins (x ++ c :: u) error_text -> begins (x ++ c :: r) error_text.
Proof using.
  intros N (z & Z). assert (L : (length error_text <= length (x ++ [c]))%nat).
  { destruct (Nat.le_gt_cases (length error_text) (length (x ++ [c]))) as [L|L]; [exact L|]. exfalso. apply N.
    rewrite app_length in L. cbn [length] in L.
    assert (E : firstn (length (x ++ [c])) (x ++ c :: u) = firstn (length (x ++ [c])) (removelast error_text)).
    { rewrite Z, firstn_app. replace (length (x ++ [c]) - length error_text)%nat with 0%nat by (rewrite app_length; cbn [length]; lia).
      cbn [firstn]. rewrite app_nil_r. change (removelast error_text) with (firstn 10 error_text). rewrite firstn_firstn. f_equal.
      rewrite app_length. cbn [length] in *. change (length error_text) with 11%nat in L. lia. }
    change (c :: u) with ([c] ++ u) in E. rewrite app_assoc, firstn_app, Nat.sub_diag, firstn_all in E. cbn [firstn] in E. rewrite app_nil_r in E.
    rewrite <- (firstn_skipn (length (x ++ [c])) (removelast error_text)), <- E. apply in_app_iff. left. apply in_app_iff. right. now left. }
  exists (skipn (length error_text) (x ++ c :: r)). change (c :: r) with ([c] ++ r). change (c :: u) with ([c] ++ u) in Z.
  rewrite app_assoc in *. rewrite <- (firstn_skipn (length error_text) ((x ++ [c]) ++ r)) at 1. f_equal.
  apply (f_equal (firstn (length error_text))) in Z. rewrite !firstn_app in *.
  replace (length error_text - length (x ++ [c]))%nat with 0%nat in * by lia. rewrite Nat.sub_diag, firstn_all in Z. cbn [firstn] in *.
  now rewrite !app_nil_r in *.
Qed.
Lemma close_stop d u : In d delims -> exists c, close_char d = [c] /\ stop (c :: u) /\ ~ In c (removelast error_text) /\ c <> LF /\ c <> 0xFEFF.
Proof using.
  intros D. cbn in D. destruct D as [<-|[<-|[<-|[]]]]; (eexists; repeat split; try reflexivity; try discriminate);
    cbn; intros H; decompose [or] H; try discriminate; assumption.
Qed.

(** ** Up to a closing delimiter *)
Lemma reads_cut a x ps : reads a x ps -> forall pre d p post, ps = pre ++ PClose d p :: post ->
  exists y r, x = y ++ close_char d ++ r /\ p = a + strlen y /\ In d delims /\
    forall u qs, reads (p + 1) u qs -> reads a (y ++ close_char d ++ u) (pre ++ PClose d p :: qs).
Proof using UO.
  induction 1 as [a s B|a w s d r ps Hw Hd H IH|a w s d r ps Hw Hd H IH|a w d r inner x ps Hw Hd H IH
                 |a w t r k ps Hw Hl H IH|a w s Hw Hs]; intros pre d' p' post E; destruct pre as [|z pre]; try discriminate E.
  - injection E as <- E. destruct (IH _ _ _ _ E) as (y & r' & -> & -> & D & R). destruct Hd as (D1 & -> & N).
    assert (L1 : strlen (open_char d) = 1) by (cbn in D1; decompose [or] D1; subst; try reflexivity; contradiction).
    exists (w ++ open_char d ++ y), r'. split; [now rewrite <- !app_assoc|]. split; [rewrite !strlen_app'; lia|]. split; [exact D|].
    intros u qs Q. rewrite <- !app_assoc. cbn [app]. apply reads_open with (r := y ++ close_char d' ++ u); [exact Hw| |exact (R u qs Q)].
    split; [exact D1|]. split; [reflexivity|]. intros X. apply N.
    destruct (close_stop d' u D) as (c & Ec & _ & NI & _). rewrite Ec in X |- *. cbn [app] in *. rewrite app_assoc in X |- *. exact (error_swap _ c u r' NI X).
  - injection E as <- <- <-. destruct Hd as (D & ->). exists w, r. repeat split; auto.
    intros u qs Q. apply reads_close with (r := u); [exact Hw|split; [exact D|reflexivity]|exact Q].
  - injection E as <- E. destruct (IH _ _ _ _ E) as (y & r' & -> & -> & D & R). destruct Hd as (D1 & ->).
    assert (L1 : strlen (close_char d) = 1) by (cbn in D1; decompose [or] D1; subst; try reflexivity; contradiction).
    exists (w ++ close_char d ++ y), r'. split; [now rewrite <- !app_assoc|]. split; [rewrite !strlen_app'; lia|]. split; [exact D|].
    intros u qs Q. rewrite <- !app_assoc. cbn [app]. apply reads_close with (r := y ++ close_char d' ++ u); [exact Hw|split; [exact D1|reflexivity]|exact (R u qs Q)].
  - injection E as <- E. destruct (IH _ _ _ _ E) as (y & r' & -> & -> & D & R).
    exists (w ++ d ++ y), r'. split; [now rewrite <- !app_assoc|]. split; [rewrite !strlen_app'; lia|]. split; [exact D|].
    intros u qs Q. rewrite <- !app_assoc. cbn [app]. apply reads_doc; [exact Hw| |exact (R u qs Q)].
    destruct (close_stop d' u D) as (c & Ec & _ & _ & NL & _). rewrite Ec in *. cbn [app] in *.
    assert (G : begins (y ++ c :: r') [LF] -> begins (y ++ c :: u) [LF]).
    { intros (z & Z). destruct y as [|l y]; cbn [app] in Z; [injection Z as Z _; congruence|]. injection Z as -> _. now exists (y ++ c :: u). }
    clear - Hd G. remember (y ++ c :: r') as q eqn:Q. destruct Hd as [d q inner x L [X|X] NC|d q inner x L X NC|d q inner x L NC].
    + subst q. destruct y; discriminate X.
    + apply doc_at_line; auto.
    + apply doc_at_crlf; auto.
    + now apply doc_at_block.
  - injection E as <- E. destruct (IH _ _ _ _ E) as (y & r' & -> & -> & D & R).
    exists (w ++ t ++ y), r'. split; [now rewrite <- !app_assoc|]. split; [rewrite !strlen_app'; lia|]. split; [exact D|].
    intros u qs Q. rewrite <- !app_assoc. cbn [app]. apply reads_leaf; [exact Hw| |exact (R u qs Q)].
    apply (lexeme_swap t y k (close_char d' ++ r')); [| |exact Hl].
    + destruct (close_stop d' r' D) as (c & -> & S & _). exact S.
    + destruct (close_stop d' u D) as (c & -> & S & _). exact S.
  - injection E as _ E. destruct pre; discriminate E.
Qed.

(** ** What is at the place of an error *)
Definition found (z : piece) (s : str) : Prop :=
  match z with POpen d _ => exists r, opens s d r | PClose d _ => exists r, closes s d r | PBad _ => unreadable s | PTok _ => True end.
Lemma reads_at a x ps : reads a x ps -> forall z p, In z ps -> placed z = Some p ->
  exists y s, x = y ++ s /\ p = a + strlen y /\ found z s.
Proof using.
  induction 1 as [a s B|a w s d r ps Hw Hd H IH|a w s d r ps Hw Hd H IH|a w d r inner x ps Hw Hd H IH
                 |a w t r k ps Hw Hl H IH|a w s Hw Hs]; intros z p I P; [destruct I|..]; destruct I as [<-|I].
  - injection P as <-. exists w, s. repeat split; auto. now exists r.
  - destruct (IH z p I P) as (y & s' & -> & -> & F). destruct Hd as (D & -> & _).
    assert (L1 : strlen (open_char d) = 1) by (cbn in D; decompose [or] D; subst; try reflexivity; contradiction).
    exists (w ++ open_char d ++ y), s'. split; [now rewrite <- !app_assoc|]. split; [rewrite !strlen_app'; lia|exact F].
  - injection P as <-. exists w, s. repeat split; auto. now exists r.
  - destruct (IH z p I P) as (y & s' & -> & -> & F). destruct Hd as (D & ->).
    assert (L1 : strlen (close_char d) = 1) by (cbn in D; decompose [or] D; subst; try reflexivity; contradiction).
    exists (w ++ close_char d ++ y), s'. split; [now rewrite <- !app_assoc|]. split; [rewrite !strlen_app'; lia|exact F].
  - discriminate P.
  - destruct (IH z p I P) as (y & s' & -> & -> & F).
    exists (w ++ d ++ y), s'. split; [now rewrite <- !app_assoc|]. split; [rewrite !strlen_app'; lia|exact F].
  - discriminate P.
  - destruct (IH z p I P) as (y & s' & -> & -> & F).
    exists (w ++ t ++ y), s'. split; [now rewrite <- !app_assoc|]. split; [rewrite !strlen_app'; lia|exact F].
  - injection P as <-. exists w, s. split; [reflexivity|]. split; [reflexivity|exact Hs].
  - destruct I.
Qed.
Lemma same_place (a : N) (y y' s s' : str) : y ++ s = y' ++ s' -> a + strlen y = a + strlen y' -> y = y' /\ s = s'.
Proof using.
  unfold strlen. intros E L. assert (length y = length y') by lia. clear L.
  revert y' E H. induction y as [|c y IH]; intros [|c' y'] E L; try discriminate; [auto|]. injection E as -> E. injection L as L.
  destruct (IH _ E L) as [-> ->]. auto.
Qed.

(** ** Three kinds of errors *)
Fixpoint zip_close (ds : list delimiter) (b : N) : list piece :=
  match ds with [] => [] | d :: ds => PClose d b :: zip_close ds (b + 1) end.
Lemma zip_close_app ds d : forall b, zip_close (ds ++ [d]) b = zip_close ds b ++ [PClose d (b + N.of_nat (length ds))].
Proof using. induction ds as [|e ds IH]; intros b; cbn [app zip_close length]; [now rewrite N.add_0_r|]. rewrite IH. cbn [app]. do 4 f_equal. lia. Qed.
Definition hanging (x : list piece) (p : N) : Prop :=
  (exists d, In (POpen d p) x) /\
  exists ds, (length ds <= length x)%nat /\ Forall (fun d => exists q, In (POpen d q) x) ds /\
    forall b, exists ts, tree (x ++ zip_close ds b) ts.
Definition final (w : list piece -> N -> Prop) (x : list piece) (p : N) : Prop :=
  exists pre d post, x = pre ++ PClose d p :: post /\ forall post', w (pre ++ PClose d p :: post') p.
Lemma wrong_kinds x p : wrong x p -> In (PBad p) x \/ final wrong x p \/ hanging x p.
Proof using.
  induction 1 as [a ps|d a ps ts T|d a ps1 ts d' b ps2 T N|d a ps b W IH|ps1 ts ps2 b T W IH].
  - left. now left.
  - right. right. split; [exists d; now left|]. exists [d]. cbn [length zip_close app]. split; [lia|]. split; [repeat constructor; exists a; now left|].
    intros b. eexists. exact (tree_group d a b ps ts [] [] T tree_nil).
  - right. left. exists (POpen d a :: ps1), d', ps2. split; [reflexivity|]. intros post. exact (wrong_mismatch d a ps1 ts d' b post T N).
  - destruct IH as [I|[(pre & d' & post & -> & F)|((d' & I) & ds & L & F & TT)]].
    + left. now right.
    + right. left. exists (POpen d a :: pre), d', post. split; [reflexivity|]. intros post'. apply wrong_inside. apply F.
    + right. right. split; [exists d'; now right|]. exists (ds ++ [d]). rewrite app_length. cbn [length]. split; [lia|]. split.
      * apply Forall_app. split; [|repeat constructor; exists a; now left]. eapply Forall_impl; [|exact F]. intros e (q & Q). exists q. now right.
      * intros c. destruct (TT c) as (ts & TS). rewrite zip_close_app. cbn [app]. rewrite app_assoc. eexists. exact (tree_group d a _ _ _ [] [] TS tree_nil).
  - destruct IH as [I|[(pre & d' & post & -> & F)|((d' & I) & ds & L & F & TT)]].
    + left. apply in_app_iff. now right.
    + right. left. exists (ps1 ++ pre), d', post. split; [now rewrite <- app_assoc|]. intros post'. rewrite <- app_assoc. now apply wrong_after with ts.
    + right. right. split; [exists d'; apply in_app_iff; now right|]. exists ds. rewrite app_length. split; [lia|]. split.
      * eapply Forall_impl; [|exact F]. intros e (q & Q). exists q. apply in_app_iff. now right.
      * intros c. destruct (TT c) as (us & TS). exists (ts ++ us). rewrite <- app_assoc. now apply tree_app.
Qed.
Lemma wrong_top_kinds x p : wrong_top x p -> In (PBad p) x \/ final wrong_top x p \/ hanging x p.
Proof using.
  intros [x' b W|ps1 ts d b ps2 T].
  - destruct (wrong_kinds _ _ W) as [I|[(pre & d' & post & -> & F)|HH]]; auto. right. left. exists pre, d', post. split; [reflexivity|].
    intros post'. apply wrong_within. apply F.
  - right. left. exists ps1, d, ps2. split; [reflexivity|]. intros post'. now apply wrong_stray with ts.
Qed.

(** ** A line break and closing delimiters *)
Lemma reads_before a w u qs : trivia w -> reads (a + strlen w) u qs -> reads a (w ++ u) qs.
Proof using.
  intros Hw H. remember (a + strlen w) as b eqn:E.
  destruct H as [b s B|b v s d r ps Hv Hd H|b v s d r ps Hv Hd H|b v d r inner x ps Hv Hd H|b v t r k ps Hv Hl H|b v s Hv Hs]; subst b.
  - apply reads_end. destruct B as [v V|v x V P]; [apply blank_trivia; now apply trivia_app|]. rewrite app_assoc. apply blank_line; [now apply trivia_app|exact P].
  - replace (a + strlen w + strlen v) with (a + strlen (w ++ v)) in * by (rewrite strlen_app'; lia). rewrite app_assoc. apply reads_open with r; auto. now apply trivia_app.
  - replace (a + strlen w + strlen v) with (a + strlen (w ++ v)) in * by (rewrite strlen_app'; lia). rewrite app_assoc. apply reads_close with r; auto. now apply trivia_app.
  - replace (a + strlen w + strlen v) with (a + strlen (w ++ v)) in * by (rewrite strlen_app'; lia). rewrite app_assoc. apply reads_doc; auto. now apply trivia_app.
  - replace (a + strlen w + strlen v) with (a + strlen (w ++ v)) in * by (rewrite strlen_app'; lia). rewrite app_assoc. apply reads_leaf; auto. now apply trivia_app.
  - replace (a + strlen w + strlen v) with (a + strlen (w ++ v)) in * by (rewrite strlen_app'; lia). rewrite app_assoc. apply reads_bad; auto. now apply trivia_app.
Qed.
Lemma reads_lf a s ps : reads a s ps -> no_bad ps -> forall u qs, reads (a + strlen s + 1) u qs -> reads a (s ++ LF :: u) (ps ++ qs).
Proof using UO.
  induction 1 as [a s B|a w s d r ps Hw Hd H IH|a w s d r ps Hw Hd H IH|a w d r inner x ps Hw Hd H IH
                 |a w t r k ps Hw Hl H IH|a w s Hw Hs]; intros NB u qs Q.
  - cbn [app]. change (LF :: u) with ([LF] ++ u). rewrite app_assoc. apply reads_before.
    + assert (BL : blank LF) by (left; cbn; tauto). destruct B as [w W|w x W P]; [apply trivia_app; [exact W|apply trivia_blank; [exact BL|constructor]]|].
      rewrite <- !app_assoc. apply trivia_app; [exact W|]. now apply (trivia_line x []); [|constructor].
    + rewrite strlen_app'. change (strlen [LF]) with 1. now rewrite N.add_assoc.
  - destruct Hd as (D1 & -> & N).
    assert (L1 : strlen (open_char d) = 1) by (cbn in D1; decompose [or] D1; subst; try reflexivity; contradiction).
    rewrite <- app_assoc. cbn [app]. apply reads_open with (r := r ++ LF :: u); [exact Hw| |apply IH; [exact (no_bad_tail _ _ NB)|]].
    + split; [exact D1|]. split; [now rewrite app_assoc|]. intros X. apply N.
      assert (NI : ~ In LF error_text) by (intros I; cbn in I; decompose [or] I; try discriminate; assumption).
      clear - X NI. destruct X as (z & Z). destruct (app_cases _ _ _ _ Z) as [(m & E & _)|(m & E & E')]; [now exists m|].
      destruct m as [|c m]; [exists []; now rewrite E, !app_nil_r|]. exfalso. apply NI. injection E' as <- _. rewrite E. apply in_app_iff. right. now left.
    + rewrite !strlen_app' in Q. replace (a + strlen w + 1 + strlen r + 1) with (a + (strlen w + (strlen (open_char d) + strlen r)) + 1) by lia. exact Q.
  - destruct Hd as (D1 & ->).
    assert (L1 : strlen (close_char d) = 1) by (cbn in D1; decompose [or] D1; subst; try reflexivity; contradiction).
    rewrite <- app_assoc. cbn [app]. apply reads_close with (r := r ++ LF :: u); [exact Hw|split; [exact D1|now rewrite app_assoc]|apply IH; [exact (no_bad_tail _ _ NB)|]].
    rewrite !strlen_app' in Q. replace (a + strlen w + 1 + strlen r + 1) with (a + (strlen w + (strlen (close_char d) + strlen r)) + 1) by lia. exact Q.
  - rewrite <- !app_assoc. cbn [app]. apply reads_doc; [exact Hw| |apply IH; [exact (no_bad_tail _ _ NB)|]].
    + destruct Hd as [d r inner x L [->|(z & ->)] NC|d r inner x L (z & ->) NC|d r inner x L NC].
      * apply doc_at_line; auto. right. now exists u.
      * apply doc_at_line; auto. right. now exists (z ++ LF :: u).
      * apply doc_at_crlf; auto. now exists (z ++ LF :: u).
      * now apply doc_at_block.
    + rewrite !strlen_app' in Q. replace (a + strlen w + strlen d + strlen r + 1) with (a + (strlen w + (strlen d + strlen r)) + 1) by lia. exact Q.
  - rewrite <- !app_assoc. cbn [app]. apply reads_leaf; [exact Hw| |apply IH; [exact (no_bad_tail _ _ NB)|]].
    + apply lexeme_more; [reflexivity|exact Hl].
    + rewrite !strlen_app' in Q. replace (a + strlen w + strlen t + strlen r + 1) with (a + (strlen w + (strlen t + strlen r)) + 1) by lia. exact Q.
  - exfalso. apply (NB (a + strlen w)). now left.
Qed.
Lemma reads_closers ds : Forall (fun d => In d delims) ds -> forall b, reads b (concat (map close_char ds)) (zip_close ds b).
Proof using.
  induction 1 as [|d ds D _ IH]; intros b; [apply reads_nil|]. cbn [map concat zip_close].
  pose proof (reads_close b [] (close_char d ++ concat (map close_char ds)) d (concat (map close_char ds)) (zip_close ds (b + 1))) as R.
  change (strlen []) with 0 in R. rewrite N.add_0_r in R. apply R; [constructor|now split|apply IH].
Qed.
Lemma reads_count a s ps : reads a s ps -> (length ps <= length s)%nat.
Proof using UO.
  induction 1 as [a s B|a w s d r ps Hw Hd H IH|a w s d r ps Hw Hd H IH|a w d r inner x ps Hw Hd H IH
                 |a w t r k ps Hw Hl H IH|a w s Hw Hs]; cbn [length]; rewrite ?app_length.
  - lia.
  - destruct Hd as (D & -> & _). rewrite app_length. cbn in D. decompose [or] D; subst; try contradiction; cbn [open_char length]; lia.
  - destruct Hd as (D & ->). rewrite app_length. cbn in D. decompose [or] D; subst; try contradiction; cbn [close_char length]; lia.
  - assert (1 <= length d)%nat; [|lia]. assert (HD : doc_line d inner x \/ doc_block d inner x \/ exists d', d = d' ++ [CR]).
    { destruct Hd; eauto. }
    destruct HD as [HD|[HD|(d' & ->)]]; [destruct HD; cbn; lia|destruct HD; cbn; lia|rewrite app_length; cbn; lia].
  - assert (1 <= length t)%nat; [|lia].
    assert (P := proj2 (p_leaf_iff UO (t ++ r) r k) (ex_intro _ t (conj eq_refl Hl))).
    apply p_leaf_shorter in P as [_ P]. rewrite app_length in P. lia.
  - assert (1 <= length s)%nat; [|lia]. destruct s; [|cbn; lia]. exfalso. apply (proj1 Hs). constructor. constructor.
Qed.

Lemma unreadable_close s d r : closes s d r -> ~ unreadable s.
Proof using. intros C (_ & _ & _ & _ & N & _). exact (N d r C). Qed.
Lemma open_close s d r d' r' : opens s d r -> ~ closes s d' r'.
Proof using.
  intros (D & -> & _) (D' & E). cbn in D, D'.
  decompose [or] D; decompose [or] D'; subst; try contradiction; discriminate E.
Qed.
Lemma unreadable_open d s : In d delims -> ~ unreadable (open_char d ++ s).
Proof using.
  intros D (_ & _ & _ & N & _ & L). apply (N d s). split; [exact D|]. split; [reflexivity|]. intros (z & Z).
  exact (L error_text z (TLiteral error_text) Z (lexeme_error z)).
Qed.
Lemma bom_swap start x c r u a s : without_bom start (x ++ c :: r) a s -> c <> 0xFEFF ->
  exists y, s = y ++ c :: r /\ start + strlen x = a + strlen y /\ without_bom start (x ++ c :: u) a (y ++ c :: u).
Proof using.
  intros B N. remember (x ++ c :: r) as z eqn:Z. destruct B as [s|s NB].
  - destruct x as [|f x]; cbn [app] in Z; injection Z as <- Z; [now elim N|]. exists x. split; [exact Z|].
    split; [unfold strlen; cbn [length]; lia|]. constructor.
  - exists x. split; [exact Z|]. split; [reflexivity|]. constructor. intros t T. destruct x as [|f x]; cbn [app] in T; injection T as T _; [congruence|].
    subst f. apply (NB (x ++ c :: r)). rewrite Z. reflexivity.
Qed.

Lemma error_final : forall start s d r sp, d <> DNone -> start + strlen (s ++ close_char d ++ r) < two32 ->
  token_stream_from_str start (s ++ close_char d ++ r) = Ok (LexError sp) -> lo sp = start + strlen s ->
  forall u, start + strlen (s ++ close_char d ++ u) < two32 ->
  token_stream_from_str start (s ++ close_char d ++ u) = Ok (LexError sp).
Proof using UO.
  intros start s d r sp ND B P L u B'.
  assert (D : In d delims) by (destruct d; cbn; tauto).
  apply (parse_reads_error UO _ start B) in P as (ps & (a & x & WB & R) & W & E).
  apply (parse_reads_error UO _ start B').
  destruct (close_stop d u D) as (c & Ec & _ & _ & _ & NF). rewrite Ec in *. cbn [app] in *.
  destruct (bom_swap _ _ _ _ u _ _ WB NF) as (y & -> & PL & WB'). rewrite PL in L.
  assert (X : forall z, In z ps -> placed z = Some (lo sp) -> found z (c :: r)).
  { intros z I Z. destruct (reads_at _ _ _ R _ _ I Z) as (y' & s' & S & PP & F). rewrite L in PP.
    destruct (same_place a y y' (c :: r) s' S PP) as [_ ->]. exact F. }
  assert (CL : closes (c :: r) d r) by (split; [exact D|now rewrite Ec]).
  destruct (wrong_top_kinds _ _ W) as [I|[(pre & d' & post & -> & F)|((d' & I) & _)]].
  - exfalso. exact (unreadable_close _ _ _ CL (X _ I eq_refl)).
  - destruct (X (PClose d' (lo sp)) ltac:(apply in_app_iff; right; now left) eq_refl) as (r' & D' & Ec').
    destruct (reads_cut _ _ _ R _ _ _ _ eq_refl) as (y' & r'' & S & PP & _ & RC). rewrite L in PP.
    destruct (same_place a y y' (c :: r) (close_char d' ++ r'') S PP) as [<- S'].
    assert (EC : close_char d' = [c]).
    { cbn in D'. destruct D' as [<-|[<-|[<-|[]]]]; cbn in Ec'; injection Ec' as -> _; reflexivity. }
    destruct (reads_any UO (lo sp + 1) u) as (qs & Q).
    { rewrite strlen_app' in B'. unfold strlen in *. cbn [length] in B'. lia. }
    eexists. split; [|split; [apply F|exact E]].
    exists a, (y ++ c :: u). split; [exact WB'|]. specialize (RC u qs Q). rewrite EC in RC. exact RC.
  - exfalso. destruct (X _ I eq_refl) as (r' & O). exact (open_close _ _ _ _ _ O CL).
Qed.

Lemma error_mended : forall start s x d y sp, d <> DNone -> start + 2 * strlen s + 1 < two32 ->
  token_stream_from_str start s = Ok (LexError sp) -> s = x ++ open_char d ++ y -> lo sp = start + strlen x ->
  exists ds ts, Forall (fun e => e <> DNone) ds /\
    token_stream_from_str start (s ++ LF :: concat (map close_char ds)) = Ok (Lexed ts).
Proof using UO.
  intros start s x d y sp ND B P ES L.
  assert (D : In d delims) by (destruct d; cbn; tauto).
  apply (parse_reads_error UO s start) in P as (ps & (a & s0 & WB & R) & W & E); [|lia].
  assert (EO : exists c, open_char d = [c] /\ c <> 0xFEFF) by (cbn in D; destruct D as [<-|[<-|[<-|[]]]]; eexists; split; try reflexivity; discriminate).
  destruct EO as (c & EO & NF). rewrite EO in ES. cbn [app] in ES. rewrite ES in WB.
  destruct (bom_swap _ _ _ _ y _ _ WB NF) as (x0 & E0 & PL & _). rewrite PL in L.
  assert (X : forall z, In z ps -> placed z = Some (lo sp) -> found z (c :: y)).
  { intros z I Z. rewrite E0 in R. destruct (reads_at _ _ _ R _ _ I Z) as (y' & s' & S & PP & F). rewrite L in PP.
    destruct (same_place a x0 y' (c :: y) s' S PP) as [_ ->]. exact F. }
  destruct (wrong_top_kinds _ _ W) as [I|[(pre & d' & post & Eps & F)|(_ & ds & LD & FD & T)]].
  - exfalso. apply (unreadable_open d y D). rewrite EO. exact (X _ I eq_refl).
  - exfalso. destruct (X (PClose d' (lo sp)) ltac:(rewrite Eps; apply in_app_iff; right; now left) eq_refl) as (r' & D' & E').
    clear - D' E' EO D. cbn in D, D'. decompose [or] D; decompose [or] D'; subst; try contradiction; injection EO as <-; discriminate E'.
  - assert (FD' : Forall (fun e => In e delims) ds).
    { eapply Forall_impl; [|exact FD]. intros e (q & Q). destruct (reads_at _ _ _ R _ _ Q eq_refl) as (_ & s' & _ & _ & r' & O & _). exact O. }
    destruct (T (a + strlen s0 + 1)) as (ts & TS).
    exists ds, ts. split; [eapply Forall_impl; [|exact FD']; intros e IE ->; cbn in IE; decompose [or] IE; try discriminate; assumption|].
    assert (LC : length (concat (map close_char ds)) = length ds).
    { clear - FD'. induction FD' as [|e ds DE _ IH]; [reflexivity|]. cbn [map concat]. rewrite app_length, IH.
      cbn in DE. destruct DE as [<-|[<-|[<-|[]]]]; reflexivity. }
    pose proof (reads_count _ _ _ R) as RC.
    assert (LS : (length s0 <= length s)%nat).
    { rewrite ES. clear - WB. destruct WB; cbn [length]; lia. }
    assert (B' : start + strlen (s ++ LF :: concat (map close_char ds)) < two32).
    { unfold strlen in *. rewrite app_length. cbn [length]. rewrite LC. lia. }
    apply (parse_reads UO _ start B'). eexists. split; [|exact TS].
    exists a, (s0 ++ LF :: concat (map close_char ds)). split.
    + rewrite <- ES in WB. clear - WB ES. destruct WB as [s1|s1 NB]; [constructor|]. constructor. intros t Z. destruct s1; [destruct x; discriminate ES|].
      injection Z as -> _. exact (NB _ eq_refl).
    + apply reads_lf; [exact R| |apply reads_closers; exact FD'].
      intros q Q. apply (tree_no_bad _ _ TS q). apply in_app_iff. now left.
Qed.
End WithUnicode.
