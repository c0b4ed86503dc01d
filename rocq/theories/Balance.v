(** * Delimiter nesting.

    [scan] reads a text as a flat sequence of pieces, with no notion of nesting.
    The lexer succeeds exactly on bracketed sequences ([tree]), and otherwise
    reports the position [wrong] gives. *)
From Verif Require Import Base BaseFacts Unicode Tokens Lexer PureLexer.
From Verif Require Import LexerEquiv LexerEquiv2 LexerEquiv3 LexerEquiv4 Grammar Stable Trivia.
From Verif Require Import SpecText Comments Fallback SpecTree Spans.

Section WithUnicode.
Context {U : unicode}.

Inductive scan : cursor -> list piece -> Prop :=
| scan_end c : rest (skipped c) = [] -> scan c []
| scan_open c d r ps :
    p_doc (rest (skipped c)) = None -> open_delim (rest (skipped c)) = Some (d, r) ->
    scan (cur_of (skipped c) r) ps -> scan c (POpen d (off (skipped c)) :: ps)
| scan_close c d r ps :
    close_delim (rest (skipped c)) = Some (d, r) ->
    scan (cur_of (skipped c) r) ps -> scan c (PClose d (off (skipped c)) :: ps)
| scan_doc c r x inner ps :
    p_doc (rest (skipped c)) = Some (r, (x, inner)) -> scan (cur_of (skipped c) r) ps ->
    scan c (PTok (doc_tokens x inner (mkspan (off (skipped c)) (off (cur_of (skipped c) r)))) :: ps)
| scan_leaf c r k ps :
    at_token (rest (skipped c)) -> p_leaf (rest (skipped c)) = Some (r, k) ->
    scan (cur_of (skipped c) r) ps ->
    scan c (PTok [k (mkspan (off (skipped c)) (off (cur_of (skipped c) r)))] :: ps)
| scan_bad c :
    at_token (rest (skipped c)) -> p_leaf (rest (skipped c)) = None ->
    scan c [PBad (off (skipped c))].

Lemma scan_total c : exists ps, scan c ps.
Proof.
  remember (length (rest c)) as n eqn:En. revert c En.
  induction n as [n IH] using lt_wf_ind; intros c ->.
  assert (IH' : forall r, length r < length (rest c) -> exists ps, scan (cur_of (skipped c) r) ps).
  { intros r Hr. eapply IH; [|reflexivity]. exact Hr. }
  destruct (p_doc (rest (skipped c))) as [[r [x i]]|] eqn:Ed.
  { destruct (IH' r) as [ps H]; [now apply doc_next in Ed|]. eexists. eapply scan_doc; eauto. }
  destruct (rest (skipped c)) as [|ch t] eqn:Er.
  { exists []. now apply scan_end. }
  rewrite <- Er in Ed.
  destruct (open_delim (rest (skipped c))) as [[d r]|] eqn:Eo.
  { destruct (IH' r) as [ps H]; [now apply open_next in Eo|]. eexists. eapply scan_open; eauto. }
  destruct (close_delim (rest (skipped c))) as [[d r]|] eqn:Ec.
  { destruct (IH' r) as [ps H].
    { apply close_next in Ec as [_ Hc]. pose proof (suffix_length _ _ (skipped_suffix c)). lia. }
    eexists. eapply scan_close; eauto. }
  assert (Hat : at_token (rest (skipped c))).
  { repeat split; auto. rewrite Er. discriminate. }
  destruct (p_leaf (rest (skipped c))) as [[r k]|] eqn:El.
  { destruct (IH' r) as [ps H]; [now apply leaf_next in El|]. eexists. eapply scan_leaf; eauto. }
  eexists. now apply scan_bad.
Qed.

Lemma scan_eq c c' ps : skipped c = skipped c' -> scan c ps -> scan c' ps.
Proof.
  intros E H. destruct H; rewrite E in *.
  - now apply scan_end.
  - eapply scan_open; eauto.
  - eapply scan_close; eauto.
  - eapply scan_doc; eauto.
  - eapply scan_leaf; eauto.
  - eapply scan_bad; eauto.
Qed.
Lemma scan_skipped c ps : scan (skipped c) ps -> scan c ps.
Proof. apply scan_eq. now rewrite skipped_idem. Qed.

Lemma scan_close_at m d r ps : skipped m = m -> close_delim (rest m) = Some (d, r) ->
  scan (cur_of m r) ps -> scan m (PClose d (off m) :: ps).
Proof. intros E. pose proof (scan_close m d r ps) as H. rewrite E in H. auto. Qed.

Lemma tree_app a ts1 b ts2 : tree a ts1 -> tree b ts2 -> tree (a ++ b) (ts1 ++ ts2).
Proof.
  induction 1; intros Hb; cbn; auto.
  - rewrite <- app_assoc. constructor. auto.
  - rewrite <- app_assoc. cbn. constructor; auto.
Qed.

Section File.
Variable src : str.
Variable start : N.
Hypothesis room : (start + strlen src < two32)%N.
Let in_text := in_text src start.

Lemma close_off m d r : in_text m -> close_delim (rest m) = Some (d, r) ->
  in_text (cur_of m r) /\ off (cur_of m r) = (off m + 1)%N.
Proof using room.
  intros Hm H. apply close_delim_char in H as [H1 H2].
  destruct (in_text_cur_of _ _ room _ _ _ Hm H1) as [H3 H4]. split; [exact H3|].
  rewrite H4. unfold strlen. rewrite H2. lia.
Qed.
Lemma next_in_text c r : in_text c -> suffix r (rest (skipped c)) -> in_text (cur_of (skipped c) r).
Proof using room. intros Hc Hr. apply in_text_suffix; auto. now apply in_text_skipped. Qed.
Lemma doc_in_text c r x : in_text c -> p_doc (rest (skipped c)) = Some (r, x) -> in_text (cur_of (skipped c) r).
Proof using room. intros Hc H. apply next_in_text; [exact Hc|]. now apply doc_next in H as [H _]. Qed.
Lemma open_in_text c d r : in_text c -> open_delim (rest (skipped c)) = Some (d, r) -> in_text (cur_of (skipped c) r).
Proof using room. intros Hc H. apply next_in_text; [exact Hc|]. now apply open_next in H as [H _]. Qed.
Lemma leaf_in_text c r k : in_text c -> p_leaf (rest (skipped c)) = Some (r, k) -> in_text (cur_of (skipped c) r).
Proof using room. intros Hc H. apply next_in_text; [exact Hc|]. now apply leaf_next in H as [H _]. Qed.

Lemma Str_scan c ts e : Str c ts e -> in_text c -> forall ps', scan e ps' ->
  exists ps, scan c (ps ++ ps') /\ tree ps ts.
Proof using room.
  induction 1; intros Hc ps' Hs.
  - exists []. split; [now apply scan_skipped|constructor].
  - exists []. split; [now apply scan_skipped|constructor].
  - destruct (IHStr (doc_in_text _ _ _ Hc H) ps' Hs) as (ps & H1 & H2).
    eexists (_ :: ps). split; [cbn; eapply scan_doc; eauto|]. now constructor.
  - pose proof (open_in_text _ _ _ Hc H0) as Hin.
    assert (Hm : in_text m) by exact (in_text_Str _ _ room _ _ _ H1 Hin).
    destruct (close_off _ _ _ Hm H2) as [Hm' Ho].
    destruct (IHStr2 Hm' ps' Hs) as (ps2 & S2 & T2).
    destruct (Str_stop _ _ _ H1) as (Em & _ & _).
    assert (Sm : scan m (PClose d (off m) :: ps2 ++ ps')).
    { now apply scan_close_at with r'. }
    destruct (IHStr1 Hin _ Sm) as (ps1 & S1 & T1).
    exists (POpen d (off (skipped c)) :: ps1 ++ PClose d (off m) :: ps2). split.
    + cbn. rewrite <- app_assoc. cbn. eapply scan_open; eauto.
    + rewrite Ho. now constructor.
  - destruct (IHStr (leaf_in_text _ _ _ Hc H0) ps' Hs) as (ps & H3 & H4).
    eexists (_ :: ps). split; [cbn; eapply scan_leaf; eauto|].
    change (?x :: ts) with ([x] ++ ts). now constructor.
Qed.

Lemma scan_Str ps ts : tree ps ts -> forall c ps', in_text c -> scan c (ps ++ ps') ->
  (ps' = [] \/ exists d b ps2, ps' = PClose d b :: ps2) ->
  exists e, Str c ts e /\ scan e ps' /\ (ps' = [] -> rest e = []) /\
    (forall d b ps2, ps' = PClose d b :: ps2 ->
       b = off e /\ exists r, close_delim (rest e) = Some (d, r) /\ scan (cur_of e r) ps2).
Proof using room.
  induction 1 as [|k ps ts H IH|d a b ps1 inner ps2 ts H1 IH1 H2 IH2]; intros c ps' Hc Hs Hp.
  - cbn in Hs. exists (skipped c). assert (Hs' : scan (skipped c) ps').
    { eapply scan_eq; [|exact Hs]. now rewrite skipped_idem. }
    destruct Hp as [->|(d & b & ps2 & ->)].
    + inversion Hs as [c0 He| | | | |]; subst. split; [now apply Str_eof|]. split; [exact Hs'|].
      split; [auto|]. intros; discriminate.
    + inversion Hs as [| |c0 d0 r ps Hcl Hr| | |]; subst. split; [now apply Str_close with d r|].
      split; [exact Hs'|]. split; [discriminate|]. intros d' b' ps2' E. inv E. eauto.
  - cbn in Hs. inversion Hs as [| | |c0 r x inner ps0 Hd Hr|c0 r k0 ps0 Ht Hl Hr|]; subst.
    + destruct (IH _ _ (doc_in_text _ _ _ Hc Hd) Hr Hp) as (e & HS & Hrest).
      exists e. split; [|exact Hrest]. now apply Str_doc.
    + destruct (IH _ _ (leaf_in_text _ _ _ Hc Hl) Hr Hp) as (e & HS & Hrest).
      exists e. split; [|exact Hrest]. cbn. now apply Str_leaf.
  - cbn in Hs. rewrite <- app_assoc in Hs. cbn in Hs.
    inversion Hs as [|c0 d0 r ps Hd Ho Hr| | | |]; subst.
    pose proof (open_in_text _ _ _ Hc Ho) as Hin.
    destruct (IH1 _ _ Hin Hr) as (m & Sm & _ & _ & Hm); [right; eauto|].
    destruct (Hm _ _ _ eq_refl) as (-> & r' & Hcl & Hr').
    assert (Tm : in_text m) by exact (in_text_Str _ _ room _ _ _ Sm Hin).
    destruct (close_off _ _ _ Tm Hcl) as [Tm' Hoff].
    destruct (IH2 _ _ Tm' Hr' Hp) as (e & Se & Hrest). exists e. split; [|exact Hrest].
    rewrite <- Hoff. eapply Str_group; eauto.
Qed.

Lemma scan_Str_end ps ts c : tree ps ts -> in_text c -> scan c ps ->
  exists e, Str c ts e /\ rest e = [].
Proof using room.
  intros H Hc Hs. destruct (scan_Str ps ts H c [] Hc) as (e & H1 & _ & H2 & _); [now rewrite app_nil_r|auto|].
  exists e. auto.
Qed.
Lemma scan_Str_close ps ts c d b ps2 : tree ps ts -> in_text c -> scan c (ps ++ PClose d b :: ps2) ->
  exists e r, Str c ts e /\ b = off e /\ close_delim (rest e) = Some (d, r) /\ scan (cur_of e r) ps2 /\ in_text e.
Proof using room.
  intros H Hc Hs. destruct (scan_Str ps ts H c _ Hc Hs) as (e & H1 & _ & _ & H2); [eauto|].
  destruct (H2 _ _ _ eq_refl) as (-> & r & H3 & H4). exists e, r. repeat split; auto.
  exact (in_text_Str _ _ room _ _ _ H1 Hc).
Qed.

Lemma Fail_scan c sp : Fail c sp -> in_text c ->
  exists ps, scan c ps /\ wrong ps (lo sp).
Proof using room.
  induction 1; intros Hc.
  - eexists. split; [now apply scan_bad|constructor].
  - destruct (IHFail (doc_in_text _ _ _ Hc H)) as (ps & H1 & H2).
    eexists. split; [eapply scan_doc; eauto|].
    match goal with |- wrong (?k :: ps) _ => apply (wrong_after [k] (match k with PTok l => l | _ => [] end ++ [])) end;
      [|exact H2]. constructor. constructor.
  - destruct (IHFail (open_in_text _ _ _ Hc H0)) as (ps & H2 & H3).
    eexists. split; [eapply scan_open; eauto|]. now constructor.
  - assert (Sm : scan m []).
    { apply scan_end. destruct (Str_stop _ _ _ H1) as (-> & _). exact H2. }
    destruct (Str_scan _ _ _ H1 (open_in_text _ _ _ Hc H0) _ Sm) as (ps & S1 & T1).
    rewrite app_nil_r in S1. eexists. split; [eapply scan_open; eauto|]. eapply wrong_unclosed; eauto.
  - destruct (scan_total (cur_of m r')) as [ps2 S2].
    assert (Sm : scan m (PClose d' (off m) :: ps2)).
    { eapply scan_close_at; eauto. now destruct (Str_stop _ _ _ H1). }
    destruct (Str_scan _ _ _ H1 (open_in_text _ _ _ Hc H0) _ Sm) as (ps & S1 & T1).
    eexists. split; [eapply scan_open; eauto|]. cbn. eapply wrong_mismatch; eauto.
  - pose proof (open_in_text _ _ _ Hc H0) as Hin.
    assert (Hm : in_text m) by exact (in_text_Str _ _ room _ _ _ H1 Hin).
    destruct (close_off _ _ _ Hm H2) as [Hm' Ho].
    destruct (IHFail Hm') as (ps2 & S2 & W).
    assert (Sm : scan m (PClose d (off m) :: ps2)).
    { eapply scan_close_at; eauto. now destruct (Str_stop _ _ _ H1). }
    destruct (Str_scan _ _ _ H1 Hin _ Sm) as (ps & S1 & T1).
    eexists. split; [eapply scan_open; eauto|].
    replace (POpen d (off (skipped c)) :: ps ++ PClose d (off m) :: ps2)
      with ((POpen d (off (skipped c)) :: ps ++ PClose d (off m) :: []) ++ ps2)
      by (cbn; now rewrite <- app_assoc).
    eapply wrong_after; [|exact W]. constructor; [exact T1|constructor].
  - destruct (IHFail (leaf_in_text _ _ _ Hc H0)) as (ps & H2 & H3).
    eexists. split; [eapply scan_leaf; eauto|].
    match goal with |- wrong (?k :: ps) _ => apply (wrong_after [k] (match k with PTok l => l | _ => [] end ++ [])) end;
      [|exact H3]. constructor. constructor.
Qed.

Lemma Fail_after_tree ps ts : tree ps ts -> forall c ps2, in_text c -> scan c (ps ++ ps2) ->
  exists c2, in_text c2 /\ scan c2 ps2 /\ (forall sp, Fail c2 sp -> Fail c sp).
Proof using room.
  induction 1 as [|k ps ts H IH|d a b ps1 inner ps3 ts H1 IH1 H2 IH2]; intros c ps2 Hc Hs.
  - exists c. auto.
  - cbn in Hs. inversion Hs as [| | |c0 r x inner ps0 Hd Hr|c0 r k0 ps0 Ht Hl Hr|]; subst.
    + destruct (IH _ _ (doc_in_text _ _ _ Hc Hd) Hr) as (c2 & T2 & S2 & F2). exists c2.
      repeat split; auto. intros sp F. eapply Fail_doc; eauto.
    + destruct (IH _ _ (leaf_in_text _ _ _ Hc Hl) Hr) as (c2 & T2 & S2 & F2). exists c2.
      repeat split; auto. intros sp F. eapply Fail_next; eauto.
  - cbn in Hs. rewrite <- app_assoc in Hs. cbn in Hs.
    inversion Hs as [|c0 d0 r ps Hd Ho Hr| | | |]; subst.
    pose proof (open_in_text _ _ _ Hc Ho) as Hin.
    destruct (scan_Str_close _ _ _ _ _ _ H1 Hin Hr) as (m & r' & Sm & -> & Hcl & Hr' & Tm).
    destruct (close_off _ _ _ Tm Hcl) as [Tm' _].
    destruct (IH2 _ _ Tm' Hr') as (c2 & T2 & S2 & F2). exists c2.
    repeat split; auto. intros sp F. eapply Fail_after; eauto.
Qed.

Lemma scan_Fail ps b : wrong ps b -> forall c, in_text c -> scan c ps -> Fail c (mkspan b b).
Proof using room.
  induction 1; intros c Hc Hs.
  - inversion Hs; subst. now apply Fail_leaf.
  - inversion Hs as [|c0 d0 r ps0 Hd Ho Hr| | | |]; subst.
    destruct (scan_Str_end _ _ _ H (open_in_text _ _ _ Hc Ho) Hr) as (m & Sm & Em).
    eapply Fail_unclosed; eauto.
  - inversion Hs as [|c0 d0 r ps0 Hd Ho Hr| | | |]; subst.
    destruct (scan_Str_close _ _ _ _ _ _ H (open_in_text _ _ _ Hc Ho) Hr) as (m & r' & Sm & -> & Hcl & Hr' & Tm).
    eapply Fail_mismatch; eauto.
  - inversion Hs as [|c0 d0 r ps0 Hd Ho Hr| | | |]; subst.
    eapply Fail_inside; eauto. apply IHwrong; auto. eapply open_in_text; eauto.
  - destruct (Fail_after_tree _ _ H _ _ Hc Hs) as (c2 & T2 & S2 & F2). auto.
Qed.

(** The pieces of a whole text, after a leading byte order mark. *)
Definition pieces (ps : list piece) : Prop := scan (cur_of (mkcur src start) (strip_bom src)) ps.

Lemma pieces_total : exists ps, pieces ps.
Proof. apply scan_total. Qed.

Lemma parse_tree ts : token_stream_from_str start src = Ok (Lexed ts) <-> exists ps, pieces ps /\ tree ps ts.
Proof using room.
  assert (Hs : (start < two32)%N) by exact (start_small _ _ room).
  rewrite token_stream_from_str_run by exact Hs. split.
  - intros H. inversion H as [H']. apply run_Lexed in H' as (e & H1 & H2); [|auto].
    assert (Se : scan e []).
    { apply scan_end. destruct (Str_stop _ _ _ H1) as (-> & _). exact H2. }
    destruct (Str_scan _ _ _ H1 (in_text_start _ _ room) _ Se) as (ps & S1 & T1).
    rewrite app_nil_r in S1. exists ps. auto.
  - intros (ps & Hp & Ht). destruct (scan_Str_end _ _ _ Ht (in_text_start _ _ room) Hp) as (e & H1 & H2).
    f_equal. apply run_Lexed; [auto|]. eauto.
Qed.

Lemma parse_wrong sp : token_stream_from_str start src = Ok (LexError sp) <->
  exists ps, pieces ps /\ wrong_top ps (lo sp) /\ hi sp = lo sp.
Proof using room.
  assert (Hs : (start < two32)%N) by exact (start_small _ _ room).
  pose proof (in_text_start _ _ room) as Ht.
  rewrite token_stream_from_str_run by exact Hs. split.
  - intros H. inversion H as [H'].
    destruct (run_top (cur_of (mkcur src start) (strip_bom src)))
      as [(ts & e & H1 & H2 & H3)|[(ts & e & d & r & H1 & H2 & H3)|(sp' & H1 & H3)]]; [auto| | |].
    + congruence.
    + rewrite H' in H3. inv H3. destruct (scan_total (cur_of e r)) as [ps2 S2].
      assert (Se : scan e (PClose d (off e) :: ps2)).
      { eapply scan_close_at; eauto. now destruct (Str_stop _ _ _ H1). }
      destruct (Str_scan _ _ _ H1 Ht _ Se) as (ps & S1 & T1).
      eexists. split; [exact S1|]. split; [|reflexivity]. cbn. eapply wrong_stray; eauto.
    + rewrite H' in H3. inv H3. pose proof (Fail_in_text _ _ room _ _ H1 Ht) as (E & _).
      destruct (Fail_scan _ _ H1 Ht) as (ps & S1 & W1). exists ps. split; [exact S1|].
      split; [now constructor|auto].
  - intros (ps & Hp & Hw & E). f_equal. destruct sp as [a b]. cbn in *. subst b. inv Hw.
    + apply Fail_run; [|auto]. eapply scan_Fail; eauto.
    + destruct (scan_Str_close _ _ _ _ _ _ H Ht Hp) as (e & r & H1 & -> & H2 & H3 & H4).
      rewrite (Str_run _ _ _ H1) by auto. destruct (Str_stop _ _ _ H1) as (H5 & H6 & _).
      now rewrite (run_close _ _ _ _ _ H6 H5 H2).
Qed.

End File.
End WithUnicode.
