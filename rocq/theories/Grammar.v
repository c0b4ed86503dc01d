(** * Big-step description of the main loop.

    Not a model of code.  [Str c ts e]: starting at cursor [c], the lexer reads
    the trees [ts] of one nesting level and stops at [e], which is either the end
    of input or a closing delimiter.  [Fail c sp]: it stops with an error at
    [sp].  The two cover every input and determine the loop's result. *)
From Verif Require Import Base BaseFacts Unicode Tokens Lexer PureLexer.
From Verif Require Import LexerEquiv LexerEquiv2 LexerEquiv3 LexerEquiv4.

Section WithUnicode.
Context {U : unicode}.

Definition skipped (c : cursor) : cursor := cur_of c (p_skip (rest c)).

Definition at_token (s : str) : Prop :=
  p_doc s = None /\ s <> [] /\ open_delim s = None /\ close_delim s = None.

Inductive Str : cursor -> list token -> cursor -> Prop :=
| Str_eof c : rest (skipped c) = [] -> Str c [] (skipped c)
| Str_close c d r : close_delim (rest (skipped c)) = Some (d, r) -> Str c [] (skipped c)
| Str_doc c r x inner ts e :
    p_doc (rest (skipped c)) = Some (r, (x, inner)) ->
    Str (cur_of (skipped c) r) ts e ->
    Str c (doc_tokens x inner (mkspan (off (skipped c)) (off (cur_of (skipped c) r))) ++ ts) e
| Str_group c d r inner m r' ts e :
    p_doc (rest (skipped c)) = None ->
    open_delim (rest (skipped c)) = Some (d, r) ->
    Str (cur_of (skipped c) r) inner m ->
    close_delim (rest m) = Some (d, r') ->
    Str (cur_of m r') ts e ->
    Str c (TGroup d inner (mkspan (off (skipped c)) (off (cur_of m r'))) :: ts) e
| Str_leaf c r k ts e :
    at_token (rest (skipped c)) ->
    p_leaf (rest (skipped c)) = Some (r, k) ->
    Str (cur_of (skipped c) r) ts e ->
    Str c (k (mkspan (off (skipped c)) (off (cur_of (skipped c) r))) :: ts) e.

Definition at_span (c : cursor) : span := mkspan (off c) (off c).

Inductive Fail : cursor -> span -> Prop :=
| Fail_leaf c : at_token (rest (skipped c)) -> p_leaf (rest (skipped c)) = None ->
    Fail c (at_span (skipped c))
| Fail_doc c r x inner sp :
    p_doc (rest (skipped c)) = Some (r, (x, inner)) ->
    Fail (cur_of (skipped c) r) sp -> Fail c sp
| Fail_inside c d r sp :
    p_doc (rest (skipped c)) = None ->
    open_delim (rest (skipped c)) = Some (d, r) ->
    Fail (cur_of (skipped c) r) sp -> Fail c sp
| Fail_unclosed c d r inner m :
    p_doc (rest (skipped c)) = None ->
    open_delim (rest (skipped c)) = Some (d, r) ->
    Str (cur_of (skipped c) r) inner m -> rest m = [] ->
    Fail c (at_span (skipped c))
| Fail_mismatch c d r inner m d' r' :
    p_doc (rest (skipped c)) = None ->
    open_delim (rest (skipped c)) = Some (d, r) ->
    Str (cur_of (skipped c) r) inner m -> close_delim (rest m) = Some (d', r') -> d' <> d ->
    Fail c (at_span m)
| Fail_after c d r inner m r' sp :
    p_doc (rest (skipped c)) = None ->
    open_delim (rest (skipped c)) = Some (d, r) ->
    Str (cur_of (skipped c) r) inner m -> close_delim (rest m) = Some (d, r') ->
    Fail (cur_of m r') sp -> Fail c sp
| Fail_next c r k sp :
    at_token (rest (skipped c)) ->
    p_leaf (rest (skipped c)) = Some (r, k) ->
    Fail (cur_of (skipped c) r) sp -> Fail c sp.

(** *** Auxiliary facts *)
Lemma p_skip_idem s : p_skip (p_skip s) = p_skip s.
Proof. rewrite (p_skip_eq (p_skip s)), p_skip_fixed. reflexivity. Qed.

Lemma skipped_idem c : skipped (skipped c) = skipped c.
Proof.
  unfold skipped. rewrite rest_cur_of, p_skip_idem. rewrite cur_of_trans; auto.
Qed.

Lemma wfc_skipped c : wfc (skipped c).
Proof. apply wfc_cur_of. Qed.
Local Hint Resolve wfc_skipped : core.

Lemma close_open d r s : close_delim s = Some (d, r) -> open_delim s = None.
Proof.
  unfold close_delim, open_delim. destruct s as [|c t]; [discriminate|].
  destruct (N.eqb_spec c "("%ch) as [->|]; [discriminate|].
  destruct (N.eqb_spec c "["%ch) as [->|]; [discriminate|].
  destruct (N.eqb_spec c "{"%ch) as [->|]; [discriminate|]. reflexivity.
Qed.

Lemma p_doc_slash s x : p_doc s = Some x -> exists t, s = "/"%ch :: t.
Proof.
  unfold p_doc, p_doc_contents. destruct s as [|c t]; [discriminate|]. cbn [starts_with].
  destruct (N.eqb_spec "/"%ch c) as [<-|]; [eauto|]. discriminate.
Qed.

Lemma close_no_doc d r s : close_delim s = Some (d, r) -> p_doc s = None.
Proof.
  intros H. destruct (p_doc s) eqn:E; [|reflexivity]. apply p_doc_slash in E as [t ->]. discriminate.
Qed.

Lemma close_delim_not_none s d r : close_delim s = Some (d, r) -> d <> DNone.
Proof.
  unfold close_delim. destruct s as [|c t]; [discriminate|].
  repeat destruct (_ =? _)%N; intros H; inv H; discriminate.
Qed.
Lemma delim_eqb_spec a b : reflect (a = b) (delim_eqb a b).
Proof. destruct a, b; cbn; constructor; congruence. Qed.

(** Stop points are already skipped. *)
Lemma Str_stop c ts e : Str c ts e ->
  skipped e = e /\ wfc e /\ (rest e = [] \/ exists d r, close_delim (rest e) = Some (d, r)).
Proof.
  induction 1; auto; repeat split; auto using skipped_idem; eauto.
Qed.

(** Suffix facts. *)
Lemma skipped_suffix c : suffix (rest (skipped c)) (rest c).
Proof. apply p_skip_suffix. Qed.

Lemma doc_next c r x : p_doc (rest (skipped c)) = Some (r, x) ->
  suffix r (rest (skipped c)) /\ length r < length (rest c).
Proof.
  intros H. apply p_doc_shorter in H as [H1 H2]. split; [exact H1|].
  pose proof (suffix_length _ _ (skipped_suffix c)). lia.
Qed.
Lemma open_next c d r : open_delim (rest (skipped c)) = Some (d, r) ->
  suffix r (rest (skipped c)) /\ length r < length (rest c).
Proof.
  intros H. pose proof (suffix_length _ _ (skipped_suffix c)) as Hl.
  apply open_delim_spec in H as [x H]. rewrite H in *. split; [auto|]. cbn in Hl. lia.
Qed.
Lemma close_next s d r : close_delim s = Some (d, r) -> suffix r s /\ length r < length s.
Proof. intros H. apply close_delim_spec in H as [x ->]. split; [auto|cbn; lia]. Qed.
Lemma leaf_next c r k : p_leaf (rest (skipped c)) = Some (r, k) ->
  suffix r (rest (skipped c)) /\ length r < length (rest c).
Proof.
  intros H. apply p_leaf_shorter in H as [H1 H2]. split; [exact H1|].
  pose proof (suffix_length _ _ (skipped_suffix c)). lia.
Qed.

Lemma Str_suffix c ts e : Str c ts e ->
  suffix (rest e) (rest c) /\ e = cur_of c (rest e).
Proof.
  induction 1.
  - split; [apply skipped_suffix|reflexivity].
  - split; [apply skipped_suffix|reflexivity].
  - destruct (doc_next _ _ _ H) as [Hs _]. destruct IHStr as [I1 I2]. rewrite rest_cur_of in I1.
    split.
    + apply suffix_trans with r; auto. apply suffix_trans with (rest (skipped c)); auto using skipped_suffix.
    + assert (Hr : suffix r (rest c)) by (apply suffix_trans with (rest (skipped c)); auto using skipped_suffix).
      rewrite I2 at 1. unfold skipped in *. rewrite !rest_cur_of in *.
      rewrite (cur_of_trans c (p_skip (rest c)) r) by auto. now rewrite cur_of_trans.
  - destruct (open_next _ _ _ H0) as [Hs _]. destruct IHStr1 as [I1 I2]. destruct IHStr2 as [I3 I4].
    rewrite rest_cur_of in I1, I3. apply close_next in H2 as [H2 _].
    assert (Hr : suffix r (rest c)) by (apply suffix_trans with (rest (skipped c)); auto using skipped_suffix).
    assert (Hm : suffix (rest m) (rest c)) by (apply suffix_trans with r; auto).
    assert (Hr' : suffix r' (rest c)) by (apply suffix_trans with (rest m); auto).
    split; [apply suffix_trans with r'; auto|].
    rewrite I4 at 1. rewrite I2 in *. unfold skipped. rewrite !rest_cur_of in *.
    rewrite (cur_of_trans c (p_skip (rest c)) r) by auto.
    rewrite (cur_of_trans c r (rest m)) by auto. rewrite (cur_of_trans c (rest m) r') by auto.
    now rewrite cur_of_trans.
  - destruct (leaf_next _ _ _ H0) as [Hs _]. destruct IHStr as [I1 I2]. rewrite rest_cur_of in I1.
    split.
    + apply suffix_trans with r; auto. apply suffix_trans with (rest (skipped c)); auto using skipped_suffix.
    + assert (Hr : suffix r (rest c)) by (apply suffix_trans with (rest (skipped c)); auto using skipped_suffix).
      rewrite I2 at 1. unfold skipped in *. rewrite !rest_cur_of in *.
      rewrite (cur_of_trans c (p_skip (rest c)) r) by auto. now rewrite cur_of_trans.
Qed.

(** *** The loop follows the description *)
Lemma run_skipped c tokens stack : wfc c -> run c tokens stack = run (skipped c) tokens stack.
Proof.
  intros Hw. rewrite run_eq by exact Hw. symmetry. rewrite run_eq by apply wfc_skipped.
  fold (skipped (skipped c)). rewrite skipped_idem. reflexivity.
Qed.

Lemma run_doc c r x inner tokens stack : wfc c ->
  p_doc (rest (skipped c)) = Some (r, (x, inner)) ->
  run c tokens stack = run (cur_of (skipped c) r)
    (tokens ++ doc_tokens x inner (mkspan (off (skipped c)) (off (cur_of (skipped c) r)))) stack.
Proof. intros Hw H. rewrite run_eq by exact Hw. fold (skipped c). unfold p_step. now rewrite H. Qed.

Lemma run_open c d r tokens stack : wfc c ->
  p_doc (rest (skipped c)) = None -> open_delim (rest (skipped c)) = Some (d, r) ->
  run c tokens stack = run (cur_of (skipped c) r) [] ((off (skipped c), (d, tokens)) :: stack).
Proof.
  intros Hw H Ho. rewrite run_eq by exact Hw. fold (skipped c). unfold p_step. rewrite H, Ho.
  destruct (rest (skipped c)) eqn:E; [discriminate|reflexivity].
Qed.

Lemma run_leaf c r k tokens stack : wfc c -> at_token (rest (skipped c)) ->
  p_leaf (rest (skipped c)) = Some (r, k) ->
  run c tokens stack = run (cur_of (skipped c) r)
    (tokens ++ [k (mkspan (off (skipped c)) (off (cur_of (skipped c) r)))]) stack.
Proof.
  intros Hw (H1 & H2 & H3 & H4) Hl. rewrite run_eq by exact Hw. fold (skipped c). unfold p_step.
  rewrite H1, H3, H4, Hl. destruct (rest (skipped c)); [congruence|reflexivity].
Qed.

Lemma run_leaf_fail c tokens stack : wfc c -> at_token (rest (skipped c)) ->
  p_leaf (rest (skipped c)) = None -> run c tokens stack = LexError (at_span (skipped c)).
Proof.
  intros Hw (H1 & H2 & H3 & H4) Hl. rewrite run_eq by exact Hw. fold (skipped c). unfold p_step.
  rewrite H1, H3, H4, Hl. destruct (rest (skipped c)); [congruence|reflexivity].
Qed.

Lemma run_close m d r tokens stack : wfc m -> skipped m = m ->
  close_delim (rest m) = Some (d, r) ->
  run m tokens stack =
  match stack with
  | [] => LexError (at_span m)
  | (lo, (od, outer)) :: stack =>
      if delim_eqb od d then
        run (cur_of m r) (outer ++ [TGroup od tokens (mkspan lo (off (cur_of m r)))]) stack
      else LexError (at_span m)
  end.
Proof.
  intros Hw Hs H. rewrite run_eq by exact Hw. fold (skipped m). rewrite Hs. unfold p_step.
  rewrite (close_no_doc _ _ _ H), (close_open _ _ _ H), H.
  destruct (rest m) eqn:E; [discriminate|].
  destruct stack as [|[lo [od outer]] st]; [reflexivity|]. destruct (delim_eqb od d); reflexivity.
Qed.

Lemma run_eof m tokens stack : wfc m -> skipped m = m -> rest m = [] ->
  run m tokens stack =
  match stack with
  | [] => Lexed tokens
  | (lo, _) :: _ => LexError (mkspan lo lo)
  end.
Proof.
  intros Hw Hs H. rewrite run_eq by exact Hw. fold (skipped m). rewrite Hs. unfold p_step.
  rewrite H. cbn. destruct stack as [|[lo fr] st]; reflexivity.
Qed.

Lemma Str_run c ts e : Str c ts e -> wfc c ->
  forall tokens stack, run c tokens stack = run e (tokens ++ ts) stack.
Proof.
  induction 1; intros Hw tokens stack.
  - rewrite app_nil_r. now apply run_skipped.
  - rewrite app_nil_r. now apply run_skipped.
  - rewrite (run_doc _ _ _ _ _ _ Hw H), IHStr by auto. now rewrite <- app_assoc.
  - rewrite (run_open _ _ _ _ _ Hw H H0), IHStr1 by auto.
    destruct (Str_stop _ _ _ H1) as (Hs & Hm & _).
    rewrite (run_close _ _ _ _ _ Hm Hs H2). destruct (delim_eqb_spec d d); [|congruence].
    rewrite IHStr2 by auto. cbn [app]. now rewrite <- app_assoc.
  - rewrite (run_leaf _ _ _ _ _ Hw H H0), IHStr by auto. now rewrite <- app_assoc.
Qed.

Lemma Fail_run c sp : Fail c sp -> wfc c ->
  forall tokens stack, run c tokens stack = LexError sp.
Proof.
  induction 1; intros Hw tokens stack.
  - now apply run_leaf_fail.
  - rewrite (run_doc _ _ _ _ _ _ Hw H). auto.
  - rewrite (run_open _ _ _ _ _ Hw H H0). auto.
  - rewrite (run_open _ _ _ _ _ Hw H H0), (Str_run _ _ _ H1) by auto.
    destruct (Str_stop _ _ _ H1) as (Hs & Hm & _).
    rewrite (run_eof _ _ _ Hm Hs H2). reflexivity.
  - rewrite (run_open _ _ _ _ _ Hw H H0), (Str_run _ _ _ H1) by auto.
    destruct (Str_stop _ _ _ H1) as (Hs & Hm & _).
    rewrite (run_close _ _ _ _ _ Hm Hs H2). destruct (delim_eqb_spec d d'); [congruence|reflexivity].
  - rewrite (run_open _ _ _ _ _ Hw H H0), (Str_run _ _ _ H1) by auto.
    destruct (Str_stop _ _ _ H1) as (Hs & Hm & _).
    rewrite (run_close _ _ _ _ _ Hm Hs H2). destruct (delim_eqb_spec d d); [auto|congruence].
  - rewrite (run_leaf _ _ _ _ _ Hw H H0). auto.
Qed.

Lemma Str_or_Fail c : wfc c -> (exists ts e, Str c ts e) \/ (exists sp, Fail c sp).
Proof.
  remember (length (rest c)) as n eqn:En. revert c En.
  induction n as [n IH] using lt_wf_ind; intros c -> Hw.
  assert (IH' : forall r, length r < length (rest c) -> forall c0,
    (exists ts e, Str (cur_of c0 r) ts e) \/ (exists sp, Fail (cur_of c0 r) sp)).
  { intros r Hr c0. apply (IH (length r)); auto. }
  clear IH. rename IH' into IH.
  destruct (p_doc (rest (skipped c))) as [[r [x inner]]|] eqn:Ed.
  { destruct (doc_next _ _ _ Ed) as [_ Hl].
    destruct (IH r Hl (skipped c)) as [(ts & e & H)|(sp & H)].
    - left. eauto using Str_doc.
    - right. eauto using Fail_doc. }
  destruct (open_delim (rest (skipped c))) as [[d r]|] eqn:Eo.
  { destruct (open_next _ _ _ Eo) as [Hs Hl].
    destruct (IH r Hl (skipped c)) as [(inner & m & H)|(sp & H)].
    2: { right. eauto using Fail_inside. }
    destruct (Str_stop _ _ _ H) as (Hm & Hmw & [Hnil|(d' & r' & Hc)]).
    { right. eauto using Fail_unclosed. }
    destruct (delim_eqb_spec d' d) as [->|].
    2: { right. eauto using Fail_mismatch. }
    assert (Hl' : length r' < length (rest c)).
    { apply close_next in Hc as [Hc _]. destruct (Str_suffix _ _ _ H) as [Hsm _].
      rewrite rest_cur_of in Hsm. apply suffix_length in Hc, Hsm. lia. }
    destruct (IH r' Hl' m) as [(ts & e & H')|(sp & H')].
    - left. eauto using Str_group.
    - right. eauto using Fail_after. }
  destruct (close_delim (rest (skipped c))) as [[d r]|] eqn:Ec.
  { left. eauto using Str_close. }
  destruct (rest (skipped c)) as [|ch t] eqn:Er.
  { left. eauto using Str_eof. }
  assert (Hat : at_token (rest (skipped c))) by (rewrite Er; repeat split; auto; discriminate).
  rewrite <- Er in *.
  destruct (p_leaf (rest (skipped c))) as [[r k]|] eqn:El.
  - destruct (leaf_next _ _ _ El) as [_ Hl].
    destruct (IH r Hl (skipped c)) as [(ts & e & H)|(sp & H)].
    + left. eauto using Str_leaf.
    + right. eauto using Fail_next.
  - right. eauto using Fail_leaf.
Qed.

(** The whole loop from an empty stack. *)
Lemma run_top c : wfc c ->
  (exists ts e, Str c ts e /\ rest e = [] /\ run c [] [] = Lexed ts) \/
  (exists ts e d r, Str c ts e /\ close_delim (rest e) = Some (d, r)
                    /\ run c [] [] = LexError (at_span e)) \/
  (exists sp, Fail c sp /\ run c [] [] = LexError sp).
Proof.
  intros Hw. destruct (Str_or_Fail c Hw) as [(ts & e & H)|(sp & H)].
  - destruct (Str_stop _ _ _ H) as (Hs & Hwe & [Hnil|(d & r & Hc)]).
    + left. exists ts, e. split; [exact H|]. split; [exact Hnil|].
      rewrite (Str_run _ _ _ H Hw). cbn. now rewrite (run_eof _ _ _ Hwe Hs Hnil).
    + right. left. exists ts, e, d, r. split; [exact H|]. split; [exact Hc|].
      rewrite (Str_run _ _ _ H Hw). now rewrite (run_close _ _ _ _ _ Hwe Hs Hc).
  - right. right. exists sp. split; [exact H|]. now apply Fail_run.
Qed.

Lemma run_Lexed c ts : wfc c ->
  run c [] [] = Lexed ts <-> exists e, Str c ts e /\ rest e = [].
Proof.
  intros Hw. split.
  - intros H. destruct (run_top c Hw) as [(ts' & e & H1 & H2 & H3)|[(ts' & e & d & r & H1 & H2 & H3)|(sp & H1 & H3)]].
    + assert (ts' = ts) by congruence. subst. eauto.
    + congruence.
    + congruence.
  - intros (e & H & Hn). rewrite (Str_run _ _ _ H Hw). cbn.
    destruct (Str_stop _ _ _ H) as (Hs & Hwe & _). now rewrite (run_eof _ _ _ Hwe Hs Hn).
Qed.

(** *** Without spans *)
Inductive Lex : str -> list token -> str -> Prop :=
| Lex_eof s : p_skip s = [] -> Lex s [] []
| Lex_close s d r : close_delim (p_skip s) = Some (d, r) -> Lex s [] (p_skip s)
| Lex_doc s r x inner ts e :
    p_doc (p_skip s) = Some (r, (x, inner)) -> Lex r ts e ->
    Lex s (doc_tokens x inner call_site ++ ts) e
| Lex_group s d r inner m r' ts e :
    p_doc (p_skip s) = None -> open_delim (p_skip s) = Some (d, r) ->
    Lex r inner m -> close_delim m = Some (d, r') -> Lex r' ts e ->
    Lex s (TGroup d inner call_site :: ts) e
| Lex_leaf s r k ts e :
    at_token (p_skip s) -> p_leaf (p_skip s) = Some (r, k) -> Lex r ts e ->
    Lex s (k call_site :: ts) e.

Lemma strips_app a b : strips (a ++ b) = strips a ++ strips b.
Proof. apply map_app. Qed.

Lemma strip_doc x inner sp : strips (doc_tokens x inner sp) = doc_tokens x inner call_site.
Proof. destruct inner; reflexivity. Qed.

Lemma strip_leaf s r k sp : p_leaf s = Some (r, k) -> strip (k sp) = k call_site.
Proof.
  unfold p_leaf. destruct (p_literal s) as [x|]; [intros H; inv H; reflexivity|].
  destruct (p_punct s) as [[x [ch sp']]|]; [intros H; inv H; reflexivity|].
  destruct (p_ident s) as [[x [sym raw]]|]; [intros H; inv H; reflexivity|].
  destruct (starts_with s ERROR); [|discriminate]. intros H; inv H; reflexivity.
Qed.

Lemma Str_Lex c ts e : Str c ts e -> Lex (rest c) (strips ts) (rest e).
Proof.
  induction 1.
  - rewrite H. now apply Lex_eof.
  - now apply Lex_close with d r.
  - rewrite strips_app, strip_doc. eapply Lex_doc; eauto.
  - cbn. eapply Lex_group; eauto.
  - cbn. rewrite (strip_leaf _ _ _ _ H0). eapply Lex_leaf; eauto.
Qed.

Lemma Lex_Str s ts r : Lex s ts r -> forall c, rest c = s ->
  exists ts' e, Str c ts' e /\ strips ts' = ts /\ rest e = r.
Proof.
  induction 1; intros c0 <-.
  - exists [], (skipped c0). repeat split; auto. now apply Str_eof.
  - exists [], (skipped c0). repeat split; auto. eapply Str_close; eauto.
  - destruct (IHLex (cur_of (skipped c0) r) eq_refl) as (ts' & e' & H1 & H2 & H3).
    eexists _, e'. split; [eapply Str_doc; eauto|]. split; [|exact H3].
    rewrite strips_app, strip_doc, H2. reflexivity.
  - destruct (IHLex1 (cur_of (skipped c0) r) eq_refl) as (ts1 & m' & H4 & H5 & H6). subst m.
    destruct (IHLex2 (cur_of m' r') eq_refl) as (ts2 & e' & H7 & H8 & H9).
    eexists _, e'. split; [eapply Str_group; eauto|]. split; [|exact H9].
    unfold strips in *. cbn. now rewrite H5, H8.
  - destruct (IHLex (cur_of (skipped c0) r) eq_refl) as (ts' & e' & H2 & H3 & H4).
    eexists _, e'. split; [eapply Str_leaf; eauto|]. split; [|exact H4].
    unfold strips in *. cbn. now rewrite H3, (strip_leaf _ _ _ _ H0).
Qed.

Lemma Str_det c ts e ts' e' : wfc c -> Str c ts e -> Str c ts' e' -> ts = ts' /\ e = e'.
Proof.
  intros Hw H. revert ts' e'. induction H; intros ts' e' H'.
  - inv H'; try (rewrite H in *; discriminate); auto.
  - inv H'; auto.
    + rewrite (close_no_doc _ _ _ H) in H0. discriminate.
    + rewrite (close_open _ _ _ H) in H1. discriminate.
    + destruct H0 as (_ & _ & _ & H0). congruence.
  - inv H'.
    + rewrite H1 in H. discriminate.
    + rewrite (close_no_doc _ _ _ H1) in H. discriminate.
    + rewrite H in H1. inv H1. apply IHStr in H2 as [-> ->]; auto.
    + congruence.
    + destruct H1 as (H1 & _). congruence.
  - inv H'.
    + rewrite H4 in H0. discriminate.
    + rewrite (close_open _ _ _ H4) in H0. discriminate.
    + congruence.
    + rewrite H0 in H5. inv H5. apply IHStr1 in H6 as [-> ->]; auto.
      rewrite H2 in H7. inv H7. apply IHStr2 in H8 as [-> ->]; auto.
    + destruct H4 as (_ & _ & H4 & _). congruence.
  - inv H'.
    + destruct H as (_ & H & _). congruence.
    + destruct H as (_ & _ & _ & H). congruence.
    + destruct H as (H & _). congruence.
    + destruct H as (_ & _ & H & _). congruence.
    + rewrite H0 in H3. inv H3. apply IHStr in H4 as [-> ->]; auto.
Qed.

Lemma Lex_det s ts e ts' e' : Lex s ts e -> Lex s ts' e' -> ts = ts' /\ e = e'.
Proof.
  intros H1 H2.
  destruct (Lex_Str _ _ _ H1 (mkcur s 0) eq_refl) as (t1 & c1 & S1 & <- & <-).
  destruct (Lex_Str _ _ _ H2 (mkcur s 0) eq_refl) as (t2 & c2 & S2 & <- & <-).
  destruct (Str_det (mkcur s 0) t1 c1 t2 c2) as [-> ->]; auto. reflexivity.
Qed.

(** The result of parsing, modulo spans. *)
Definition lexes (src : str) (ts : list token) : Prop := Lex (strip_bom src) ts [].

Lemma from_str_lexes start src ts : (start < two32)%N ->
  token_stream_from_str start src = Ok (Lexed ts) -> lexes src (strips ts).
Proof.
  intros Hs H. rewrite token_stream_from_str_run in H by exact Hs. inversion H as [H']. clear H.
  apply run_Lexed in H' as (e & H1 & H2); [|auto].
  apply Str_Lex in H1. rewrite H2 in H1. exact H1.
Qed.

Lemma lexes_from_str start src ts : (start < two32)%N -> lexes src ts ->
  exists ts', token_stream_from_str start src = Ok (Lexed ts') /\ strips ts' = ts.
Proof.
  intros Hs H. rewrite token_stream_from_str_run by exact Hs.
  destruct (Lex_Str _ _ _ H (cur_of (mkcur src start) (strip_bom src)) eq_refl) as (ts' & e & H1 & H2 & H3).
  exists ts'. split; [|exact H2]. f_equal. apply run_Lexed; [auto|]. eauto.
Qed.

End WithUnicode.
