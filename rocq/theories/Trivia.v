(** * Whitespace, comments, token starts, and appending a line.

    Not a model of code. *)
From Verif Require Import Base BaseFacts Unicode Tokens Lexer PureLexer.
From Verif Require Import LexerEquiv LexerEquiv2 LexerEquiv3 LexerEquiv4 Grammar Stable.

Local Arguments cannot_be_raw : simpl never.
Local Arguments contains : simpl never.
Local Arguments punct_recognized : simpl never.
Local Arguments is_stop : simpl never.
Local Arguments is_whitespace : simpl never.

Lemma p_skip_step s r : p_skip1 s = Some r -> p_skip s = p_skip r.
Proof. intros H. rewrite p_skip_eq, H. reflexivity. Qed.
Lemma p_skip_stay s : p_skip1 s = None -> p_skip s = s.
Proof. intros H. rewrite p_skip_eq, H. reflexivity. Qed.

(** A character that is neither whitespace nor a slash stops the skipping. *)
Lemma p_skip1_other c t : is_whitespace c = false -> c <> "/"%ch -> p_skip1 (c :: t) = None.
Proof.
  intros Hw Hc. unfold p_skip1, line_comment_start, block_comment_start. cbn [starts_with].
  replace ("/"%ch =? c)%N with false by (symmetry; apply N.eqb_neq; congruence).
  cbn [andb]. now rewrite Hw.
Qed.
Lemma p_skip1_slash c t : c <> "/"%ch -> c <> "*"%ch -> p_skip1 ("/"%ch :: c :: t) = None.
Proof.
  intros H1 H2. unfold p_skip1, line_comment_start, block_comment_start. cbn [starts_with].
  rewrite N.eqb_refl.
  replace ("/"%ch =? c)%N with false by (symmetry; apply N.eqb_neq; congruence).
  replace ("*"%ch =? c)%N with false by (symmetry; apply N.eqb_neq; congruence).
  reflexivity.
Qed.
Lemma p_skip1_slash_end : p_skip1 ["/"%ch] = None. Proof. reflexivity. Qed.
Lemma p_skip1_ws c t : is_whitespace c = true -> p_skip1 (c :: t) = Some t.
Proof.
  intros Hw. unfold p_skip1, line_comment_start, block_comment_start. cbn [starts_with].
  destruct (N.eqb_spec "/"%ch c) as [<-|]; [discriminate|]. cbn [andb]. now rewrite Hw.
Qed.

Section WithUnicode.
Context {U : unicode} (UO : unicode_ok U).

Lemma ident_not_ws c : is_ident_start c = true -> is_whitespace c = false.
Proof using UO.
  intros H. apply (ident_start_continue UO) in H. unfold is_whitespace, is_ident_continue in *.
  destruct (is_white_space c) eqn:E.
  { rewrite (xid_not_space U UO) in H by exact E. discriminate. }
  destruct (xid_not_marks U UO) as (H1 & H2 & _). cbn [orb].
  destruct (N.eqb_spec c 0x200E) as [->|]; [congruence|].
  destruct (N.eqb_spec c 0x200F) as [->|]; [congruence|]. reflexivity.
Qed.
Lemma punct_not_ws c : contains punct_recognized c = true -> is_whitespace c = false.
Proof.
  intros H. apply contains_In in H. unfold punct_recognized in H. cbn in H.
  decompose [or] H; subst; try contradiction; reflexivity.
Qed.
Lemma digit_not_ws c : is_dec_digit c = true -> is_whitespace c = false.
Proof.
  unfold is_dec_digit, is_whitespace, is_white_space, between. lia.
Qed.
Lemma ident_start_not c : is_ident_start c = true ->
  c <> "/"%ch /\ c <> "("%ch /\ c <> "["%ch /\ c <> "{"%ch /\ c <> ")"%ch /\ c <> "]"%ch /\ c <> "}"%ch.
Proof using UO.
  intros H. repeat split; intros ->; rewrite (ident_start_ascii UO) in H by lia; discriminate.
Qed.

Lemma p_doc_none_other c t : c <> "/"%ch -> p_doc (c :: t) = None.
Proof.
  intros Hc. destruct (p_doc (c :: t)) eqn:E; [|reflexivity]. apply p_doc_slash in E as [u E]. congruence.
Qed.
Lemma p_doc_none_slash t : starts_with ("/"%ch :: t) (tag "//") = false ->
  starts_with ("/"%ch :: t) (tag "/*") = false -> p_doc ("/"%ch :: t) = None.
Proof.
  intros H1 H2. unfold p_doc, p_doc_contents.
  destruct t as [|c t]; [reflexivity|]. cbn [starts_with] in *. rewrite N.eqb_refl in *.
  rewrite !andb_true_r in *. cbn [andb] in *. rewrite H1, H2. reflexivity.
Qed.

(** *** Where a leaf starts nothing else can start *)
Lemma open_delim_none c t : c <> "["%ch -> c <> "{"%ch ->
  (c <> "("%ch \/ starts_with (c :: t) ERROR = true) -> open_delim (c :: t) = None.
Proof.
  intros H1 H2 H3. unfold open_delim.
  destruct (N.eqb_spec c "("%ch) as [->|].
  - destruct H3 as [H3|H3]; [congruence|]. now rewrite H3.
  - cbn [andb]. apply N.eqb_neq in H1, H2. now rewrite H1, H2.
Qed.
Lemma close_delim_none c t : c <> ")"%ch -> c <> "]"%ch -> c <> "}"%ch -> close_delim (c :: t) = None.
Proof.
  intros H1 H2 H3. unfold close_delim. apply N.eqb_neq in H1, H2, H3. now rewrite H1, H2, H3.
Qed.

Lemma p_leaf_start s r k : p_leaf s = Some (r, k) -> p_skip1 s = None /\ at_token s.
Proof using UO.
  intros H. apply (p_leaf_kind UO) in H. destruct H as [r H|r c sp H|r sym raw H|H].
  - apply p_literal_first in H as (c & t & -> & Hc).
    assert (Hw : is_whitespace c = false).
    { destruct Hc as [Hc|Hc]; [now apply digit_not_ws|]. decompose [or] Hc; subst; reflexivity. }
    assert (Hn : c <> "/"%ch /\ c <> "("%ch /\ c <> "["%ch /\ c <> "{"%ch /\ c <> ")"%ch /\ c <> "]"%ch /\ c <> "}"%ch).
    { unfold is_dec_digit, between in Hc. lia. }
    destruct Hn as (N1 & N2 & N3 & N4 & N5 & N6 & N7).
    split; [now apply p_skip1_other|]. repeat split.
    + now apply p_doc_none_other.
    + discriminate.
    + apply open_delim_none; auto.
    + now apply close_delim_none.
  - unfold p_punct in H. destruct (p_punct_char s) as [[a b]|] eqn:E; [|discriminate]. clear H.
    pose proof (p_punct_char_inv _ _ _ E) as [-> Hc].
    assert (Hw := punct_not_ws _ Hc).
    assert (Hn : b <> "("%ch /\ b <> "["%ch /\ b <> "{"%ch /\ b <> ")"%ch /\ b <> "]"%ch /\ b <> "}"%ch).
    { apply contains_In in Hc. unfold punct_recognized in Hc. cbn in Hc. lia. }
    destruct Hn as (N2 & N3 & N4 & N5 & N6 & N7).
    assert (Hs : p_skip1 (b :: a) = None /\ p_doc (b :: a) = None).
    { destruct (N.eq_dec b "/"%ch) as [->|Hb].
      - unfold p_punct_char in E. destruct (starts_with _ (tag "//")) eqn:E1; [discriminate|].
        destruct (starts_with _ (tag "/*")) eqn:E2; [discriminate|]. clear E.
        split; [|now apply p_doc_none_slash].
        destruct a as [|c1 t1]; [reflexivity|]. cbn [starts_with] in E1, E2. rewrite N.eqb_refl in *.
        rewrite !andb_true_r in *. cbn [andb] in *. apply N.eqb_neq in E1, E2. apply p_skip1_slash; congruence.
      - split; [now apply p_skip1_other|now apply p_doc_none_other]. }
    destruct Hs as [Hs1 Hs2]. split; [exact Hs1|]. repeat split; auto.
    + discriminate.
    + apply open_delim_none; auto.
    + now apply close_delim_none.
  - unfold p_ident in H. destruct (existsb _ _); [discriminate|].
    apply (p_ident_any_start UO) in H as (c & t & -> & Hs).
    pose proof (ident_not_ws _ Hs). destruct (ident_start_not _ Hs) as (N1 & N2 & N3 & N4 & N5 & N6 & N7).
    split; [now apply p_skip1_other|]. repeat split.
    + now apply p_doc_none_other.
    + discriminate.
    + apply open_delim_none; auto.
    + now apply close_delim_none.
  - pose proof H as H'. apply starts_with_spec in H' as [u ->]. cbn [app ERROR] in *. split.
    + apply p_skip1_other; [reflexivity|discriminate].
    + repeat split.
      * discriminate.
Qed.

Lemma close_start s d r : close_delim s = Some (d, r) -> p_skip1 s = None.
Proof.
  unfold close_delim. destruct s as [|c t]; [discriminate|]. intros H.
  apply p_skip1_other.
  - destruct (N.eqb_spec c ")"%ch) as [->|]; [reflexivity|].
    destruct (N.eqb_spec c "]"%ch) as [->|]; [reflexivity|].
    destruct (N.eqb_spec c "}"%ch) as [->|]; [reflexivity|]. discriminate.
  - intros ->. discriminate.
Qed.
Lemma open_start s d r : open_delim s = Some (d, r) -> p_skip1 s = None /\ p_doc s = None.
Proof.
  unfold open_delim. destruct s as [|c t]; [discriminate|]. intros H.
  assert (Hc : c = "("%ch \/ c = "["%ch \/ c = "{"%ch).
  { destruct (N.eqb_spec c "("%ch) as [->|]; [auto|].
    destruct (N.eqb_spec c "["%ch) as [->|]; [auto|].
    destruct (N.eqb_spec c "{"%ch) as [->|]; [auto|]. discriminate. }
  split.
  - apply p_skip1_other; destruct Hc as [->|[->| ->]]; try reflexivity; discriminate.
  - apply p_doc_none_other. destruct Hc as [->|[->| ->]]; discriminate.
Qed.

(** Building derivations. *)
Lemma Lex_skip s ts e : Lex (p_skip s) ts e -> Lex s ts e.
Proof.
  intros H. inv H.
  - rewrite p_skip_idem in *. now apply Lex_eof.
  - rewrite p_skip_idem in *. eapply Lex_close; eauto.
  - rewrite p_skip_idem in *. eapply Lex_doc; eauto.
  - rewrite p_skip_idem in *. eapply Lex_group; eauto.
  - rewrite p_skip_idem in *. eapply Lex_leaf; eauto.
Qed.
Lemma Lex_unskip s ts e : Lex s ts e -> Lex (p_skip s) ts e.
Proof.
  intros H. inversion H; subst; clear H.
  - apply Lex_eof. now rewrite p_skip_idem.
  - rewrite <- (p_skip_idem s) at 2. eapply Lex_close. rewrite p_skip_idem. eauto.
  - eapply Lex_doc; rewrite ?p_skip_idem; eauto.
  - eapply Lex_group; rewrite ?p_skip_idem; eauto.
  - eapply Lex_leaf; rewrite ?p_skip_idem; eauto.
Qed.
Lemma Lex_leaf' s r k ts e : p_leaf s = Some (r, k) -> Lex r ts e -> Lex s (k call_site :: ts) e.
Proof using UO.
  intros H HL. destruct (p_leaf_start _ _ _ H) as [H1 H2].
  eapply Lex_leaf; rewrite ?(p_skip_stay _ H1); eauto.
Qed.
Lemma Lex_group' s d r inner m r' ts e : open_delim s = Some (d, r) -> Lex r inner m ->
  close_delim m = Some (d, r') -> Lex r' ts e -> Lex s (TGroup d inner call_site :: ts) e.
Proof.
  intros H H1 H2 H3. destruct (open_start _ _ _ H) as [Hs Hd].
  eapply Lex_group; rewrite ?(p_skip_stay _ Hs); eauto.
Qed.
Lemma Lex_close' s d r : close_delim s = Some (d, r) -> Lex s [] s.
Proof.
  intros H. pose proof (p_skip_stay _ (close_start _ _ _ H)) as Hs. rewrite <- Hs at 2.
  eapply Lex_close. rewrite Hs. eauto.
Qed.
Lemma Lex_nil : Lex [] [] [].
Proof. apply Lex_eof. reflexivity. Qed.
Lemma Lex_space t ts e : Lex t ts e -> Lex (SPACE :: t) ts e.
Proof.
  intros H. apply Lex_skip. rewrite (p_skip_step _ t) by (now apply p_skip1_ws). now apply Lex_unskip.
Qed.

(** *** Appending a line *)
Lemma starts_with_lf s b t : forallb (fun c => negb (c =? LF)%N) t = true ->
  starts_with (s ++ LF :: b) t = starts_with s t.
Proof.
  revert s. induction t as [|c t IH]; intros s Ht; cbn in *; [reflexivity|].
  apply andb_prop in Ht as [Hc Ht]. destruct s as [|d s]; cbn.
  - destruct (N.eqb_spec c LF) as [->|]; [discriminate|reflexivity].
  - now rewrite IH.
Qed.
Lemma p_line_lf s b : fst (p_line (s ++ LF :: b)) = fst (p_line s) ++ LF :: b.
Proof.
  induction s as [|c t IH]; [reflexivity|]. cbn [app p_line].
  destruct (c =? LF)%N; [reflexivity|]. rewrite !starts_with_single.
  destruct t as [|d t]; cbn [app].
  - destruct (c =? CR)%N; reflexivity.
  - destruct ((c =? CR)%N && (LF =? d)%N); [reflexivity|].
    cbn [app] in IH. destruct (p_line (d :: t ++ LF :: b)) as [r1 x1], (p_line (d :: t)) as [r2 x2].
    exact IH.
Qed.
Lemma p_line_lf_text s b r x : p_line s = (r, x) -> bare_cr x = false ->
  p_line (s ++ LF :: b) = (r ++ LF :: b, x).
Proof.
  revert r x. induction s as [|c t IH]; intros r x H Hb.
  - inv H. reflexivity.
  - cbn [app p_line] in *. destruct (c =? LF)%N; [now inv H|]. rewrite !starts_with_single in *.
    destruct t as [|d t]; cbn [app] in *.
    + destruct (N.eqb_spec c CR) as [->|].
      * cbn in H. inv H. discriminate.
      * cbn in H. inv H. reflexivity.
    + destruct ((c =? CR)%N && (LF =? d)%N) eqn:Ec; [now inv H|].
      destruct (p_line (d :: t)) as [r2 x2] eqn:E2. inv H. cbn [bare_cr] in Hb.
      rewrite (IH _ _ eq_refl); [reflexivity|].
      destruct (c =? CR)%N; [|exact Hb]. now apply orb_false_iff in Hb.
Qed.
Lemma p_block_app n s f r : p_block n s = Some r -> p_block n (s ++ f) = Some (r ++ f).
Proof.
  remember (length s) as m eqn:Em. revert s Em n. induction m as [m IH] using lt_wf_ind.
  intros s -> n H. destruct s as [|a [|b t]]; try discriminate. cbn [app]. cbn [p_block] in *.
  destruct (_ && _). { apply (IH (length t)); cbn; auto; lia. }
  destruct (_ && _).
  { destruct n as [|[|n]]; [discriminate|now inv H|]. apply (IH (length t)); cbn; auto; lia. }
  change (p_block n ((b :: t) ++ f) = Some (r ++ f)); change (p_block n (b :: t) = Some r) in H; apply (IH (length (b :: t))); cbn [length] in *; auto; lia.
Qed.

Lemma line_comment_start_stop s f : stop f -> line_comment_start (s ++ f) = line_comment_start s.
Proof. intros Hf. unfold line_comment_start. now rewrite !starts_with_stop by auto. Qed.
Lemma block_comment_start_stop s f : stop f -> block_comment_start (s ++ f) = block_comment_start s.
Proof. intros Hf. unfold block_comment_start. now rewrite !starts_with_stop by auto. Qed.

Lemma p_skip1_lf s b r : p_skip1 s = Some r -> p_skip1 (s ++ LF :: b) = Some (r ++ LF :: b).
Proof.
  destruct s as [|c t]; [discriminate|]. unfold p_skip1. cbn [app].
  change (c :: t ++ LF :: b) with ((c :: t) ++ LF :: b).
  rewrite line_comment_start_stop, block_comment_start_stop, starts_with_stop by reflexivity.
  destruct (line_comment_start _). { intros H. inv H. now rewrite p_line_lf. }
  destruct (starts_with _ _) eqn:E.
  { intros H. rewrite skipn_starts by (now apply starts_with_len in E). congruence. }
  destruct (block_comment_start _); [apply p_block_app|].
  destruct (is_whitespace c); [|discriminate]. intros H. inv H. reflexivity.
Qed.
Lemma p_skip_lf s b : p_skip s = [] -> p_skip (s ++ LF :: b) = p_skip b.
Proof.
  revert s. apply (str_ind_len (fun s => p_skip s = [] -> p_skip (s ++ LF :: b) = p_skip b)).
  intros s IH H. rewrite p_skip_eq in H. destruct (p_skip1 s) as [r|] eqn:E.
  - rewrite (p_skip_step _ _ (p_skip1_lf _ b _ E)). apply IH; [|exact H].
    now apply p_skip1_shorter in E.
  - subst s. apply p_skip_step. now apply p_skip1_ws.
Qed.
Lemma p_skip_lf' s b : p_skip1 (p_skip s ++ LF :: b) = None -> p_skip (s ++ LF :: b) = p_skip s ++ LF :: b.
Proof.
  revert s. apply (str_ind_len (fun s => p_skip1 (p_skip s ++ LF :: b) = None ->
    p_skip (s ++ LF :: b) = p_skip s ++ LF :: b)).
  intros s IH H. destruct (p_skip1 s) as [r|] eqn:E.
  - rewrite (p_skip_step _ _ (p_skip1_lf _ b _ E)). rewrite (p_skip_step _ _ E) in *. apply IH; [|exact H].
    now apply p_skip1_shorter in E.
  - rewrite (p_skip_stay _ E) in *. now apply p_skip_stay.
Qed.

Lemma p_doc_contents_lf s b r x i : p_doc_contents s = Some (r, (x, i)) -> bare_cr x = false ->
  p_doc_contents (s ++ LF :: b) = Some (r ++ LF :: b, (x, i)).
Proof.
  unfold p_doc_contents. rewrite !starts_with_stop by reflexivity. intros H Hb.
  destruct (starts_with s (tag "//!")) eqn:E1.
  { rewrite skipn_starts by (now apply starts_with_len in E1).
    destruct (p_line (skipn 3 s)) as [r1 x1] eqn:E. 
    assert (x1 = x) by congruence. subst x1.
    rewrite (p_line_lf_text _ _ _ _ E Hb). congruence. }
  destruct (starts_with s (tag "/*!")) eqn:E2.
  { destruct (p_block 0 s) as [r1|] eqn:E; [|discriminate]. rewrite (p_block_app _ _ _ _ E).
    rewrite prefix_of_stop by (now apply p_block_suffix in E). congruence. }
  destruct (starts_with s (tag "///")) eqn:E3.
  { rewrite skipn_starts by (now apply starts_with_len in E3). rewrite head_is_stop by reflexivity.
    destruct (head_is _ _); [discriminate|].
    destruct (p_line (skipn 3 s)) as [r1 x1] eqn:E. 
    assert (x1 = x) by congruence. subst x1.
    rewrite (p_line_lf_text _ _ _ _ E Hb). congruence. }
  destruct (starts_with s (tag "/**")) eqn:E4; [|discriminate].
  rewrite skipn_starts by (now apply starts_with_len in E4). rewrite head_is_stop by reflexivity.
  destruct (head_is _ _); [discriminate|].
  destruct (p_block 0 s) as [r1|] eqn:E; [|discriminate]. rewrite (p_block_app _ _ _ _ E).
  rewrite prefix_of_stop by (now apply p_block_suffix in E). cbn [andb negb] in *. congruence.
Qed.
Lemma p_doc_lf s b r x i : p_doc s = Some (r, (x, i)) -> p_doc (s ++ LF :: b) = Some (r ++ LF :: b, (x, i)).
Proof.
  unfold p_doc. destruct (p_doc_contents s) as [[r1 [x1 i1]]|] eqn:E; [|discriminate].
  destruct (bare_cr x1) eqn:Eb; [discriminate|]. intros H. inv H.
  rewrite (p_doc_contents_lf _ _ _ _ _ E Eb), Eb. reflexivity.
Qed.
Lemma doc_not_skip s b x : p_skip1 s = None -> p_doc s = Some x -> p_skip1 (s ++ LF :: b) = None.
Proof.
  intros Hs Hd. pose proof Hd as Hd'. apply p_doc_slash in Hd' as [t ->]. unfold p_skip1 in *. cbn [app].
  change ("/"%ch :: t ++ LF :: b) with (("/"%ch :: t) ++ LF :: b).
  rewrite line_comment_start_stop, block_comment_start_stop, starts_with_stop by reflexivity.
  destruct (line_comment_start _); [discriminate|]. destruct (starts_with _ (tag "/**/")); [discriminate|].
  destruct (block_comment_start _) eqn:E; [|reflexivity]. exfalso.
  unfold block_comment_start in E. apply andb_prop in E as [E E3]. apply andb_prop in E as [E1 E2].
  unfold p_doc, p_doc_contents in Hd.
  destruct t as [|c [|d t]]; try discriminate.
  { cbn [starts_with head_is skipn] in *. rewrite !N.eqb_refl in *. cbn [andb] in *.
    rewrite !andb_true_r in *. rewrite ?andb_false_r in *. discriminate. }
  cbn [starts_with head_is skipn] in *. rewrite !N.eqb_refl in *. cbn [andb] in *.
  rewrite !andb_true_r in *. apply N.eqb_eq in E1. subst c. cmpc. cbn [andb] in *.
  change ("/" =? "*")%ch%N with false in *. change ("*" =? "*")%ch%N with true in *. cbn [andb] in *.
  destruct (N.eqb_spec "!"%ch d); [discriminate|]. destruct (N.eqb_spec "*"%ch d); [|discriminate].
  cbn [andb negb orb] in *. destruct t as [|e1 t]; [discriminate|]. rewrite andb_true_r in E2.
  unfold head_is in Hd. rewrite E2 in Hd. discriminate.
Qed.

Lemma Lex_lf s ts e b : Lex s ts e ->
  (e <> [] -> Lex (s ++ LF :: b) ts (e ++ LF :: b)) /\
  (e = [] -> forall ts2 e2, Lex b ts2 e2 -> Lex (s ++ LF :: b) (ts ++ ts2) e2).
Proof using UO.
  induction 1 as [s H|s d r H|s r x inner ts e H HL IH|s d r inner m r' ts e Hd Ho Hi IHi Hc HL IH|s r k ts e Ha Hl HL IH].
  - split; [congruence|]. intros _ ts2 e2 H2. cbn. apply Lex_skip. rewrite p_skip_lf by exact H.
    now apply Lex_unskip.
  - assert (Hc : close_delim (p_skip s ++ LF :: b) = Some (d, r ++ LF :: b)).
    { revert H. unfold close_delim. destruct (p_skip s) as [|c t]; [discriminate|]. cbn [app].
      repeat destruct (_ =? _)%N; intros H; inv H; reflexivity. }
    split.
    + intros _. rewrite <- p_skip_lf' by (eapply close_start; eauto). eapply Lex_close.
      rewrite p_skip_lf'; [eauto|eapply close_start; eauto].
    + intros E. rewrite E in H. discriminate.
  - assert (Hs : p_skip (s ++ LF :: b) = p_skip s ++ LF :: b).
    { apply p_skip_lf'. eapply doc_not_skip; [apply p_skip_fixed|eauto]. }
    destruct IH as [IH1 IH2]. split.
    + intros He. eapply Lex_doc; [rewrite Hs; apply p_doc_lf; eauto|auto].
    + intros He ts2 e2 H2. rewrite <- app_assoc. eapply Lex_doc; [rewrite Hs; apply p_doc_lf; eauto|auto].
  - assert (Hs : open_delim (p_skip s ++ LF :: b) = Some (d, r ++ LF :: b)).
    { revert Ho. unfold open_delim. destruct (p_skip s) as [|c t] eqn:E; [discriminate|]. cbn [app].
      change (c :: t ++ LF :: b) with ((c :: t) ++ LF :: b). rewrite starts_with_lf by reflexivity.
      destruct (_ && _); [intros X; inv X; reflexivity|].
      repeat destruct (_ =? _)%N; intros X; inv X; reflexivity. }
    destruct (open_start _ _ _ Hs) as [Hs1 Hs2].
    rewrite <- (p_skip_lf' _ _ Hs1) in Hs, Hs2.
    assert (Hm : m <> []) by (intros ->; discriminate).
    assert (Hcm : close_delim (m ++ LF :: b) = Some (d, r' ++ LF :: b)).
    { revert Hc. unfold close_delim. destruct m as [|c t]; [discriminate|]. cbn [app].
      repeat destruct (_ =? _)%N; intros X; inv X; reflexivity. }
    destruct IHi as [IHi _]. destruct IH as [IH1 IH2]. split.
    + intros He. eapply Lex_group; eauto.
    + intros He ts2 e2 H2. cbn [app]. eapply Lex_group; eauto.
  - pose proof (p_leaf_app UO _ (LF :: b) _ _ eq_refl Hl) as Hl'.
    destruct (p_leaf_start _ _ _ Hl') as [Hs1 Ha'].
    rewrite <- (p_skip_lf' _ _ Hs1) in Hl', Ha'.
    destruct IH as [IH1 IH2]. split.
    + intros He. eapply Lex_leaf; eauto.
    + intros He ts2 e2 H2. cbn [app]. eapply Lex_leaf; eauto.
Qed.

Lemma strip_bom_app a b : strip_bom a <> [] -> strip_bom (a ++ b) = strip_bom a ++ b.
Proof.
  unfold strip_bom. destruct a as [|c t]; [congruence|]. cbn.
  destruct (_ =? _)%N; reflexivity.
Qed.
Lemma strip_bom_lf a b : strip_bom (a ++ LF :: b) = strip_bom a ++ LF :: b.
Proof.
  unfold strip_bom. destruct a as [|c t]; [reflexivity|]. cbn.
  destruct (_ =? _)%N; reflexivity.
Qed.

Lemma strip_bom_none s : starts_with s BYTE_ORDER_MARK = false -> strip_bom s = s.
Proof.
  unfold BYTE_ORDER_MARK, strip_bom. destruct s as [|c t]; [reflexivity|]. cbn [starts_with].
  rewrite N.eqb_sym. rewrite andb_true_r. now intros ->.
Qed.

Theorem lexes_lines a b ts1 ts2 : starts_with b BYTE_ORDER_MARK = false ->
  lexes a ts1 -> lexes b ts2 -> lexes (a ++ LF :: b) (ts1 ++ ts2).
Proof using UO.
  unfold lexes. intros Hb H1 H2. rewrite strip_bom_lf.
  rewrite (strip_bom_none _ Hb) in H2.
  now apply (proj2 (Lex_lf _ _ _ b H1)).
Qed.
End WithUnicode.
