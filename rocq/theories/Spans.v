(** * Positions: spans of parsed tokens are the exact ranges of their text. *)
From Verif Require Import Base BaseFacts Unicode Tokens Lexer PureLexer.
From Verif Require Import LexerEquiv LexerEquiv2 LexerEquiv3 LexerEquiv4 Grammar Stable Trivia.
From Verif Require Import SpecText Comments Fallback SpecTree.
From Verif Require Import SpecLex.

Section WithUnicode.
Context {U : unicode}.
Context (UO : unicode_ok U).


(** The text a leaf was read from is the text it prints. *)
Lemma leaf_text s q r k sp : p_leaf s = Some (r, k) -> s = q ++ r -> tree_to_string (k sp) = q.
Proof using UO.
  intros H E. apply (p_leaf_kind UO) in H. revert E. inv H; intros E.
  - cbn. rewrite E. apply prefix_of_app.
  - cbn. unfold p_punct in H0. destruct (p_punct_char s) as [[r' c']|] eqn:Ep; [|discriminate].
    apply p_punct_char_inv in Ep as [Ep _].
    assert (r' = r /\ c' = c) as [-> ->].
    { destruct (N.eqb_spec c' SQUOTE) as [->|_].
      - destruct (p_ident_any r') as [[a x]|]; [|discriminate]. destruct (_ || _); inv H0. auto.
      - inv H0. auto. }
    rewrite Ep in E. change (c :: r) with ([c] ++ r) in E. apply app_inv_tail in E. auto.
  - cbn. unfold p_ident in H0. destruct (existsb _ _); [discriminate|].
    apply LexerEquiv4.p_ident_any_app in H0. unfold ident_to_string.
    rewrite app_assoc, E in H0. apply app_inv_tail in H0. auto.
  - cbn [tree_to_string]. apply starts_with_skipn in H0. rewrite E in H0 at 1.
    apply app_inv_tail in H0. auto.
Qed.

Lemma nested_ends w : nested w -> exists y, w = y ++ tag "*/".
Proof.
  induction 1 as [|c w Hw [y ->] H1 H2|w1 w2 H1 IH1 H2 [y ->]].
  - now exists [].
  - now exists (c :: y).
  - exists ((tag "/*") ++ w1 ++ y). now rewrite <- !app_assoc.
Qed.

(** The text of a doc comment. *)
Lemma p_doc_text s r x i : p_skip1 s = None -> p_doc s = Some (r, (x, i)) ->
  exists d, s = d ++ r /\ d <> [] /\ doc_text d.
Proof.
  intros Hk. unfold p_doc. destruct (p_doc_contents s) as [[r' [x' i']]|] eqn:E; [|discriminate].
  destruct (bare_cr x'); [discriminate|]. intros H; inv H. revert E.
  assert (Hline : forall u, exists y, ~ In LF y /\ u = y ++ fst (p_line u)).
  { intros u. destruct (p_line_split u) as (y & H1 & H2 & _). eauto. }
  assert (Hblk : forall t, p_block 0 ("/"%ch :: "*"%ch :: t) = Some r ->
    exists w, t = w ++ r /\ nested w).
  { intros t E. change (p_block 0 ("/"%ch :: "*"%ch :: t)) with (p_block 1 t) in E.
    apply p_block_nested in E as (w & r' & -> & Hw & ->). eauto. }
  unfold p_doc_contents.
  destruct (starts_with s (tag "//!")) eqn:E1.
  { apply starts_with_skipn in E1. cbn [length] in E1. remember (skipn 3 s) as u eqn:Eu. clear Eu.
    destruct (p_line u) as [r' x'] eqn:El.
    intros H; inv H. destruct (Hline u) as (y & Hy & Ey). rewrite El in Ey. cbn [fst] in Ey.
    exists ((tag "//!") ++ y). rewrite Ey at 1. split; [reflexivity|]. split; [discriminate|].
    exists true, y. left. now constructor. }
  destruct (starts_with s (tag "/*!")) eqn:E2.
  { destruct (p_block 0 s) as [r'|] eqn:Eb; [|discriminate]. intros H; injection H as -> _ _.
    apply starts_with_skipn in E2. cbn [length app] in E2. remember (skipn 3 s) as u eqn:Eu. clear Eu. rewrite E2 in Eb.
    apply Hblk in Eb as (w & Ew & Hw). 
    destruct (nested_ends w Hw) as (y & ->). destruct y as [|c y]; [discriminate|]. injection Ew as <- Ew.
    exists ((tag "/*!") ++ y ++ (tag "*/")). rewrite E2, Ew. split; [cbn; now rewrite <- app_assoc|]. split; [discriminate|].
    exists true, y. right. now constructor. }
  destruct (starts_with s (tag "///")) eqn:E3.
  { apply starts_with_skipn in E3. cbn [length] in E3.
    remember (skipn 3 s) as u eqn:Eu. clear Eu.
    destruct (head_is "/"%ch u) eqn:Eh; [discriminate|].
    destruct (p_line u) as [r' x'] eqn:El.
    intros H; inv H. destruct (Hline u) as (y & Hy & Ey). rewrite El in Ey. cbn [fst] in Ey.
    exists ((tag "///") ++ y). rewrite Ey at 1. split; [reflexivity|]. split; [discriminate|].
    exists false, y. left. constructor; [exact Hy|]. intros [v ->]. rewrite Ey in Eh. discriminate. }
  destruct (starts_with s (tag "/**")) eqn:E4; [|discriminate]. cbn [andb].
  destruct (head_is "*"%ch (skipn 3 s)) eqn:Eh; [discriminate|]. cbn [negb].
  destruct (p_block 0 s) as [r'|] eqn:Eb; [|discriminate]. intros H; injection H as -> _ _.
  apply starts_with_skipn in E4. cbn [length app] in E4. remember (skipn 3 s) as u eqn:Eu. clear Eu. rewrite E4 in Eb.
  apply Hblk in Eb as (w & Ew & Hw).
  destruct (nested_ends w Hw) as (y & ->). destruct y as [|c y].
  { exfalso. cbn in Ew. injection Ew as Ew. rewrite E4, Ew in Hk. cbn in Hk. discriminate. }
  injection Ew as <- Ew.
  exists ((tag "/**") ++ y ++ (tag "*/")). rewrite E4, Ew. split; [cbn; now rewrite <- app_assoc|]. split; [discriminate|].
  exists false, y. right. constructor; [| |exact Hw].
  - intros ->. rewrite Ew in Eh. discriminate.
  - intros [v ->]. rewrite Ew in Eh. discriminate.
Qed.

Lemma occurs_app t a b : occurs t (a ++ b) <-> occurs t a \/ occurs t b.
Proof.
  split.
  - intros H. inv H.
    + apply in_app_iff in H0 as [H0|H0]; [left|right]; now apply occurs_here.
    + apply in_app_iff in H0 as [H0|H0]; [left|right]; eapply occurs_inside; eauto.
  - intros [H|H]; inv H.
    + apply occurs_here. apply in_app_iff; auto.
    + eapply occurs_inside; [apply in_app_iff; eauto|eauto].
    + apply occurs_here. apply in_app_iff; auto.
    + eapply occurs_inside; [apply in_app_iff; eauto|eauto].
Qed.
Lemma occurs_nil t : ~ occurs t [].
Proof. intros H. inv H; contradiction. Qed.
Lemma occurs_cons t u ts : occurs t (u :: ts) <->
  t = u \/ (exists d inner sp, u = TGroup d inner sp /\ occurs t inner) \/ occurs t ts.
Proof.
  change (u :: ts) with ([u] ++ ts). rewrite occurs_app. split.
  - intros [H|H]; [|auto]. inv H.
    + destruct H0 as [H0|[]]; auto.
    + destruct H0 as [H0|[]]. right. left. eauto.
  - intros [->|[(d & inner & sp & -> & H)|H]]; [left|left|auto].
    + apply occurs_here. now left.
    + eapply occurs_inside; [now left|eauto].
Qed.



Lemma p_continue_shape s r x : p_continue s = (r, x) ->
  Forall (fun c => is_xid_continue c = true) x /\ head_cont r = false.
Proof.
  revert r x. induction s as [|c t IH]; intros r x H; cbn in H.
  - inv H. auto.
  - destruct (is_ident_continue c) eqn:E.
    + destruct (p_continue t) as [r' x'] eqn:E'. inv H. destruct (IH _ _ eq_refl). auto.
    + inv H. split; [auto|]. cbn. exact E.
Qed.
Lemma p_ident_not_raw_shape s r x : p_ident_not_raw s = Some (r, x) ->
  ident_text x /\ head_cont r = false.
Proof.
  destruct s as [|c t]; [discriminate|]. cbn. destruct (is_ident_start c) eqn:E; [|discriminate].
  destruct (p_continue t) as [r' x'] eqn:E'. intros H; inv H. apply p_continue_shape in E' as [H1 H2].
  split; [|exact H2]. exists c, x'. split; [reflexivity|]. split; [|exact H1].
  unfold is_ident_start in E. apply orb_true_iff in E as [E|E]; [left; now apply N.eqb_eq|now right].
Qed.
Lemma p_ident_any_shape s r x raw : p_ident_any s = Some (r, (x, raw)) ->
  ident_text x /\ head_cont r = false /\ (raw = true -> ~ In x never_raw).
Proof.
  unfold p_ident_any. destruct (starts_with s (tag "r#")) eqn:E.
  - destruct (p_ident_not_raw (skipn 2 s)) as [[r' x']|] eqn:E2; [|discriminate].
    destruct (cannot_be_raw x') eqn:Ec; [discriminate|]. intros H; inv H.
    apply p_ident_not_raw_shape in E2 as [H1 H2]. repeat split; auto. intros _ Hi.
    unfold cannot_be_raw in Ec. assert (existsb (str_eqb x) not_raw_names = true); [|congruence].
    apply existsb_exists. exists x. split; [|apply str_eqb_refl].
    unfold never_raw, not_raw_names in *. cbn [In] in *. tauto.
  - destruct (p_ident_not_raw s) as [[r' x']|] eqn:E2; [|discriminate]. intros H; inv H.
    apply p_ident_not_raw_shape in E2 as [H1 H2]. repeat split; auto. discriminate.
Qed.

Lemma p_punct_char_spec s : (exists r c, p_punct_char s = Some (r, c)) <-> starts_punct s.
Proof.
  unfold p_punct_char, starts_punct. split.
  - intros (r & c & H). destruct (starts_with s (tag "//")) eqn:E1; [discriminate|].
    destruct (starts_with s (tag "/*")) eqn:E2; [discriminate|]. cbn [orb] in H.
    destruct s as [|d t]; [discriminate|]. destruct (contains punct_recognized d) eqn:E; [|discriminate].
    exists d, t. rewrite <- !begins_starts_f. repeat split; auto.
    apply contains_In in E. unfold punct_recognized, punct_chars in *. cbn [In] in *. tauto.
  - intros (c & t & -> & Hi & H1 & H2). rewrite <- begins_starts_f in H1, H2. rewrite H1, H2. cbn [orb].
    assert (contains punct_recognized c = true) as ->; [|eauto].
    apply contains_In. unfold punct_recognized, punct_chars in *. cbn [In] in *. tauto.
Qed.

Lemma p_punct_spacing s r c sp : p_punct s = Some (r, (c, sp)) ->
  In c punct_chars /\
  if (c =? SQUOTE)%N then
    sp = Joint /\ exists raw sym after, r = ident_to_string sym raw ++ after /\ ident_text sym
      /\ (raw = true -> ~ In sym never_raw) /\ head_cont after = false /\ ~ begins after (tag "'")
  else (sp = Joint <-> starts_punct r).
Proof.
  unfold p_punct. destruct (p_punct_char s) as [[r' c']|] eqn:E; [|discriminate].
  assert (Hc : In c' punct_chars).
  { apply p_punct_char_inv in E as [_ E]. apply contains_In in E.
    unfold punct_recognized, punct_chars in *. cbn [In] in *. tauto. }
  destruct (c' =? SQUOTE)%N eqn:Eq.
  - apply N.eqb_eq in Eq. subst c'. destruct (p_ident_any r') as [[a [sym raw]]|] eqn:Ei; [|discriminate].
    destruct (head_is SQUOTE a) eqn:Eh; [discriminate|]. cbn [orb].
    destruct (_ && _); [discriminate|]. intros H; inv H. split; [exact Hc|]. cbn. split; [reflexivity|].
    exists raw, sym, a. pose proof (p_ident_any_shape _ _ _ _ Ei) as (H1 & H2 & H3).
    apply LexerEquiv4.p_ident_any_app in Ei. unfold ident_to_string. rewrite <- app_assoc. repeat split; auto.
    intros [u ->]. discriminate.
  - intros H; inv H. split; [exact Hc|]. rewrite Eq. rewrite <- p_punct_char_spec.
    destruct (p_punct_char r) as [[a b]|]; split; eauto; try discriminate. intros (? & ? & ?). discriminate.
Qed.

Lemma doc_occurs t x i sp : occurs t (doc_tokens x i sp) -> token_span t = sp.
Proof.
  rewrite doc_tokens_attribute. unfold doc_attribute.
  assert (H : forall l, Forall (fun t => token_span t = sp) l -> (forall d inner sp', ~ In (TGroup d inner sp') l) ->
    occurs t l -> token_span t = sp).
  { intros l Hl Hg Ho. inv Ho; [|exfalso; eapply Hg; eauto]. rewrite Forall_forall in Hl. auto. }
  rewrite !occurs_app. intros [Ho|[Ho|Ho]].
  - eapply H; [| |exact Ho]; [repeat constructor|]. intros d inner sp' [E|[]]; discriminate.
  - destruct i; [|now apply occurs_nil in Ho].
    eapply H; [| |exact Ho]; [repeat constructor|]. intros d inner sp' [E|[]]; discriminate.
  - apply occurs_cons in Ho as [->|[(d & inner & sp' & E & Ho)|Ho]]; [reflexivity| |now apply occurs_nil in Ho].
    inv E. eapply H; [| |exact Ho]; [repeat constructor|]. intros d inner sp [E|[E|[E|[]]]]; discriminate.
Qed.


Section File.
Variable src : str.
Variable start : N.
Hypothesis room : (start + strlen src < two32)%N.

(** [c] sits in the text at the position its offset says. *)
Definition in_text (c : cursor) : Prop :=
  exists p, src = p ++ rest c /\ off c = (start + strlen p)%N.

Lemma strlen_app a b : strlen (a ++ b) = (strlen a + strlen b)%N.
Proof. unfold strlen. rewrite app_length. lia. Qed.

Lemma in_text_cur_of c q r : in_text c -> rest c = q ++ r ->
  in_text (cur_of c r) /\ off (cur_of c r) = (off c + strlen q)%N.
Proof.
  intros (p & E & Ho) Er.
  assert (Hoff : off (cur_of c r) = (off c + strlen q)%N).
  { unfold cur_of. cbn [off]. rewrite Er, app_length.
    replace (length q + length r - length r) with (length q) by lia.
    apply wrap32_small. rewrite Ho.
    rewrite Er in E. pose proof room as R. rewrite E in R. rewrite !strlen_app in R. unfold strlen in *. lia. }
  split; [|exact Hoff]. exists (p ++ q). rewrite rest_cur_of, Hoff, Ho, strlen_app.
  split; [|lia]. rewrite E, Er. now rewrite app_assoc.
Qed.
Lemma in_text_suffix c r : in_text c -> suffix r (rest c) -> in_text (cur_of c r).
Proof. intros H [q E]. now apply in_text_cur_of with q. Qed.
Lemma in_text_skipped c : in_text c -> in_text (skipped c).
Proof. intros H. apply in_text_suffix; [exact H|apply p_skip_suffix]. Qed.

Lemma in_text_bound c : in_text c -> (start <= off c /\ off c + strlen (rest c) = start + strlen src)%N.
Proof. intros (p & E & Ho). rewrite E, strlen_app. lia. Qed.

Lemma in_text_Str c ts e : Str c ts e -> in_text c -> in_text e.
Proof.
  intros H Hc. destruct (Str_suffix _ _ _ H) as [Hs ->]. now apply in_text_suffix.
Qed.

(** A consumed piece [q] of text in front of [c]. *)
Lemma under_cur c q r : in_text c -> rest c = q ++ r ->
  text_under src start (mkspan (off c) (off (cur_of c r))) = q /\
  text_after src start (mkspan (off c) (off (cur_of c r))) = r.
Proof.
  intros Hc Er. destruct (in_text_cur_of c q r Hc Er) as [_ Ho].
  destruct Hc as (p & E & Hoff). unfold text_under, text_after. cbn [lo hi].
  rewrite Ho. replace (N.to_nat (off c - start)) with (length p) by (unfold strlen in *; lia).
  replace (N.to_nat (off c + strlen q - off c)) with (length q) by (unfold strlen; lia).
  replace (N.to_nat (off c + strlen q - start)) with (length p + length q) by (unfold strlen in *; lia).
  rewrite E, Er. split.
  - rewrite skipn_app, skipn_all, Nat.sub_diag. cbn. rewrite firstn_app, firstn_all, Nat.sub_diag.
    cbn. now rewrite app_nil_r.
  - rewrite app_assoc, <- app_length, skipn_app, skipn_all, Nat.sub_diag. reflexivity.
Qed.

(** Where each tree of the result sits. *)
Inductive located : token -> Prop :=
| loc_leaf c q r k : in_text c -> rest c = q ++ r -> q <> [] ->
    p_leaf (rest c) = Some (r, k) -> at_token (rest c) ->
    located (k (mkspan (off c) (off (cur_of c r))))
| loc_group c d r inner m r' : in_text c -> in_text m ->
    open_delim (rest c) = Some (d, r) -> close_delim (rest m) = Some (d, r') ->
    (off c < off m)%N ->
    located (TGroup d inner (mkspan (off c) (off (cur_of m r'))))
| loc_doc c r x inner t : in_text c -> p_skip1 (rest c) = None ->
    p_doc (rest c) = Some (r, (x, inner)) ->
    occurs t (doc_tokens x inner (mkspan (off c) (off (cur_of c r)))) -> located t.

Lemma p_leaf_not_group s r k sp : p_leaf s = Some (r, k) -> ~ is_group (k sp) /\ token_span (k sp) = sp.
Proof.
  unfold p_leaf. destruct (p_literal s) as [x|]; [intros H; inv H; cbn; auto|].
  destruct (p_punct s) as [[x [ch sp']]|]; [intros H; inv H; cbn; auto|].
  destruct (p_ident s) as [[x [sym raw]]|]; [intros H; inv H; cbn; auto|].
  destruct (starts_with s ERROR); intros H; inv H. cbn; auto.
Qed.

Lemma Str_located c ts e : Str c ts e -> in_text c -> forall t, occurs t ts -> located t.
Proof using room.
  induction 1; intros Hc t Ho.
  - now apply occurs_nil in Ho.
  - now apply occurs_nil in Ho.
  - pose proof (in_text_skipped _ Hc) as Hk. apply occurs_app in Ho as [Ho|Ho].
    + eapply loc_doc; eauto. apply p_skip_fixed.
    + apply IHStr; [|exact Ho]. apply in_text_suffix; [exact Hk|]. now apply doc_next in H as [H _].
  - pose proof (in_text_skipped _ Hc) as Hk.
    assert (Hin : in_text (cur_of (skipped c) r)).
    { apply in_text_suffix; [exact Hk|]. now apply open_next in H0 as [H0 _]. }
    assert (Hm : in_text m) by (eapply in_text_Str; eauto).
    apply occurs_cons in Ho as [->|[(d' & i' & sp' & E & Ho)|Ho]].
    + eapply loc_group; eauto.
      apply Str_suffix in H1 as [Hs Em]. apply open_delim_spec in H0 as (ch & H0).
      rewrite rest_cur_of in Hs. apply suffix_length in Hs.
      pose proof (in_text_bound _ Hk). pose proof (in_text_bound _ Hm).
      rewrite H0 in *. unfold strlen in *. cbn [length] in *. lia.
    + inv E. auto.
    + apply IHStr2; [|exact Ho]. apply in_text_suffix; [exact Hm|]. now apply close_next in H2 as [H2 _].
  - pose proof (in_text_skipped _ Hc) as Hk.
    pose proof (leaf_next _ _ _ H0) as [[q Hq] Hlen].
    assert (Hlf := p_leaf_shorter _ _ _ H0).
    apply occurs_cons in Ho as [->|[(d' & i' & sp' & E & Ho)|Ho]].
    + apply loc_leaf with q; auto. intros ->. apply (f_equal (@length _)) in Hq. cbn [app] in Hq. lia.
    + exfalso. destruct (p_leaf_not_group _ _ _ (mkspan (off (skipped c)) (off (cur_of (skipped c) r))) H0) as [Hn _].
      apply Hn. now rewrite E.
    + apply IHStr; [|exact Ho]. apply in_text_suffix; [exact Hk|]. now exists q.
Qed.


Definition parsed (ts : list token) : Prop := token_stream_from_str start src = Ok (Lexed ts).

Lemma start_small : (start < two32)%N.
Proof using room. unfold strlen in room. lia. Qed.

Lemma strip_bom_suffix s : suffix (strip_bom s) s.
Proof. unfold strip_bom. destruct s as [|c t]; [auto|]. destruct (_ =? _)%N; auto. Qed.

Lemma in_text_start : in_text (cur_of (mkcur src start) (strip_bom src)).
Proof using room.
  apply in_text_suffix; [|apply strip_bom_suffix]. exists []. cbn. split; [reflexivity|].
  unfold strlen. cbn. lia.
Qed.

Lemma parsed_Str ts : parsed ts -> exists c e, in_text c /\ Str c ts e /\ rest e = [].
Proof using room.
  unfold parsed. rewrite token_stream_from_str_run by apply start_small. intros H. inversion H as [H'].
  apply run_Lexed in H' as (e & H1 & H2); [|auto]. eexists _, e. split; [apply in_text_start|]. eauto.
Qed.

Lemma parsed_located ts t : parsed ts -> occurs t ts -> located t.
Proof using room.
  intros H Ho. apply parsed_Str in H as (c & e & Hc & HS & _). eapply Str_located; eauto.
Qed.

(** C10 for leaves. *)
Lemma leaf_source ts t : parsed ts -> occurs t ts -> ~ is_group t ->
  text_under src start (token_span t) = tree_to_string t \/
  doc_text (text_under src start (token_span t)).
Proof using room UO.
  intros Hp Ho Hg. pose proof (parsed_located _ _ Hp Ho) as Hl. inv Hl.
  - left. rewrite (proj2 (p_leaf_not_group _ _ _ _ H2)).
    rewrite (leaf_text _ _ _ _ _ H2 H0). now apply under_cur.
  - elim Hg. exact I.
  - right. apply p_doc_text in H1 as (d & E & _ & Hd); [|exact H0].
    rewrite (doc_occurs _ _ _ _ H2). rewrite (proj1 (under_cur _ _ _ H E)). exact Hd.
Qed.

Lemma open_delim_char s d r : open_delim s = Some (d, r) -> s = open_char d ++ r /\ length (open_char d) = 1.
Proof.
  unfold open_delim. destruct s as [|c t]; [discriminate|].
  destruct ((c =? "("%ch)%N && _) eqn:E1.
  { intros H; inv H. apply andb_true_iff in E1 as [E1 _]. apply N.eqb_eq in E1. subst. auto. }
  destruct (N.eqb_spec c "["%ch) as [->|_]; [intros H; inv H; auto|].
  destruct (N.eqb_spec c "{"%ch) as [->|_]; [intros H; inv H; auto|]. discriminate.
Qed.
Lemma close_delim_char s d r : close_delim s = Some (d, r) -> s = close_char d ++ r /\ length (close_char d) = 1.
Proof.
  unfold close_delim. destruct s as [|c t]; [discriminate|].
  destruct (N.eqb_spec c ")"%ch) as [->|_]; [intros H; inv H; auto|].
  destruct (N.eqb_spec c "]"%ch) as [->|_]; [intros H; inv H; auto|].
  destruct (N.eqb_spec c "}"%ch) as [->|_]; [intros H; inv H; auto|]. discriminate.
Qed.

(** C12. *)
Lemma group_source ts d inner sp : parsed ts -> occurs (TGroup d inner sp) ts ->
  (let t := TGroup d inner sp in
   text_under src start (span_open t) = open_char d /\
   text_under src start (span_close t) = close_char d /\
   lo (span_open t) = lo sp /\ hi (span_open t) = (lo sp + 1)%N /\
   lo (span_close t) = (hi sp - 1)%N /\ hi (span_close t) = hi sp /\
   (hi (span_open t) <= lo (span_close t))%N /\ d <> DNone) \/
  doc_text (text_under src start sp).
Proof using room UO.
  intros Hp Ho. pose proof (parsed_located _ _ Hp Ho) as Hl.
  remember (TGroup d inner sp) as t eqn:Et.
  destruct Hl as [c q r k H0 H1 H2 H3 H4|c d' r inner' m r' H1 H2 H3 H4 H5|c r x i t H H0 H1 H2].
  - exfalso. apply p_leaf_not_group with (sp := mkspan (off c) (off (cur_of c r))) in H3 as [H3 _].
    apply H3. rewrite Et. exact I.
  - left. assert (d' = d) by congruence. assert (inner' = inner) by congruence.
    assert (sp = mkspan (off c) (off (cur_of m r'))) by congruence. clear Et. subst d' inner' sp.
    cbn zeta. destruct (open_delim_char _ _ _ H3) as [Ho1 Ho2].
    destruct (close_delim_char _ _ _ H4) as [Hc1 Hc2].
    destruct (in_text_cur_of _ _ _ H1 Ho1) as [_ Hoff1].
    destruct (in_text_cur_of _ _ _ H2 Hc1) as [Hin2 Hoff2].
    pose proof (in_text_bound _ H1) as Hb1. pose proof (in_text_bound _ H2) as Hb2.
    assert (Hr : (start + strlen src < two32)%N) by exact room.
    rewrite Ho1, strlen_app in Hb1. rewrite Hc1, strlen_app in Hb2.
    unfold strlen in Hoff1, Hoff2, Hb1, Hb2. rewrite Ho2 in Hoff1, Hb1. rewrite Hc2 in Hoff2, Hb2.
    pose proof (proj1 (under_cur _ _ _ H1 Ho1)) as Hu1. pose proof (proj1 (under_cur _ _ _ H2 Hc1)) as Hu2.
    unfold span_open, span_close, token_span, sp_first_byte, sp_last_byte. cbn [lo hi].
    replace (N.min (N.min (off c + 1) (two32 - 1)) (off (cur_of m r'))) with (off (cur_of c r)) by (unfold strlen in *; lia).
    replace (N.max (off (cur_of m r') - 1) (off c)) with (off m) by lia.
    split; [exact Hu1|]. split; [exact Hu2|].
    split; [reflexivity|]. split; [lia|]. split; [lia|]. split; [reflexivity|]. split; [lia|].
    intros ->. discriminate Ho2.
  - right. apply p_doc_text in H1 as (d' & E & _ & Hd); [|exact H0].
    replace sp with (token_span t) by now rewrite Et.
    rewrite (doc_occurs _ _ _ _ H2). rewrite (proj1 (under_cur _ _ _ H E)). exact Hd.
Qed.

(** C14. *)
Lemma punct_source ts c sg sp : parsed ts -> occurs (TPunct c sg sp) ts ->
  (In c punct_chars /\
   if (c =? SQUOTE)%N then
     sg = Joint /\ exists raw sym after, text_after src start sp = ident_to_string sym raw ++ after
       /\ ident_text sym /\ (raw = true -> ~ In sym never_raw) /\ head_cont after = false
       /\ ~ begins after (tag "'")
   else (sg = Joint <-> starts_punct (text_after src start sp))) \/
  doc_text (text_under src start sp).
Proof using room UO.
  intros Hp Ho. pose proof (parsed_located _ _ Hp Ho) as Hl.
  remember (TPunct c sg sp) as t eqn:Et.
  destruct Hl as [c0 q r k H0 H1 H2 H3 H4|c0 d' r inner' m r' H1 H2 H3 H4 H5|c0 r x i t H H0 H1 H2].
  - left. assert (E : sp = mkspan (off c0) (off (cur_of c0 r))).
    { rewrite <- (proj2 (p_leaf_not_group _ _ _ (mkspan (off c0) (off (cur_of c0 r))) H3)), Et. reflexivity. }
    rewrite E, (proj2 (under_cur _ _ _ H0 H1)).
    apply (p_leaf_kind UO) in H3. destruct H3; try discriminate.
    assert (c1 = c) by congruence. assert (sp0 = sg) by congruence. subst. eapply p_punct_spacing; eauto.
  - discriminate.
  - right. apply p_doc_text in H1 as (d' & E & _ & Hd); [|exact H0].
    replace sp with (token_span t) by now rewrite Et.
    rewrite (doc_occurs _ _ _ _ H2). rewrite (proj1 (under_cur _ _ _ H E)). exact Hd.
Qed.

(** C11. *)
Lemma laid_out_weaken a b ts : laid_out a b ts -> forall a' b', (a' <= a)%N -> (b <= b')%N -> laid_out a' b' ts.
Proof.
  induction 1; intros a' b' Ha Hb.
  - apply lay_nil. lia.
  - apply lay_leaf; auto; [lia|]. apply IHlaid_out; lia.
  - apply lay_group; auto; [lia|]. apply IHlaid_out2; lia.
  - apply lay_doc; auto; [lia|]. apply IHlaid_out; lia.
Qed.

Lemma off_mono c r : in_text c -> suffix r (rest c) ->
  (off c <= off (cur_of c r))%N /\ (length r < length (rest c) -> (off c < off (cur_of c r))%N).
Proof using room.
  intros Hc [q E]. destruct (in_text_cur_of _ _ _ Hc E) as [_ Ho]. rewrite Ho. unfold strlen.
  rewrite E, app_length. lia.
Qed.

Lemma Str_laid_out c ts e : Str c ts e -> in_text c -> laid_out (off c) (off e) ts.
Proof using room.
  assert (Hsk : forall c, in_text c -> (off c <= off (skipped c))%N).
  { intros c0 H0. apply (off_mono c0); [exact H0|apply p_skip_suffix]. }
  induction 1; intros Hc; pose proof (in_text_skipped _ Hc) as Hk; specialize (Hsk _ Hc).
  - now apply lay_nil.
  - now apply lay_nil.
  - apply doc_next in H as Hd. destruct Hd as [Hd _]. apply p_doc_shorter in H as [_ H].
    destruct (off_mono _ _ Hk Hd) as [_ Hlt]. rewrite doc_tokens_attribute.
    apply lay_doc; cbn [lo hi]; auto. apply IHStr. now apply in_text_suffix.
  - apply open_delim_char in H0 as Ho. destruct Ho as [Ho1 Ho2].
    apply close_delim_char in H2 as Hcl. destruct Hcl as [Hc1 Hc2].
    destruct (in_text_cur_of _ _ _ Hk Ho1) as [Hin Hoff1].
    assert (Hm : in_text m) by (eapply in_text_Str; eauto).
    destruct (in_text_cur_of _ _ _ Hm Hc1) as [Hin2 Hoff2].
    specialize (IHStr1 Hin). specialize (IHStr2 Hin2).
    assert (Hle : (off (cur_of (skipped c) r) <= off m)%N).
    { apply Str_suffix in H1 as [Hs ->]. apply off_mono; auto. }
    unfold strlen in *. rewrite Ho2 in Hoff1. rewrite Hc2 in Hoff2.
    apply lay_group; cbn [lo hi]; auto.
    + lia.
    + rewrite Hoff1 in IHStr1. eapply laid_out_weaken; [exact IHStr1| |]; lia.
  - pose proof (p_leaf_not_group _ _ _ (mkspan (off (skipped c)) (off (cur_of (skipped c) r))) H0) as [Hn Hs].
    apply p_leaf_shorter in H0 as [H0 Hl]. destruct (off_mono _ _ Hk H0) as [_ Hlt].
    apply lay_leaf; rewrite ?Hs; cbn [lo hi]; auto. apply IHStr. now apply in_text_suffix.
Qed.

Lemma parsed_laid_out ts : parsed ts -> laid_out start (start + strlen src) ts.
Proof using room.
  intros H. apply parsed_Str in H as (c & e & Hc & HS & _).
  pose proof (in_text_bound _ Hc). pose proof (in_text_bound _ (in_text_Str _ _ _ HS Hc)).
  eapply laid_out_weaken; [exact (Str_laid_out _ _ _ HS Hc)|lia|lia].
Qed.

Lemma laid_out_le a b ts : laid_out a b ts -> (a <= b)%N.
Proof. induction 1; lia. Qed.
Lemma laid_out_inside a b ts : laid_out a b ts -> forall t, occurs t ts ->
  (a <= lo (token_span t) /\ lo (token_span t) < hi (token_span t) /\ hi (token_span t) <= b)%N.
Proof.
  induction 1; intros u Hu.
  - now apply occurs_nil in Hu.
  - apply occurs_cons in Hu as [->|[(d & i & sp & -> & _)|Hu]].
    + apply laid_out_le in H2. lia.
    + elim H. exact I.
    + apply IHlaid_out in Hu. lia.
  - pose proof (laid_out_le _ _ _ H1). pose proof (laid_out_le _ _ _ H2).
    apply occurs_cons in Hu as [->|[(d' & i & sp' & E & Hu)|Hu]].
    + cbn. lia.
    + inv E. apply IHlaid_out1 in Hu. lia.
    + apply IHlaid_out2 in Hu. lia.
  - pose proof (laid_out_le _ _ _ H1). apply occurs_app in Hu as [Hu|Hu].
    + assert (token_span u = sp) as ->; [|lia].
      revert Hu. clear. unfold doc_attribute. rewrite !occurs_app. intros [Hu|[Hu|Hu]].
      * apply occurs_cons in Hu as [->|[(d' & i & sp' & E & Hu)|Hu]]; [reflexivity|discriminate|now apply occurs_nil in Hu].
      * destruct inner; [|now apply occurs_nil in Hu].
        apply occurs_cons in Hu as [->|[(d' & i & sp' & E & Hu)|Hu]]; [reflexivity|discriminate|now apply occurs_nil in Hu].
      * apply occurs_cons in Hu as [->|[(d' & i & sp' & E & Hu)|Hu]]; [reflexivity| |now apply occurs_nil in Hu].
        inv E. repeat (apply occurs_cons in Hu as [->|[(? & ? & ? & ? & ?)|Hu]]; [reflexivity|discriminate|]).
        now apply occurs_nil in Hu.
    + apply IHlaid_out in Hu. lia.
Qed.

(** C13: failures. *)
Lemma Fail_in_text c sp : Fail c sp -> in_text c ->
  lo sp = hi sp /\ (start <= lo sp)%N /\ (lo sp <= start + strlen src)%N.
Proof using room.
  assert (Hpt : forall c, in_text c -> lo (at_span c) = hi (at_span c) /\
    (start <= lo (at_span c))%N /\ (lo (at_span c) <= start + strlen src)%N).
  { intros c0 H0. apply in_text_bound in H0. cbn. lia. }
  induction 1; intros Hc; pose proof (in_text_skipped _ Hc) as Hk; auto.
  - apply IHFail, in_text_suffix; [exact Hk|]. now apply doc_next in H as [H _].
  - apply IHFail, in_text_suffix; [exact Hk|]. now apply open_next in H0 as [H0 _].
  - apply Hpt. eapply in_text_Str; eauto. apply in_text_suffix; [exact Hk|]. now apply open_next in H0 as [H0 _].
  - apply IHFail, in_text_suffix.
    + eapply in_text_Str; eauto. apply in_text_suffix; [exact Hk|]. now apply open_next in H0 as [H0 _].
    + now apply close_next in H2 as [H2 _].
  - apply IHFail, in_text_suffix; [exact Hk|]. now apply leaf_next in H0 as [H0 _].
Qed.

Lemma error_in_text sp : token_stream_from_str start src = Ok (LexError sp) ->
  lo sp = hi sp /\ (start <= lo sp)%N /\ (lo sp <= start + strlen src)%N.
Proof using room.
  rewrite token_stream_from_str_run by apply start_small. intros H. inversion H as [H'].
  destruct (run_top (cur_of (mkcur src start) (strip_bom src)))
    as [(ts & e & H1 & H2 & H3)|[(ts & e & d & r & H1 & H2 & H3)|(sp' & H1 & H3)]]; [auto| | |].
  - congruence.
  - rewrite H' in H3. inv H3. pose proof (in_text_Str _ _ _ H1 in_text_start) as He.
    apply in_text_bound in He. cbn. lia.
  - rewrite H' in H3. inv H3. eapply Fail_in_text; eauto. apply in_text_start.
Qed.

End File.
End WithUnicode.
