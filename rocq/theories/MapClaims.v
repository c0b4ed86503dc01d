(** * Claims about spans and the source map. *)
From Verif Require Import Base BaseFacts Unicode Tokens Lexer PureLexer LexerEquiv4 SpecText SpecTree Spans Shift LexProofs.
From Verif Require Import Fallback LitNew SpecLit NumFacts SourceMap SpecMap MapFacts MapProofs.
From Verif Require Import SpecLex.

(** ** Positions *)
Lemma since_newline_split s : forall n, exists before after, s = before ++ after /\ ~ In LF after /\
  ((before = [] /\ since_newline n s = n + length after) \/
   (exists b, before = b ++ [LF]) /\ since_newline n s = length after).
Proof.
  induction s as [|c s IH]; intros n; cbn [since_newline].
  - exists [], []. cbn. split; [reflexivity|]. split; [easy|]. left. split; [reflexivity|lia].
  - destruct (N.eq_dec c LF) as [->|Hc].
    + destruct (IH 0) as (be & af & -> & Hn & [[-> H]|[(b & ->) H]]).
      * exists [LF], af. split; [reflexivity|]. split; [exact Hn|]. right. split; [exists []; reflexivity|exact H].
      * exists (LF :: b ++ [LF]), af. split; [reflexivity|]. split; [exact Hn|]. right. split; [exists (LF :: b); reflexivity|exact H].
    + destruct (IH (n + 1)) as (be & af & -> & Hn & [[-> H]|[(b & ->) H]]).
      * exists [], (c :: af). split; [reflexivity|]. split; [intros [E|E]; auto|]. left. split; [reflexivity|].
        rewrite H. cbn [length]. lia.
      * exists (c :: b ++ [LF]), af. split; [reflexivity|]. split; [exact Hn|]. right. split; [exists (c :: b); reflexivity|exact H].
Qed.
Lemma line_column_spec t a : is_line_column t a (line_column_at t a).
Proof.
  split; [reflexivity|]. cbn [column line_column_at].
  destruct (since_newline_split (firstn a t) 0) as (be & af & E & Hn & H). exists be, af.
  split; [exact E|]. split; [|split; [exact Hn|]]; destruct H as [[-> H]|[Hb H]]; auto.
Qed.
Lemma since_newline_app x y n : since_newline n (x ++ y) = since_newline (since_newline n x) y.
Proof.
  revert n. induction x as [|c x IH]; intros n; cbn [app since_newline]; [reflexivity|].
  destruct (N.eq_dec c LF); apply IH.
Qed.
Lemma since_newline_plain y n : newlines y = 0 -> since_newline n y = n + length y.
Proof.
  revert n. induction y as [|c y IH]; intros n H; cbn [since_newline length]; [lia|].
  unfold newlines in *. cbn [count_occ] in H. destruct (N.eq_dec c LF); [lia|]. rewrite IH by exact H. lia.
Qed.
Lemma line_column_unique t a x : is_line_column t a x -> x = line_column_at t a.
Proof.
  intros (Hl & be & af & E & Hc & Hn & Hb). destruct x as [l c]; cbn [line column] in *. unfold line_column_at, newlines.
  rewrite Hl. f_equal. rewrite E, since_newline_app, since_newline_plain by (apply count_occ_not_In; exact Hn).
  rewrite Hc. destruct Hb as [->|(b & ->)]; [reflexivity|]. rewrite since_newline_app. cbn [since_newline].
  destruct (N.eq_dec LF LF); [reflexivity|congruence].
Qed.
Lemma position_lt t a b : a < b -> b <= length t -> lc_cmp (line_column_at t a) (line_column_at t b) = Lt.
Proof.
  intros Hab Hb. set (y := text_between t a b).
  assert (Hy : firstn b t = firstn a t ++ y).
  { unfold y, text_between. rewrite <- (firstn_skipn a t) at 1. rewrite firstn_app, firstn_firstn, firstn_length_le by lia.
    rewrite Nat.min_r by lia. reflexivity. }
  assert (Hl : length y = b - a) by (unfold y, text_between; rewrite firstn_length_le; [reflexivity|rewrite skipn_length; lia]).
  unfold line_column_at, lc_cmp. cbn [line column]. rewrite Hy, since_newline_app.
  assert (Hn : newlines (firstn a t ++ y) = newlines (firstn a t) + newlines y) by apply count_occ_app.
  rewrite Hn. destruct (newlines y) as [|k] eqn:E.
  - rewrite Nat.add_0_r, Nat.compare_refl. apply Nat.compare_lt_iff. rewrite (since_newline_plain y) by exact E. lia.
  - replace (1 + newlines (firstn a t) ?= 1 + (newlines (firstn a t) + Datatypes.S k)) with Lt; [reflexivity|].
    symmetry. apply Nat.compare_lt_iff. lia.
Qed.
Lemma position_order t a b : a <= length t -> b <= length t ->
  lc_cmp (line_column_at t a) (line_column_at t b) = Nat.compare a b.
Proof.
  intros Ha Hb. destruct (Nat.compare_spec a b) as [->|H|H].
  - unfold lc_cmp. rewrite !Nat.compare_refl. reflexivity.
  - apply position_lt; assumption.
  - pose proof (position_lt t b a H Ha) as E. unfold lc_cmp in *.
    rewrite (Nat.compare_antisym (line (line_column_at t b))), (Nat.compare_antisym (column (line_column_at t b))).
    destruct (Nat.compare (line (line_column_at t b)) (line (line_column_at t a))); cbn [CompOpp]; try congruence.
    rewrite E. reflexivity.
Qed.
Lemma text_order t a b x y : a <= length t -> b <= length t ->
  is_line_column t a x -> is_line_column t b y -> lc_cmp x y = Nat.compare a b.
Proof.
  intros Ha Hb Hx Hy. rewrite (line_column_unique _ _ _ Hx), (line_column_unique _ _ _ Hy). apply position_order; assumption.
Qed.
Lemma lc_cmp_lex a b :
  (lc_cmp a b = Lt <-> line a < line b \/ line a = line b /\ column a < column b) /\
  (lc_cmp a b = Eq <-> a = b) /\
  (lc_cmp a b = Gt <-> line b < line a \/ line a = line b /\ column b < column a).
Proof.
  destruct a as [l c], b as [l' c']. unfold lc_cmp. cbn [line column].
  destruct (Nat.compare_spec l l') as [->|H|H].
  - destruct (Nat.compare_spec c c') as [->|H|H]; repeat split; try discriminate; try lia; try (intros [= E]; lia).
  - repeat split; try discriminate; try lia; intros [= E]; lia.
  - repeat split; try discriminate; try lia; intros [= E]; lia.
Qed.
Lemma lc_cmp_total a b c :
  lc_cmp b a = CompOpp (lc_cmp a b) /\ (lc_cmp a b <> Gt -> lc_cmp b c <> Gt -> lc_cmp a c <> Gt).
Proof.
  split.
  - unfold lc_cmp. rewrite (Nat.compare_antisym (line a)), (Nat.compare_antisym (column a)).
    destruct (line a ?= line b); reflexivity.
  - intros H1 H2 H3. destruct (lc_cmp_lex a b) as (_ & _ & E1), (lc_cmp_lex b c) as (_ & _ & E2), (lc_cmp_lex a c) as (_ & _ & E3).
    apply (proj1 E3) in H3.
    assert (N1 : ~ (line b < line a \/ line a = line b /\ column b < column a)) by (intros H; apply H1, E1, H).
    assert (N2 : ~ (line c < line b \/ line b = line c /\ column c < column b)) by (intros H; apply H2, E2, H).
    lia.
Qed.

(** ** Names of files *)
Lemma decimal_value ds v w : SpecLit.decimal ds v -> SpecLit.decimal ds w -> v = w.
Proof.
  intros H. revert w. induction H as [d Hd|ds v d H IH Hd]; intros w Hw.
  - remember [(48 + d)%N] as x eqn:E. destruct Hw as [e He|es w e Hw He].
    + assert (48 + e = 48 + d)%N by congruence. lia.
    + change [(48 + d)%N] with ([] ++ [(48 + d)%N]) in E. apply app_inj_tail in E as [-> _].
      now apply decimal_nonempty in Hw.
  - remember (ds ++ [(48 + d)%N]) as x eqn:E. destruct Hw as [e He|es w e Hw He].
    + change [(48 + e)%N] with ([] ++ [(48 + e)%N]) in E. apply app_inj_tail in E as [<- _].
      now apply decimal_nonempty in H.
    + apply app_inj_tail in E as [-> E2]. rewrite (IH _ Hw). lia.
Qed.
Lemma dec_digits_inj m n : dec_digits m = dec_digits n -> m = n.
Proof.
  intros H. destruct (dec_digits_canonical m) as [Hm _], (dec_digits_canonical n) as [Hn _].
  rewrite H in Hm. eapply decimal_value; eassumption.
Qed.
Lemma file_name_spec i : is_file_name i (file_name i).
Proof.
  destruct i as [|i]; [left; split; reflexivity|]. right. split; [discriminate|].
  exists (dec_digits (N.of_nat (S i))). split; [apply dec_digits_canonical|reflexivity].
Qed.
Lemma file_name_inj i j : file_name i = file_name j -> i = j.
Proof.
  destruct i as [|i], j as [|j]; unfold file_name; intros H; try reflexivity; try discriminate H.
  apply app_inv_head in H. apply app_inv_tail in H. apply dec_digits_inj in H. lia.
Qed.

Section Claims.
Context {S : std_search} (HS : search_ok S) {U : unicode}.
Variables (os : list op) (st : state) (s : spec).
Hypothesis Hreach : reached os st s.
Let Hr : related st s := reached_related HS os st s Hreach.

Lemma known_valid k sp p : known st s k sp p -> valid_place (texts s) p /\ sp = span_at (texts s) p.
Proof.
  intros [H1 H2]. split; [exact (place_valid st s k p Hr H2)|].
  rewrite (pool_nth st s k Hr), H2 in H1. cbn [option_map] in H1. congruence.
Qed.
Lemma known_all k sp : nth_error (pool st) k = Some sp -> exists p, known st s k sp p.
Proof.
  intros H. pose proof H as H'. rewrite (pool_nth st s k Hr) in H'.
  destruct (nth_error (places s) k) as [p|] eqn:E; [|discriminate]. exists p. split; assumption.
Qed.
Lemma start_position k sp p : known st s k sp p -> exists t x, nth_error (texts s) (pfile p) = Some t /\
  span_start (smap st) sp = Ok x /\ is_line_column t (pfrom p) x.
Proof.
  intros H. destruct (known_valid k sp p H) as [Hv ->]. pose proof (text_of_nth s p Hv) as Ht.
  exists (text_of s p), (line_column_at (text_of s p) (pfrom p)). split; [exact Ht|].
  split; [|apply line_column_spec]. apply (start_ok HS); auto; apply Hr.
Qed.
Lemma end_position k sp p : known st s k sp p -> exists t x, nth_error (texts s) (pfile p) = Some t /\
  span_end (smap st) sp = Ok x /\ is_line_column t (pto p) x.
Proof.
  intros H. destruct (known_valid k sp p H) as [Hv ->]. pose proof (text_of_nth s p Hv) as Ht.
  exists (text_of s p), (line_column_at (text_of s p) (pto p)). split; [exact Ht|].
  split; [|apply line_column_spec]. apply (end_ok HS); auto; apply Hr.
Qed.
Lemma range_answer k sp p : known st s k sp p -> exists t m, nth_error (texts s) (pfile p) = Some t /\
  span_byte_range (smap st) sp =
    Ok (m, (length (str_bytes (firstn (pfrom p) t)), length (str_bytes (firstn (pto p) t)))).
Proof.
  intros H. destruct (known_valid k sp p H) as [Hv ->]. pose proof (text_of_nth s p Hv) as Ht.
  destruct (byte_range_at HS (texts s) (smap st) p _ (rel_files _ _ Hr) (rel_first _ _ Hr) Hv Ht) as (m & E & _).
  exists (text_of s p), m. auto.
Qed.
Lemma text_answer k sp p : known st s k sp p -> exists t m, nth_error (texts s) (pfile p) = Some t /\
  span_source_text (smap st) sp =
    Ok (m, if pfile p =? 0 then None else Some (firstn (pto p - pfrom p) (skipn (pfrom p) t))).
Proof.
  intros H. destruct (known_valid k sp p H) as [Hv ->]. pose proof (text_of_nth s p Hv) as Ht.
  destruct (source_text_at HS (texts s) (smap st) p _ (rel_files _ _ Hr) (rel_first _ _ Hr) Hv Ht) as (m & E & _).
  exists (text_of s p), m. auto.
Qed.
Lemma call_site_iff k sp p : known st s k sp p -> (pfile p = 0 <-> sp = call_site).
Proof.
  intros H. destruct (known_valid k sp p H) as [Hv ->].
  pose proof (is_call_site_at (texts s) p (rel_first _ _ Hr) Hv) as E. unfold is_call_site in E. split; intros Hx.
  - rewrite Hx in E. cbn [Nat.eqb] in E. destruct (span_at (texts s) p) as [l h]; cbn [lo hi] in E. unfold call_site. f_equal; lia.
  - rewrite Hx in E. cbn in E. symmetry in E. apply Nat.eqb_eq in E. exact E.
Qed.
Lemma file_answer k sp p : known st s k sp p -> span_file (smap st) sp = Ok (file_name (pfile p)).
Proof.
  intros H. destruct (known_valid k sp p H) as [Hv ->]. apply (file_at HS); [apply Hr|exact Hv].
Qed.
Lemma name_answer k sp p : known st s k sp p ->
  exists x, span_file (smap st) sp = Ok x /\ is_file_name (pfile p) x.
Proof. intros H. exists (file_name (pfile p)). split; [now apply file_answer in H|apply file_name_spec]. Qed.
Lemma same_file k sp p k' sp' p' : known st s k sp p -> known st s k' sp' p' ->
  (span_file (smap st) sp = span_file (smap st) sp' <-> pfile p = pfile p').
Proof.
  intros H H'. rewrite (file_answer _ _ _ H), (file_answer _ _ _ H'). split; [|congruence].
  intros [= E]. apply file_name_inj. exact E.
Qed.

(** ** [join] *)
Lemma join_answer k a p k' b q : known st s k a p -> known st s k' b q ->
  (pfile p <> pfile q /\ span_join (smap st) a b = Ok None) \/
  (pfile p = pfile q /\ exists r, span_join (smap st) a b = Ok (Some r) /\ covers r a /\ covers r b /\
     forall w, covers w a -> covers w b -> covers w r).
Proof.
  intros H H'. destruct (known_valid _ _ _ H) as [Hp ->], (known_valid _ _ _ H') as [Hq ->].
  rewrite (join_at HS _ _ p q (rel_files _ _ Hr) Hp Hq). unfold join_place.
  destruct (Nat.eq_dec (pfile p) (pfile q)) as [E|E]; [right|left; auto]. split; [exact E|].
  cbn [option_map]. eexists. split; [reflexivity|]. unfold covers, span_at. cbn [pfile pfrom pto lo hi]. rewrite <- E.
  repeat split; lia.
Qed.
Lemma join_comm k a p k' b q : known st s k a p -> known st s k' b q ->
  span_join (smap st) a b = span_join (smap st) b a.
Proof.
  intros H H'. destruct (known_valid _ _ _ H) as [Hp ->], (known_valid _ _ _ H') as [Hq ->].
  rewrite !(join_at HS) by (auto; apply Hr). do 2 f_equal. unfold join_place.
  destruct (Nat.eq_dec (pfile p) (pfile q)) as [E|E], (Nat.eq_dec (pfile q) (pfile p)) as [E'|E']; try congruence.
  rewrite E, Nat.min_comm, Nat.max_comm. reflexivity.
Qed.
Lemma join_idem k a p : known st s k a p -> span_join (smap st) a a = Ok (Some a).
Proof.
  intros H. destruct (known_valid _ _ _ H) as [Hp ->]. rewrite (join_at HS) by (auto; apply Hr). unfold join_place.
  destruct (Nat.eq_dec _ _); [|congruence]. rewrite Nat.min_id, Nat.max_id. destruct p; reflexivity.
Qed.
Lemma join_assoc k a p k' b q k'' c r : known st s k a p -> known st s k' b q -> known st s k'' c r ->
  (let? x := span_join (smap st) a b in then_join (smap st) x c) =
  (let? x := span_join (smap st) b c in join_with (smap st) a x).
Proof.
  intros H H' H''. destruct (known_valid _ _ _ H) as [Hp ->], (known_valid _ _ _ H') as [Hq ->], (known_valid _ _ _ H'') as [Hx ->].
  rewrite !(join_at HS (texts s) (smap st)) by (auto; apply Hr). cbn [bind].
  destruct (join_place p q) as [pq|] eqn:E1, (join_place q r) as [qr|] eqn:E2; cbn [option_map then_join join_with].
  - pose proof (join_valid _ _ _ _ Hp Hq E1). pose proof (join_valid _ _ _ _ Hq Hx E2).
    rewrite !(join_at HS (texts s) (smap st)) by (auto; apply Hr). do 2 f_equal.
    unfold join_place in *. destruct (Nat.eq_dec (pfile p) (pfile q)) as [E|]; [|discriminate].
    destruct (Nat.eq_dec (pfile q) (pfile r)) as [E'|]; [|discriminate]. injection E1 as <-. injection E2 as <-.
    cbn [pfile pfrom pto]. destruct (Nat.eq_dec (pfile p) (pfile r)) as [E3|]; [|congruence].
    destruct (Nat.eq_dec (pfile p) (pfile q)) as [E4|]; [|congruence]. do 2 f_equal; lia.
  - pose proof (join_valid _ _ _ _ Hp Hq E1). rewrite (join_at HS (texts s) (smap st)) by (auto; apply Hr).
    unfold join_place in *. destruct (Nat.eq_dec (pfile p) (pfile q)) as [E|]; [|discriminate].
    destruct (Nat.eq_dec (pfile q) (pfile r)) as [E'|]; [discriminate|]. injection E1 as <-. cbn [pfile].
    destruct (Nat.eq_dec (pfile p) (pfile r)); [congruence|]. reflexivity.
  - pose proof (join_valid _ _ _ _ Hq Hx E2). rewrite (join_at HS (texts s) (smap st)) by (auto; apply Hr).
    unfold join_place in *. destruct (Nat.eq_dec (pfile p) (pfile q)) as [E|]; [discriminate|].
    destruct (Nat.eq_dec (pfile q) (pfile r)) as [E'|]; [|discriminate]. injection E2 as <-. cbn [pfile].
    destruct (Nat.eq_dec (pfile p) (pfile q)); [congruence|]. reflexivity.
  - reflexivity.
Qed.

(** ** Invalidation *)
Lemma invalidate_related : related (mkstate (invalidate (smap st)) []) spec_initial.
Proof.
  destruct (step_ok HS (mkstate (smap st) []) (mkspec (texts s) []) OInvalidate) as (st' & x & E & _ & Hr' & _).
  - destruct Hr as [H1 H2 H3 H4 H5]. constructor; auto. constructor.
  - discriminate.
  - cbn [step smap pool filter] in E. injection E as <- <-. exact Hr'.
Qed.
Lemma fresh_start os2 : room 1 os2 -> exists st1 st2 xs,
  run (mkstate (invalidate (smap st)) []) os2 = Ok (st1, xs) /\ run initial os2 = Ok (st2, xs) /\ pool st1 = pool st2.
Proof.
  intros Hroom. destruct (run_ok HS os2 _ _ invalidate_related Hroom) as (st1 & E1 & R1).
  destruct (run_ok HS os2 _ _ related_initial Hroom) as (st2 & E2 & R2). exists st1, st2, (snd (spec_run spec_initial os2)).
  split; [exact E1|]. split; [exact E2|]. rewrite (rel_pool _ _ R1), (rel_pool _ _ R2). reflexivity.
Qed.
Lemma call_site_stays :
  exists st1 xs, run st [OInvalidate] = Ok (st1, xs) /\ pool st1 = filter is_call_site (pool st) /\
    Forall (fun sp => sp = call_site /\ span_file (smap st1) sp = Ok (tag "<unspecified>") /\
      span_start (smap st1) sp = Ok (mklc 1 0) /\ span_end (smap st1) sp = Ok (mklc 1 0) /\
      (exists m, span_byte_range (smap st1) sp = Ok (m, (0, 0))) /\
      (exists m, span_source_text (smap st1) sp = Ok (m, None))) (pool st1).
Proof.
  destruct (step_ok HS st s OInvalidate Hr) as (st' & x & E & _ & Hr' & _); [discriminate|].
  cbn [step] in E. injection E as <- <-. cbn [run step bind]. eexists _, _. split; [reflexivity|].
  split; [reflexivity|]. cbn [smap pool]. rewrite Forall_forall. intros sp Hsp. apply filter_In in Hsp as [_ Hc].
  assert (sp = call_site) as ->.
  { destruct sp as [l h]. unfold is_call_site in Hc. cbn [lo hi] in Hc. unfold call_site. f_equal; lia. }
  cbn [spec_step fst] in Hr'.
  pose proof (rel_files _ _ Hr') as Hf. pose proof (rel_fit _ _ Hr') as Ht. pose proof (rel_first _ _ Hr') as H0. cbn [smap texts] in Hf, Ht, H0.
  destruct (call_site_valid [[]] H0) as [Hv <-].
  split; [reflexivity|]. split; [apply (file_at HS); assumption|].
  split; [apply (start_ok HS [[]] _ call_site_place []); auto|]. split; [apply (end_ok HS [[]] _ call_site_place []); auto|].
  split; [eexists; reflexivity|eexists; reflexivity].
Qed.

(** ** Tokens just parsed *)
Lemma token_text (HU : unicode_ok U) src : (total (texts s) + N.of_nat (length src) + 1 <= two32)%N ->
  exists m l, parse (smap st) src = Ok (m, l) /\
  forall ts t, l = Lexed ts -> occurs t ts -> ~ is_group t ->
  exists m' x, span_source_text m (token_span t) = Ok (m', Some x) /\ (x = tree_to_string t \/ doc_text x).
Proof.
  intros Hfit. unfold parse.
  destruct (add_file_ok (texts s) (smap st) src (rel_files _ _ Hr) (texts_nonempty _ _ Hr) Hfit) as (m' & -> & Hm).
  cbn [bind lo]. destruct (from_str_shift 0 (total (texts s)) src) as (l & _ & Hl2); [unfold strlen; lia|].
  rewrite N.add_0_l in Hl2. rewrite Hl2. cbn [bind]. exists m', (shift_lexed (total (texts s)) l). split; [reflexivity|].
  intros ts t Hl Ht Hg. rewrite Hl in Hl2.
  destruct (spans_inside U src (total (texts s)) ltac:(unfold strlen; lia) ts t Hl2 Ht) as (H1 & H2 & H3). unfold strlen in H3.
  pose proof (leaf_source HU src (total (texts s)) ltac:(unfold strlen; lia) ts t Hl2 Ht Hg) as Hsrc.
  set (p := mkplace (length (texts s)) (N.to_nat (lo (token_span t) - total (texts s))) (N.to_nat (hi (token_span t) - total (texts s)))).
  assert (Hsp : token_span t = span_at (texts s ++ [src]) p).
  { unfold span_at, p. cbn [pfile pfrom pto]. rewrite start_of_app by lia. fold (total (texts s)).
    destruct (token_span t) as [x y]; cbn [lo hi] in *. f_equal; lia. }
  assert (Hv : nth_error (texts s ++ [src]) (pfile p) = Some src) by (unfold p; cbn [pfile]; now rewrite nth_error_app2, Nat.sub_diag by lia).
  assert (H0 : nth_error (texts s ++ [src]) 0 = Some []).
  { pose proof (rel_first _ _ Hr). rewrite nth_error_app1; [assumption|]. apply nth_error_Some. congruence. }
  destruct (source_text_at HS (texts s ++ [src]) m' p src Hm H0) as (m'' & E & _).
  - exists src. unfold p in *. cbn [pfile pfrom pto] in *. split; [exact Hv|]. lia.
  - exact Hv.
  - rewrite <- Hsp in E. exists m'', (text_between src (pfrom p) (pto p)).
    assert (Hne : pfile p =? 0 = false).
    { unfold p. cbn [pfile]. pose proof (texts_nonempty _ _ Hr). destruct (texts s); [congruence|reflexivity]. }
    rewrite Hne in E. split; [exact E|].
    assert (Ex : text_between src (pfrom p) (pto p) = text_under src (total (texts s)) (token_span t)).
    { unfold text_between, text_under, p. cbn [pfrom pto]. f_equal. lia. }
    rewrite Ex. exact Hsrc.
Qed.
(** ** Tokens parsed some time ago *)
Lemma spec_grows os' : ~ In OInvalidate os' -> forall z, exists us, texts (fst (spec_run z os')) = texts z ++ us.
Proof.
  induction os' as [|o os' IH]; intros Hn z; [exists []; cbn; now rewrite app_nil_r|].
  assert (Hs : exists us, texts (fst (spec_step z o)) = texts z ++ us).
  { assert (Hno : o <> OInvalidate) by (intros ->; apply Hn; left; reflexivity).
    destruct o; cbn [spec_step]; unfold spec_on, spec_made;
      repeat match goal with |- context [match ?x with Some _ => _ | None => _ end] => destruct x end;
      cbn [fst texts]; try (exists []; now rewrite app_nil_r); try (eexists; reflexivity). }
  destruct Hs as (us & Hs). cbn [spec_run]. destruct (spec_step z o) as [z' x]. cbn [fst] in Hs.
  destruct (IH (fun H => Hn (or_intror H)) z') as (us' & E). destruct (spec_run z' os') as [z'' xs]. cbn [fst] in *.
  exists (us ++ us'). rewrite E, Hs. now rewrite app_assoc.
Qed.
Lemma token_later (HU : unicode_ok U) src os' : room (total (texts s)) (OParse src :: os') -> ~ In OInvalidate os' ->
  exists m l st' xs, parse (smap st) src = Ok (m, l) /\
  run (mkstate m (pool st ++ lexed_spans l)) os' = Ok (st', xs) /\
  forall ts t, l = Lexed ts -> occurs t ts -> ~ is_group t ->
  exists m' x, span_source_text (smap st') (token_span t) = Ok (m', Some x) /\ (x = tree_to_string t \/ doc_text x).
Proof.
  intros Hroom Hno.
  assert (Hfit : (total (texts s) + N.of_nat (length src) + 1 <= two32)%N) by apply Hroom.
  destruct (room_cons _ _ _ Hroom (rel_fit _ _ Hr)) as [Hu Hroom'].
  destruct (step_ok HS st s (OParse src) Hr Hu) as (st1 & x & E & _ & Hr1 & Htot).
  cbn [step] in E. destruct (parse (smap st) src) as [[m l]| | |] eqn:Ep; try discriminate E. cbn [bind] in E. injection E as <- _.
  rewrite <- Htot in Hroom'. destruct (run_ok HS os' _ _ Hr1 Hroom') as (st' & E' & Hr').
  exists m, l, st', (snd (spec_run (fst (spec_step s (OParse src))) os')). split; [reflexivity|]. split; [exact E'|].
  intros ts t -> Ht Hg.
  destruct (spec_grows os' Hno (fst (spec_step s (OParse src)))) as (us & Hus). cbn [spec_step fst texts] in Hus.
  set (s' := fst (spec_run (fst (spec_step s (OParse src))) os')) in *. cbn [spec_step fst] in s'. fold s' in Hus.
  assert (Hl2 : token_stream_from_str (total (texts s)) src = Ok (Lexed ts)).
  { unfold parse in Ep. destruct (add_file_ok (texts s) (smap st) src (rel_files _ _ Hr) (texts_nonempty _ _ Hr) Hfit) as (m' & Ea & _).
    rewrite Ea in Ep. cbn [bind lo] in Ep. destruct (token_stream_from_str (total (texts s)) src) as [r| | |]; try discriminate Ep.
    cbn [bind] in Ep. injection Ep as _ ->. reflexivity. }
  destruct (spans_inside U src (total (texts s)) ltac:(unfold strlen; lia) ts t Hl2 Ht) as (H1 & H2 & H3). unfold strlen in H3.
  pose proof (leaf_source HU src (total (texts s)) ltac:(unfold strlen; lia) ts t Hl2 Ht Hg) as Hsrc.
  set (p := mkplace (length (texts s)) (N.to_nat (lo (token_span t) - total (texts s))) (N.to_nat (hi (token_span t) - total (texts s)))).
  assert (Hsp : token_span t = span_at (texts s') p).
  { unfold span_at, p. cbn [pfile pfrom pto]. rewrite Hus, <- app_assoc, start_of_app by lia. fold (total (texts s)).
    destruct (token_span t) as [a b]; cbn [lo hi] in *. f_equal; lia. }
  assert (Hv : nth_error (texts s') (pfile p) = Some src).
  { unfold p; cbn [pfile]. rewrite Hus, <- app_assoc. rewrite nth_error_app2, Nat.sub_diag by lia. reflexivity. }
  destruct (source_text_at HS (texts s') (smap st') p src (rel_files _ _ Hr') (rel_first _ _ Hr')) as (m'' & E & _).
  - exists src. unfold p in *. cbn [pfile pfrom pto] in *. split; [exact Hv|]. lia.
  - exact Hv.
  - rewrite <- Hsp in E. exists m'', (text_between src (pfrom p) (pto p)).
    assert (Hne : pfile p =? 0 = false).
    { unfold p. cbn [pfile]. pose proof (texts_nonempty _ _ Hr). destruct (texts s); [congruence|reflexivity]. }
    rewrite Hne in E. split; [exact E|].
    assert (Ex : text_between src (pfrom p) (pto p) = text_under src (total (texts s)) (token_span t)).
    { unfold text_between, text_under, p. cbn [pfrom pto]. f_equal. lia. }
    rewrite Ex. exact Hsrc.
Qed.
(** The same of a group: the spans of its delimiters read them, and its own span reads from one to the other. *)
Lemma split_under (src : str) a x y z : a <= x -> x <= y -> y <= z ->
  text_between src a z = text_between src a x ++ text_between src x y ++ text_between src y z.
Proof.
  intros H1 H2 H3. unfold text_between.
  assert (K : forall i n k (l : str), firstn (n + k) (skipn i l) = firstn n (skipn i l) ++ firstn k (skipn (i + n) l)).
  { intros i. induction i as [|i IH]; intros n k l.
    - cbn [skipn Nat.add]. revert l. induction n as [|n IHn]; intros l; [reflexivity|].
      destruct l as [|c l]; [cbn [skipn]; now rewrite !firstn_nil|]. cbn [Nat.add firstn skipn app]. now rewrite IHn.
    - destruct l as [|c l]; [now rewrite !skipn_nil, !firstn_nil|]. cbn [Nat.add skipn]. apply IH. }
  replace (z - a) with ((x - a) + ((y - x) + (z - y))) by lia. rewrite K.
  replace (a + (x - a)) with x by lia. rewrite K. now replace (x + (y - x)) with y by lia.
Qed.
Lemma group_later (HU : unicode_ok U) src os' : room (total (texts s)) (OParse src :: os') -> ~ In OInvalidate os' ->
  exists m l st' xs, parse (smap st) src = Ok (m, l) /\
  run (mkstate m (pool st ++ lexed_spans l)) os' = Ok (st', xs) /\
  forall ts d inner sp, l = Lexed ts -> occurs (TGroup d inner sp) ts ->
  (exists m1 m2 m3 mid, d <> DNone /\
    span_source_text (smap st') (span_open (TGroup d inner sp)) = Ok (m1, Some (open_char d)) /\
    span_source_text (smap st') (span_close (TGroup d inner sp)) = Ok (m2, Some (close_char d)) /\
    span_source_text (smap st') sp = Ok (m3, Some (open_char d ++ mid ++ close_char d))) \/
  (exists m1 x, span_source_text (smap st') sp = Ok (m1, Some x) /\ doc_text x).
Proof.
  intros Hroom Hno.
  assert (Hfit : (total (texts s) + N.of_nat (length src) + 1 <= two32)%N) by apply Hroom.
  destruct (room_cons _ _ _ Hroom (rel_fit _ _ Hr)) as [Hu Hroom'].
  destruct (step_ok HS st s (OParse src) Hr Hu) as (st1 & x & E & _ & Hr1 & Htot).
  cbn [step] in E. destruct (parse (smap st) src) as [[m l]| | |] eqn:Ep; try discriminate E. cbn [bind] in E. injection E as <- _.
  rewrite <- Htot in Hroom'. destruct (run_ok HS os' _ _ Hr1 Hroom') as (st' & E' & Hr').
  exists m, l, st', (snd (spec_run (fst (spec_step s (OParse src))) os')). split; [reflexivity|]. split; [exact E'|].
  intros ts d inner sp -> Ht.
  destruct (spec_grows os' Hno (fst (spec_step s (OParse src)))) as (us & Hus). cbn [spec_step fst texts] in Hus.
  set (s' := fst (spec_run (fst (spec_step s (OParse src))) os')) in *. cbn [spec_step fst] in s'. fold s' in Hus.
  assert (Hl2 : token_stream_from_str (total (texts s)) src = Ok (Lexed ts)).
  { unfold parse in Ep. destruct (add_file_ok (texts s) (smap st) src (rel_files _ _ Hr) (texts_nonempty _ _ Hr) Hfit) as (m' & Ea & _).
    rewrite Ea in Ep. cbn [bind lo] in Ep. destruct (token_stream_from_str (total (texts s)) src) as [r| | |]; try discriminate Ep.
    cbn [bind] in Ep. injection Ep as _ ->. reflexivity. }
  assert (K : forall q, (total (texts s) <= lo q)%N -> (lo q <= hi q)%N -> (hi q <= total (texts s) + N.of_nat (length src))%N ->
    exists m', span_source_text (smap st') q = Ok (m', Some (text_under src (total (texts s)) q))).
  { intros q H1 H2 H3.
    set (p := mkplace (length (texts s)) (N.to_nat (lo q - total (texts s))) (N.to_nat (hi q - total (texts s)))).
    assert (Hsp : q = span_at (texts s') p).
    { unfold span_at, p. cbn [pfile pfrom pto]. rewrite Hus, <- app_assoc, start_of_app by lia. fold (total (texts s)).
      destruct q as [a b]; cbn [lo hi] in *. f_equal; lia. }
    assert (Hv : nth_error (texts s') (pfile p) = Some src).
    { unfold p; cbn [pfile]. rewrite Hus, <- app_assoc. rewrite nth_error_app2, Nat.sub_diag by lia. reflexivity. }
    destruct (source_text_at HS (texts s') (smap st') p src (rel_files _ _ Hr') (rel_first _ _ Hr')) as (m'' & E & _).
    - exists src. unfold p in *. cbn [pfile pfrom pto] in *. split; [exact Hv|]. lia.
    - exact Hv.
    - rewrite <- Hsp in E. exists m''.
      assert (Hne : pfile p =? 0 = false).
      { unfold p. cbn [pfile]. pose proof (texts_nonempty _ _ Hr). destruct (texts s); [congruence|reflexivity]. }
      rewrite Hne in E. rewrite E. do 3 f_equal. unfold text_between, text_under, p. cbn [pfrom pto]. f_equal. lia. }
  destruct (spans_inside U src (total (texts s)) ltac:(unfold strlen; lia) ts _ Hl2 Ht) as (H1 & H2 & H3). unfold strlen in H3.
  cbn [token_span] in H1, H2, H3.
  destruct (group_source HU src (total (texts s)) ltac:(unfold strlen; lia) ts d inner sp Hl2 Ht) as [G|G].
  - cbv zeta in G. destruct G as (G1 & G2 & G3 & G4 & G5 & G6 & G7 & G8). left.
    destruct (K (span_open (TGroup d inner sp))) as (m1 & K1); [lia..|].
    destruct (K (span_close (TGroup d inner sp))) as (m2 & K2); [lia..|].
    destruct (K sp) as (m3 & K3); [lia..|].
    rewrite G1 in K1. rewrite G2 in K2. set (B := total (texts s)) in *.
    exists m1, m2, m3, (text_between src (N.to_nat (lo sp + 1 - B)) (N.to_nat (hi sp - 1 - B))).
    split; [exact G8|]. split; [exact K1|]. split; [exact K2|]. rewrite K3. do 3 f_equal.
    rewrite <- G1 at 1. rewrite <- G2.
    assert (W : forall q, text_under src B q = text_between src (N.to_nat (lo q - B)) (N.to_nat (hi q - B))
        \/ (lo q < B)%N \/ (hi q < lo q)%N).
    { intros q. destruct (N.lt_ge_cases (lo q) B); [auto|]. destruct (N.lt_ge_cases (hi q) (lo q)); [auto|].
      left. unfold text_between, text_under. f_equal. lia. }
    destruct (W sp) as [->|]; [|lia]. destruct (W (span_open (TGroup d inner sp))) as [->|]; [|lia].
    destruct (W (span_close (TGroup d inner sp))) as [->|]; [|lia].
    rewrite G3, G4, G5, G6. apply split_under; lia.
  - right. destruct (K sp) as (m1 & K1); [lia..|]. eexists _, _. split; [exact K1|exact G].
Qed.
End Claims.
