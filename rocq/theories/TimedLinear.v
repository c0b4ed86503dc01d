(** The lexer takes a number of steps linear in the length of the text.

    [pots s] is what has been spent already on the text [s] ahead of the token at its
    front: by a number that ended before it or by the quote of a lifetime. *)
From Verif Require Import Base BaseFacts Unicode Tokens Lexer PureLexer.
From Verif Require Import LexerEquiv LexerEquiv2 LexerEquiv3 LexerEquiv4.
From Verif Require Import Timed TimedErase TimedBounds TimedStrings TimedNumbers TimedLeaf.

Lemma within_snd {A} (left : A -> nat) h m : within left h m -> snd m <= h.
Proof. unfold within. destruct (fst m); lia. Qed.
Lemma within_ok {A} (left : A -> nat) h m a : within left h m -> fst m = Ok a -> snd m + left a <= h.
Proof. unfold within. intros H E. rewrite E in H. exact H. Qed.
Lemma snd_if_ok {A B} (m : timed A) (f : A -> timed B) e k :
  (forall x, fst m = Ok x -> snd (f x) <= k) -> snd e <= k -> snd (t_if_ok m f e) <= snd m + k.
Proof.
  destruct m as [[a| | |] n]; cbn; intros H1 H2; try lia. specialize (H1 a eq_refl). lia.
Qed.

Section WithUnicode.
Context {U : unicode} (HU : unicode_ok U).

Definition pa (s : str) : nat := dotted s + (if digit_start s then mant s else 0).
Definition pb (s : str) : nat := signed s + run s.
Definition pc (s : str) : nat :=
  match p_ident_any s with Some (r, _) => str_len s - str_len r | None => 0 end.
Definition pots (s : str) : nat := 6 * pa s + 12 * pb s + 20 * pc s.

Lemma run_len s : run s <= str_len s.
Proof. pose proof (run_past s). lia. Qed.
Lemma pots_len s : pots s <= 80 * str_len s.
Proof.
  unfold pots, pa, pb, pc. pose proof (dotted_len s). pose proof (mant_len s). pose proof (signed_len s).
  pose proof (run_len s). destruct (digit_start s), (p_ident_any s) as [[r ?]|]; lia.
Qed.
Lemma pots_letter ch t : du ch = false -> is_sign ch = false -> ch <> "."%ch ->
  pots (ch :: t) = 20 * pc (ch :: t).
Proof.
  intros H1 H2 H3. unfold pots, pa, pb. cbn [dotted digit_start signed run].
  rewrite H1, H2. apply N.eqb_neq in H3. rewrite H3. unfold du in H1. apply orb_false_elim in H1 as [-> _].
  reflexivity.
Qed.
Lemma pots_other ch t : du ch = false -> is_sign ch = false -> ch <> "."%ch ->
  is_ident_start ch = false -> pots (ch :: t) = 0.
Proof.
  intros H1 H2 H3 H4. rewrite pots_letter by assumption. unfold pc.
  destruct (not_ident HU ch t H4) as [-> _]. reflexivity.
Qed.
Ltac ascii_other := apply pots_other; try reflexivity; [discriminate|
  rewrite (start_ascii HU) by reflexivity; reflexivity].

Lemma cont_stop y t : is_ident_continue y = false -> p_continue (y :: t) = (y :: t, []).
Proof. intros H. cbn. now rewrite H. Qed.
Lemma mark_stop t : mark t = true -> p_continue t = (t, []) /\ p_ident_not_raw t = None.
Proof.
  destruct t as [|y t]; [discriminate|]. cbn [mark]. intros H.
  assert (Hy : is_ident_start y = false /\ is_ident_continue y = false).
  { rewrite (start_ascii HU), (continue_ascii HU) by lia.
    unfold ascii_letter, is_dec_digit, between. lia. }
  destruct Hy as [H1 H2]. split; [now apply cont_stop|]. cbn. now rewrite H1.
Qed.
Lemma raw_mark ok t r : p_raw_with ok t = Some r ->
  mark t = true /\ (forall u, t = "#"%ch :: u -> mark u = true).
Proof.
  assert (Hd : forall n u, p_delim n u <> None -> mark u = true).
  { intros n u. destruct u as [|c u]; cbn [p_delim mark]; [easy|].
    destruct (c =? DQUOTE)%N; [reflexivity|]. destruct (c =? "#"%ch)%N; easy. }
  intros H. unfold p_raw_with in H. split.
  - apply (Hd 0). intros E. now rewrite E in H.
  - intros u ->. apply (Hd 1). intros E. cbn in E, H. now rewrite E in H.
Qed.
Lemma ident_any_letter ch t : is_ident_start ch = true -> starts_with (ch :: t) (tag "r#") = false ->
  pc (ch :: t) = str_len (ch :: t) - str_len (fst (p_continue t)).
Proof.
  intros H1 H2. unfold pc, p_ident_any, p_ident_not_raw. rewrite H2, H1. now destruct (p_continue t).
Qed.
Lemma letter_pc ch t : is_ident_start ch = true -> len_utf8 ch = 1 -> mark t = true ->
  starts_with (ch :: t) (tag "r#") = false -> pc (ch :: t) = 1.
Proof.
  intros H1 H2 H3 H4. rewrite ident_any_letter by assumption. destruct (mark_stop t H3) as [-> _].
  cbn [fst str_len]. lia.
Qed.
Lemma letters_pc ch t : is_ident_start ch = true -> len_utf8 ch = 1 -> mark t = true ->
  pc (ch :: "r"%ch :: t) = 2.
Proof.
  intros H1 H2 H3. rewrite ident_any_letter; [|exact H1|].
  - cbn [p_continue]. rewrite (continue_ascii HU "r"%ch) by reflexivity.
    change (ascii_letter _ || _ || _) with true. cbv iota.
    destruct (mark_stop t H3) as [-> _]. cbn [fst str_len]. change (len_utf8 "r"%ch) with 1. lia.
  - cbn. now rewrite andb_false_r.
Qed.
Lemma quoted_pots s r : p_quoted s = Some r -> pots s <= 40 /\ digit_start s = false.
Proof.
  unfold p_quoted. destruct s as [|ch t]; [discriminate|]. intros H.
  destruct (N.eqb_spec ch DQUOTE) as [->|N1].
  { split; [|reflexivity]. enough (pots (DQUOTE :: t) = 0) by lia. ascii_other. }
  destruct (N.eqb_spec ch SQUOTE) as [->|N2].
  { split; [|reflexivity]. enough (pots (SQUOTE :: t) = 0) by lia. ascii_other. }
  destruct (N.eqb_spec ch "r"%ch) as [->|N3].
  { split; [|reflexivity]. rewrite pots_letter by (reflexivity || discriminate).
    assert (Hr : p_raw_with ok_any t = Some r).
    { change (orelse (p_raw_with ok_any t) None = Some r) in H. now destruct (p_raw_with ok_any t). }
    apply raw_mark in Hr as [M1 M2]. destruct t as [|y t]; [discriminate|].
    destruct (N.eqb_spec y "#"%ch) as [->|Ny].
    - unfold pc, p_ident_any. change (starts_with ("r"%ch :: "#"%ch :: t) (tag "r#")) with true. cbv iota.
      cbn [skipn]. destruct (mark_stop t (M2 t eq_refl)) as [_ ->]. lia.
    - rewrite letter_pc; [lia|rewrite (start_ascii HU) by reflexivity; reflexivity|reflexivity|exact M1|].
      cbn. rewrite andb_true_r. now apply N.eqb_neq, not_eq_sym. }
  assert (Hq : q_string (ch :: t) = None /\ q_char (ch :: t) = None).
  { assert (Hs : forall x, ch <> x -> starts_with (ch :: t) [x] = false).
    { intros x Hx. cbn [starts_with]. apply not_eq_sym, N.eqb_neq in Hx. now rewrite Hx. }
    unfold q_string, q_char. change (tag """") with [DQUOTE]. change (tag "r") with ["r"%ch].
    change (tag "'") with [SQUOTE]. now rewrite !Hs by assumption. }
  destruct Hq as [Hq1 Hq2]. rewrite Hq1, Hq2 in H. cbn [orelse] in H.
  assert (Hbc : forall x, is_ident_start x = true -> (x < 128)%N -> x <> "r"%ch -> du x = false ->
    is_sign x = false -> x <> "."%ch ->
    (mark t = true \/ (exists u, t = SQUOTE :: u) \/ exists u, t = "r"%ch :: u /\ mark u = true) ->
    pots (x :: t) <= 40 /\ digit_start (x :: t) = false).
  { intros x Hx Hx1 Hx2 Hx3 Hx4 Hx5 Hc. split.
    2: { cbn. unfold du in Hx3. now apply orb_false_elim in Hx3 as [-> _]. }
    rewrite pots_letter by assumption.
    assert (Hnr : starts_with (x :: t) (tag "r#") = false).
    { cbn. apply not_eq_sym, N.eqb_neq in Hx2. now rewrite Hx2. }
    assert (len_utf8 x = 1) by now apply len_utf8_ascii.
    destruct Hc as [Hc|[(u & ->)|(u & -> & Hc)]].
    - rewrite letter_pc by assumption. lia.
    - rewrite ident_any_letter by assumption. rewrite cont_stop; [cbn [fst str_len]; lia|].
      rewrite (continue_ascii HU) by reflexivity. reflexivity.
    - rewrite letters_pc by assumption. lia. }
  destruct (N.eqb_spec ch "b"%ch) as [->|N4].
  { apply Hbc; try reflexivity; try discriminate; [rewrite (start_ascii HU) by reflexivity; reflexivity|].
    destruct t as [|y t]; [discriminate|].
    destruct (N.eqb_spec y DQUOTE) as [->|M1]; [left; reflexivity|].
    destruct (N.eqb_spec y SQUOTE) as [->|M2]; [right; left; eauto|].
    destruct (N.eqb_spec y "r"%ch) as [->|M3].
    - right. right. exists t. split; [reflexivity|].
      destruct (p_raw_with is_ascii t) as [r'|] eqn:E; [now apply raw_mark in E|].
      exfalso. change (orelse (p_raw_with is_ascii t) None = Some r) in H. now rewrite E in H.
    - exfalso. revert H. unfold q_byte_string, q_c_string, q_byte.
      assert (Hs : forall x, y <> x -> starts_with ("b"%ch :: y :: t) ["b"%ch; x] = false).
      { intros x Hx. cbn. apply not_eq_sym, N.eqb_neq in Hx. now rewrite Hx. }
      change (tag "b""") with ["b"%ch; DQUOTE]. change (tag "br") with ["b"%ch; "r"%ch].
      change (tag "b'") with ["b"%ch; SQUOTE]. rewrite !Hs by assumption. discriminate. }
  destruct (N.eqb_spec ch "c"%ch) as [->|N5].
  { apply Hbc; try reflexivity; try discriminate; [rewrite (start_ascii HU) by reflexivity; reflexivity|].
    destruct t as [|y t]; [discriminate|].
    destruct (N.eqb_spec y DQUOTE) as [->|M1]; [left; reflexivity|].
    destruct (N.eqb_spec y "r"%ch) as [->|M3].
    - right. right. exists t. split; [reflexivity|].
      destruct (p_raw_with ok_nonnul t) as [r'|] eqn:E; [now apply raw_mark in E|].
      exfalso. change (orelse (p_raw_with ok_nonnul t) None = Some r) in H. now rewrite E in H.
    - exfalso. revert H. unfold q_byte_string, q_c_string, q_byte.
      assert (Hs : forall x, y <> x -> starts_with ("c"%ch :: y :: t) ["c"%ch; x] = false).
      { intros x Hx. cbn. apply not_eq_sym, N.eqb_neq in Hx. now rewrite Hx. }
      change (tag "c""") with ["c"%ch; DQUOTE]. change (tag "cr") with ["c"%ch; "r"%ch].
      rewrite !Hs by assumption. discriminate. }
  exfalso. revert H. unfold q_byte_string, q_c_string, q_byte.
  assert (Hs : forall x y, ch <> x -> starts_with (ch :: t) [x; y] = false).
  { intros x y Hx. cbn [starts_with]. apply not_eq_sym, N.eqb_neq in Hx. now rewrite Hx. }
  change (tag "b""") with ["b"%ch; DQUOTE]. change (tag "br") with ["b"%ch; "r"%ch].
  change (tag "b'") with ["b"%ch; SQUOTE]. change (tag "c""") with ["c"%ch; DQUOTE].
  change (tag "cr") with ["c"%ch; "r"%ch]. rewrite !Hs by assumption. discriminate.
Qed.

Lemma number_run s r : digit_start s = true -> orelse (p_float s) (p_int s) = Some r ->
  run s + str_len r <= str_len s.
Proof.
  intros Hd H. destruct (p_float s) as [r1|] eqn:Ef; cbn [orelse] in H.
  2: { now destruct (int_scan HU s r Hd H). }
  injection H as ->. unfold p_float in Ef. destruct (p_float_digits s) as [r0|] eqn:E; [|discriminate].
  cbn [obind] in Ef. apply p_number_tail_suffix, suffix_len in Ef.
  enough (run s + str_len r0 <= str_len s) by lia. clear Ef.
  destruct s as [|c t]; [discriminate|]. cbn [digit_start] in Hd. unfold p_float_digits in E. rewrite Hd in E.
  rewrite mantissa_past, mantissa_end_past in E.
  assert (Hs : suffix r0 (past t)).
  { destruct (p_mantissa (past t) false) as [[[hd he] q]|] eqn:Em; [|discriminate].
    apply p_mantissa_asuffix, asuffix_suffix in Em. destruct (negb _); [discriminate|]. destruct he.
    - destruct (p_exponent q false false) as [q2|] eqn:Ex.
      + injection E as <-. apply p_exponent_asuffix, asuffix_suffix in Ex. eapply suffix_trans; eassumption.
      + destruct hd; [|discriminate]. injection E as <-. apply asuffix_suffix, p_mantissa_end_asuffix.
    - injection E as <-. exact Em. }
  apply suffix_len in Hs. cbn [run str_len]. pose proof (run_past t).
  assert (Hdu : du c = true) by (unfold du; now rewrite Hd). rewrite Hdu, (du_ascii c Hdu). lia.
Qed.
Lemma number_pots s r : digit_start s = true -> orelse (p_float s) (p_int s) = Some r ->
  6 * scan s + pots s + 30 * str_len r <= 30 * str_len s + pots r.
Proof.
  intros Hd H. destruct (number_scan HU s r Hd H) as [H1 H2]. pose proof (number_run s r Hd H) as H3.
  assert (Hs : pots s = 6 * mant s + 12 * run s).
  { unfold pots, pa, pb, pc. destruct s as [|c t]; [discriminate|]. cbn [digit_start] in Hd.
    destruct (not_ident HU c t (digit_not_start HU c Hd)) as [-> _]. cbn [dotted signed digit_start]. rewrite Hd.
    replace (c =? "."%ch)%N with false by (unfold is_dec_digit, between in Hd; lia).
    replace (is_sign c) with false by (unfold is_sign; unfold is_dec_digit, between in Hd; lia). lia. }
  assert (Hr : 6 * dotted r + 12 * signed r <= pots r) by (unfold pots, pa, pb; lia).
  lia.
Qed.

Lemma nocapture_accept c r : wfc c -> fst (t_literal_nocapture c) = Ok r ->
  snd (t_literal_nocapture c) + pots (rest c) + 50 * len r <= 50 * len c + 260 + pots (rest r).
Proof.
  intros Hw Hok. pose proof (er_literal_nocapture c) as Er. unfold erases in Er.
  rewrite Hok, literal_nocapture_spec in Er by exact Hw.
  destruct (p_literal (rest c)) as [r'|] eqn:Ep; [|discriminate]. injection Er as Er.
  assert (Hl : p_leaf (rest c) <> None) by (unfold p_leaf; rewrite Ep; discriminate).
  assert (Hlen : len r <= len c).
  { rewrite Er. unfold len. cbn [rest cur_of]. now apply suffix_len, p_literal_suffix. }
  assert (Hrest : rest r = r') by (now rewrite Er). clear Er.
  pose proof (er_string c) as R1. pose proof (er_byte_string c) as R2. pose proof (er_c_string c) as R3.
  pose proof (er_byte_lit c) as R4. pose proof (er_character c) as R5. unfold erases in *.
  rewrite string_lit_spec in R1. rewrite byte_string_spec in R2. rewrite c_string_spec in R3.
  rewrite byte_lit_spec in R4. rewrite character_spec in R5.
  assert (Hq : forall q, p_quoted (rest c) = Some q -> pots (rest c) <= 40) by (intros q E; now apply quoted_pots in E).
  unfold p_literal in Ep. unfold p_quoted in *. unfold t_literal_nocapture in *.
  pose proof (w_string c) as W1. pose proof (string_reject HU c Hl) as J1.
  destruct (t_string_lit c) as [[x1| | |] n1]; cbn [t_if_ok charge ret fst snd] in *; try discriminate.
  { injection Hok as ->. destruct (q_string (rest c)) as [q|]; [|discriminate]. specialize (Hq q eq_refl).
    pose proof (within_ok _ _ _ _ W1 eq_refl). cbn [fst snd] in *. lia. }
  specialize (J1 eq_refl). destruct (q_string (rest c)) as [q|]; [discriminate|]. cbn [orelse] in *.
  pose proof (w_byte_string c) as W2. pose proof (byte_string_reject c Hl) as J2.
  destruct (t_byte_string c) as [[x2| | |] n2]; cbn [t_if_ok charge ret fst snd] in *; try discriminate.
  { injection Hok as ->. destruct (q_byte_string (rest c)) as [q|]; [|discriminate]. specialize (Hq q eq_refl).
    pose proof (within_ok _ _ _ _ W2 eq_refl). cbn [fst snd] in *. lia. }
  specialize (J2 eq_refl). destruct (q_byte_string (rest c)) as [q|]; [discriminate|]. cbn [orelse] in *.
  pose proof (w_c_string c) as W3. pose proof (c_string_reject c Hl) as J3.
  destruct (t_c_string c) as [[x3| | |] n3]; cbn [t_if_ok charge ret fst snd] in *; try discriminate.
  { injection Hok as ->. destruct (q_c_string (rest c)) as [q|]; [|discriminate]. specialize (Hq q eq_refl).
    pose proof (within_ok _ _ _ _ W3 eq_refl). cbn [fst snd] in *. lia. }
  specialize (J3 eq_refl). destruct (q_c_string (rest c)) as [q|]; [discriminate|]. cbn [orelse] in *.
  pose proof (w_byte_lit c) as W4. pose proof (byte_lit_reject c Hl) as J4.
  destruct (t_byte_lit c) as [[x4| | |] n4]; cbn [t_if_ok charge ret fst snd] in *; try discriminate.
  { injection Hok as ->. destruct (q_byte (rest c)) as [q|]; [|discriminate]. specialize (Hq q eq_refl).
    pose proof (within_ok _ _ _ _ W4 eq_refl). cbn [fst snd] in *. lia. }
  specialize (J4 eq_refl). destruct (q_byte (rest c)) as [q|]; [discriminate|]. cbn [orelse] in *.
  pose proof (w_character c) as W5. pose proof (character_reject HU c Hl) as J5.
  destruct (t_character c) as [[x5| | |] n5]; cbn [t_if_ok charge ret fst snd] in *; try discriminate.
  { injection Hok as ->. destruct (q_char (rest c)) as [q|]; [|discriminate]. specialize (Hq q eq_refl).
    pose proof (within_ok _ _ _ _ W5 eq_refl). cbn [fst snd] in *. lia. }
  specialize (J5 eq_refl). destruct (q_char (rest c)) as [q|]; [discriminate|]. cbn [orelse omap] in *.
  assert (Hd : digit_start (rest c) = true).
  { destruct (digit_start (rest c)) eqn:Hd; [reflexivity|]. destruct (number_none (rest c) Hd) as [E1 E2].
    rewrite E1, E2 in Ep. discriminate. }
  pose proof (number_pots _ _ Hd Ep) as Hn. rewrite <- Hrest in Hn. fold (len c) in Hn. fold (len r) in Hn.
  pose proof (w_float HU c) as W6. pose proof (float_reject HU c) as J6.
  destruct (t_float_lit c) as [[x6| | |] n6]; cbn [t_if_ok charge ret fst snd] in *; try discriminate.
  { injection Hok as ->. pose proof (within_ok _ _ _ _ W6 eq_refl). cbn [fst snd] in *. lia. }
  specialize (J6 eq_refl).
  pose proof (w_int c) as W7.
  destruct (t_int_lit c) as [[x7| | |] n7]; cbn [t_if_ok charge ret fst snd reject] in *; try discriminate.
  injection Hok as ->. pose proof (within_ok _ _ _ _ W7 eq_refl). cbn [fst snd] in *. lia.
Qed.

Lemma literal_accept c r x : wfc c -> fst (t_literal c) = Ok (r, x) ->
  snd (t_literal c) + pots (rest c) + 51 * len r <= 51 * len c + 262 + pots (rest r).
Proof.
  intros Hw H. unfold t_literal in *. pose proof (nocapture_accept c) as A.
  pose proof (er_literal_nocapture c) as Er. unfold erases in Er. rewrite literal_nocapture_spec in Er by exact Hw.
  destruct (t_literal_nocapture c) as [[r0| | |] n]; cbn [tbind charge work fst snd] in *; try discriminate.
  specialize (A r0 Hw eq_refl).
  assert (Hlen : len r0 <= len c).
  { destruct (p_literal (rest c)) as [q|] eqn:Ep; [|discriminate]. injection Er as ->. unfold len.
    cbn [rest cur_of]. now apply suffix_len, p_literal_suffix. }
  destruct (slice_to _ _) as [y| | |] eqn:Ey; cbn [tbind charge work fst snd] in *; try discriminate.
  injection H as -> ->. apply slice_to_len in Ey. unfold len in *. lia.
Qed.
Lemma literal_reject c : p_leaf (rest c) <> None -> digit_start (rest c) = false ->
  fst (t_literal c) = Reject -> snd (t_literal c) <= 125.
Proof.
  intros Hl Hd H. unfold t_literal in *.
  enough (fst (t_literal_nocapture c) = Reject -> snd (t_literal_nocapture c) <= 125) as Hn.
  { destruct (t_literal_nocapture c) as [[r0| | |] n]; cbn [tbind charge work fst snd] in *; try discriminate; auto.
    destruct (slice_to _ _) as [y| | |] eqn:Ey; cbn [tbind charge work fst snd] in *; try discriminate.
    unfold slice_to in Ey. destruct (split_at _ _) as [[? ?]|]; discriminate. }
  clear H. unfold t_literal_nocapture.
  pose proof (string_reject HU c Hl) as J1. pose proof (byte_string_reject c Hl) as J2.
  pose proof (c_string_reject c Hl) as J3. pose proof (byte_lit_reject c Hl) as J4.
  pose proof (character_reject HU c Hl) as J5.
  destruct (float_cheap c Hd) as [F1 F2]. destruct (int_cheap c Hd) as [I1 I2].
  destruct (t_string_lit c) as [[x1| | |] n1]; cbn [t_if_ok charge ret fst snd] in *; try discriminate.
  destruct (t_byte_string c) as [[x2| | |] n2]; cbn [t_if_ok charge ret fst snd] in *; try discriminate.
  destruct (t_c_string c) as [[x3| | |] n3]; cbn [t_if_ok charge ret fst snd] in *; try discriminate.
  destruct (t_byte_lit c) as [[x4| | |] n4]; cbn [t_if_ok charge ret fst snd] in *; try discriminate.
  destruct (t_character c) as [[x5| | |] n5]; cbn [t_if_ok charge ret fst snd] in *; try discriminate.
  specialize (J1 eq_refl). specialize (J2 eq_refl). specialize (J3 eq_refl). specialize (J4 eq_refl).
  specialize (J5 eq_refl).
  destruct (t_float_lit c) as [[x6| | |] n6]; cbn [t_if_ok charge ret fst snd] in *; try discriminate.
  destruct (t_int_lit c) as [[x7| | |] n7]; cbn [t_if_ok charge ret reject fst snd] in *; try discriminate.
  lia.
Qed.
Lemma literal_cost c : snd (t_literal c) <= 160 * len c + 500.
Proof.
  assert (Hn : snd (t_literal_nocapture c) <= 152 * len c + 430).
  { unfold t_literal_nocapture.
    pose proof (within_snd _ _ _ (w_string c)). pose proof (within_snd _ _ _ (w_byte_string c)).
    pose proof (within_snd _ _ _ (w_c_string c)). pose proof (within_snd _ _ _ (w_byte_lit c)).
    pose proof (within_snd _ _ _ (w_character c)). pose proof (within_snd _ _ _ (w_float HU c)).
    pose proof (within_snd _ _ _ (w_int c)). pose proof (scan_len (rest c)). fold (len c) in *.
    eapply Nat.le_trans; [apply snd_if_ok with (k := 132 * len c + 360)|]; [intros; cbn; lia| |lia].
    eapply Nat.le_trans; [apply snd_if_ok with (k := 112 * len c + 290)|]; [intros; cbn; lia| |lia].
    eapply Nat.le_trans; [apply snd_if_ok with (k := 92 * len c + 220)|]; [intros; cbn; lia| |lia].
    eapply Nat.le_trans; [apply snd_if_ok with (k := 72 * len c + 160)|]; [intros; cbn; lia| |lia].
    eapply Nat.le_trans; [apply snd_if_ok with (k := 52 * len c + 100)|]; [intros; cbn; lia| |lia].
    eapply Nat.le_trans; [apply snd_if_ok with (k := 20 * len c + 60)|]; [intros; cbn; lia| |lia].
    eapply Nat.le_trans; [apply snd_if_ok with (k := 0)|]; [intros; cbn; lia|cbn; lia|lia]. }
  unfold t_literal. eapply Nat.le_trans; [apply snd_bind with (k := len c + 2)|lia].
  intros r _. eapply Nat.le_trans; [apply snd_bind with (k := len c + 1)|cbn; lia].
  cbn [work fst]. intros y Ey. apply slice_to_len in Ey. cbn. unfold len. lia.
Qed.

Lemma punct_char_cost c : snd (t_punct_char c) <= 35.
Proof.
  unfold t_punct_char. rewrite snd_charge. destruct (_ || _); [cbn; lia|].
  destruct (first_char c) as [ch|]; [|cbn; lia]. destruct (contains _ _); [|cbn; lia].
  assert (len_utf8 ch <= 4) by (unfold len_utf8; repeat destruct (_ <? _)%N; lia).
  eapply Nat.le_trans with (m := 30 + (S (len_utf8 ch) + 0)); [|lia]. apply Nat.add_le_mono_l.
  apply snd_bind. intros; cbn; lia.
Qed.
Lemma punct_cost c : snd (t_punct c) <= 20 * len c + 200.
Proof.
  unfold t_punct. pose proof (punct_char_cost c).
  pose proof (er_punct_char c) as Er. unfold erases in Er.
  destruct (t_punct_char c) as [[[r ch]| | |] n]; cbn [tbind charge fst snd] in *; try lia.
  assert (Hlen : len r <= len c).
  { symmetry in Er. rewrite punct_char_spec in Er. destruct (p_punct_char (rest c)) as [[q y]|] eqn:Ep; [|discriminate].
    injection Er as <- <-. unfold len. cbn [rest cur_of].
    apply p_punct_char_spec in Ep as [-> _]. cbn. lia. }
  destruct (ch =? SQUOTE)%N.
  - pose proof (within_snd _ _ _ (w_ident_any r)).
    eapply Nat.le_trans; [apply Nat.add_le_mono_l, snd_bind with (k := 30)|lia].
    intros [after y] _. rewrite snd_charge. destruct (_ || _); [cbn; lia|].
    eapply Nat.le_trans; [apply Nat.add_le_mono_l, snd_bind with (k := 0)|cbn; lia]. intros; cbn; lia.
  - pose proof (punct_char_cost r).
    eapply Nat.le_trans; [apply Nat.add_le_mono_l, snd_bind with (k := 23)|].
    + intros k _. eapply Nat.le_trans; [apply snd_bind with (k := 0)|cbn; lia]. intros; cbn; lia.
    + enough (snd (t_if_ok (t_punct_char r) (fun _ => ret Joint) (ret Alone)) <= 35 + 0) by lia.
      eapply Nat.le_trans; [apply snd_if_ok with (k := 0)|lia]; [intros; cbn; lia|cbn; lia].
Qed.
Lemma ident_cost c : snd (t_ident c) <= 20 * len c + 81.
Proof.
  unfold t_ident. rewrite snd_charge. destruct (existsb _ _); [cbn; lia|].
  pose proof (within_snd _ _ _ (w_ident_any c)). lia.
Qed.
Lemma leaf_cost c : snd (t_leaf_token c) <= 200 * len c + 900.
Proof.
  unfold t_leaf_token. pose proof (literal_cost c). pose proof (punct_cost c). pose proof (ident_cost c).
  eapply Nat.le_trans; [apply snd_if_ok with (k := 40 * len c + 400)|lia].
  { intros [? ?] _. cbn. lia. }
  eapply Nat.le_trans; [apply snd_if_ok with (k := 20 * len c + 150)|lia].
  { intros [? ?] _. cbn. lia. }
  eapply Nat.le_trans; [apply snd_if_ok with (k := 50)|lia].
  { intros [? [? ?]] _. cbn. lia. }
  rewrite snd_charge. destruct (cstarts c ERROR); [|cbn; lia].
  eapply Nat.le_trans; [apply Nat.add_le_mono_l, snd_bind with (k := 12)|]; [intros; cbn; lia|].
  apply Nat.leb_le. reflexivity.
Qed.

(** *** Tokens that are found *)
Lemma punct_char_no c ch t : rest c = ch :: t -> contains punct_recognized ch = false ->
  fst (t_punct c) = Reject /\ snd (t_punct c) = 30.
Proof.
  intros E H. unfold t_punct, t_punct_char, first_char. rewrite E, H. destruct (_ || _); now split.
Qed.
Lemma start_not_punct ch : is_ident_start ch = true -> contains punct_recognized ch = false.
Proof.
  intros H. destruct (contains punct_recognized ch) eqn:E; [|reflexivity]. exfalso.
  unfold contains in E. apply existsb_exists in E as (x & Hi & E). apply N.eqb_eq in E. subst x.
  assert (Ha : (ch < 128)%N /\ (ch =? "_"%ch)%N || ascii_letter ch = false).
  { revert Hi. change punct_recognized with (map (fun c => c) punct_recognized). cbv [punct_recognized map].
    cbn [In]. intros Hi. repeat (destruct Hi as [<-|Hi]; [now split|]). contradiction. }
  destruct Ha as [H1 H2]. rewrite (start_ascii HU) in H by exact H1. congruence.
Qed.

Lemma punct_not_digit ch : contains punct_recognized ch = true ->
  du ch = false /\ is_ident_start ch = false /\ len_utf8 ch = 1.
Proof.
  intros E. assert (Hs : is_ident_start ch = false).
  { destruct (is_ident_start ch) eqn:Hs; [|reflexivity]. apply start_not_punct in Hs. congruence. }
  unfold contains in E. apply existsb_exists in E as (x & Hi & E). apply N.eqb_eq in E. subst x.
  revert Hi. cbv [punct_recognized]. cbn [In]. intros Hi.
  repeat (destruct Hi as [<-|Hi]; [now repeat split|]). contradiction.
Qed.
Lemma punct_pots ch t : contains punct_recognized ch = true -> pots (ch :: t) <= 18 + pots t.
Proof.
  intros H. apply punct_not_digit in H as (H1 & H2 & _). unfold pots at 1. unfold pa, pb, pc.
  destruct (not_ident HU ch t H2) as [-> _]. cbn [dotted digit_start signed run]. rewrite H1.
  unfold du in H1. apply orb_false_elim in H1 as [-> _].
  assert (dotted t + (if digit_start t then mant t else 0) = pa t) by reflexivity.
  assert (signed t + run t = pb t) by reflexivity. unfold pots.
  destruct (ch =? "."%ch)%N, (is_sign ch); lia.
Qed.
Lemma run_ident ch t : du ch = true -> run t + str_len (fst (p_continue t)) <= str_len t.
Proof.
  intros _. rewrite (continue_past HU). pose proof (run_past t).
  pose proof (suffix_len _ _ (continue_suffix (past t))). lia.
Qed.
Lemma ident_pots s r x : p_ident s = Some (r, x) ->
  exists ch t, s = ch :: t /\ is_ident_start ch = true /\
  pots s + 32 * str_len r <= 32 * str_len s /\ pc s + str_len r = str_len s.
Proof.
  intros H. unfold p_ident in H. destruct (existsb _ _); [discriminate|].
  destruct s as [|ch t]; [discriminate|].
  assert (Hs : is_ident_start ch = true).
  { destruct (is_ident_start ch) eqn:Hs; [reflexivity|]. destruct (not_ident HU ch t Hs). congruence. }
  exists ch, t. do 2 (split; [easy|]).
  assert (Hc : pc (ch :: t) + str_len r = str_len (ch :: t)).
  { unfold pc. rewrite H. apply p_ident_any_suffix, suffix_len in H. lia. }
  split; [|exact Hc].
  assert (Hd : is_dec_digit ch = false).
  { destruct (is_dec_digit ch) eqn:Hd; [|reflexivity]. apply (digit_not_start HU) in Hd. congruence. }
  assert (Hg : is_sign ch = false).
  { destruct (is_sign ch) eqn:Hg; [|reflexivity]. apply (sign_not HU) in Hg. destruct Hg. congruence. }
  assert (Ht : (ch =? "."%ch)%N = false).
  { destruct (N.eqb_spec ch "."%ch) as [->|]; [|reflexivity]. destruct (dot_not HU). congruence. }
  unfold pots, pa, pb. cbn [dotted digit_start signed]. rewrite Hd, Hg, Ht.
  enough (run (ch :: t) + str_len r <= str_len (ch :: t)) by lia.
  cbn [run]. destruct (du ch) eqn:Hdu; [|lia].
  unfold p_ident_any in H. destruct (starts_with (ch :: t) (tag "r#")) eqn:Er.
  { exfalso. cbn in Er. apply andb_prop in Er as [Er _]. apply N.eqb_eq in Er. subst ch. discriminate. }
  unfold p_ident_not_raw in H. rewrite Hs in H. pose proof (run_ident ch t Hdu) as Hr.
  destruct (p_continue t) as [q y]. injection H as <- _. cbn [fst str_len] in *.
  pose proof (du_ascii ch Hdu). lia.
Qed.
Lemma ident_any_accept c r x : wfc c -> fst (t_ident_any c) = Ok (r, x) ->
  snd (t_ident_any c) <= 20 * pc (rest c) + 45.
Proof.
  intros Hw H. pose proof (within_ok _ _ _ _ (w_ident_any c) H) as W. cbn [fst] in W.
  pose proof (er_ident_any c) as Er. unfold erases in Er. rewrite H, ident_any_spec in Er by exact Hw.
  unfold pc. destruct (p_ident_any (rest c)) as [[q y]|] eqn:Ep; [|discriminate]. injection Er as -> _.
  apply p_ident_any_suffix, suffix_len in Ep. unfold len in *. cbn [rest cur_of] in *. lia.
Qed.

Lemma leaf_accept c r tok : wfc c -> fst (t_leaf_token c) = Ok (r, tok) ->
  snd (t_leaf_token c) + pots (rest c) + 60 * len r <= 60 * len c + 400 + pots (rest r).
Proof.
  intros Hw Hok. pose proof (er_leaf c) as Er. unfold erases in Er.
  rewrite Hok, leaf_token_spec in Er by exact Hw.
  destruct (p_leaf (rest c)) as [[r' k]|] eqn:Ep; [|discriminate]. injection Er as Er _.
  assert (Hl : p_leaf (rest c) <> None) by congruence.
  assert (Hrest : rest r = r') by (now rewrite Er).
  assert (Hlen : len r <= len c).
  { unfold len. rewrite Hrest. apply p_leaf_shorter in Ep as [Ep _]. now apply suffix_len. }
  clear Er. pose proof (er_literal c) as R1. pose proof (er_punct c) as R2. pose proof (er_ident c) as R3.
  unfold erases in *. rewrite literal_spec in R1 by exact Hw. rewrite punct_spec in R2.
  rewrite ident_spec in R3 by exact Hw. unfold p_leaf in Ep.
  unfold t_leaf_token in *. pose proof (literal_accept c) as L1. pose proof (literal_reject c Hl) as L2.
  destruct (t_literal c) as [[[x1 y1]| | |] n1]; cbn [t_if_ok charge ret fst snd] in *; try discriminate.
  { injection Hok as -> _. specialize (L1 r y1 Hw eq_refl). lia. }
  destruct (p_literal (rest c)) as [q|]; [discriminate|].
  assert (Hn1 : digit_start (rest c) = false -> n1 <= 125) by auto. clear L1 L2 R1.
  destruct (rest c) as [|ch t] eqn:Es.
  { exfalso. cbn in Ep. discriminate. }
  assert (Elen : len c = len_utf8 ch + str_len t) by (unfold len; now rewrite Es).
  destruct (p_punct (ch :: t)) as [[q [pch psp]]|] eqn:Epu.
  - (* punct *)
    injection Ep as <- _. unfold p_punct in Epu.
    destruct (p_punct_char (ch :: t)) as [[q2 c2]|] eqn:Epc; [|discriminate].
    assert (Hpc : contains punct_recognized ch = true /\ q2 = t /\ c2 = ch).
    { unfold p_punct_char in Epc. destruct (_ || _); [discriminate|].
      destruct (contains punct_recognized ch); [|discriminate]. now injection Epc as <- <-. }
    destruct Hpc as (Hpc & -> & ->). pose proof (punct_not_digit ch Hpc) as (Hdu & Hns & Hl1).
    assert (Hd : digit_start (ch :: t) = false).
    { cbn. unfold du in Hdu. now apply orb_false_elim in Hdu as [-> _]. }
    specialize (Hn1 Hd).
    pose proof (punct_pots ch t Hpc) as Hpots.
    assert (Hq : q = t).
    { destruct (ch =? SQUOTE)%N; [|congruence]. destruct (p_ident_any t) as [[? ?]|]; [|discriminate].
      destruct (_ || _); [discriminate|congruence]. }
    assert (Hpi : ch = SQUOTE -> exists z, p_ident_any t = Some z).
    { intros ->. change (SQUOTE =? SQUOTE)%N with true in Epu. cbv iota in Epu.
      destruct (p_ident_any t) as [z|]; [eauto|discriminate]. }
    rewrite Hq in Hrest. clear Hq Epu. assert (Elr : len r = str_len t) by (unfold len; now rewrite Hrest).
    rewrite Hrest. pose proof (len_utf8_pos ch).
    enough (Hc : snd (t_punct c) + pots (ch :: t) <= 180 + pots t).
    { destruct (t_punct c) as [[[x2 y2]| | |] n2]; cbn [t_if_ok charge ret fst snd] in *; try discriminate; lia. }
    clear R2 Hok. unfold t_punct. pose proof (punct_char_cost c) as Hpcc.
    pose proof (er_punct_char c) as Er. unfold erases in Er. rewrite punct_char_spec, Es, Epc in Er.
    destruct (t_punct_char c) as [ro n2]. cbn [fst snd] in Er, Hpcc. subst ro. cbn [lift2 tbind charge snd].
    destruct (N.eqb_spec ch SQUOTE) as [->|Nq].
    + assert (pots (SQUOTE :: t) = 0) by ascii_other.
      pose proof (ident_any_accept (cur_of c t)) as Hi. cbn [rest cur_of] in Hi.
      assert (20 * pc t <= pots t) by (unfold pots; lia).
      pose proof (er_ident_any (cur_of c t)) as Er. unfold erases in Er.
      rewrite ident_any_spec in Er by apply wfc_cur_of. cbn [rest cur_of] in Er.
      destruct (Hpi eq_refl) as [[z1 z2] Ez]. rewrite Ez in Er. cbn [lift2] in Er.
      destruct (t_ident_any (cur_of c t)) as [ro n3]. cbn [fst snd] in Er, Hi. subst ro.
      specialize (Hi _ _ (wfc_cur_of _ _) eq_refl).
      enough (n2 + (n3 + snd (charge 7
          (if cstarts_char (cur_of (cur_of c t) z1) SQUOTE
              || cstarts_char (cur_of (cur_of c t) z1) "#"%ch && negb (cstarts (cur_of c t) (tag "r#"))
           then reject
           else let! p := t_punct_new SQUOTE Joint in ret (cur_of c t, p)))) <= 35 + (n3 + (7 + 23))).
      { cbn [tbind charge snd] in *. lia. }
      apply Nat.add_le_mono; [exact Hpcc|]. apply Nat.add_le_mono_l. rewrite snd_charge.
      apply Nat.add_le_mono_l. destruct (_ || _); [cbn; lia|].
      eapply Nat.le_trans; [apply snd_bind with (k := 0)|cbn; lia]. intros; cbn; lia.
    + enough (n2 + snd (let! kind := t_if_ok (t_punct_char (cur_of c t)) (fun _ => ret Joint) (ret Alone) in
                        let! p := t_punct_new ch kind in ret (cur_of c t, p)) <= 35 + (35 + 0 + 23)) by lia.
      apply Nat.add_le_mono; [exact Hpcc|]. eapply Nat.le_trans; [apply snd_bind with (k := 23)|].
      * intros k' _. eapply Nat.le_trans; [apply snd_bind with (k := 0)|cbn; lia]. intros; cbn; lia.
      * apply Nat.add_le_mono_r. eapply Nat.le_trans; [apply snd_if_ok with (k := 0)|];
          [intros; cbn; lia|cbn; lia|]. pose proof (punct_char_cost (cur_of c t)). lia.
  - (* not punct *)
    destruct (p_ident (ch :: t)) as [[q [sym raw]]|] eqn:Epi.
    + injection Ep as <- _. apply ident_pots in Epi as (ch' & t' & E' & Hs & Hp & Hc).
      injection E' as <- <-.
      assert (Hd : digit_start (ch :: t) = false).
      { cbn. destruct (is_dec_digit ch) eqn:Hd; [|reflexivity]. apply (digit_not_start HU) in Hd. congruence. }
      specialize (Hn1 Hd). destruct (punct_char_no c ch t Es (start_not_punct ch Hs)) as [P1 P2].
      destruct (t_punct c) as [ro n2]. cbn [fst snd] in P1, P2. subst ro. cbn [t_if_ok charge ret fst snd] in *.
      assert (Hi : snd (t_ident c) + 20 * len r <= 20 * len c + 81).
      { unfold t_ident in *. destruct (existsb (cstarts c) ident_reject_prefixes); [discriminate|].
        cbn [charge fst snd] in *. pose proof (within_ok _ _ _ _ (w_ident_any c) R3) as W. cbn [fst] in W.
        unfold len in *. cbn [rest cur_of] in W. rewrite Hrest. lia. }
      destruct (t_ident c) as [[[x3 [y3 z3]]| | |] n3]; cbn [t_if_ok charge ret fst snd] in *; try discriminate.
      unfold len in *. rewrite Hrest, Es in *. lia.
    + destruct (starts_with (ch :: t) ERROR) eqn:Ee; [|discriminate]. injection Ep as <- _.
      assert (Hch : ch = "("%ch).
      { change ERROR with ("("%ch :: tl ERROR) in Ee. cbn [starts_with] in Ee. apply andb_prop in Ee as [Ee _].
        now apply N.eqb_eq in Ee. }
      subst ch. specialize (Hn1 eq_refl).
      destruct (punct_char_no c _ t Es eq_refl) as [P1 P2].
      destruct (t_punct c) as [ro n2]. cbn [fst snd] in P1, P2. subst ro. cbn [t_if_ok charge ret fst snd] in *.
      assert (Hpo : pots ("("%ch :: t) = 0) by ascii_other.
      assert (Hi : snd (t_ident c) <= 60).
      { unfold t_ident. rewrite snd_charge. destruct (existsb _ _); [cbn; lia|].
        unfold t_ident_any. rewrite snd_charge. unfold cstarts. rewrite Es.
        change (starts_with ("("%ch :: t) (tag "r#")) with false. cbv iota.
        unfold t_advance. rewrite advance0 by exact Hw. cbn [work tbind charge snd].
        assert (Hr : t_ident_not_raw c = (Reject, 2)).
        { unfold t_ident_not_raw, char_indices. rewrite Es. cbn [ci_next].
          rewrite (start_ascii HU) by reflexivity. reflexivity. }
        rewrite Hr. cbn. lia. }
      destruct (t_ident c) as [[[x3 [y3 z3]]| | |] n3]; cbn [t_if_ok charge ret fst snd lift2] in *; try discriminate.
      lazymatch goal with |- n1 + (n2 + (n3 + (12 + ?b))) + _ + _ <= _ => enough (b <= 12 + 12) by lia end.
      destruct (cstarts c ERROR); [|cbn; lia]. eapply Nat.le_trans; [apply snd_bind with (k := 12)|].
      * intros; cbn; lia.
      * apply Nat.leb_le. reflexivity.
Qed.

(** *** Doc comments *)
Lemma slice_len s a b x : slice s a b = Ok x -> str_len x <= str_len s.
Proof.
  unfold slice. destruct (b <? a); [discriminate|].
  unfold slice_to. destruct (split_at s b) as [[y z]|] eqn:E; [|discriminate]. cbn [bind]. intros H.
  apply split_at_inv in E as [-> _]. apply slice_from_len in H. rewrite str_len_app. lia.
Qed.
Lemma w_doc c : within (fun x => 20 * len (fst x)) (20 * len c + 160) (t_doc_comment c).
Proof.
  unfold t_doc_comment.
  eapply w_bind with (mid := fun x => 20 * len (fst x) + 2 * str_len (fst (snd x))) (h0 := 20 * len c + 60); [|lia|].
  - unfold t_doc_comment_contents. wstep.
    destruct (cstarts c (tag "//!")).
    { wstep. eapply w_bind; [apply w_take|lia|]. intros [c2 x] _. wstep. rewrite text_left_eq. cbn [fst snd]. lia. }
    destruct (cstarts c (tag "/*!")).
    { eapply w_bind; [apply w_block|lia|]. intros [c2 x] _. rewrite text_left_eq.
      apply w_wk; [lia|]. intros y Ey. assert (str_len y <= str_len x) by (now apply slice_len in Ey).
      wstep. cbn [fst snd]. lia. }
    destruct (cstarts c (tag "///")).
    { wstep. destruct (cstarts_char _ _); [wstep|].
      eapply w_bind; [apply w_take|lia|]. intros [c2 x] _. wstep. rewrite text_left_eq. cbn [fst snd]. lia. }
    destruct (cstarts c (tag "/**")); [|wstep].
    apply w_wk; [lia|]. intros r3 _. destruct (negb _); [|wstep].
    eapply w_bind; [apply w_block|lia|]. intros [c2 x] _. rewrite text_left_eq.
    apply w_wk; [lia|]. intros y Ey. assert (str_len y <= str_len x) by (now apply slice_len in Ey).
    wstep. cbn [fst snd]. lia.
  - intros [r [comment inner]] _. cbn [fst snd]. wstep. destruct (bare_cr comment); [wstep|].
    wstep. unfold t_punct_new. wstep.
    eapply w_bind with (mid := fun _ => 0) (h0 := 23); [|lia|].
    + destruct inner; repeat wstep.
    + intros b _. wstep. wstep. cbn [fst]. lia.
Qed.
Lemma doc_cheap c : starts_with (rest c) (tag "//") = false -> starts_with (rest c) (tag "/*") = false ->
  t_doc_comment c = (Reject, 20).
Proof.
  intros H1 H2. unfold t_doc_comment, t_doc_comment_contents, cstarts.
  assert (Hs : forall x, starts_with (rest c) ["/"%ch; "/"%ch; x] = false /\ starts_with (rest c) ["/"%ch; "*"%ch; x] = false).
  { intros x. change (tag "//") with ["/"%ch; "/"%ch] in H1. change (tag "/*") with ["/"%ch; "*"%ch] in H2.
    destruct (rest c) as [|a [|b t]]; cbn [starts_with] in *; [now split|now split; rewrite ?andb_false_r|].
    rewrite andb_true_r in H1, H2. rewrite !andb_assoc, H1, H2. now split. }
  change (tag "//!") with ["/"%ch; "/"%ch; "!"%ch]. change (tag "/*!") with ["/"%ch; "*"%ch; "!"%ch].
  change (tag "///") with ["/"%ch; "/"%ch; "/"%ch]. change (tag "/**") with ["/"%ch; "*"%ch; "*"%ch].
  destruct (Hs "!"%ch) as [-> ->]. destruct (Hs "/"%ch) as [-> _]. destruct (Hs "*"%ch) as [_ ->]. reflexivity.
Qed.
(** No token begins with the opening of a comment. *)
Lemma comment_leaf s : starts_with s (tag "//") = true \/ starts_with s (tag "/*") = true -> p_leaf s = None.
Proof.
  intros H.
  assert (Hs : exists t, s = "/"%ch :: t).
  { destruct s as [|a t]; [destruct H; discriminate|]. exists t. f_equal.
    destruct H as [H|H]; cbn in H; apply andb_prop in H as [H _]; now apply N.eqb_eq in H. }
  assert (Hp : p_punct s = None).
  { unfold p_punct, p_punct_char. destruct H as [-> | ->]; [reflexivity|]. now rewrite orb_true_r. }
  destruct Hs as [t ->]. apply leaf_none; try reflexivity; [exact Hp|].
  apply (not_ident HU). rewrite (start_ascii HU) by reflexivity. reflexivity.
Qed.

(** *** Blanks *)
Lemma skip_pots s : pots s <= pots (p_skip s).
Proof.
  rewrite p_skip_eq. destruct (p_skip1 s) as [r|] eqn:E; [|lia].
  enough (pots s = 0) by lia. destruct s as [|ch t]; [discriminate|].
  destruct (N.eqb_spec ch "/"%ch) as [->|N1]; [ascii_other|].
  unfold p_skip1 in E. destruct (not_slash_comment ch t N1) as (E1 & E2 & E3).
  rewrite E1, E2, E3 in E. destruct (is_whitespace ch) eqn:Ew; [|discriminate].
  assert (Hc : is_xid_continue ch = false).
  { unfold is_whitespace in Ew. apply orb_prop in Ew as [Ew|Ew]; [apply orb_prop in Ew as [Ew|Ew]|].
    - now apply (xid_not_space U HU).
    - apply N.eqb_eq in Ew. subst ch. apply (xid_not_marks U HU).
    - apply N.eqb_eq in Ew. subst ch. apply (xid_not_marks U HU). }
  assert (Hd : du ch = false).
  { destruct (du ch) eqn:Hd; [|reflexivity]. apply (du_continue HU) in Hd. unfold is_ident_continue in Hd. congruence. }
  apply pots_other; [exact Hd| | |].
  - clear -Ew. unfold is_sign, is_whitespace, is_white_space, between in *. lia.
  - intros ->. discriminate Ew.
  - unfold is_ident_start. unfold du in Hd. apply orb_false_elim in Hd as [_ ->]. cbn [orb].
    destruct (is_xid_start ch) eqn:Hx; [|reflexivity]. apply (xid_start_continue U HU) in Hx. congruence.
Qed.

(** *** The main loop *)
Lemma advance_wfc c n c' : advance c n = Ok c' -> wfc c'.
Proof.
  unfold advance. destruct (split_at _ _) as [[p r]|]; [|discriminate]. intros [= <-]. apply wrap32_lt.
Qed.
Lemma delim_pots ch t : In ch (tag "()[]{}") -> pots (ch :: t) = 0.
Proof. cbn [In lit]. intros Hi. repeat (destruct Hi as [<-|Hi]; [ascii_other|]). contradiction. Qed.

Lemma doc_closed s x : p_doc s = Some x -> unclosed s = false /\ exists t, s = "/"%ch :: t.
Proof.
  intros H. unfold p_doc in H. destruct (p_doc_contents s) as [y|] eqn:E; [clear H x|discriminate].
  assert (Hs : forall a b t, starts_with s (a :: b :: t) = true -> exists u, s = a :: b :: u).
  { intros a b t Ht. destruct s as [|a' [|b' u]]; cbn [starts_with] in Ht; try discriminate;
      [now rewrite andb_false_r in Ht|].
    apply andb_prop in Ht as [H1 H2]. apply andb_prop in H2 as [H2 _].
    apply N.eqb_eq in H1, H2. subst. eauto. }
  unfold unclosed, block_comment_start. unfold p_doc_contents in E.
  destruct (starts_with s (tag "//!")) eqn:E1.
  { apply Hs in E1 as [u ->]. split; [reflexivity|eauto]. }
  destruct (starts_with s (tag "/*!")) eqn:E2.
  { rewrite andb_false_r. apply Hs in E2 as [u ->]. split; [reflexivity|eauto]. }
  destruct (starts_with s (tag "///")) eqn:E3.
  { apply Hs in E3 as [u ->]. split; [reflexivity|eauto]. }
  destruct (starts_with s (tag "/**")) eqn:E4; [|discriminate]. cbn [andb] in E.
  destruct (negb _) in E; [|discriminate].
  destruct (p_block 0 s); [|discriminate]. rewrite andb_false_r. apply Hs in E4 as [u ->]. split; [reflexivity|eauto].
Qed.
Lemma first_byte_head c b k : first_byte c = Some b -> (b =? k)%N = true -> (k < 128)%N ->
  exists t, rest c = k :: t.
Proof.
  unfold first_byte. intros H Hk Hl. apply N.eqb_eq in Hk. subst k. destruct (rest c) as [|ch t]; [discriminate|].
  destruct (first_byte_char ch t) as (b' & u & E & Hb). rewrite E in H. injection H as ->.
  destruct Hb as [(_ & -> & _)|(_ & Hb)]; [eauto|lia].
Qed.
Lemma delim_head c b : first_byte c = Some b ->
  (open_delimiter c b <> None \/ close_delimiter b <> None) ->
  exists ch t, rest c = ch :: t /\ In ch (tag "()[]{}").
Proof.
  intros Hb H. pose proof (fun k => first_byte_head c b k Hb) as Hk.
  assert (Hin : existsb (fun k => b =? k)%N (tag "()[]{}") = true).
  { cbn [existsb lit]. destruct H as [H|H].
    - unfold open_delimiter in H. destruct (b =? 40)%N; [reflexivity|]. cbn [andb] in H.
      destruct (b =? 91)%N; [now rewrite ?orb_true_r|]. destruct (b =? 123)%N; [now rewrite ?orb_true_r|contradiction].
    - unfold close_delimiter in H. destruct (b =? 41)%N; [now rewrite ?orb_true_r|].
      destruct (b =? 93)%N; [now rewrite ?orb_true_r|]. destruct (b =? 125)%N; [now rewrite ?orb_true_r|contradiction]. }
  apply existsb_exists in Hin as (k & Hi & Hq). exists k.
  destruct (Hk k Hq) as [t E]; [|eauto].
  clear -Hi. cbn [In lit] in Hi. repeat (destruct Hi as [<-|Hi]; [reflexivity|]). contradiction.
Qed.
Definition A := 700.
Definition C := 1600.
Lemma loop_cost fuel c tokens stack : wfc c ->
  snd (t_token_stream_loop fuel c tokens stack) + pots (rest c) <= A * len c + C.
Proof.
  revert c tokens stack. induction fuel as [|fuel IH]; intros c tokens stack Hw.
  { cbn [t_token_stream_loop no_fuel snd]. pose proof (pots_len (rest c)). unfold A, C, len. lia. }
  cbn [t_token_stream_loop].
  pose proof (w_skip c) as Wsk. pose proof (er_skip c) as Er. unfold erases in Er.
  rewrite skip_whitespace_eq in Er by exact Hw.
  pose proof (p_skip_fixed (rest c)) as Hskip. pose proof (skip_pots (rest c)) as Hsp.
  assert (Hl1 : str_len (p_skip (rest c)) <= len c) by (apply suffix_len, p_skip_suffix).
  assert (Hw1 : wfc (cur_of c (p_skip (rest c)))) by apply wfc_cur_of.
  destruct (t_skip_whitespace c) as [ro n0]. cbn [fst] in Er. subst ro.
  pose proof (within_ok _ _ _ _ Wsk eq_refl) as W0. cbn [tbind charge fst snd] in *. clear Wsk.
  change (p_skip (rest c)) with (rest (cur_of c (p_skip (rest c)))) in Hskip, Hsp, Hl1.
  set (c1 := cur_of c (p_skip (rest c))) in *. clearbody c1.
  fold (len c1) in Hl1. pose proof (pots_len (rest c)) as Hp0. fold (len c) in Hp0.
  pose proof (leaf_cost c1) as Hleaf.
  pose proof (within_snd _ _ _ (w_doc c1)) as Hdc.
  set (body := t_if_ok (t_doc_comment c1) _ _).
  assert (Hend : snd body <= 220 * len c1 + 1100 -> n0 + snd body + pots (rest c) <= A * len c + C).
  { unfold A, C. intros Hb. unfold skip_left in W0. destruct (unclosed (rest c1)); lia. }
  assert (Hnext : forall k c', unclosed (rest c1) = false ->
    k + pots (rest c1) + A * len c' + 100 <= A * len c1 + pots (rest c') ->
    (exists tk st, snd body = k + snd (t_token_stream_loop fuel c' tk st) /\ wfc c') ->
    n0 + snd body + pots (rest c) <= A * len c + C).
  { intros k c' Hu Hk (tk & st & Hb & Hw'). specialize (IH c' tk st Hw').
    unfold skip_left in W0. rewrite Hu in W0. unfold A, C in *. lia. }
  pose proof (er_doc c1) as Ed. unfold erases in Ed. rewrite doc_comment_spec in Ed by exact Hskip.
  unfold body in *. clear body.
  destruct (p_doc (rest c1)) as [[r [x inner]]|] eqn:Epd.
  { (* a doc comment *)
    pose proof (doc_closed _ _ Epd) as [Hu [t Ht]]. apply p_doc_shorter in Epd as [P1 P2].
    pose proof (suffix_shorter _ _ P1 P2) as P3.
    pose proof (within_ok _ _ _ _ (w_doc c1) Ed) as Wd. cbn [fst] in Wd.
    destruct (t_doc_comment c1) as [ro nd]. cbn [fst snd] in *. subst ro. cbn [t_if_ok] in *.
    apply Hnext with (k := nd) (c' := cur_of c1 r); [exact Hu| |].
    - assert (pots (rest c1) = 0) by (rewrite Ht; ascii_other). unfold A, len in *. cbn [rest cur_of] in *. lia.
    - eexists _, _. split; [reflexivity|apply wfc_cur_of]. }
  destruct (t_doc_comment c1) as [ro nd] eqn:Etd. cbn [fst snd] in Ed, Hdc. subst ro. cbn [t_if_ok] in *.
  rewrite snd_charge in *.
  destruct (first_byte c1) as [b|] eqn:Efb.
  2: { apply Hend. destruct stack as [|[lo fr] stack]; cbn; lia. }
  assert (Hcheap : ~ (starts_with (rest c1) (tag "//") = true \/ starts_with (rest c1) (tag "/*") = true) ->
    nd = 20 /\ unclosed (rest c1) = false).
  { intros Hn. destruct (starts_with (rest c1) (tag "//")) eqn:X1; [tauto|].
    destruct (starts_with (rest c1) (tag "/*")) eqn:X2; [tauto|]. split.
    - rewrite doc_cheap in Etd by assumption. now injection Etd as <-.
    - unfold unclosed, block_comment_start. now rewrite X2. }
  assert (Hdel : forall ch t, rest c1 = ch :: t -> In ch (tag "()[]{}") -> nd = 20 /\ unclosed (rest c1) = false).
  { intros ch t E Hi. apply Hcheap. rewrite E. intros H.
    assert (Hq : ch = "/"%ch) by (destruct H as [H|H]; cbn in H; apply andb_prop in H as [H _]; now apply N.eqb_eq in H).
    subst ch. cbn in Hi. clear -Hi. intuition discriminate. }
  rewrite snd_charge in *.
  destruct (open_delimiter c1 b) as [d|] eqn:Eo.
  { destruct (delim_head c1 b Efb) as (ch & t & Hr & Hi); [left; congruence|].
    destruct (Hdel ch t Hr Hi) as [Hnd Hu].
    pose proof (delim_pots ch t Hi) as Hp. rewrite <- Hr in Hp.
    unfold t_advance in *. destruct (advance c1 1) as [c2| | |] eqn:Ea; cbn [work tbind charge fst snd] in *;
      try (apply Hend; lia).
    pose proof (advance_len _ _ _ Ea).
    apply Hnext with (k := nd + (1 + (18 + (2 + 1)))) (c' := c2); [exact Hu|unfold A; lia|].
    eexists _, _. split; [|eapply advance_wfc; exact Ea]. cbn [charge snd]. rewrite !Nat.add_assoc. reflexivity. }
  destruct (close_delimiter b) as [d|] eqn:Ec.
  { destruct (delim_head c1 b Efb) as (ch & t & Hr & Hi); [right; congruence|].
    destruct (Hdel ch t Hr Hi) as [Hnd Hu].
    pose proof (delim_pots ch t Hi) as Hp. rewrite <- Hr in Hp.
    destruct stack as [|[lo [od outer]] stack]; [apply Hend; cbn [charge ret snd]; lia|].
    destruct (negb (delim_eqb od d)); [apply Hend; cbn [charge ret snd]; lia|].
    unfold t_advance in *. destruct (advance c1 1) as [c2| | |] eqn:Ea; cbn [work tbind charge fst snd] in *;
      try (apply Hend; lia).
    pose proof (advance_len _ _ _ Ea).
    apply Hnext with (k := nd + (1 + (18 + (2 + 3)))) (c' := c2); [exact Hu|unfold A; lia|].
    eexists _, _. split; [|eapply advance_wfc; exact Ea]. cbn [charge snd]. rewrite !Nat.add_assoc. reflexivity. }
  pose proof (er_leaf c1) as El. unfold erases in El. rewrite leaf_token_spec in El by exact Hw1.
  destruct (p_leaf (rest c1)) as [[r k]|] eqn:Epl.
  - destruct Hcheap as [Hnd Hu].
    + intros H. apply comment_leaf in H. congruence.
    + cbn [lift_leaf] in El. pose proof (leaf_accept _ _ _ Hw1 El) as Ha.
      apply p_leaf_shorter in Epl as [P1 P2]. pose proof (suffix_shorter _ _ P1 P2) as P3.
      destruct (t_leaf_token c1) as [ro nl]. cbn [fst snd] in *. subst ro. cbn [t_if_ok charge] in *.
      apply Hnext with (k := nd + (1 + (18 + (nl + 2)))) (c' := cur_of c1 r); [exact Hu| |].
      * unfold A, len in *. cbn [rest cur_of] in *. lia.
      * eexists _, _. split; [|apply wfc_cur_of]. cbn [charge snd]. rewrite !Nat.add_assoc. reflexivity.
  - destruct (t_leaf_token c1) as [ro nl]. cbn [fst snd lift_leaf] in *. subst ro. cbn [t_if_ok] in *.
    apply Hend. cbn [charge ret snd]. lia.
Qed.

Lemma stream_cost start src : (start < two32)%N ->
  snd (t_token_stream_from_str start src) <= 700 * str_len src + 1700.
Proof.
  intros Hs. unfold t_token_stream_from_str, t_token_stream.
  set (c := mkcur src start). assert (Hw : wfc c) by exact Hs.
  destruct (cstarts c BYTE_ORDER_MARK).
  - unfold t_advance. change (str_len BYTE_ORDER_MARK) with 3.
    destruct (advance c 3) as [c2| | |] eqn:E; cbn [work charge tbind fst snd]; try lia.
    pose proof (loop_cost (S (S (str_len (rest c2)))) c2 [] [] (advance_wfc _ _ _ E)) as H.
    apply advance_len in E. change (len c) with (str_len src) in E. unfold A, C in H. lia.
  - pose proof (loop_cost (S (S (str_len (rest c)))) c [] [] Hw) as H.
    cbn [ret charge tbind fst snd]. unfold A, C in H. change (len c) with (str_len src) in H. lia.
Qed.
Lemma literal_len c r s : fst (t_literal c) = Ok (r, s) -> str_len s <= len c.
Proof.
  unfold t_literal. destruct (t_literal_nocapture c) as [[r'| | |] n]; cbn [tbind charge fst]; try discriminate.
  destruct (slice_to _ _) as [s'| | |] eqn:E; cbn [work tbind charge fst]; try discriminate.
  intros [= <- <-]. apply slice_to_len in E. unfold len. lia.
Qed.
Lemma literal_from_str_cost start src :
  snd (t_literal_from_str start src) <= 170 * str_len src + 600.
Proof.
  unfold t_literal_from_str. set (c := mkcur src start). change (str_len src) with (len c).
  set (after := charge 2 _).
  assert (Ha : snd after <= 6 /\ forall c', fst after = Ok c' -> len c' <= len c).
  { unfold after. destruct (cstarts_char c "-"%ch).
    - unfold t_advance. destruct (advance c 1) as [c2| | |] eqn:E; cbn [work charge tbind fst snd];
        try (split; [lia|discriminate]).
      apply advance_len in E. destruct (first_char c2) as [ch|]; [destruct (is_dec_digit ch)|];
        (split; [cbn; lia|]); intros c' H; try discriminate H. injection H as <-. lia.
    - split; [cbn; lia|]. intros c' [= <-]. lia. }
  destruct Ha as [Ha1 Ha2]. clearbody after.
  eapply Nat.le_trans; [apply snd_if_ok with (k := 162 * len c + 550)|lia]; [|cbn; lia].
  intros c' Hc. specialize (Ha2 c' Hc). pose proof (literal_cost c').
  eapply Nat.le_trans; [apply snd_if_ok with (k := len c + 10)|lia]; [|cbn; lia].
  intros [r repr] Hr. apply literal_len in Hr. rewrite snd_charge.
  destruct (rest r); [|cbn; lia]. destruct (cstarts_char c "-"%ch); cbn [work snd str_len].
  - change (len_utf8 "-"%ch) with 1. lia.
  - lia.
Qed.

End WithUnicode.
