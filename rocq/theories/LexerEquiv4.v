(** Fourth part of the cursor/char-list equivalence: numbers, puncts, leaves, doc
    comments and the main loop; totality of the two entry points. *)
From Verif Require Import Base BaseFacts Unicode Tokens Lexer PureLexer LexerEquiv LexerEquiv2 LexerEquiv3.

Section WithUnicode.
Context {U : unicode}.

(** *** Numbers *)
Definition asuffix (r s : str) : Prop := exists p, s = p ++ r /\ ascii_str p.

Lemma asuffix_refl s : asuffix s s. Proof. exists []. split; [reflexivity|constructor]. Qed.
Lemma asuffix_cons c r s : (c < 128)%N -> asuffix r s -> asuffix r (c :: s).
Proof. intros Hc (p & -> & Hp). exists (c :: p). split; [reflexivity|now constructor]. Qed.
Lemma asuffix_suffix r s : asuffix r s -> suffix r s.
Proof. intros (p & -> & _). auto. Qed.
Local Hint Resolve asuffix_refl asuffix_cons asuffix_suffix : core.
Lemma asuffix_trans a b c : asuffix a b -> asuffix b c -> asuffix a c.
Proof.
  intros (p & -> & Hp) (q & -> & Hq). exists (q ++ p). split; [now rewrite app_assoc|].
  apply Forall_app. auto.
Qed.

Lemma advance_ascii c r n :
  asuffix r (rest c) -> n = length (rest c) - length r -> advance c n = Ok (cur_of c r).
Proof.
  intros (p & E & Hp) ->. apply advance_app with (p := p); [exact E|].
  rewrite E, app_length, str_len_ascii by exact Hp. lia.
Qed.

Lemma dec_ascii c : is_dec_digit c = true -> (c < 128)%N.
Proof. unfold is_dec_digit, between. lia. Qed.
Lemma dec_us_ascii c : is_dec_digit c || (c =? "_"%ch)%N = true -> (c < 128)%N.
Proof. unfold is_dec_digit, between. lia. Qed.

Lemma p_mantissa_asuffix s hd hd' he r : p_mantissa s hd = Some (hd', he, r) -> asuffix r s.
Proof.
  revert hd. induction s as [|c t IH]; intros hd; cbn [p_mantissa].
  - intros H. inv H. auto.
  - destruct (_ || _) eqn:E1.
    + apply dec_us_ascii in E1. eauto.
    + destruct (N.eqb_spec c "."%ch) as [->|].
      * destruct hd; [intros H; inv H; auto|].
        destruct t as [|c2 t2].
        -- intros H. apply IH in H. apply asuffix_cons; [lia|exact H].
        -- destruct (_ || is_ident_start _); [discriminate|]. intros H. apply IH in H. apply asuffix_cons; [lia|exact H].
      * clear E1. destruct (_ || _) eqn:E2; intros H; inv H; auto.
        apply asuffix_cons; auto. lia.
Qed.

Lemma float_mantissa_spec s n hd :
  float_mantissa s n hd
  = match p_mantissa s hd with
    | Some (hd', he, r) => Ok (n + (length s - length r), hd', he, r)
    | None => Reject
    end.
Proof.
  revert n hd. induction s as [|c t IH]; intros n hd; cbn [float_mantissa p_mantissa].
  - do 4 f_equal. lia.
  - assert (Hrec : forall hd, float_mantissa t (S n) hd = match p_mantissa t hd with
      | Some (hd', he, r) => Ok (n + (length (c :: t) - length r), hd', he, r)
      | None => Reject end).
    { intros hd'. rewrite IH. destruct (p_mantissa t hd') as [[[a b] r]|] eqn:E; [|reflexivity].
      apply p_mantissa_asuffix, asuffix_suffix, suffix_length in E. do 4 f_equal. cbn [length]. lia. }
    destruct (_ || _); [apply Hrec|]. destruct (_ =? _)%N.
    + destruct hd; [do 4 f_equal; lia|]. destruct t as [|c2 t2]; [apply Hrec|].
      destruct (_ || _); [reflexivity|apply Hrec].
    + destruct (_ || _); do 4 f_equal; cbn [length]; lia.
Qed.

Lemma p_exponent_asuffix s hs hv r : p_exponent s hs hv = Some r -> asuffix r s.
Proof.
  revert hs hv. induction s as [|c t IH]; intros hs hv; cbn [p_exponent].
  - destruct hv; [|discriminate]. intros H; inv H. auto.
  - destruct (_ || _) eqn:E1.
    + destruct hv; [intros H; inv H; auto|]. destruct hs; [discriminate|].
      intros H. apply IH in H. apply asuffix_cons; auto. lia.
    + destruct (is_dec_digit c) eqn:E2.
      * intros H. apply IH in H. apply asuffix_cons; auto. now apply dec_ascii.
      * destruct (N.eqb_spec c "_"%ch) as [->|].
        -- intros H. apply IH in H. apply asuffix_cons; auto. lia.
        -- destruct hv; [|discriminate]. intros H; inv H. auto.
Qed.

Lemma float_exponent_spec s n hs hv :
  float_exponent s n hs hv
  = match p_exponent s hs hv with Some r => Some (n + (length s - length r)) | None => None end.
Proof.
  revert n hs hv. induction s as [|c t IH]; intros n hs hv; cbn [float_exponent p_exponent].
  - destruct hv; [|reflexivity]. f_equal. lia.
  - assert (Hrec : forall hs hv, float_exponent t (S n) hs hv = match p_exponent t hs hv with
      | Some r => Some (n + (length (c :: t) - length r)) | None => None end).
    { intros hs' hv'. rewrite IH. destruct (p_exponent t hs' hv') as [r|] eqn:E; [|reflexivity].
      apply p_exponent_asuffix, asuffix_suffix, suffix_length in E. f_equal. cbn [length]. lia. }
    assert (Hfin : (if hv then Some n else None)
      = match (if hv then Some (c :: t) else None) with
        | Some r => Some (n + (length (c :: t) - length r)) | None => None end)
      by (destruct hv; [f_equal; lia|reflexivity]).
    destruct (_ || _).
    + destruct hv; [exact Hfin|]. destruct hs; [reflexivity|apply Hrec].
    + destruct (is_dec_digit c); [apply Hrec|]. destruct (_ =? _)%N; [apply Hrec|exact Hfin].
Qed.

Lemma p_mantissa_end_exp s hd hd' r :
  p_mantissa s hd = Some (hd', true, r) ->
  exists c, p_mantissa_end s hd = c :: r /\ (c < 128)%N.
Proof.
  revert hd. induction s as [|c t IH]; intros hd; cbn [p_mantissa p_mantissa_end]; [discriminate|].
  destruct (_ || _); [apply IH|]. destruct (_ =? _)%N.
  - destruct hd; [discriminate|]. destruct t as [|c2 t2]; [apply IH|].
    destruct (_ || _); [discriminate|apply IH].
  - destruct (_ || _) eqn:E; intros H; inv H. exists c. split; [reflexivity|lia].
Qed.

Lemma p_mantissa_end_asuffix s hd : asuffix (p_mantissa_end s hd) s.
Proof.
  revert hd. induction s as [|c t IH]; intros hd; cbn [p_mantissa_end]; [auto|].
  destruct (_ || _) eqn:E; [apply dec_us_ascii in E; auto|].
  destruct (N.eqb_spec c "."%ch) as [->|]; [|auto]. destruct hd; auto.
  apply asuffix_cons; [lia|auto].
Qed.

Lemma float_digits_spec c : float_digits c = lift c (p_float_digits (rest c)).
Proof.
  unfold float_digits, p_float_digits. destruct (rest c) as [|ch t] eqn:E; [reflexivity|].
  destruct (is_dec_digit ch) eqn:Ed; [|reflexivity]. apply dec_ascii in Ed.
  rewrite float_mantissa_spec.
  destruct (p_mantissa t false) as [[[hd he] r]|] eqn:Em; cbn [bind]; [|reflexivity].
  pose proof (p_mantissa_asuffix _ _ _ _ _ Em) as Hr.
  pose proof (suffix_length _ _ (asuffix_suffix _ _ Hr)) as Hlen.
  destruct (negb (hd || he)) eqn:En; [reflexivity|].
  destruct he.
  - destruct (p_mantissa_end_exp _ _ _ _ Em) as (x & Ex & Hx).
    pose proof (p_mantissa_end_asuffix t false) as He. rewrite Ex in He.
    assert (Hb : advance c (1 + (length t - length r) - 1) = Ok (cur_of c (x :: r))).
    { apply advance_ascii.
      - rewrite E. now apply asuffix_cons.
      - rewrite E. pose proof (suffix_length _ _ (asuffix_suffix _ _ He)). cbn [length] in *. lia. }
    rewrite float_exponent_spec.
    destruct (p_exponent r false false) as [r2|] eqn:Ep.
    + pose proof (p_exponent_asuffix _ _ _ _ Ep) as Hr2.
      pose proof (suffix_length _ _ (asuffix_suffix _ _ Hr2)) as Hlen2.
      assert (Ha : advance c (1 + (length t - length r) + (length r - length r2)) = Ok (cur_of c r2)).
      { apply advance_ascii.
        - rewrite E. apply asuffix_cons; auto. eapply asuffix_trans; eauto.
        - rewrite E. cbn [length]. lia. }
      destruct hd; cbn [bind]; [rewrite Hb; cbn [bind]|]; exact Ha.
    + destruct hd; cbn [bind]; [|reflexivity]. rewrite Hb. cbn [bind lift]. now rewrite Ex.
  - cbn [lift]. apply advance_ascii.
    + rewrite E. now apply asuffix_cons.
    + rewrite E. cbn [length]. lia.
Qed.

Lemma p_float_digits_asuffix s r : p_float_digits s = Some r -> asuffix r s.
Proof.
  unfold p_float_digits. destruct s as [|c t]; [discriminate|].
  destruct (is_dec_digit c) eqn:Ed; [|discriminate]. apply dec_ascii in Ed.
  destruct (p_mantissa t false) as [[[hd he] r1]|] eqn:Em; [|discriminate].
  apply p_mantissa_asuffix in Em. destruct (negb _); [discriminate|].
  destruct he.
  - destruct (p_exponent r1 false false) as [r2|] eqn:Ep.
    + apply p_exponent_asuffix in Ep. intros H; inv H. apply asuffix_cons; auto. eapply asuffix_trans; eauto.
    + destruct hd; [|discriminate]. intros H. assert (p_mantissa_end t false = r) by congruence.
      subst r. apply asuffix_cons; auto. apply p_mantissa_end_asuffix.
  - intros H; inv H. auto.
Qed.

Lemma p_digits_loop_asuffix base s e r e' : p_digits_loop base s e = Some (r, e') -> asuffix r s.
Proof.
  revert e. induction s as [|c t IH]; intros e; cbn [p_digits_loop].
  - intros H; inv H; auto.
  - destruct (between "0"%ch c "9"%ch) eqn:E1.
    { destruct (_ <=? _)%N; [discriminate|]. intros H. apply IH in H. apply asuffix_cons; auto.
      unfold between in E1. lia. }
    destruct (between "a"%ch c "f"%ch) eqn:E2.
    { destruct (_ <=? _)%N; [intros H; inv H; auto|]. intros H. apply IH in H. apply asuffix_cons; auto.
      unfold between in E2. lia. }
    destruct (between "A"%ch c "F"%ch) eqn:E3.
    { destruct (_ <=? _)%N; [intros H; inv H; auto|]. intros H. apply IH in H. apply asuffix_cons; auto.
      unfold between in E3. lia. }
    destruct (N.eqb_spec c "_"%ch) as [->|].
    { destruct (_ && _); [discriminate|]. intros H. apply IH in H. apply asuffix_cons; auto. lia. }
    intros H; inv H; auto.
Qed.

Lemma digits_loop_spec base s n e :
  digits_loop base (str_bytes s) n e
  = match p_digits_loop base s e with
    | Some (r, e') => Ok (n + (length s - length r), e')
    | None => Reject
    end.
Proof.
  revert n e. induction s as [|c t IH]; intros n e.
  { cbn. do 2 f_equal. lia. }
  assert (Hrec : forall e, digits_loop base (str_bytes t) (S n) e = match p_digits_loop base t e with
      | Some (r, e') => Ok (n + (length (c :: t) - length r), e') | None => Reject end).
  { intros e'. rewrite IH. destruct (p_digits_loop base t e') as [[r e'']|] eqn:E; [|reflexivity].
    apply p_digits_loop_asuffix, asuffix_suffix, suffix_length in E. do 2 f_equal. cbn [length]. lia. }
  destruct (first_byte_char c t) as (b & u & -> & Hb). cbn [digits_loop p_digits_loop].
  destruct Hb as [(Hc & -> & ->)|(Hc & Hb)].
  - destruct (between _ _ _); [destruct (_ <=? _)%N; [reflexivity|apply Hrec]|].
    destruct (between _ _ _); [destruct (_ <=? _)%N; [do 2 f_equal; lia|apply Hrec]|].
    destruct (between _ _ _); [destruct (_ <=? _)%N; [do 2 f_equal; lia|apply Hrec]|].
    destruct (_ =? _)%N; [|do 2 f_equal; lia].
    destruct (_ && _); [reflexivity|apply Hrec].
  - unfold between.
    replace (c <=? "9"%ch)%N with false by lia. replace (b <=? "9"%ch)%N with false by lia.
    replace (c <=? "f"%ch)%N with false by lia. replace (b <=? "f"%ch)%N with false by lia.
    replace (c <=? "F"%ch)%N with false by lia. replace (b <=? "F"%ch)%N with false by lia.
    replace (c =? "_"%ch)%N with false by lia. replace (b =? "_"%ch)%N with false by lia.
    rewrite !andb_false_r. do 2 f_equal. lia.
Qed.

Lemma p_base_asuffix s : asuffix (fst (p_base s)) s.
Proof.
  unfold p_base.
  destruct (starts_with s (tag "0x")) eqn:E1;
    [apply starts_with_skipn in E1; exists (tag "0x"); split; [exact E1|repeat constructor; lia]|].
  destruct (starts_with s (tag "0o")) eqn:E2;
    [apply starts_with_skipn in E2; exists (tag "0o"); split; [exact E2|repeat constructor; lia]|].
  destruct (starts_with s (tag "0b")) eqn:E3;
    [apply starts_with_skipn in E3; exists (tag "0b"); split; [exact E3|repeat constructor; lia]|].
  auto.
Qed.

Lemma digits_spec c : wfc c -> digits c = lift c (p_digits (rest c)).
Proof.
  intros Hw. unfold digits.
  assert (Hb : (if cstarts c (tag "0x") then let? c := advance c 2 in Ok (c, 16%N)
     else if cstarts c (tag "0o") then let? c := advance c 2 in Ok (c, 8%N)
     else if cstarts c (tag "0b") then let? c := advance c 2 in Ok (c, 2%N)
     else Ok (c, 10%N)) = Ok (cur_of c (fst (p_base (rest c))), snd (p_base (rest c)))).
  { unfold cstarts, p_base.
    destruct (starts_with _ (tag "0x")) eqn:E1.
    { apply starts_with_skipn in E1. now rewrite (advance_app _ _ _ 2 E1). }
    destruct (starts_with _ (tag "0o")) eqn:E2.
    { apply starts_with_skipn in E2. now rewrite (advance_app _ _ _ 2 E2). }
    destruct (starts_with _ (tag "0b")) eqn:E3.
    { apply starts_with_skipn in E3. now rewrite (advance_app _ _ _ 2 E3). }
    cbn [fst snd]. now rewrite cur_of_self. }
  rewrite Hb. cbn [bind]. clear Hb. unfold p_digits.
  pose proof (p_base_asuffix (rest c)) as Ha. destruct (p_base (rest c)) as [s base].
  cbn [fst snd] in *. rewrite rest_cur_of, digits_loop_spec.
  destruct (p_digits_loop base s true) as [[r e]|] eqn:E; cbn [bind]; [|reflexivity].
  apply p_digits_loop_asuffix in E. destruct e; [reflexivity|].
  rewrite (advance_ascii _ r) by (rewrite rest_cur_of; auto). cbn [lift].
  rewrite cur_of_trans; auto.
Qed.

Lemma p_digits_asuffix s r : p_digits s = Some r -> asuffix r s.
Proof.
  unfold p_digits. pose proof (p_base_asuffix s) as Ha. destruct (p_base s) as [s' base].
  destruct (p_digits_loop base s' true) as [[r' [|]]|] eqn:E; try discriminate.
  apply p_digits_loop_asuffix in E. intros H; inv H. eapply asuffix_trans; eauto.
Qed.

Lemma p_word_break_eq s r : p_word_break s = Some r -> r = s.
Proof. destruct s as [|c t]; cbn; [congruence|]. destruct (is_ident_continue c); congruence. Qed.

Lemma number_tail_spec c : wfc c -> number_tail c = lift c (p_number_tail (rest c)).
Proof.
  intros Hw. unfold number_tail, p_number_tail, first_char.
  assert (Hself : word_break c = lift c (p_word_break (rest c))) by now apply word_break_spec.
  destruct (rest c) as [|ch t] eqn:E; [exact Hself|].
  destruct (is_ident_start ch) eqn:Ei; [|exact Hself].
  pose proof (literal_suffix_spec c Hw) as Hs. unfold literal_suffix in Hs.
  assert (Hi : exists x, ident_not_raw c = Ok x).
  { rewrite ident_not_raw_spec, E. unfold p_ident_not_raw. rewrite Ei.
    destruct (p_continue t). cbn. eauto. }
  destruct Hi as [[c' x] Hi]. rewrite Hi in *. cbn [if_ok bind] in *. inv Hs.
  rewrite word_break_spec, rest_cur_of, E by auto.
  destruct (p_word_break (p_suffix (ch :: t))) as [r|] eqn:Ew; [|reflexivity].
  apply p_word_break_eq in Ew as ->. cbn [lift]. rewrite cur_of_trans; auto.
  rewrite E. apply p_suffix_suffix.
Qed.

Lemma p_number_tail_suffix s r : p_number_tail s = Some r -> suffix r s.
Proof.
  unfold p_number_tail. destruct s as [|c t]; [intros H; inv H; auto|].
  destruct (is_ident_start c); intros H; apply p_word_break_eq in H as ->; auto.
  apply p_suffix_suffix.
Qed.

Lemma tail_lift c (D : res cursor) d :
  D = lift c d -> (forall r, d = Some r -> suffix r (rest c)) ->
  (let? r := D in number_tail r) = lift c (obind d p_number_tail).
Proof.
  intros -> Hd. destruct d as [r|]; cbn [lift bind obind]; [|reflexivity].
  rewrite number_tail_spec, rest_cur_of by auto.
  destruct (p_number_tail r) as [x|] eqn:E; [|reflexivity]. cbn [lift].
  rewrite cur_of_trans; auto. now apply p_number_tail_suffix.
Qed.

Lemma float_lit_spec c : float_lit c = lift c (p_float (rest c)).
Proof.
  apply tail_lift; [apply float_digits_spec|]. intros r H.
  now apply p_float_digits_asuffix, asuffix_suffix in H.
Qed.
Lemma int_lit_spec c : wfc c -> int_lit c = lift c (p_int (rest c)).
Proof.
  intros Hw. apply tail_lift; [now apply digits_spec|]. intros r H.
  now apply p_digits_asuffix, asuffix_suffix in H.
Qed.
Lemma p_float_suffix s r : p_float s = Some r -> suffix r s.
Proof.
  unfold p_float. destruct (p_float_digits s) as [x|] eqn:E; [|discriminate]. cbn [obind].
  apply p_float_digits_asuffix, asuffix_suffix in E. intros H. apply p_number_tail_suffix in H.
  now apply suffix_trans with x.
Qed.
Lemma p_int_suffix s r : p_int s = Some r -> suffix r s.
Proof.
  unfold p_int. destruct (p_digits s) as [x|] eqn:E; [|discriminate]. cbn [obind].
  apply p_digits_asuffix, asuffix_suffix in E. intros H. apply p_number_tail_suffix in H.
  now apply suffix_trans with x.
Qed.

(** *** Literals *)
Lemma q_string_suffix s r : q_string s = Some r -> suffix r s.
Proof.
  unfold q_string. destruct (starts_with _ _).
  - intros H. apply p_cooked_suffix in H; [|exact esc_str_shrinks]. eapply suffix_trans; [exact H|auto].
  - destruct (starts_with _ _); [|discriminate]. intros H. apply p_raw_with_suffix in H.
    eapply suffix_trans; [exact H|auto].
Qed.
Lemma q_byte_string_suffix s r : q_byte_string s = Some r -> suffix r s.
Proof.
  unfold q_byte_string. destruct (starts_with _ _).
  - intros H. apply p_cooked_suffix in H; [|exact esc_byte_shrinks]. eapply suffix_trans; [exact H|auto].
  - destruct (starts_with _ _); [|discriminate]. intros H. apply p_raw_with_suffix in H.
    eapply suffix_trans; [exact H|auto].
Qed.
Lemma q_c_string_suffix s r : q_c_string s = Some r -> suffix r s.
Proof.
  unfold q_c_string. destruct (starts_with _ _).
  - intros H. apply p_cooked_suffix in H; [|exact esc_c_shrinks]. eapply suffix_trans; [exact H|auto].
  - destruct (starts_with _ _); [|discriminate]. intros H. apply p_raw_with_suffix in H.
    eapply suffix_trans; [exact H|auto].
Qed.
Lemma q_byte_suffix s r : q_byte s = Some r -> suffix r s.
Proof.
  unfold q_byte. destruct (starts_with _ _); [|discriminate].
  destruct (u_byte (skipn 2 s)) as [x|] eqn:E; [|discriminate]. cbn [obind].
  intros H. apply closing_quote_suffix in H. apply u_byte_suffix in E.
  apply suffix_trans with x; auto. eapply suffix_trans; [exact E|auto].
Qed.
Lemma q_char_suffix s r : q_char s = Some r -> suffix r s.
Proof.
  unfold q_char. destruct (starts_with _ _); [|discriminate].
  destruct (u_char (skipn 1 s)) as [x|] eqn:E; [|discriminate]. cbn [obind].
  intros H. apply closing_quote_suffix in H. apply u_char_suffix in E.
  apply suffix_trans with x; auto. eapply suffix_trans; [exact E|auto].
Qed.
Lemma p_quoted_suffix s r : p_quoted s = Some r -> suffix r s.
Proof.
  unfold p_quoted, orelse.
  destruct (q_string s) eqn:E1; [intros H; inv H; now apply q_string_suffix|].
  destruct (q_byte_string s) eqn:E2; [intros H; inv H; now apply q_byte_string_suffix|].
  destruct (q_c_string s) eqn:E3; [intros H; inv H; now apply q_c_string_suffix|].
  destruct (q_byte s) eqn:E4; [intros H; inv H; now apply q_byte_suffix|].
  apply q_char_suffix.
Qed.
Lemma p_literal_suffix s r : p_literal s = Some r -> suffix r s.
Proof.
  unfold p_literal, orelse. destruct (p_quoted s) as [x|] eqn:E; cbn [omap].
  - apply p_quoted_suffix in E. intros H. assert (p_suffix x = r) by congruence. subst r.
    apply suffix_trans with x; auto. apply p_suffix_suffix.
  - destruct (p_float s) eqn:E2; [intros H; inv H; now apply p_float_suffix|].
    apply p_int_suffix.
Qed.

Lemma literal_nocapture_spec c : wfc c -> literal_nocapture c = lift c (p_literal (rest c)).
Proof.
  intros Hw. unfold literal_nocapture, p_literal, p_quoted.
  rewrite string_lit_spec, byte_string_spec, c_string_spec, byte_lit_spec, character_spec,
    float_lit_spec, int_lit_spec by exact Hw.
  unfold lift_suffix.
  destruct (q_string _); [reflexivity|]. destruct (q_byte_string _); [reflexivity|].
  destruct (q_c_string _); [reflexivity|]. destruct (q_byte _); [reflexivity|].
  destruct (q_char _); [reflexivity|]. cbn [omap orelse lift if_ok].
  destruct (p_float _); [reflexivity|]. destruct (p_int _); reflexivity.
Qed.

Lemma prefix_of_app p r : prefix_of (p ++ r) r = p.
Proof.
  unfold prefix_of. rewrite app_length, Nat.add_sub, firstn_app, Nat.sub_diag, firstn_all.
  apply app_nil_r.
Qed.
Lemma prefix_of_eq s r : suffix r s -> s = prefix_of s r ++ r.
Proof. intros [p ->]. now rewrite prefix_of_app. Qed.

Lemma literal_spec c : wfc c ->
  literal c = match p_literal (rest c) with
              | Some r => Ok (cur_of c r, prefix_of (rest c) r)
              | None => Reject
              end.
Proof.
  intros Hw. unfold literal. rewrite literal_nocapture_spec by exact Hw.
  destruct (p_literal (rest c)) as [r|] eqn:E; cbn [lift bind]; [|reflexivity].
  rewrite rest_cur_of. apply p_literal_suffix in E as [p E]. rewrite E, prefix_of_app.
  rewrite (slice_to_eq _ p r); [reflexivity|reflexivity|]. rewrite str_len_app. lia.
Qed.

(** *** Puncts *)
Lemma punct_char_spec c : punct_char c = lift2 c (p_punct_char (rest c)).
Proof.
  unfold punct_char, p_punct_char, cstarts, first_char. destruct (_ || _); [reflexivity|].
  destruct (rest c) as [|x t] eqn:E; [reflexivity|].
  destruct (contains _ _); [|reflexivity].
  rewrite (advance_app c [x] t); [reflexivity|exact E|cbn; lia].
Qed.

Lemma p_punct_char_spec s r c : p_punct_char s = Some (r, c) -> s = c :: r /\ In c punct_recognized.
Proof.
  unfold p_punct_char. destruct (_ || _); [discriminate|]. destruct s as [|x t]; [discriminate|].
  destruct (contains _ _) eqn:E; [|discriminate]. intros H; inv H. split; [reflexivity|].
  now apply contains_In.
Qed.

(** Every character the lexer recognizes is one [Punct::new] accepts, and vice versa. *)
Lemma punct_sets c : contains punct_new_chars c = contains punct_recognized c.
Proof.
  apply eq_true_iff_eq. rewrite !contains_In.
  unfold punct_new_chars, punct_recognized. cbn [In]. intuition subst.
Qed.

Lemma head_is_starts c s : starts_with s [c] = head_is c s.
Proof. apply starts_with_single. Qed.

Definition lift_leaf (c : cursor) (o : option (str * (span -> token))) : res (cursor * token) :=
  match o with Some (r, k) => Ok (cur_of c r, k call_site) | None => Reject end.

Lemma punct_spec c :
  punct c = match p_punct (rest c) with
            | Some (r, (ch, sp)) => Ok (cur_of c r, TPunct ch sp call_site)
            | None => Reject
            end.
Proof.
  unfold punct, p_punct. rewrite punct_char_spec.
  destruct (p_punct_char (rest c)) as [[r ch]|] eqn:E; cbn [lift2 bind]; [|reflexivity].
  apply p_punct_char_spec in E as [E Hin].
  assert (Hn : forall sp, punct_new ch sp = Ok (TPunct ch sp call_site)).
  { intros sp. unfold punct_new. rewrite punct_sets. now rewrite (proj2 (contains_In _ _) Hin). }
  destruct (N.eqb_spec ch SQUOTE) as [->|].
  - rewrite ident_any_spec, rest_cur_of by auto.
    destruct (p_ident_any r) as [[after x]|]; cbn [lift2 bind]; [|reflexivity].
    unfold cstarts_char, cstarts. rewrite !rest_cur_of, !head_is_starts.
    destruct (_ || _); [reflexivity|]. rewrite Hn. reflexivity.
  - rewrite punct_char_spec, rest_cur_of.
    destruct (p_punct_char r) as [[r2 c2]|]; cbn [lift2 if_ok bind]; now rewrite Hn.
Qed.

Lemma leaf_token_spec c : wfc c -> leaf_token c = lift_leaf c (p_leaf (rest c)).
Proof.
  intros Hw. unfold leaf_token, p_leaf. rewrite literal_spec, punct_spec, ident_spec by exact Hw.
  destruct (p_literal (rest c)) as [r|]; [reflexivity|]. cbn [if_ok].
  destruct (p_punct (rest c)) as [[r [ch sp]]|]; [reflexivity|]. cbn [if_ok].
  destruct (p_ident (rest c)) as [[r [sym raw]]|]; [reflexivity|]. cbn [lift2 if_ok].
  unfold cstarts. destruct (starts_with (rest c) ERROR) eqn:E; [|reflexivity].
  apply starts_with_skipn in E. rewrite (advance_app _ _ _ _ E eq_refl). reflexivity.
Qed.

Lemma set_span_leaf s r k sp : p_leaf s = Some (r, k) -> set_span (k call_site) sp = k sp.
Proof.
  unfold p_leaf. destruct (p_literal s) as [x|]; [intros H; inv H; reflexivity|].
  destruct (p_punct s) as [[x [ch sp']]|]; [intros H; inv H; reflexivity|].
  destruct (p_ident s) as [[x [sym raw]]|]; [intros H; inv H; reflexivity|].
  destruct (starts_with s ERROR); [|discriminate]. intros H; inv H; reflexivity.
Qed.

Lemma p_ident_any_app s r x b : p_ident_any s = Some (r, (x, b)) ->
  s = (if b then tag "r#" else []) ++ x ++ r.
Proof.
  unfold p_ident_any. destruct (starts_with s (tag "r#")) eqn:E.
  - destruct (p_ident_not_raw (skipn 2 s)) as [[r' x']|] eqn:E2; [|discriminate].
    destruct (cannot_be_raw x'); [discriminate|]. intros H; inv H.
    apply p_ident_not_raw_app in E2. apply starts_with_skipn in E. rewrite E. cbn [length].
    now rewrite E2.
  - destruct (p_ident_not_raw s) as [[r' x']|] eqn:E2; [|discriminate]. intros H; inv H.
    now apply p_ident_not_raw_app in E2.
Qed.

Lemma p_ident_not_raw_nonempty s r x : p_ident_not_raw s = Some (r, x) -> x <> [].
Proof.
  unfold p_ident_not_raw. destruct s as [|c t]; [discriminate|]. destruct (is_ident_start c); [|discriminate].
  destruct (p_continue t). intros H; inv H. discriminate.
Qed.

Lemma p_ident_shorter s r x : p_ident s = Some (r, x) -> length r < length s.
Proof.
  unfold p_ident. destruct (existsb _ _); [discriminate|]. unfold p_ident_any.
  destruct (starts_with s _).
  - destruct (p_ident_not_raw (skipn 2 s)) as [[r' x']|] eqn:E2; [|discriminate].
    destruct (cannot_be_raw x'); [discriminate|]. intros H; inv H.
    pose proof (suffix_length _ _ (skipn_suffix 2 s)).
    pose proof (p_ident_not_raw_nonempty _ _ _ E2). apply p_ident_not_raw_app in E2. rewrite E2 in *.
    rewrite app_length in *. destruct x'; [congruence|]. cbn in *. lia.
  - destruct (p_ident_not_raw s) as [[r' x']|] eqn:E2; [|discriminate]. intros H; inv H.
    pose proof (p_ident_not_raw_nonempty _ _ _ E2). apply p_ident_not_raw_app in E2 as ->.
    rewrite app_length. destruct x'; [congruence|]. cbn. lia.
Qed.

(** A literal is never empty. *)
Lemma skipn_shorter n (s r : str) t :
  starts_with s t = true -> 0 < length t -> n = length t -> suffix r (skipn n s) -> length r < length s.
Proof.
  intros H Ht -> Hr. apply starts_with_skipn in H. apply suffix_length in Hr. rewrite H.
  rewrite app_length. lia.
Qed.

Lemma p_quoted_shorter s r : p_quoted s = Some r -> length r < length s.
Proof.
  unfold p_quoted, orelse.
  destruct (q_string s) as [x|] eqn:E1.
  { intros H; inv H. unfold q_string in E1. destruct (starts_with s _) eqn:Es.
    - apply p_cooked_suffix in E1; [|exact esc_str_shrinks].
      apply (skipn_shorter 1 s r _ Es); auto; cbn; lia.
    - destruct (starts_with s (tag "r")) eqn:Es2; [|discriminate]. apply p_raw_with_suffix in E1.
      apply (skipn_shorter 1 s r _ Es2); auto; cbn; lia. }
  destruct (q_byte_string s) as [x|] eqn:E2.
  { intros H; inv H. unfold q_byte_string in E2. destruct (starts_with s _) eqn:Es.
    - apply p_cooked_suffix in E2; [|exact esc_byte_shrinks].
      apply (skipn_shorter 2 s r _ Es); auto; cbn; lia.
    - destruct (starts_with s (tag "br")) eqn:Es2; [|discriminate]. apply p_raw_with_suffix in E2.
      apply (skipn_shorter 2 s r _ Es2); auto; cbn; lia. }
  destruct (q_c_string s) as [x|] eqn:E3.
  { intros H; inv H. unfold q_c_string in E3. destruct (starts_with s _) eqn:Es.
    - apply p_cooked_suffix in E3; [|exact esc_c_shrinks].
      apply (skipn_shorter 2 s r _ Es); auto; cbn; lia.
    - destruct (starts_with s (tag "cr")) eqn:Es2; [|discriminate]. apply p_raw_with_suffix in E3.
      apply (skipn_shorter 2 s r _ Es2); auto; cbn; lia. }
  destruct (q_byte s) as [x|] eqn:E4.
  { intros H; inv H. unfold q_byte in E4. destruct (starts_with s _) eqn:Es; [|discriminate].
    destruct (u_byte (skipn 2 s)) as [x|] eqn:E; [|discriminate]. cbn [obind] in E4.
    apply closing_quote_suffix in E4. apply u_byte_suffix in E.
    apply (skipn_shorter 2 s r _ Es); auto; cbn; try lia. eapply suffix_trans; eauto. }
  unfold q_char. destruct (starts_with s _) eqn:Es; [|discriminate].
  destruct (u_char (skipn 1 s)) as [x|] eqn:E; [|discriminate]. cbn [obind]. intros H.
  apply closing_quote_suffix in H. apply u_char_suffix in E.
  apply (skipn_shorter 1 s r _ Es); auto; cbn; try lia. eapply suffix_trans; eauto.
Qed.

Lemma p_float_shorter s r : p_float s = Some r -> length r < length s.
Proof.
  unfold p_float. destruct (p_float_digits s) as [x|] eqn:E; [|discriminate]. cbn [obind]. intros H.
  apply p_number_tail_suffix, suffix_length in H. enough (length x < length s) by lia.
  unfold p_float_digits in E. destruct s as [|c t]; [discriminate|].
  destruct (is_dec_digit c); [|discriminate].
  enough (suffix x t) as Hx by (apply suffix_length in Hx; cbn; lia).
  destruct (p_mantissa t false) as [[[hd he] r1]|] eqn:Em; [|discriminate].
  apply p_mantissa_asuffix, asuffix_suffix in Em. destruct (negb _); [discriminate|].
  destruct he.
  - destruct (p_exponent r1 false false) as [r2|] eqn:Ep.
    + apply p_exponent_asuffix, asuffix_suffix in Ep. inv E. eapply suffix_trans; eauto.
    + destruct hd; [|discriminate]. assert (Hx : p_mantissa_end t false = x) by congruence.
      subst x. apply asuffix_suffix, p_mantissa_end_asuffix.
  - inv E. auto.
Qed.

Lemma p_digits_loop_same base s e r : p_digits_loop base s true = Some (r, e) ->
  e = false -> length r < length s.
Proof.
  revert r e. induction s as [|c t IH]; intros r e; cbn [p_digits_loop].
  - intros H He; inv H; discriminate.
  - assert (Hs : forall e0, p_digits_loop base t e0 = Some (r, e) -> length r < length (c :: t)).
    { intros e0 H. apply p_digits_loop_asuffix, asuffix_suffix, suffix_length in H. cbn. lia. }
    destruct (between _ _ _); [destruct (_ <=? _)%N; [discriminate|eauto]|].
    destruct (between _ _ _); [destruct (_ <=? _)%N; [intros H He; inv H; discriminate|eauto]|].
    destruct (between _ _ _); [destruct (_ <=? _)%N; [intros H He; inv H; discriminate|eauto]|].
    destruct (_ =? _)%N; [|intros H He; inv H; discriminate].
    destruct (_ && _); [discriminate|eauto].
Qed.

Lemma p_int_shorter s r : p_int s = Some r -> length r < length s.
Proof.
  unfold p_int. destruct (p_digits s) as [x|] eqn:E; [|discriminate]. cbn [obind]. intros H.
  apply p_number_tail_suffix, suffix_length in H. enough (length x < length s) by lia.
  unfold p_digits in E. pose proof (p_base_asuffix s) as Ha. destruct (p_base s) as [s' base].
  apply asuffix_suffix, suffix_length in Ha. cbn [fst] in Ha.
  destruct (p_digits_loop base s' true) as [[r' [|]]|] eqn:E'; try discriminate. inv E.
  apply p_digits_loop_same in E'; auto. lia.
Qed.

Lemma p_literal_shorter s r : p_literal s = Some r -> length r < length s.
Proof.
  unfold p_literal, orelse. destruct (p_quoted s) as [x|] eqn:E; cbn [omap].
  - apply p_quoted_shorter in E. intros H. assert (p_suffix x = r) by congruence. subst r.
    pose proof (suffix_length _ _ (p_suffix_suffix x)). lia.
  - destruct (p_float s) eqn:E2; [intros H; inv H; now apply p_float_shorter|].
    apply p_int_shorter.
Qed.

Lemma p_punct_shorter s r x : p_punct s = Some (r, x) -> suffix r s /\ length r < length s.
Proof.
  unfold p_punct. destruct (p_punct_char s) as [[r' c]|] eqn:E; [|discriminate].
  apply p_punct_char_spec in E as [-> _].
  destruct (_ =? _)%N.
  - destruct (p_ident_any r') as [[after y]|]; [|discriminate].
    destruct (_ || _); [discriminate|]. intros H; inv H. split; [auto|cbn; lia].
  - intros H; inv H. split; [auto|cbn; lia].
Qed.

Lemma p_leaf_shorter s r k : p_leaf s = Some (r, k) -> suffix r s /\ length r < length s.
Proof.
  unfold p_leaf. destruct (p_literal s) as [x|] eqn:E1.
  { intros H; inv H. split; [now apply p_literal_suffix|now apply p_literal_shorter]. }
  destruct (p_punct s) as [[x [ch sp']]|] eqn:E2.
  { intros H; inv H. now apply p_punct_shorter in E2. }
  destruct (p_ident s) as [[x [sym raw]]|] eqn:E3.
  { intros H; inv H. split; [|now apply p_ident_shorter in E3]. unfold p_ident in E3.
    destruct (existsb _ _); [discriminate|]. now apply p_ident_any_suffix in E3. }
  destruct (starts_with s ERROR) eqn:E; [|discriminate]. intros H.
  assert (Hr : skipn (length ERROR) s = r) by congruence. clear H. subst r.
  split; [apply skipn_suffix|]. apply (skipn_shorter 11 s _ _ E); auto. cbn; lia.
Qed.

(** *** Doc comments *)
Lemma p_block_pos d s r : p_block d s = Some r ->
  exists m, s = m ++ tag "*/" ++ r.
Proof.
  revert d. induction s as [s IH] using str_ind_len; intros d H.
  destruct s as [|a [|b t]]; try discriminate. cbn [p_block] in H.
  destruct (_ && _) in H.
  - apply IH in H as [m ->]; [|cbn; lia]. exists (a :: b :: m). reflexivity.
  - destruct (_ && _) eqn:E in H.
    + destruct d as [|[|d]]; try discriminate.
      * inv H. apply andb_prop in E as [E1 E2]. apply N.eqb_eq in E1 as ->. apply N.eqb_eq in E2 as ->.
        exists []. reflexivity.
      * apply IH in H as [m ->]; [|cbn; lia]. exists (a :: b :: m). reflexivity.
    + change (p_block d (b :: t) = Some r) in H.
      apply IH in H as [m ->]; [|cbn; lia]. exists (a :: m). reflexivity.
Qed.

(** [/*!...*/] and [/**...*/] (but not [/**/]) leave room for the three-char opener
    and the two-char closer. *)
Lemma block_doc_room s r x :
  p_block 0 s = Some r -> starts_with s (tag "/*" ++ [x]) = true ->
  (x = "*"%ch -> starts_with s (tag "/**/") = false) -> x <> "/"%ch ->
  exists m, s = (tag "/*" ++ [x]) ++ m ++ tag "*/" ++ r.
Proof.
  intros H Hs Hn Hx. apply starts_with_spec in Hs as [t ->].
  cbn [app] in *.
  assert (H1 : p_block 1 (x :: t) = Some r) by exact H.
  enough (exists m, t = m ++ tag "*/" ++ r) as [m ->] by (exists m; reflexivity).
  destruct t as [|b t]; [discriminate|]. cbn [p_block] in H1.
  destruct (_ && _) eqn:E1 in H1.
  { apply andb_prop in E1 as [E1 _]. apply N.eqb_eq in E1. congruence. }
  destruct (_ && _) eqn:E2 in H1.
  - apply andb_prop in E2 as [E2 E3]. apply N.eqb_eq in E2 as ->. apply N.eqb_eq in E3 as ->.
    specialize (Hn eq_refl). discriminate.
  - change (p_block 1 (b :: t) = Some r) in H1. now apply p_block_pos in H1.
Qed.

Lemma str_len_end m : str_len (m ++ tag "*/") - 2 = str_len m.
Proof. rewrite str_len_app. cbn [str_len]. rewrite !len_utf8_ascii by lia. lia. Qed.

Lemma doc_slice s r x m :
  ascii_str [x] -> s = (tag "/*" ++ [x]) ++ m ++ tag "*/" ++ r ->
  slice (prefix_of s r) 3 (str_len (prefix_of s r) - 2) = Ok m /\
  firstn (length (prefix_of s r) - 5) (skipn 3 (prefix_of s r)) = m.
Proof.
  intros Hx ->.
  replace ((tag "/*" ++ [x]) ++ m ++ tag "*/" ++ r)
    with (((tag "/*" ++ [x]) ++ m ++ tag "*/") ++ r) by (cbn [app]; now rewrite <- !app_assoc).
  rewrite prefix_of_app. inv Hx. split.
  - apply slice_eq with (p := tag "/*" ++ [x]) (r := tag "*/"); [reflexivity| |].
    + cbn. rewrite !len_utf8_ascii by (assumption || lia). lia.
    + rewrite !app_assoc, str_len_end. reflexivity.
  - cbn [app length skipn]. rewrite app_length. cbn [length].
    replace (S (S (S (length m + 2))) - 5) with (length m) by lia.
    now rewrite firstn_app, firstn_all, Nat.sub_diag, app_nil_r.
Qed.

Lemma no_empty_block s : p_skip1 s = None -> starts_with s (tag "/**/") = false.
Proof.
  unfold p_skip1. destruct s as [|c t]; [reflexivity|]. destruct (line_comment_start _); [discriminate|].
  destruct (starts_with _ _); [discriminate|reflexivity].
Qed.

Lemma line_shorter c r p x :
  rest c = p ++ r -> p <> [] ->
  fst (p_line r) = x -> suffix x (rest c) /\ length x < length (rest c).
Proof.
  intros E Hp <-. pose proof (p_line_suffix r) as H. split.
  - rewrite E. apply suffix_trans with r; auto.
  - apply suffix_length in H. rewrite E, app_length. destruct p; [congruence|]. cbn. lia.
Qed.

Lemma doc_comment_contents_spec c :
  p_skip1 (rest c) = None ->
  doc_comment_contents c
  = match p_doc_contents (rest c) with
    | Some (r, (x, inner)) => Ok (cur_of c r, (x, inner))
    | None => Reject
    end.
Proof.
  intros Hskip. apply no_empty_block in Hskip.
  unfold doc_comment_contents, p_doc_contents, cstarts.
  destruct (starts_with (rest c) (tag "//!")) eqn:E1.
  { apply starts_with_skipn in E1. rewrite (advance_app c _ _ 3 E1 eq_refl). cbn [bind].
    rewrite take_until_newline_spec, rest_cur_of. cbn [bind length].
    pose proof (p_line_suffix (skipn 3 (rest c))). destruct (p_line _) as [r x]. cbn [fst snd] in *.
    rewrite cur_of_trans; auto. }
  destruct (starts_with (rest c) (tag "/*!")) eqn:E2.
  { rewrite block_comment_spec.
    rewrite (starts_with_longer (rest c) (tag "/*") (tag "!") E2).
    destruct (p_block 0 (rest c)) as [r|] eqn:Eb; cbn [bind]; [|reflexivity].
    destruct (block_doc_room _ _ "!"%ch Eb E2) as [m Em]; [lia|lia|].
    destruct (doc_slice (rest c) r "!"%ch m ltac:(repeat constructor; lia) Em) as [H1 H2].
    rewrite H1. cbn [bind]. rewrite H2. reflexivity. }
  destruct (starts_with (rest c) (tag "///")) eqn:E3.
  { apply starts_with_skipn in E3. rewrite (advance_app c _ _ 3 E3 eq_refl). cbn [bind length].
    unfold cstarts_char. rewrite rest_cur_of, head_is_starts.
    destruct (head_is _ _); [reflexivity|].
    rewrite take_until_newline_spec, rest_cur_of. cbn [bind].
    pose proof (p_line_suffix (skipn 3 (rest c))). destruct (p_line _) as [r x]. cbn [fst snd] in *.
    rewrite cur_of_trans; auto. }
  destruct (starts_with (rest c) (tag "/**")) eqn:E4; [|reflexivity].
  pose proof (starts_with_skipn _ _ E4) as E4'.
  rewrite (slice_from_eq _ _ _ 3 E4' eq_refl). cbn [bind length].
  rewrite head_is_starts. cbn [andb]. destruct (head_is "*"%ch (skipn 3 (rest c))); [reflexivity|].
  cbn [negb]. rewrite block_comment_spec.
  rewrite (starts_with_longer (rest c) (tag "/*") (tag "*") E4).
  destruct (p_block 0 (rest c)) as [r|] eqn:Eb; cbn [bind]; [|reflexivity].
  destruct (block_doc_room _ _ "*"%ch Eb E4) as [m Em]; [auto|lia|].
  destruct (doc_slice (rest c) r "*"%ch m ltac:(repeat constructor; lia) Em) as [H1 H2].
  rewrite H1. cbn [bind]. rewrite H2. reflexivity.
Qed.

Lemma p_doc_shorter s r x : p_doc s = Some (r, x) -> suffix r s /\ length r < length s.
Proof.
  unfold p_doc, p_doc_contents.
  assert (Hl : forall t, starts_with s t = true -> 3 = length t ->
    suffix (fst (p_line (skipn 3 s))) s /\ length (fst (p_line (skipn 3 s))) < length s).
  { intros t Ht Hn. pose proof (p_line_suffix (skipn 3 s)) as H. split.
    - eapply suffix_trans; [exact H|auto].
    - apply (skipn_shorter 3 s _ _ Ht); auto; lia. }
  destruct (starts_with s (tag "//!")) eqn:E1.
  { specialize (Hl _ E1 eq_refl). destruct (p_line (skipn 3 s)) as [r' y].
    destruct (bare_cr y); [discriminate|]. intros H; inv H. exact Hl. }
  destruct (starts_with s (tag "/*!")).
  { destruct (p_block 0 s) as [r'|] eqn:Eb; [|discriminate]. cbn zeta. destruct (bare_cr _); [discriminate|].
    intros H; inv H. apply p_block_suffix in Eb as [H1 H2]. split; [auto|lia]. }
  destruct (starts_with s (tag "///")) eqn:E2.
  { destruct (head_is _ _); [discriminate|].
    specialize (Hl _ E2 eq_refl). destruct (p_line (skipn 3 s)) as [r' y].
    destruct (bare_cr y); [discriminate|]. intros H; inv H. exact Hl. }
  destruct (_ && _); [|discriminate].
  destruct (p_block 0 s) as [r'|] eqn:Eb; [|discriminate]. cbn zeta. destruct (bare_cr _); [discriminate|].
  intros H; inv H. apply p_block_suffix in Eb as [H1 H2]. split; [auto|lia].
Qed.

Lemma doc_comment_spec c :
  p_skip1 (rest c) = None ->
  doc_comment c
  = match p_doc (rest c) with
    | Some (r, (x, inner)) =>
        Ok (cur_of c r, doc_tokens x inner (mkspan (off c) (off (cur_of c r))))
    | None => Reject
    end.
Proof.
  intros Hs. unfold doc_comment, p_doc. rewrite doc_comment_contents_spec by exact Hs.
  destruct (p_doc_contents (rest c)) as [[r [x inner]]|]; cbn [bind]; [|reflexivity].
  destruct (bare_cr x); [reflexivity|].
  destruct inner; reflexivity.
Qed.

(** *** The main loop *)
Definition run_step (fuel : nat) (o : outcome) : res lexed :=
  match o with
  | Next c tokens stack => token_stream_loop fuel c tokens stack
  | Done l => Ok l
  end.

Lemma token_stream_step fuel c tokens stack :
  wfc c ->
  token_stream_loop (S fuel) c tokens stack
  = run_step fuel (p_step (cur_of c (p_skip (rest c))) tokens stack).
Proof.
  intros Hw. cbn [token_stream_loop]. rewrite skip_whitespace_eq by exact Hw. cbn [bind].
  pose proof (p_skip_fixed (rest c)) as Hskip.
  set (c1 := cur_of c (p_skip (rest c))).
  assert (Hw1 : wfc c1) by (apply wfc_cur_of).
  change (p_skip (rest c)) with (rest c1) in Hskip. clearbody c1. clear c Hw.
  rewrite doc_comment_spec by exact Hskip. unfold p_step.
  destruct (p_doc (rest c1)) as [[r [x inner]]|]; [reflexivity|]. cbn [if_ok].
  unfold first_byte. destruct (rest c1) as [|ch t] eqn:E.
  { cbn. destruct stack as [|[lo fr] stack]; reflexivity. }
  destruct (first_byte_char ch t) as (b & u & -> & Hb).
  unfold open_delimiter, open_delim, close_delimiter, close_delim, cstarts. rewrite E.
  assert (Hadv : (ch < 128)%N -> advance c1 1 = Ok (cur_of c1 t)).
  { intros Hc. apply (advance_app c1 [ch] t); [exact E|]. cbn. rewrite len_utf8_ascii by exact Hc. lia. }
  assert (Hleaf :
    if_ok (leaf_token c1)
     (fun '(r, tok) => token_stream_loop fuel r
         (tokens ++ [set_span tok (mkspan (off c1) (off r))]) stack) (Ok (lex_error c1))
    = run_step fuel
      match p_leaf (ch :: t) with
      | Some (r, k) => Next (cur_of c1 r) (tokens ++ [k (mkspan (off c1) (off (cur_of c1 r)))]) stack
      | None => Done (lex_error c1)
      end).
  { rewrite leaf_token_spec, E by exact Hw1.
    destruct (p_leaf (ch :: t)) as [[r k]|] eqn:El; cbn [lift_leaf if_ok]; [|reflexivity].
    rewrite (set_span_leaf _ _ _ _ El). reflexivity. }
  destruct Hb as [(Hc & -> & ->)|(Hc & Hb)].
  2: { repeat match goal with |- context [(b =? ?y)%N] => destruct (N.eqb_spec b y); [lia|] end.
       repeat match goal with |- context [(ch =? ?y)%N] => destruct (N.eqb_spec ch y); [lia|] end.
       exact Hleaf. }
  specialize (Hadv Hc).
  assert (Hopen : forall d, (let? input := advance c1 1 in
      token_stream_loop fuel input [] ((off c1, (d, tokens)) :: stack))
    = run_step fuel (Next (cur_of c1 t) [] ((off c1, (d, tokens)) :: stack)))
    by (intros d; rewrite Hadv; reflexivity).
  assert (Hclose : forall d,
    match stack with
    | [] => Ok (lex_error c1)
    | (lo, (od, outer)) :: stack =>
        if negb (delim_eqb od d) then Ok (lex_error c1)
        else let? input := advance c1 1 in
             token_stream_loop fuel input (outer ++ [TGroup od tokens (mkspan lo (off input))]) stack
    end = run_step fuel
      match stack with
      | [] => Done (lex_error c1)
      | (lo, (od, outer)) :: stack =>
          if negb (delim_eqb od d) then Done (lex_error c1)
          else Next (cur_of c1 t) (outer ++ [TGroup od tokens (mkspan lo (off (cur_of c1 t)))]) stack
      end).
  { intros d. destruct stack as [|[lo [od outer]] st]; [reflexivity|].
    destruct (negb _); [reflexivity|]. rewrite Hadv. reflexivity. }
  cbv zeta.
  destruct (_ && _); [apply Hopen|]. destruct (ch =? "["%ch)%N; [apply Hopen|].
  destruct (ch =? "{"%ch)%N; [apply Hopen|].
  destruct (ch =? ")"%ch)%N; [apply Hclose|]. destruct (ch =? "]"%ch)%N; [apply Hclose|].
  destruct (ch =? "}"%ch)%N; [apply Hclose|]. exact Hleaf.
Qed.

Lemma open_delim_spec s d r : open_delim s = Some (d, r) -> exists c, s = c :: r.
Proof.
  unfold open_delim. destruct s as [|c t]; [discriminate|].
  repeat destruct (_ && _) || destruct (_ =? _)%N; intros H; inv H; eauto.
Qed.
Lemma close_delim_spec s d r : close_delim s = Some (d, r) -> exists c, s = c :: r.
Proof.
  unfold close_delim. destruct s as [|c t]; [discriminate|].
  repeat destruct (_ =? _)%N; intros H; inv H; eauto.
Qed.

Lemma p_step_next c tokens stack c' tokens' stack' :
  p_step c tokens stack = Next c' tokens' stack' ->
  exists r, c' = cur_of c r /\ suffix r (rest c) /\ length r < length (rest c).
Proof.
  unfold p_step. destruct (p_doc (rest c)) as [[r [x inner]]|] eqn:Ed.
  { intros H; inv H. apply p_doc_shorter in Ed. eauto. }
  destruct (rest c) as [|ch t] eqn:E.
  { destruct stack as [|[lo fr] st]; discriminate. }
  destruct (open_delim (ch :: t)) as [[d r]|] eqn:Eo.
  { intros H; inv H. apply open_delim_spec in Eo as (x & Eo). inv Eo. exists r.
    split; [reflexivity|]. split; [auto|cbn; lia]. }
  destruct (close_delim (ch :: t)) as [[d r]|] eqn:Ec.
  { destruct stack as [|[lo [od outer]] st]; [discriminate|]. destruct (negb _); [discriminate|].
    intros H; inv H. apply close_delim_spec in Ec as (x & Ec). inv Ec. exists r.
    split; [reflexivity|]. split; [auto|cbn; lia]. }
  destruct (p_leaf (ch :: t)) as [[r k]|] eqn:El; [|discriminate]. intros H; inv H.
  apply p_leaf_shorter in El. eauto.
Qed.

(** The loop as a char-list computation. *)
Lemma token_stream_loop_p fuel c tokens stack :
  wfc c -> length (rest c) < fuel ->
  exists l, token_stream_loop fuel c tokens stack = Ok l /\ p_loop fuel c tokens stack = Some l.
Proof.
  revert c tokens stack. induction fuel as [|fuel IH]; intros c tokens stack Hw Hf; [lia|].
  rewrite token_stream_step by exact Hw. cbn [p_loop].
  destruct (p_step _ tokens stack) as [c' tokens' stack'|l] eqn:E; cbn [run_step]; [|eauto].
  apply p_step_next in E as (r & -> & Hr & Hl). rewrite rest_cur_of in *.
  apply IH; [auto|]. pose proof (suffix_length _ _ (p_skip_suffix (rest c))).
  rewrite rest_cur_of. lia.
Qed.

Lemma p_loop_enough n m c tokens stack :
  length (rest c) < n -> length (rest c) < m -> p_loop n c tokens stack = p_loop m c tokens stack.
Proof.
  revert m c tokens stack. induction n as [|n IH]; intros m c tokens stack Hn Hm; [lia|].
  destruct m as [|m]; [lia|]. cbn [p_loop].
  destruct (p_step _ tokens stack) as [c' tokens' stack'|l] eqn:E; [|reflexivity].
  apply p_step_next in E as (r & -> & Hr & Hl). rewrite rest_cur_of in *.
  pose proof (suffix_length _ _ (p_skip_suffix (rest c))).
  apply IH; rewrite rest_cur_of; lia.
Qed.

(** The total char-list lexer. *)
Definition run (c : cursor) (tokens : list token) (stack : list frame) : lexed :=
  match p_loop (S (length (rest c))) c tokens stack with Some l => l | None => Lexed [] end.

Lemma token_stream_loop_run fuel c tokens stack :
  wfc c -> length (rest c) < fuel -> token_stream_loop fuel c tokens stack = Ok (run c tokens stack).
Proof.
  intros Hw Hf. destruct (token_stream_loop_p fuel c tokens stack Hw Hf) as (l & -> & H).
  unfold run. rewrite (p_loop_enough _ fuel) by lia. now rewrite H.
Qed.

(** Unfolding equation. *)
Lemma run_eq c tokens stack : wfc c ->
  run c tokens stack
  = match p_step (cur_of c (p_skip (rest c))) tokens stack with
    | Next c tokens stack => run c tokens stack
    | Done l => l
    end.
Proof.
  intros Hw. pose proof (token_stream_loop_run (S (S (length (rest c)))) c tokens stack Hw ltac:(lia)) as H.
  rewrite token_stream_step in H by exact Hw.
  destruct (p_step _ tokens stack) as [c' tokens' stack'|l] eqn:E; cbn [run_step] in H; [|congruence].
  apply p_step_next in E as (r & -> & Hr & Hl). rewrite rest_cur_of in *.
  pose proof (suffix_length _ _ (p_skip_suffix (rest c))).
  rewrite token_stream_loop_run in H by (rewrite ?rest_cur_of; auto; lia). congruence.
Qed.

Lemma token_stream_run c : wfc c -> token_stream c = Ok (run c [] []).
Proof.
  intros Hw. unfold token_stream. apply token_stream_loop_run; auto.
  pose proof (length_le_str_len (rest c)). lia.
Qed.

(** The text after an optional byte order mark, and the cursor there. *)
Definition strip_bom (src : str) : str :=
  match src with c :: t => if (c =? 0xFEFF)%N then t else src | [] => src end.

Lemma token_stream_from_str_run start src : (start < two32)%N ->
  token_stream_from_str start src = Ok (run (cur_of (mkcur src start) (strip_bom src)) [] []).
Proof.
  intros Hs. unfold token_stream_from_str, cstarts, BYTE_ORDER_MARK. cbn [rest].
  rewrite starts_with_single. unfold strip_bom.
  assert (Hw : wfc (mkcur src start)) by exact Hs.
  pose proof (cur_of_self _ Hw) as Hself. cbn [rest] in Hself.
  destruct src as [|c t] eqn:E.
  - cbn [bind]. rewrite token_stream_run by exact Hw. now rewrite Hself.
  - rewrite (N.eqb_sym 0xFEFF c). destruct (N.eqb_spec c 0xFEFF) as [->|].
    + rewrite (advance_app _ [65279%N] t) by reflexivity. cbn [bind].
      apply token_stream_run. auto.
    + cbn [bind]. rewrite token_stream_run by exact Hw. now rewrite Hself.
Qed.

(** [Literal::from_str] in char-list form. *)
Definition p_literal_from_str (src : str) : option str :=
  let negative := head_is "-"%ch src in
  let s := if negative then skipn 1 src else src in
  if negative && negb (match s with c :: _ => is_dec_digit c | [] => false end) then None
  else match p_literal s with Some [] => Some src | _ => None end.

Lemma literal_from_str_spec start src : (start < two32)%N ->
  literal_from_str start src
  = Ok match p_literal_from_str src with
       | Some repr => LitOk repr (mkspan start (wrap32 (start + N.of_nat (length src))))
       | None => LitErr call_site
       end.
Proof.
  intros Hs. unfold literal_from_str, p_literal_from_str, cstarts_char. cbn [rest].
  rewrite head_is_starts.
  assert (Hw : wfc (mkcur src start)) by exact Hs.
  destruct (head_is "-"%ch src) eqn:Eh.
  - destruct src as [|c t]; [discriminate|]. cbn [head_is] in Eh. apply N.eqb_eq in Eh as <-.
    rewrite (advance_app _ ["-"%ch] t) by reflexivity. cbn [bind skipn andb].
    unfold first_char. rewrite rest_cur_of. destruct t as [|d t]; [reflexivity|].
    destruct (is_dec_digit d); cbn [negb if_ok]; [|reflexivity].
    rewrite literal_spec, rest_cur_of by auto.
    destruct (p_literal (d :: t)) as [r|] eqn:El; cbn [if_ok]; [|reflexivity].
    rewrite rest_cur_of. destruct r as [|x r]; [|reflexivity].
    apply p_literal_suffix, prefix_of_eq in El. rewrite app_nil_r in El. rewrite <- El.
    do 3 f_equal. unfold cur_of. cbn [off rest length].
    rewrite wrap32_add_l. f_equal. lia.
  - cbn [if_ok andb]. rewrite literal_spec by exact Hw. cbn [rest].
    destruct (p_literal src) as [r|] eqn:El; cbn [if_ok]; [|reflexivity].
    rewrite rest_cur_of. destruct r as [|x r]; [|reflexivity].
    apply p_literal_suffix, prefix_of_eq in El. rewrite app_nil_r in El. rewrite <- El.
    do 3 f_equal. unfold cur_of. cbn [off rest length]. f_equal. lia.
Qed.

End WithUnicode.
