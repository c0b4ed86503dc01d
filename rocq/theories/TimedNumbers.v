(** Bounds on the number of steps: numbers.

    An attempt at a float can look at more than the number takes: [1.5e5] followed by a
    combining mark is read as [1], [.], [5e5..] after the whole text has been scanned, and
    [1e+___] as [1e], [+], [___].  What is scanned in vain is measured from where the
    number ends: [dotted] if it ends at a dot and [signed] if it ends at a sign. *)
From Verif Require Import Base BaseFacts Unicode Tokens Lexer PureLexer LexerEquiv LexerEquiv2 LexerEquiv4.
From Verif Require Import Timed TimedErase TimedBounds.

Definition du (c : char) : bool := is_dec_digit c || (c =? "_"%ch)%N.
Definition is_sign (c : char) : bool := (c =? "+"%ch)%N || (c =? "-"%ch)%N.
Definition is_e (c : char) : bool := (c =? "e"%ch)%N || (c =? "E"%ch)%N.

(** Digits and underscores in front, and the text after them. *)
Fixpoint run (s : str) : nat :=
  match s with c :: t => if du c then S (run t) else 0 | [] => 0 end.
Fixpoint past (s : str) : str :=
  match s with c :: t => if du c then past t else s | [] => [] end.
Definition signed (s : str) : nat :=
  match s with c :: t => if is_sign c then S (run t) else 0 | [] => 0 end.
Definition expo (s : str) : nat := run s + signed (past s).
Definition mant (s : str) : nat :=
  run s + match past s with c :: t => if is_e c then S (expo t) else 0 | [] => 0 end.
Definition digit_start (s : str) : bool :=
  match s with c :: _ => is_dec_digit c | [] => false end.
Definition dotted (s : str) : nat :=
  match s with
  | c :: t => if (c =? "."%ch)%N then S (if digit_start t then mant t else 0) else 0
  | [] => 0
  end.
Definition scan (s : str) : nat := mant s + dotted (past s).

Lemma du_ascii c : du c = true -> len_utf8 c = 1.
Proof. intros H. apply len_utf8_ascii. unfold du, is_dec_digit, between in H. lia. Qed.
Lemma run_past s : run s + str_len (past s) = str_len s.
Proof.
  induction s as [|c t IH]; [reflexivity|]. cbn [run past str_len].
  destruct (du c) eqn:E; [|reflexivity]. apply du_ascii in E. lia.
Qed.
Lemma past_head s c t : past s = c :: t -> du c = false.
Proof.
  induction s as [|x s IH]; cbn; [discriminate|]. destruct (du x) eqn:E; [exact IH|].
  intros H. injection H as -> _. exact E.
Qed.
Lemma run_stop c t : du c = false -> run (c :: t) = 0 /\ past (c :: t) = c :: t.
Proof. intros H. cbn. now rewrite H. Qed.
Lemma past_idem s : past (past s) = past s /\ run (past s) = 0.
Proof. destruct (past s) as [|c t] eqn:E; [easy|]. apply past_head in E. cbn. now rewrite E. Qed.

Lemma signed_len s : signed s <= str_len s.
Proof.
  destruct s as [|c t]; cbn; [lia|]. pose proof (len_utf8_pos c). pose proof (run_past t).
  destruct (is_sign c); lia.
Qed.
Lemma expo_len s : expo s <= str_len s.
Proof. unfold expo. pose proof (run_past s). pose proof (signed_len (past s)). lia. Qed.
Lemma mant_len s : mant s <= str_len s.
Proof.
  unfold mant. pose proof (run_past s). destruct (past s) as [|c t]; [lia|].
  cbn [str_len] in *. pose proof (len_utf8_pos c). pose proof (expo_len t). destruct (is_e c); lia.
Qed.
Lemma dotted_len s : dotted s <= str_len s.
Proof.
  destruct s as [|c t]; cbn [dotted str_len]; [lia|]. pose proof (len_utf8_pos c). pose proof (mant_len t).
  destruct (_ =? _)%N; [|lia]. destruct (digit_start t); lia.
Qed.
Lemma scan_len s : scan s <= str_len s + str_len s.
Proof.
  unfold scan. pose proof (mant_len s). pose proof (run_past s). pose proof (dotted_len (past s)). lia.
Qed.

Lemma suffix_len r s : suffix r s -> str_len r <= str_len s.
Proof. intros [p ->]. rewrite str_len_app. lia. Qed.

Section WithUnicode.
Context {U : unicode} (HU : unicode_ok U).

Lemma start_ascii c : (c < 128)%N -> is_ident_start c = (c =? "_"%ch)%N || ascii_letter c.
Proof. intros H. unfold is_ident_start. now rewrite (xid_start_ascii U HU) by exact H. Qed.
Lemma continue_ascii c : (c < 128)%N ->
  is_ident_continue c = ascii_letter c || is_dec_digit c || (c =? "_"%ch)%N.
Proof. exact (xid_continue_ascii U HU c). Qed.

Lemma du_continue c : du c = true -> is_ident_continue c = true.
Proof.
  intros H. rewrite continue_ascii by (unfold du, is_dec_digit, between in H; lia).
  unfold du in H. rewrite <- orb_assoc, H. apply orb_true_r.
Qed.
Lemma digit_not_start c : is_dec_digit c = true -> is_ident_start c = false.
Proof.
  intros H. unfold is_dec_digit, between in H. rewrite start_ascii by lia. unfold ascii_letter, between. lia.
Qed.
Lemma e_start c : is_e c = true -> is_ident_start c = true.
Proof.
  intros H. unfold is_e in H. rewrite start_ascii by lia. unfold ascii_letter, between. lia.
Qed.
Lemma sign_not c : is_sign c = true -> is_ident_start c = false /\ is_ident_continue c = false.
Proof.
  intros H. unfold is_sign in H. rewrite start_ascii, continue_ascii by lia.
  unfold ascii_letter, is_dec_digit, between. lia.
Qed.
Lemma dot_not : is_ident_start "."%ch = false /\ is_ident_continue "."%ch = false.
Proof. rewrite start_ascii, continue_ascii by lia. split; reflexivity. Qed.

(** *** Where numbers end *)
Lemma continue_past s : fst (p_continue s) = fst (p_continue (past s)).
Proof.
  induction s as [|c t IH]; [reflexivity|]. cbn [past]. destruct (du c) eqn:E; [|reflexivity].
  rewrite <- IH. cbn [p_continue]. rewrite (du_continue c E). now destruct (p_continue t).
Qed.
Lemma continue_suffix s : suffix (fst (p_continue s)) s.
Proof. exists (snd (p_continue s)). apply p_continue_app. Qed.
Lemma suffix_of_start c t : is_ident_start c = true -> p_suffix (c :: t) = fst (p_continue t).
Proof. intros H. unfold p_suffix, p_ident_not_raw. rewrite H. now destruct (p_continue t). Qed.
Lemma expo_suffix v : expo v + str_len (fst (p_continue v)) <= str_len v + signed (fst (p_continue v)).
Proof.
  rewrite continue_past. unfold expo. pose proof (run_past v).
  destruct (past v) as [|c w] eqn:E; [cbn in *; lia|].
  destruct (is_sign c) eqn:Es.
  - cbn [p_continue]. destruct (sign_not c Es) as [_ ->]. cbn [fst]. lia.
  - assert (signed (c :: w) = 0) by (cbn; now rewrite Es).
    pose proof (suffix_len _ _ (continue_suffix (c :: w))). lia.
Qed.
Lemma exponent_past v hv r : p_exponent v true hv = Some r -> r = past v.
Proof.
  revert hv. induction v as [|c t IH]; intros hv; cbn [p_exponent past].
  - destruct hv; [now intros [= <-]|discriminate].
  - unfold du. destruct ((c =? "+"%ch)%N || (c =? "-"%ch)%N) eqn:Es.
    + replace (is_dec_digit c || _) with false by (unfold is_dec_digit, between; lia).
      destruct hv; [now intros [= <-]|discriminate].
    + destruct (is_dec_digit c); cbn [orb]; [apply IH|].
      destruct (c =? "_"%ch)%N; [apply IH|]. destruct hv; [now intros [= <-]|discriminate].
Qed.
Lemma expo_exponent v hv r : p_exponent v false hv = Some r ->
  expo v + str_len r <= str_len v + signed r.
Proof.
  revert hv. induction v as [|c t IH]; intros hv; cbn [p_exponent].
  - destruct hv; [intros [= <-]; cbn; lia|discriminate].
  - assert (Hf : du c = false -> is_sign c = false \/ hv = true -> (if hv then Some (c :: t) else None) = Some r ->
      expo (c :: t) + str_len r <= str_len (c :: t) + signed r).
    { intros Hd _. destruct hv; [|discriminate]. intros [= <-]. unfold expo.
      destruct (run_stop c t Hd) as [-> ->]. lia. }
    destruct ((c =? "+"%ch)%N || (c =? "-"%ch)%N) eqn:Es.
    + assert (Hd : du c = false) by (unfold du, is_dec_digit, between; lia).
      destruct hv; [auto|]. intros H. apply exponent_past in H. subst r. unfold expo.
      destruct (run_stop c t Hd) as [-> ->]. cbn [signed str_len]. unfold is_sign. rewrite Es.
      pose proof (run_past t). pose proof (len_utf8_pos c). lia.
    + assert (Hd : du c = true -> forall hv', p_exponent t false hv' = Some r ->
        expo (c :: t) + str_len r <= str_len (c :: t) + signed r).
      { intros Hd hv' H. apply IH in H. unfold expo in *. cbn [run past str_len]. rewrite Hd.
        rewrite (du_ascii c Hd). lia. }
      unfold du in *. destruct (is_dec_digit c); [intros H; now apply (Hd eq_refl true)|].
      destruct (c =? "_"%ch)%N; [intros H; now apply (Hd eq_refl hv)|].
      apply Hf; [reflexivity|]. left. exact Es.
Qed.
Lemma tail_signed r0 r : p_number_tail r0 = Some r -> signed r0 + str_len r <= str_len r0 + signed r.
Proof.
  intros H. pose proof (suffix_len _ _ (p_number_tail_suffix _ _ H)).
  destruct r0 as [|c t]; [cbn [signed]; lia|].
  destruct (is_sign c) eqn:Es; [|cbn [signed]; rewrite Es; lia].
  destruct (sign_not c Es) as [E1 E2]. cbn [p_number_tail] in H. rewrite E1 in H. cbn [p_word_break] in H.
  rewrite E2 in H. injection H as <-. lia.
Qed.
Lemma tail_start c t r : is_ident_start c = true -> p_number_tail (c :: t) = Some r -> r = fst (p_continue t).
Proof.
  intros H. cbn [p_number_tail]. rewrite H, suffix_of_start by exact H.
  intros E. now apply p_word_break_eq in E.
Qed.

Lemma digits10 s : p_digits_loop 10 s false = Some (past s, false).
Proof.
  induction s as [|c t IH]; [reflexivity|]. cbn [p_digits_loop past]. unfold du, is_dec_digit.
  destruct (between "0"%ch c "9"%ch) eqn:E1; cbn [orb].
  - replace (10 <=? c - "0"%ch)%N with false by (unfold between in E1; lia). exact IH.
  - destruct (between "a"%ch c "f"%ch) eqn:E2.
    + replace (c =? "_"%ch)%N with false by (unfold between in E2; lia).
      replace (10 <=? 10 + (c - "a"%ch))%N with true by lia. reflexivity.
    + destruct (between "A"%ch c "F"%ch) eqn:E3.
      * replace (c =? "_"%ch)%N with false by (unfold between in E3; lia).
        replace (10 <=? 10 + (c - "A"%ch))%N with true by lia. reflexivity.
      * destruct (c =? "_"%ch)%N; [exact IH|reflexivity].
Qed.
Lemma int_scan s r : digit_start s = true -> p_int s = Some r ->
  run s + str_len r <= str_len s
  /\ (forall c v, past s = c :: v -> is_e c = true -> r = fst (p_continue v))
  /\ (forall v, past s = "."%ch :: v -> r = past s).
Proof.
  intros Hd H.
  assert (Hb : snd (p_base s) = 10%N /\ fst (p_base s) = s \/
               run s = 1 /\ exists c v, past s = c :: v /\ is_e c = false /\ c <> "."%ch).
  { unfold p_base. destruct s as [|a [|b t]]; cbn in Hd; [discriminate|left; cbn; rewrite !andb_false_r; easy|].
    destruct (starts_with (a :: b :: t) (tag "0x")) eqn:E1.
    { right. cbn in E1. apply andb_prop in E1 as [E1 E2]. apply andb_prop in E2 as [E2 _].
      apply N.eqb_eq in E1, E2. subst a b. split; [reflexivity|]. exists "x"%ch, t. repeat split. discriminate. }
    destruct (starts_with (a :: b :: t) (tag "0o")) eqn:E2.
    { right. cbn in E2. apply andb_prop in E2 as [E3 E2]. apply andb_prop in E2 as [E2 _].
      apply N.eqb_eq in E3, E2. subst a b. split; [reflexivity|]. exists "o"%ch, t. repeat split. discriminate. }
    destruct (starts_with (a :: b :: t) (tag "0b")) eqn:E3.
    { right. cbn in E3. apply andb_prop in E3 as [E4 E3]. apply andb_prop in E3 as [E3 _].
      apply N.eqb_eq in E3, E4. subst a b. split; [reflexivity|]. exists "b"%ch, t. repeat split. discriminate. }
    now left. }
  destruct Hb as [[E1 E2]|(E1 & c & v & E2 & E3 & E4)].
  - unfold p_int, p_digits in H. destruct (p_base s) as [s' base]. cbn in E1, E2. subst s' base.
    destruct s as [|c t]; [discriminate|]. cbn [digit_start] in Hd.
    assert (Ed : p_digits_loop 10 (c :: t) true = Some (past (c :: t), false)).
    { cbn [p_digits_loop past]. unfold du. rewrite Hd. unfold is_dec_digit in Hd. rewrite Hd.
      replace (10 <=? c - "0"%ch)%N with false by (unfold between in Hd; lia). apply digits10. }
    rewrite Ed in H. cbn [obind] in H. pose proof (run_past (c :: t)).
    pose proof (suffix_len _ _ (p_number_tail_suffix _ _ H)). repeat split.
    + lia.
    + intros e v E He. rewrite E in H. apply tail_start in H; [exact H|now apply e_start].
    + intros v E. rewrite E in *. cbn [p_number_tail] in H. destruct dot_not as [D1 D2]. rewrite D1 in H.
      cbn [p_word_break] in H. rewrite D2 in H. now injection H as <-.
  - repeat split.
    + rewrite E1. pose proof (suffix_shorter _ _ (p_int_suffix _ _ H) (p_int_shorter _ _ H)). lia.
    + intros c' v' E He. rewrite E in E2. injection E2 as -> ->. congruence.
    + intros v' E. rewrite E in E2. injection E2 as <- <-. congruence.
Qed.

Lemma mantissa_past s hd : p_mantissa s hd = p_mantissa (past s) hd.
Proof.
  induction s as [|c t IH]; [reflexivity|]. cbn [past]. destruct (du c) eqn:E; [|reflexivity].
  rewrite <- IH. cbn [p_mantissa]. unfold du in E. now rewrite E.
Qed.
Lemma mantissa_end_past s hd : p_mantissa_end s hd = p_mantissa_end (past s) hd.
Proof.
  induction s as [|c t IH]; [reflexivity|]. cbn [past]. destruct (du c) eqn:E; [|reflexivity].
  rewrite <- IH. cbn [p_mantissa_end]. unfold du in E. now rewrite E.
Qed.
(** A float literal takes all that is scanned, but for a sign and digits after it. *)
Lemma float_scan s r : p_float s = Some r -> scan s + str_len r <= str_len s + signed r /\
  mant s + str_len r <= str_len s + signed r.
Proof.
  intros H. enough (scan s + str_len r <= str_len s + signed r) by (unfold scan in *; lia).
  unfold p_float in H. destruct (p_float_digits s) as [r0|] eqn:E; [|discriminate]. cbn [obind] in H.
  pose proof (tail_signed _ _ H) as Ht. pose proof (suffix_len _ _ (p_number_tail_suffix _ _ H)) as Hl.
  unfold p_float_digits in E. destruct s as [|c t]; [discriminate|].
  destruct (is_dec_digit c) eqn:Ed; [|discriminate].
  assert (Hdu : du c = true) by (unfold du; now rewrite Ed).
  unfold scan, mant. cbn [run past str_len]. rewrite Hdu, (du_ascii c Hdu).
  rewrite mantissa_past, mantissa_end_past in E. pose proof (run_past t) as Hr.
  destruct (past t) as [|ch u] eqn:Ep; [discriminate|].
  pose proof (past_head _ _ _ Ep) as Hch. cbn [p_mantissa p_mantissa_end dotted] in *.
  unfold du in Hch. rewrite Hch in E. cbn [str_len] in Hr. pose proof (len_utf8_pos ch) as Hpos.
  destruct (N.eqb_spec ch "."%ch) as [->|].
  - change (is_e "."%ch) with false. cbv iota. change (len_utf8 "."%ch) with 1 in *.
    assert (E' : match p_mantissa u true with
                 | Some (_, has_exp, r) =>
                     if has_exp : bool then
                       match p_exponent r false false with
                       | None => Some (p_mantissa_end u true) | Some r => Some r
                       end
                     else Some r
                 | None => None end = Some r0
                 /\ (digit_start u = false -> exists z, u = z /\ past u = u /\ run u = 0
                      /\ match past u with c :: t => is_e c = false | [] => True end)).
    { destruct u as [|c2 u'].
      - split; [exact E|]. intros _. exists []. easy.
      - destruct ((c2 =? "."%ch)%N || is_ident_start c2) eqn:E2; [discriminate|].
        split.
        + destruct (p_mantissa (c2 :: u') true) as [[[hd he] q]|] eqn:Em; [|discriminate].
          assert (hd = true).
          { clear -Em. revert Em. generalize (c2 :: u') as l. induction l as [|x l IH]; cbn [p_mantissa]; [congruence|].
            destruct (_ || _); [exact IH|]. destruct (_ =? _)%N; [congruence|]. destruct (_ || _); congruence. }
          subst hd. cbn [orb negb] in E. exact E.
        + cbn [digit_start]. intros Hd2. apply orb_false_elim in E2 as [_ E2].
          assert (Hd3 : du c2 = false).
          { unfold du. rewrite Hd2. cbn [orb]. unfold is_ident_start in E2. now apply orb_false_elim in E2 as [E2 _]. }
          exists (c2 :: u'). cbn [past run]. rewrite Hd3. repeat split.
          destruct (is_e c2) eqn:Ee; [|reflexivity]. apply e_start in Ee. congruence. }
    destruct E' as [E' Hnd]. clear E. rewrite mantissa_past, mantissa_end_past in E'.
    assert (Hm : mant u + str_len r0 <= str_len u + signed r0 /\ (digit_start u = true -> True) \/ 
                 (exists c v, past u = c :: v /\ is_e c = true /\ r0 = c :: v)).
    { pose proof (run_past u) as Hru. unfold mant. destruct (past u) as [|c3 v] eqn:Epu.
      { cbn in E'. injection E' as <-. left. cbn in *. split; [lia|easy]. }
      pose proof (past_head _ _ _ Epu) as Hc3. cbn [p_mantissa p_mantissa_end] in E'.
      unfold du in Hc3. rewrite Hc3 in E'. cbn [str_len] in Hru.
      destruct (N.eqb_spec c3 "."%ch) as [->|].
      { injection E' as <-. left. change (is_e "."%ch) with false. cbn [str_len]. split; [lia|easy]. }
      unfold is_e. destruct ((c3 =? "e"%ch)%N || (c3 =? "E"%ch)%N) eqn:Ee.
      - destruct (p_exponent v false false) as [r1|] eqn:Ex.
        + injection E' as <-. apply expo_exponent in Ex. left. pose proof (len_utf8_pos c3). split; [lia|easy].
        + injection E' as <-. right. exists c3, v. repeat split. exact Ee.
      - injection E' as <-. left. cbn [str_len]. split; [lia|easy]. }
    destruct Hm as [[Hm _]|(c3 & v & Epu & Ee & ->)].
    + destruct (digit_start u); lia.
    + apply tail_start in H; [|now apply e_start]. subst r. pose proof (expo_suffix v) as Hx.
      pose proof (run_past u) as Hru. unfold mant. rewrite Epu in *. cbn [str_len] in Hru. rewrite Ee.
      pose proof (len_utf8_pos c3). destruct (digit_start u); lia.
  - unfold is_e. destruct ((ch =? "e"%ch)%N || (ch =? "E"%ch)%N) eqn:Ee; [|discriminate].
    cbn [orb negb] in E. destruct (p_exponent u false false) as [r1|] eqn:Ex; [|discriminate].
    injection E as <-. apply expo_exponent in Ex. lia.
Qed.
Lemma number_scan s r : digit_start s = true -> orelse (p_float s) (p_int s) = Some r ->
  mant s + str_len r <= str_len s + signed r
  /\ scan s + str_len r <= str_len s + signed r + dotted r.
Proof.
  intros Hd H. destruct (p_float s) as [r1|] eqn:Ef; cbn [orelse] in H.
  - injection H as <-. apply float_scan in Ef. lia.
  - destruct (int_scan s r Hd H) as (H1 & H2 & H3). unfold scan, mant. pose proof (run_past s) as Hr.
    destruct (past s) as [|c v] eqn:Ep; [cbn in *; lia|]. cbn [dotted].
    destruct (N.eqb_spec c "."%ch) as [->|].
    + specialize (H3 v eq_refl). subst r. change (is_e "."%ch) with false. cbv iota. cbn [dotted].
      change ("."%ch =? "."%ch)%N with true. cbv iota. lia.
    + destruct (is_e c) eqn:Ee; [|lia]. specialize (H2 c v eq_refl Ee). subst r.
      pose proof (expo_suffix v). pose proof (len_utf8_pos c). cbn [str_len] in Hr. lia.
Qed.

(** *** Steps *)
Notation left20 := (fun c : cursor => 20 * len c).

Lemma snd_charge {A} n (m : timed A) : snd (charge n m) = n + snd m. Proof. reflexivity. Qed.
Lemma mantissa_run s l hd :
  t_float_mantissa s l hd = charge (2 * run s) (t_float_mantissa (past s) (l + run s) hd).
Proof.
  revert l. induction s as [|c t IH]; intros l.
  - cbn [run past]. rewrite Nat.add_0_r. reflexivity.
  - cbn [run past]. destruct (du c) eqn:E.
    + cbn [t_float_mantissa]. unfold du in E. rewrite E, IH. unfold charge. cbn [fst snd].
      rewrite Nat.add_succ_l, Nat.add_succ_r. f_equal. lia.
    + rewrite Nat.add_0_r. unfold charge. cbn [Nat.mul Nat.add]. now destruct (t_float_mantissa _ _ _).
Qed.
Lemma exponent_cost2 s l hv :
  snd (t_float_exponent s l true hv) <= 2 * run s + 2
  /\ (forall n, fst (t_float_exponent s l true hv) = Ok (Some n) -> n <= l + run s).
Proof.
  revert l hv. induction s as [|c t IH]; intros l hv; cbn [t_float_exponent].
  { cbn. split; [lia|]. intros n. destruct hv; intros [= <-]; lia. }
  assert (Hf : snd (charge 2 (ret (if hv then Some l else None))) <= 2 * run (c :: t) + 2
    /\ (forall n, fst (charge 2 (ret (if hv then Some l else None))) = Ok (Some n) -> n <= l + run (c :: t))).
  { split; [cbn; lia|]. cbn [charge ret fst]. intros n. destruct hv; intros [= <-]; lia. }
  destruct ((c =? "+"%ch)%N || (c =? "-"%ch)%N) eqn:Es.
  { destruct hv; [exact Hf|]. split; [cbn; lia|discriminate]. }
  cbn [run]. unfold du. destruct (is_dec_digit c); [|destruct (c =? "_"%ch)%N]; cbn [orb].
  - destruct (IH (S l) true) as [H1 H2]. rewrite snd_charge. split; [lia|]. intros n E. apply H2 in E. lia.
  - destruct (IH (S l) hv) as [H1 H2]. rewrite snd_charge. split; [lia|]. intros n E. apply H2 in E. lia.
  - split; [cbn; lia|]. cbn [charge ret fst]. intros n. destruct hv; intros [= <-]; lia.
Qed.
Lemma exponent_cost s l hv :
  snd (t_float_exponent s l false hv) <= 2 * expo s + 2
  /\ (forall n, fst (t_float_exponent s l false hv) = Ok (Some n) -> n <= l + expo s).
Proof.
  revert l hv. induction s as [|c t IH]; intros l hv; cbn [t_float_exponent].
  { cbn. split; [lia|]. intros n. destruct hv; intros [= <-]; lia. }
  assert (Hf : snd (charge 2 (ret (if hv then Some l else None))) <= 2 * expo (c :: t) + 2
    /\ (forall n, fst (charge 2 (ret (if hv then Some l else None))) = Ok (Some n) -> n <= l + expo (c :: t))).
  { split; [cbn [charge ret fst snd]; lia|]. cbn [charge ret fst]. intros n. destruct hv; intros [= <-]; lia. }
  destruct ((c =? "+"%ch)%N || (c =? "-"%ch)%N) eqn:Es.
  { destruct hv; [exact Hf|]. destruct (exponent_cost2 t (S l) false) as [H1 H2]. rewrite snd_charge.
    assert (Ee : expo (c :: t) = S (run t)).
    { unfold expo. destruct (run_stop c t) as [-> ->]; [unfold du, is_dec_digit, between; lia|].
      cbn [signed]. unfold is_sign. now rewrite Es. }
    split; [lia|]. intros n E. apply H2 in E. lia. }
  assert (Ee : du c = true -> expo (c :: t) = S (expo t)) by (unfold expo; cbn [run past]; now intros ->).
  unfold du in Ee. destruct (is_dec_digit c); [|destruct (c =? "_"%ch)%N]; cbn [orb] in Ee.
  - destruct (IH (S l) true) as [H1 H2]. rewrite snd_charge, Ee by reflexivity.
    split; [lia|]. intros n E. apply H2 in E. lia.
  - destruct (IH (S l) hv) as [H1 H2]. rewrite snd_charge, Ee by reflexivity.
    split; [lia|]. intros n E. apply H2 in E. lia.
  - exact Hf.
Qed.

Lemma snd_bind {A B} (m : timed A) (f : A -> timed B) k :
  (forall x, fst m = Ok x -> snd (f x) <= k) -> snd (tbind m f) <= snd m + k.
Proof.
  destruct m as [[a| | |] n]; cbn; intros H; try lia. specialize (H a eq_refl). lia.
Qed.
Lemma snd_bind' {A B} (m : timed A) (f : A -> timed B) k h :
  (forall x, fst m = Ok x -> snd (f x) <= k) -> snd m + k <= h -> snd (tbind m f) <= h.
Proof. intros H1 H2. pose proof (snd_bind m f k H1). lia. Qed.
(** The rest of a float, from the exponent on. *)
Lemma exp_part_cost input v l (before : option cursor) n :
  expo v + l <= n ->
  snd (let! e := t_float_exponent v l false false in
       match e with
       | None => match before with Some c => ret c | None => reject end
       | Some len => t_advance input len
       end) <= 3 * n + 3.
Proof.
  intros Hn. destruct (exponent_cost v l false) as [H1 H2].
  apply snd_bind' with (k := n + 1); [|lia].
  intros [m|] E; [apply H2 in E; cbn; lia|]. destruct before; cbn; lia.
Qed.
Lemma float_digits_cost c : snd (t_float_digits c) <= 6 * scan (rest c) + 20.
Proof.
  unfold t_float_digits. rewrite snd_charge. destruct (rest c) as [|ch t] eqn:Es; [cbn; lia|].
  destruct (is_dec_digit ch) eqn:Ed; [|cbn; lia].
  assert (Hdu : du ch = true) by (unfold du; now rewrite Ed).
  unfold scan, mant. cbn [run past]. rewrite Hdu.
  rewrite mantissa_run. set (q := past t) in *. assert (Eq : past t = q) by reflexivity.
  destruct q as [|c1 u].
  { cbn [t_float_mantissa dotted]. cbn. lia. }
  pose proof (past_head _ _ _ Eq) as Hc1. unfold du in Hc1. cbn [t_float_mantissa dotted].
  rewrite Hc1.
  destruct (N.eqb_spec c1 "."%ch) as [->|].
  - change (is_e "."%ch) with false. cbv iota.
    destruct u as [|c2 u'].
    { cbn [t_float_mantissa t_advance work charge ret tbind fst snd orb negb]. lia. }
    destruct ((c2 =? "."%ch)%N || is_ident_start c2) eqn:E2; [cbn; lia|].
    rewrite mantissa_run. set (u := c2 :: u') in *.
    assert (Hm : digit_start u = true \/ digit_start u = false /\ run u = 0
                 /\ past u = u /\ is_e c2 = false).
    { cbn [digit_start u]. destruct (is_dec_digit c2) eqn:Hd2; [now left|right].
      apply orb_false_elim in E2 as [_ E2].
      assert (Hd3 : du c2 = false).
      { unfold du. rewrite Hd2. cbn [orb]. unfold is_ident_start in E2. now apply orb_false_elim in E2 as [E2 _]. }
      unfold u. cbn [run past]. rewrite Hd3. repeat split.
      destruct (is_e c2) eqn:Ee; [|reflexivity]. apply e_start in Ee. congruence. }
    set (k := if digit_start u then mant u else 0).
    assert (Hk : run u + match past u with c :: t => if is_e c then S (expo t) else 0 | [] => 0 end <= k).
    { subst k. destruct Hm as [->|(-> & -> & -> & Ee)]; [reflexivity|]. subst u. cbv iota beta. rewrite Ee. lia. }
    clearbody k. clear Hm.
    destruct (past u) as [|c3 v] eqn:Epu.
    + cbn [t_float_mantissa t_advance work charge ret tbind fst snd orb negb]. lia.
    + pose proof (past_head _ _ _ Epu) as Hc3. unfold du in Hc3. cbn [t_float_mantissa]. rewrite Hc3.
      destruct (c3 =? "."%ch)%N.
      { cbn [t_advance work charge ret tbind fst snd orb negb]. lia. }
      unfold is_e in Hk. destruct ((c3 =? "e"%ch)%N || (c3 =? "E"%ch)%N).
      * cbn [charge ret tbind fst snd orb negb].
        set (l := S (S (1 + run t) + run u)).
        assert (Hb : snd (let! before := let! c0 := t_advance c (l - 1) in ret (Some c0) in
                          let! e := t_float_exponent v l false false in
                          match e with
                          | Some len => t_advance c len
                          | None => match before with Some c0 => ret c0 | None => reject end
                          end) <= l + (3 * (expo v + l) + 3)).
        { eapply Nat.le_trans; [apply snd_bind with (k := 3 * (expo v + l) + 3)|].
          - intros b _. now apply exp_part_cost.
          - enough (snd (let! c0 := t_advance c (l - 1) in ret (Some c0)) <= l) by lia.
            unfold t_advance, work. destruct (advance c (l - 1)); subst l; cbn [tbind charge ret fst snd]; lia. }
        subst l. lia.
      * cbn [t_advance work charge ret tbind fst snd orb negb]. lia.
  - unfold is_e. destruct ((c1 =? "e"%ch)%N || (c1 =? "E"%ch)%N).
    + cbn [charge ret tbind fst snd orb negb]. rewrite Nat.add_0_l.
      pose proof (exp_part_cost c u (S (1 + run t)) None _ (Nat.le_refl _)). lia.
    + cbn. lia.
Qed.

Lemma number_tail_reject r :
  fst (t_number_tail r) = Reject -> snd (t_number_tail r) <= 6.
Proof.
  intros H. pose proof (er_number_tail r) as Er. unfold erases in Er. rewrite H in Er.
  unfold t_number_tail, first_char in *. destruct (rest r) as [|c t] eqn:Es; [cbn in *; lia|].
  destruct (is_ident_start c) eqn:Ei.
  - exfalso. clear H. unfold number_tail, first_char in Er. rewrite Es, Ei in Er.
    rewrite ident_not_raw_spec, Es in Er. unfold p_ident_not_raw in Er. rewrite Ei in Er.
    destruct (p_continue t) as [q x] eqn:Ep. cbn in Er. unfold word_break, first_char in Er. cbn in Er.
    destruct q as [|y q]; [discriminate|].
    assert (is_ident_continue y = false).
    { clear -Ep. revert q x Ep. induction t as [|z t IH]; cbn; intros q x; [discriminate|].
      destruct (is_ident_continue z) eqn:Ez; [|intros [= -> _ _]; exact Ez].
      destruct (p_continue t). intros [= -> _]. now eapply IH. }
    rewrite H in Er. discriminate.
  - unfold t_word_break in *. cbn in *. lia.
Qed.
Lemma w_number_tail r : within left20 (20 * len r + 20) (t_number_tail r).
Proof.
  unfold t_number_tail. eapply w_bind with (mid := left20) (h0 := 20 * len r + 14); [|lia|].
  - wstep. destruct (first_char r) as [ch|]; [|wstep]. destruct (is_ident_start ch); [|wstep].
    eapply w_bind; [apply w_ident_not_raw|lia|]. intros [c' x] _. wstep. rewrite text_left_eq. lia.
  - intros r' _. cbv beta. apply w_work; [lia|]. intros a E. unfold word_break in E.
    destruct (first_char r') as [ch|]; [destruct (is_ident_continue ch); [discriminate|]|]; injection E as <-; lia.
Qed.
Lemma w_float c : within left20 (20 * len c + 6 * scan (rest c) + 40) (t_float_lit c).
Proof.
  unfold t_float_lit.
  eapply w_bind with (mid := left20) (h0 := 20 * len c + 6 * scan (rest c) + 20); [|lia|].
  - unfold within. pose proof (float_digits_cost c). pose proof (er_float_digits c) as Er. unfold erases in Er.
    rewrite Er. destruct (float_digits c) as [r| | |] eqn:E; try lia.
    rewrite float_digits_spec in E. destruct (p_float_digits (rest c)) as [r'|] eqn:Ep; [|discriminate].
    injection E as <-. apply p_float_digits_asuffix, asuffix_suffix, suffix_len in Ep.
    unfold len. cbn [rest cur_of]. lia.
  - intros r _. cbv beta. eapply w_weaken; [apply w_number_tail|lia|intros; cbv beta; lia].
Qed.
Lemma float_reject c : fst (t_float_lit c) = Reject -> snd (t_float_lit c) <= 6 * scan (rest c) + 40.
Proof.
  unfold t_float_lit. pose proof (float_digits_cost c).
  destruct (t_float_digits c) as [[r| | |] n]; cbn [tbind charge fst snd] in *; try discriminate; [|lia].
  intros E. apply number_tail_reject in E. lia.
Qed.

Lemma w_digits_loop base bs l e :
  snd (t_digits_loop base bs l e) <= 2 * length bs + 2
  /\ forall n e', fst (t_digits_loop base bs l e) = Ok (n, e') ->
       l <= n <= l + length bs /\ snd (t_digits_loop base bs l e) <= 2 * (n - l) + 2.
Proof.
  revert l e. induction bs as [|b t IH]; intros l e; cbn [t_digits_loop].
  { cbn. split; [lia|]. intros n e' [= <- <-]. lia. }
  assert (Hf : snd (charge 2 (ret (l, e))) <= 2 * length (b :: t) + 2
    /\ forall n e', fst (charge 2 (ret (l, e))) = Ok (n, e') ->
       l <= n <= l + length (b :: t) /\ snd (charge 2 (ret (l, e))) <= 2 * (n - l) + 2).
  { cbn. split; [lia|]. intros n e' [= <- <-]. lia. }
  assert (Hr : snd (charge 2 (@reject (nat * bool))) <= 2 * length (b :: t) + 2
    /\ forall n e', fst (charge 2 (@reject (nat * bool))) = Ok (n, e') ->
       l <= n <= l + length (b :: t) /\ snd (charge 2 (@reject (nat * bool))) <= 2 * (n - l) + 2).
  { cbn. split; [lia|discriminate]. }
  assert (Hn : forall e1, snd (charge 2 (t_digits_loop base t (S l) e1)) <= 2 * length (b :: t) + 2
    /\ forall n e', fst (charge 2 (t_digits_loop base t (S l) e1)) = Ok (n, e') ->
       l <= n <= l + length (b :: t) /\ snd (charge 2 (t_digits_loop base t (S l) e1)) <= 2 * (n - l) + 2).
  { intros e1. destruct (IH (S l) e1) as [H1 H2]. rewrite snd_charge. cbn [length]. split; [lia|].
    intros n e' E. apply H2 in E. lia. }
  repeat match goal with |- context [if ?b then _ else _] => destruct b end; auto.
Qed.
Lemma w_digits c : within left20 (20 * len c + 30) (t_digits c).
Proof.
  unfold t_digits.
  eapply w_bind with (mid := fun x => 20 * len (fst x)) (h0 := 20 * len c + 14); [|lia|].
  - wstep. repeat (destruct (cstarts _ _); [do 2 wstep; cbn [fst]; lia|]). wstep. cbn [fst]. lia.
  - intros [c' base] _. cbn [fst].
    destruct (w_digits_loop base (str_bytes (rest c')) 0 true) as [H1 H2].
    rewrite length_str_bytes in *. fold (len c') in *.
    eapply w_bind with (mid := fun x => 20 * len c' + 16 - (2 * fst x + 2)) (h0 := 20 * len c' + 16); [|lia|].
    + unfold within. destruct (fst _) as [[n e']| | |]; try lia. specialize (H2 n e' eq_refl). cbn [fst]. lia.
    + intros [n e'] E. apply H2 in E. cbn [fst]. destruct e'; [wstep|]. wstep.
Qed.
Lemma w_int c : within left20 (20 * len c + 60) (t_int_lit c).
Proof.
  unfold t_int_lit. eapply w_bind; [apply w_digits|lia|]. intros r _. cbv beta.
  eapply w_weaken; [apply w_number_tail|lia|intros; cbv beta; lia].
Qed.
(** Nothing is scanned where no digit is. *)
Lemma float_cheap c : digit_start (rest c) = false ->
  fst (t_float_lit c) = Reject /\ snd (t_float_lit c) = 2.
Proof.
  unfold t_float_lit, t_float_digits, digit_start. destruct (rest c) as [|ch t]; [easy|]. intros ->. easy.
Qed.
Lemma int_cheap c : digit_start (rest c) = false ->
  fst (t_int_lit c) = Reject /\ snd (t_int_lit c) <= 13.
Proof.
  intros H. unfold t_int_lit, t_digits, cstarts.
  assert (Hs : forall x, starts_with (rest c) ["0"%ch; x] = false).
  { intros x. destruct (rest c) as [|ch t]; [reflexivity|]. cbn in *.
    destruct (N.eqb_spec "0"%ch ch) as [<-|]; [discriminate H|]. reflexivity. }
  change (tag "0x") with ["0"%ch; "x"%ch]. change (tag "0o") with ["0"%ch; "o"%ch].
  change (tag "0b") with ["0"%ch; "b"%ch]. rewrite !Hs. cbn [charge ret tbind fst snd Nat.add].
  destruct (rest c) as [|ch t]; [split; [reflexivity|cbn; lia]|]. cbn [digit_start] in H. rewrite str_bytes_cons.
  destruct (N.lt_ge_cases ch 128) as [Hc|Hc].
  - rewrite encode_ascii by exact Hc. cbn [app t_digits_loop]. unfold is_dec_digit in H. rewrite H.
    destruct (between "a"%ch ch "f"%ch).
    { replace (10 <=? 10 + (ch - "a"%ch))%N with true by lia. split; [reflexivity|cbn; lia]. }
    destruct (between "A"%ch ch "F"%ch).
    { replace (10 <=? 10 + (ch - "A"%ch))%N with true by lia. split; [reflexivity|cbn; lia]. }
    change (10 =? 10)%N with true. destruct (ch =? 95)%N; (split; [reflexivity|cbn; lia]).
  - pose proof (encode_high ch Hc) as Fh. destruct (encode_nonempty ch) as (b & u & Eb). rewrite Eb in *.
    inversion Fh; subst. cbn [app t_digits_loop].
    replace (between "0"%ch b "9"%ch) with false by (unfold between; lia).
    replace (between "a"%ch b "f"%ch) with false by (unfold between; lia).
    replace (between "A"%ch b "F"%ch) with false by (unfold between; lia).
    replace (b =? "_"%ch)%N with false by lia. split; [reflexivity|cbn; lia].
Qed.

End WithUnicode.
