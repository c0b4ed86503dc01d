(** * The numeric constructors build literals that denote their argument. *)
From Verif Require Import Base Unicode Tokens Lexer BaseFacts PureLexer LexerEquiv Stable SpecLit LitNew.
Import ListNotations.
Local Open Scope N_scope.

(** *** Decimal digits *)

Lemma decimal_nonempty ds v : decimal ds v -> ds <> [].
Proof. intros []; [discriminate|]. now destruct ds0. Qed.
Lemma decimal_zero v : decimal ["0"%ch] v -> v = 0.
Proof.
  intro H. remember ["0"%ch] as ds eqn:E. destruct H as [d Hd|ds v d H Hd].
  - assert (48 + d = 48) by congruence. lia.
  - change ["0"%ch] with ([] ++ ["0"%ch]) in E. apply app_inj_tail in E as [-> _].
    now apply decimal_nonempty in H.
Qed.
Lemma dec_digits_aux_spec f : forall n acc, n < 2 ^ N.of_nat f ->
  exists ds, dec_digits_aux (S f) n acc = ds ++ acc /\ decimal ds n /\
    (forall t, ds = "0"%ch :: t -> t = []).
Proof.
  induction f as [|f IH]; intros n acc Hn;
    assert (Hm := N.mod_lt n 10 ltac:(lia)); assert (Hd := N.div_mod n 10 ltac:(lia)).
  - change (2 ^ N.of_nat 0) with 1 in Hn. assert (n = 0) by lia. subst n.
    exists ["0"%ch]. split; [reflexivity|]. split; [apply (dec_first 0); lia|]. now intros t [= <-].
  - remember (S f) as g. cbn [dec_digits_aux].
    destruct (N.eqb_spec (n / 10) 0) as [E|E].
    + exists ["0"%ch + n mod 10]. split; [reflexivity|].
      replace (n mod 10) with n by lia. split; [apply dec_first; lia|]. now intros t [= _ <-].
    + subst g. destruct (IH (n / 10) (("0"%ch + n mod 10) :: acc)) as (ds & Eds & Hv & Hz).
      { apply N.div_lt_upper_bound; [lia|].
        replace (N.of_nat (S f)) with (N.succ (N.of_nat f)) in Hn by lia.
        rewrite N.pow_succ_r' in Hn. lia. }
      exists (ds ++ ["0"%ch + n mod 10]). split; [|split].
      * rewrite Eds, <- app_assoc. reflexivity.
      * rewrite Hd at 2. now apply dec_more.
      * intros t Et. destruct ds as [|d ds].
        { now apply decimal_nonempty in Hv. }
        cbn in Et. injection Et as -> <-. specialize (Hz ds eq_refl). subst ds.
        exfalso. apply E. now apply decimal_zero.
Qed.
Lemma size_bound n : n < 2 ^ N.of_nat (N.size_nat n).
Proof.
  destruct n as [|p]; [now vm_compute|]. replace (N.of_nat (N.size_nat (N.pos p))) with (N.size (N.pos p)).
  - apply N.size_gt.
  - cbn. clear. induction p; cbn; rewrite ?IHp; lia.
Qed.
Lemma dec_digits_canonical n : canonical_decimal (dec_digits n) n.
Proof.
  destruct (dec_digits_aux_spec (N.size_nat n) n [] (size_bound n)) as (ds & E & H).
  unfold dec_digits. now rewrite E, app_nil_r.
Qed.

Lemma decimal_digits ds v : decimal ds v -> all_digits ds.
Proof.
  induction 1 as [d H|ds v d H [IH1 IH2] Hd].
  - split; [discriminate|]. constructor; [lia|constructor].
  - split; [now destruct ds|]. apply Forall_app. split; [exact IH2|]. constructor; [lia|constructor].
Qed.
Lemma digit_spec c : 48 <= c <= 57 -> is_dec_digit c = true.
Proof. unfold is_dec_digit, between. lia. Qed.

(** *** Numbers followed by a suffix *)

Section WithUnicode.
Context {U : unicode} (UO : unicode_ok U).

(** The suffixes: nothing, or a type name. *)
Definition num_suffix (s : str) : Prop :=
  s = [] \/ exists c t, s = c :: t /\ (c = "u"%ch \/ c = "i"%ch \/ c = "f"%ch) /\
    Forall (fun c => 97 <= c <= 122 \/ 48 <= c <= 57) t.

Lemma int_type_suffix t : num_suffix (int_type_name t).
Proof using.
  destruct t; right; eexists _, _; (split; [reflexivity|]); (split; [tauto|]);
    apply Forall_forall; intros x Hx; cbn in Hx; lia.
Qed.
Lemma float_type_suffix t : num_suffix (float_type_name t).
Proof using.
  destruct t; right; eexists _, _; (split; [reflexivity|]); (split; [tauto|]);
    apply Forall_forall; intros x Hx; cbn in Hx; lia.
Qed.

Lemma p_continue_all t : Forall (fun c => 97 <= c <= 122 \/ 48 <= c <= 57) t -> p_continue t = ([], t).
Proof.
  induction 1 as [|c t Hc Ht IH]; [reflexivity|]. cbn [p_continue].
  assert (is_ident_continue c = true) as ->.
  { rewrite (ident_continue_ascii UO) by lia. unfold ascii_letter, is_dec_digit, between. lia. }
  now rewrite IH.
Qed.
Lemma num_suffix_tail s : num_suffix s -> p_number_tail s = Some [].
Proof.
  intros [->|(c & t & -> & Hc & Ht)]; [reflexivity|]. unfold p_number_tail, p_suffix. cbn [p_ident_not_raw].
  assert (is_ident_start c = true) as ->.
  { rewrite (ident_start_ascii UO) by (decompose [or] Hc; subst; reflexivity).
    decompose [or] Hc; subst; reflexivity. }
  rewrite (p_continue_all t Ht). reflexivity.
Qed.

Lemma p_mantissa_digits i s hd : Forall (fun c => 48 <= c <= 57) i -> p_mantissa (i ++ s) hd = p_mantissa s hd.
Proof using.
  induction 1 as [|c i Hc Hi IH]; [reflexivity|]. cbn [app p_mantissa]. now rewrite digit_spec.
Qed.
Lemma p_mantissa_suffix s hd : num_suffix s -> p_mantissa s hd = Some (hd, false, s).
Proof using.
  intros [->|(c & t & -> & Hc & Ht)]; [reflexivity|]. decompose [or] Hc; subst; reflexivity.
Qed.

Lemma int_not_float i s : all_digits i -> num_suffix s -> p_float (i ++ s) = None.
Proof using.
  intros [Hn Hi] Hs. unfold p_float. destruct i as [|c i]; [contradiction|].
  inversion Hi as [|? ? Hc Hi']; subst. cbn [app p_float_digits].
  rewrite digit_spec, p_mantissa_digits, p_mantissa_suffix by assumption. reflexivity.
Qed.
Lemma p_base_dec i s : all_digits i -> num_suffix s -> p_base (i ++ s) = (i ++ s, 10).
Proof using.
  intros [Hn Hi] Hs. destruct i as [|c i]; [contradiction|]. unfold p_base.
  assert (H : forall x, x = "x"%ch \/ x = "o"%ch \/ x = "b"%ch ->
            starts_with ((c :: i) ++ s) ["0"%ch; x] = false).
  { intros x Hx. cbn [app starts_with]. destruct (N.eqb_spec "0"%ch c) as [<-|]; [|reflexivity]. cbn [andb].
    destruct i as [|d i].
    - destruct Hs as [->|(e & t & -> & He & _)]; [reflexivity|]. cbn [app].
      decompose [or] Hx; decompose [or] He; subst; reflexivity.
    - inversion Hi as [|? ? _ Hi']; subst. inversion Hi' as [|? ? Hd _]; subst. cbn [app].
      destruct (N.eqb_spec x d) as [<-|]; [|reflexivity]. decompose [or] Hx; subst; lia. }
  rewrite !H by tauto. reflexivity.
Qed.
Lemma p_digits_loop_dec i s e : Forall (fun c => 48 <= c <= 57) i -> num_suffix s ->
  p_digits_loop 10 (i ++ s) e = Some (s, match i with [] => e | _ => false end).
Proof using.
  intros Hi Hs. revert e. induction Hi as [|c i Hc Hi IH]; intro e; cbn [app].
  - destruct Hs as [->|(c & t & -> & Hc & _)]; [reflexivity|]. decompose [or] Hc; subst; reflexivity.
  - cbn [p_digits_loop]. assert (between "0"%ch c "9"%ch = true) as -> by (unfold between; lia).
    destruct (N.leb_spec 10 (c - "0"%ch)); [lia|]. rewrite IH. now destruct i.
Qed.
Lemma quoted_digits i s : all_digits i -> p_quoted (i ++ s) = None.
Proof using.
  intros [Hn Hi]. destruct i as [|c i]; [contradiction|]. inversion Hi; subst.
  apply p_quoted_digit. now apply digit_spec.
Qed.

Lemma int_token i s : all_digits i -> num_suffix s -> p_literal (i ++ s) = Some [].
Proof.
  intros Hi Hs. unfold p_literal. rewrite quoted_digits, int_not_float by assumption. cbn [omap orelse].
  unfold p_int, p_digits. rewrite p_base_dec by assumption.
  rewrite p_digits_loop_dec by (try apply Hi; assumption).
  destruct i as [|c i]; [destruct Hi; contradiction|]. cbn [obind]. now apply num_suffix_tail.
Qed.

Lemma float_token i f s : all_digits i -> all_digits f -> num_suffix s ->
  p_literal (i ++ tag "." ++ f ++ s) = Some [].
Proof.
  intros Hi Hf Hs. unfold p_literal. rewrite quoted_digits by assumption. cbn [omap orelse].
  unfold p_float. destruct i as [|c i]; [destruct Hi; contradiction|].
  destruct Hi as [_ Hi]. inversion Hi as [|? ? Hc Hi']; subst.
  cbn [app p_float_digits]. rewrite digit_spec, p_mantissa_digits by assumption.
  destruct f as [|d f]; [destruct Hf; contradiction|]. destruct Hf as [_ Hf].
  inversion Hf as [|? ? Hd Hf']; subst.
  cbn [app p_mantissa]. change (is_dec_digit "."%ch || ("."%ch =? "_"%ch)) with false.
  change ("."%ch =? "."%ch) with true. cbn iota.
  assert (is_ident_start d = false) as ->.
  { rewrite (ident_start_ascii UO) by lia. unfold ascii_letter, between. lia. }
  destruct (N.eqb_spec d "."%ch); [lia|]. cbn [orb].
  rewrite (digit_spec d Hd). cbn [orb].
  rewrite p_mantissa_digits, p_mantissa_suffix by assumption. cbn [orb negb obind].
  now rewrite num_suffix_tail.
Qed.

Lemma float_suffixed_token text s : float_text text -> num_suffix s -> p_literal (text ++ s) = Some [].
Proof.
  intros [i Hi|i f Hi Hf] Hs.
  - now apply int_token.
  - rewrite <- !app_assoc. now apply float_token.
Qed.
Lemma digits_no_dot i : Forall (fun c => 48 <= c <= 57) i -> contains i "."%ch = false.
Proof using.
  unfold contains. induction 1 as [|c i Hc Hi IH]; [reflexivity|]. cbn [existsb]. rewrite IH.
  destruct (N.eqb_spec "."%ch c); [lia|reflexivity].
Qed.
Lemma contains_In s c : contains s c = true <-> In c s.
Proof using.
  unfold contains. rewrite existsb_exists. split.
  - intros (x & H & E). apply N.eqb_eq in E. now subst.
  - intro H. exists c. now rewrite N.eqb_refl.
Qed.
Lemma float_unsuffixed_shape text : float_text text ->
  exists i f, all_digits i /\ all_digits f /\ float_unsuffixed text = i ++ tag "." ++ f /\
    (text = i /\ f = tag "0" \/ text = i ++ tag "." ++ f).
Proof using.
  intros [i Hi|i f Hi Hf]; unfold float_unsuffixed.
  - rewrite digits_no_dot by apply Hi. exists i, (tag "0"). split; [exact Hi|]. split; [|auto].
    split; [discriminate|]. constructor; [lia|constructor].
  - assert (contains (i ++ tag "." ++ f) "."%ch = true) as ->.
    { apply contains_In. rewrite !in_app_iff. cbn. tauto. }
    exists i, f. auto.
Qed.
Lemma float_unsuffixed_neg text : float_unsuffixed ("-"%ch :: text) = "-"%ch :: float_unsuffixed text.
Proof using. unfold float_unsuffixed, contains. cbn [existsb]. change ("."%ch =? "-"%ch) with false. cbn [orb].
  now destruct (existsb _ text). Qed.

End WithUnicode.
