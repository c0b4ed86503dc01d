(** * Quoted literals: the lexer follows the grammar.  Not a model of code. *)
From Verif Require Import Base BaseFacts Unicode Tokens Lexer PureLexer.
From Verif Require Import LexerEquiv LexerEquiv2 LexerEquiv3 LexerEquiv4 Grammar Stable Trivia.
From Verif Require Import SpecText Comments Fallback SpecTree Spans EscaperFacts LitValueFacts.
From Verif Require Import SpecLit LexCooked SpecGrammar NumGrammar LitProofs.
Local Open Scope N_scope.

(** *** Carriage returns *)
Lemma cr_only_nil : cr_only_before_lf [].
Proof. intros [|? ?] b E; discriminate. Qed.
Lemma cr_only_cons c s : c <> CR -> cr_only_before_lf s -> cr_only_before_lf (c :: s).
Proof. intros Hc H [|a x] b E; cbn in E; [congruence|]. injection E as -> E. now apply (H x b). Qed.
Lemma cr_only_crlf s : cr_only_before_lf s -> cr_only_before_lf (CR :: LF :: s).
Proof.
  intros H [|a x] b E; cbn in E; [injection E as <-; eauto|]. injection E as <- E.
  destruct x as [|a x]; cbn in E; [discriminate|]. injection E as <- E. now apply (H x b).
Qed.
Lemma cr_only_app a b : cr_only_before_lf a -> cr_only_before_lf b -> cr_only_before_lf (a ++ b).
Proof.
  intros Ha Hb x y E. apply app_eq_app in E as (l & [[E1 E2]|[E1 E2]]).
  - destruct l as [|c l]; [apply (Hb [] y); now rewrite E2|].
    cbn in E2. injection E2 as <- ->. destruct (Ha x l E1) as [l' ->]. exists (l' ++ b). reflexivity.
  - now apply (Hb l y).
Qed.
Lemma cr_only_tail a b : cr_only_before_lf (a ++ b) -> cr_only_before_lf b.
Proof. intros H x y E. apply (H (a ++ x) y). now rewrite E, app_assoc. Qed.
Lemma cr_only_uncons c s : cr_only_before_lf (c :: s) -> cr_only_before_lf s.
Proof. apply (cr_only_tail [c]). Qed.
Lemma cr_only_no_cr s : ~ In CR s -> cr_only_before_lf s.
Proof. intros H x y ->. elim H. apply in_or_app. right. now left. Qed.

(** The next character of a text whose CRLFs are read as LFs. *)
Lemma crlf_next b c s : cr_only_before_lf b -> crlf b = c :: s ->
  (c <> CR /\ exists b', b = c :: b' /\ crlf b' = s) \/ (c = LF /\ exists b', b = CR :: LF :: b' /\ crlf b' = s).
Proof.
  intros Hb E. destruct b as [|a b]; [discriminate|].
  destruct (N.eq_dec a CR) as [Ea|Ha].
  - right. destruct (Hb [] b) as [b' E']; [cbn; congruence|]. rewrite Ea, E', crlf_crlf in E. injection E as <- <-.
    split; [reflexivity|]. exists b'. split; [congruence|reflexivity].
  - left. rewrite crlf_cons in E by exact Ha. injection E as <- <-. split; [exact Ha|]. eauto.
Qed.
Lemma crlf_nil b : crlf b = [] -> b = [].
Proof.
  destruct b as [|a b]; [reflexivity|]. cbn [crlf]. destruct (a =? CR); [|discriminate].
  destruct b as [|d b]; [discriminate|]. destruct (d =? LF) eqn:E; [|discriminate].
  apply N.eqb_eq in E as ->. rewrite crlf_cons by discriminate. discriminate.
Qed.
Lemma escape_no_lf k e x : escape k e x -> ~ In LF e.
Proof.
  intros [c v Hin|Hk|a b y z Ha Hb H1 H2|ds n v Hk Hd Hn Hv H2] H.
  - destruct H as [H|[]]. rewrite H in Hin. cbn in Hin.
    repeat (destruct Hin as [Hin|Hin]; [discriminate Hin|]). destruct Hin.
  - destruct H as [H|[]]; discriminate.
  - destruct H as [H|[H|[H|[]]]]; [discriminate| |]; subst; apply hexval_is in Ha, Hb; discriminate.
  - cbn [app] in H. destruct H as [H|[H|H]]; try discriminate. apply in_app_iff in H as [H|[H|[]]]; [|discriminate].
    clear -Hd H. induction Hd as [c v Hc|ds n v c d Hd IH Hc|ds n v Hd IH].
    + destruct H as [->|[]]. apply hexval_is in Hc. discriminate.
    + apply in_app_iff in H as [H|[->|[]]]; [auto|]. apply hexval_is in Hc. discriminate.
    + apply in_app_iff in H as [H|[H|[]]]; [auto|]. discriminate.
Qed.
Lemma crlf_plain e : forall b s, ~ In LF e -> cr_only_before_lf b -> crlf b = e ++ s ->
  exists b', b = e ++ b' /\ crlf b' = s.
Proof.
  induction e as [|c e IH]; intros b s Hn Hb E; [exists b; auto|]. cbn [app] in E.
  apply (crlf_next b c (e ++ s) Hb) in E as [[Hc (b' & -> & E)]|[Hc _]].
  - destruct (IH b' s) as (b'' & -> & E'); [intro; apply Hn; now right|now apply cr_only_uncons in Hb|exact E|].
    exists b''. auto.
  - elim Hn. now left.
Qed.

(** *** Line continuations *)
Lemma p_trail_ws ws : forall b s last r,
  Forall continuation_space ws -> ~ starts_continuation s -> ~ In CR s ->
  cr_only_before_lf b -> crlf b = ws ++ s -> last <> CR ->
  exists b', crlf b' = s /\ cr_only_before_lf b' /\ (length b' <= length b)%nat /\
    p_trail last (b ++ DQUOTE :: r) = Some (b' ++ DQUOTE :: r).
Proof.
  induction ws as [|c ws IH]; intros b s last r Hws Hs Hcr Hb E Hl.
  - exists b. repeat split; auto. cbn [app] in E.
    assert (Hl' : last =? CR = false) by now apply N.eqb_neq.
    destruct b as [|a b]; cbn [app p_trail]; rewrite Hl'; [reflexivity|].
    assert (Ha : is_trail_ws a = false).
    { destruct (is_trail_ws a) eqn:Ea; [|reflexivity]. exfalso. apply trail_ws_spec in Ea. apply Hs.
      destruct (N.eq_dec a CR) as [Eac|Hac].
      - destruct (Hb [] b) as [b' E']; [cbn; congruence|]. rewrite Eac, E', crlf_crlf in E. exists LF, (crlf b').
        split; [now symmetry|]. unfold continuation_space. tauto.
      - rewrite crlf_cons in E by exact Hac. exists a, (crlf b). split; [now symmetry|exact Ea]. }
    now rewrite Ha.
  - inversion Hws as [|? ? Hc Hws']; subst. cbn [app] in E.
    assert (Hl' : last =? CR = false) by now apply N.eqb_neq.
    apply (crlf_next b c (ws ++ s) Hb) in E as [[Hc' (b1 & -> & E)]|[Hc' (b1 & -> & E)]].
    + apply cr_only_uncons in Hb. destruct (IH b1 s c r Hws' Hs Hcr Hb E Hc') as (b' & H1 & H2 & H3 & H4).
      exists b'. repeat split; auto; [cbn; lia|]. cbn [app p_trail]. rewrite Hl'.
      now rewrite (proj2 (trail_ws_spec c) Hc).
    + do 2 apply cr_only_uncons in Hb.
      destruct (IH b1 s LF r Hws' Hs Hcr Hb E) as (b' & H1 & H2 & H3 & H4); [discriminate|].
      exists b'. repeat split; auto; [cbn; lia|]. cbn [app p_trail]. rewrite Hl'.
      change (is_trail_ws CR) with true. cbn iota.
      change (CR =? CR) with true. change (LF =? LF) with true. cbn iota.
      revert H4. destruct b1 as [|x b1]; cbn [app p_trail].
      * change (is_trail_ws DQUOTE) with false. change (LF =? CR) with false. auto.
      * change (LF =? CR) with false. cbn iota. destruct (is_trail_ws x); auto.
Qed.

Lemma cooked_crlf_lexes k x v : cooked k x v -> forall b, cr_only_before_lf b -> crlf b = x -> forall fuel r,
  (length b < fuel)%nat -> p_cooked_fuel (esc_of k) (ok_of k) fuel (b ++ DQUOTE :: r) = Some r.
Proof.
  intro H0. assert (Hncr : ~ In CR x -> True) by auto. clear Hncr.
  induction H0 as [|c s v H1 H2 H3 H4 H5 H IH|e x s v He H IH|ws s v Hw Hs H IH]; intros b Hb E [|fuel] r Hl; try lia.
  - apply crlf_nil in E. subst b. reflexivity.
  - apply (crlf_next b c s Hb) in E as [[Hc (b1 & -> & E)]|[Hc (b1 & -> & E)]].
    + cbn [app p_cooked_fuel]. rewrite (proj2 (N.eqb_neq _ _) H1), (proj2 (N.eqb_neq _ _) Hc), (proj2 (N.eqb_neq _ _) H2).
      rewrite (proj2 (ok_of_spec k c)) by (split; assumption). apply cr_only_uncons in Hb. cbn in Hl. apply IH; auto. lia.
    + cbn [app p_cooked_fuel]. change (CR =? DQUOTE) with false. change (CR =? CR) with true. change (LF =? LF) with true.
      cbn iota. do 2 apply cr_only_uncons in Hb. cbn in Hl. apply IH; auto. lia.
  - apply (crlf_next b _ (e ++ s) Hb) in E as [[Hc (b1 & -> & E)]|[Hc _]]; [|discriminate].
    apply cr_only_uncons in Hb.
    destruct (crlf_plain e b1 s (escape_no_lf _ _ _ He) Hb E) as (b2 & -> & E2).
    assert (Hb2 := cr_only_tail _ _ Hb).
    cbn [app p_cooked_fuel]. change (BACKSLASH =? DQUOTE) with false. change (BACKSLASH =? CR) with false.
    change (BACKSLASH =? BACKSLASH) with true. cbn iota. rewrite <- app_assoc.
    rewrite (esc_of_complete k e x _ He).
    destruct e as [|c e]; [inversion He|]. cbn [app].
    assert (c <> LF /\ c <> CR) as [Hc1 Hc2].
    { split; intros ->; [eapply escape_no_lf|eapply escape_no_cr]; try exact He; now left. }
    rewrite (proj2 (N.eqb_neq _ _) Hc1), (proj2 (N.eqb_neq _ _) Hc2). cbn [orb].
    apply IH; auto. cbn in Hl. rewrite app_length in Hl. lia.
  - assert (Hcr : ~ In CR s).
    { intro Hi. clear -Hb E Hi.
      assert (Hx : forall n b, (length b <= n)%nat -> cr_only_before_lf b -> ~ In CR (crlf b)).
      { clear. induction n as [|n IH]; intros [|a b] Hn Hb; try (intros []); cbn in Hn; try lia.
        destruct (N.eq_dec a CR) as [Ea|Ha].
        - destruct (Hb [] b) as [b' E']; [cbn; congruence|]. rewrite Ea, E', crlf_crlf.
          intros [X|X]; [discriminate|]. revert X. apply IH; [subst b; cbn in Hn; lia|].
          rewrite E' in Hb. now do 2 apply cr_only_uncons in Hb.
        - rewrite crlf_cons by exact Ha. intros [X|X]; [congruence|]. revert X. apply IH; [lia|].
          now apply cr_only_uncons in Hb. }
      apply (Hx (length b) b); auto. rewrite E. right. right. apply in_or_app. now right. }
    apply (crlf_next b _ (LF :: ws ++ s) Hb) in E as [[Hc (b1 & -> & E)]|[Hc _]]; [|discriminate].
    apply cr_only_uncons in Hb.
    cbn [app p_cooked_fuel]. change (BACKSLASH =? DQUOTE) with false. change (BACKSLASH =? CR) with false.
    change (BACKSLASH =? BACKSLASH) with true. cbn iota.
    apply (crlf_next b1 _ (ws ++ s) Hb) in E as [[_ (b2 & -> & E)]|[_ (b2 & -> & E)]].
    + apply cr_only_uncons in Hb. destruct (p_trail_ws ws b2 s LF r Hw Hs Hcr Hb E) as (b' & E1 & Hb' & Hlen & Et); [discriminate|].
      cbn [app]. change (LF =? LF) with true. cbn [orb]. rewrite Et. apply IH; auto. cbn in Hl. lia.
    + do 2 apply cr_only_uncons in Hb. destruct (p_trail_ws ws b2 s LF r Hw Hs Hcr Hb E) as (b' & E1 & Hb' & Hlen & Et); [discriminate|].
      cbn [app]. change (CR =? LF) with false. change (CR =? CR) with true. cbn [orb].
      assert (Et' : p_trail CR (LF :: b2 ++ DQUOTE :: r) = p_trail LF (b2 ++ DQUOTE :: r)).
      { cbn [p_trail]. change (CR =? CR) with true. change (LF =? LF) with true. cbn iota.
        destruct b2 as [|y b2]; cbn [app p_trail]; change (LF =? CR) with false; cbn iota; [reflexivity|].
        destruct (is_trail_ws y); reflexivity. }
      rewrite Et', Et. apply IH; auto. cbn in Hl. lia.
Qed.

Lemma p_trail_cr s : forall last rest, p_trail last s = Some rest ->
  exists w, s = w ++ rest /\ cr_only_before_lf w /\ (last = CR -> exists w', w = LF :: w') .
Proof.
  induction s as [s IH] using (induction_ltof1 _ (@length _)). unfold ltof in IH. intros last rest H.
  destruct s as [|c t]; cbn [p_trail] in H; [discriminate|].
  destruct (N.eqb_spec last CR) as [El|Hl].
  - destruct (N.eqb_spec c LF) as [Ec|]; [|discriminate]. destruct t as [|b t']; [discriminate|].
    destruct (is_trail_ws b) eqn:Eb.
    + apply IH in H as (w & -> & Hw & Hb); [|cbn; lia]. exists (c :: b :: w). repeat split; [|intros _; rewrite Ec; eauto].
      rewrite Ec. apply cr_only_cons; [discriminate|].
      destruct (N.eq_dec b CR) as [Ebc|Hbc]; [|now apply cr_only_cons].
      destruct (Hb Ebc) as [w' ->]. rewrite Ebc. apply cr_only_crlf. now apply cr_only_uncons in Hw.
    + injection H as <-. exists [c]. repeat split; [|intros _; rewrite Ec; eauto]. rewrite Ec.
      apply cr_only_cons; [discriminate|apply cr_only_nil].
  - destruct (is_trail_ws c) eqn:Ec.
    + apply IH in H as (w & -> & Hw & Hb); [|cbn; lia]. exists (c :: w). repeat split; [|congruence].
      destruct (N.eq_dec c CR) as [Ebc|Hbc]; [|now apply cr_only_cons].
      destruct (Hb Ebc) as [w' ->]. rewrite Ebc. apply cr_only_crlf. now apply cr_only_uncons in Hw.
    + injection H as <-. exists []. repeat split; [apply cr_only_nil|congruence].
Qed.
Lemma p_cooked_cr k fuel : forall s r, p_cooked_fuel (esc_of k) (ok_of k) fuel s = Some r ->
  exists b, s = b ++ DQUOTE :: r /\ cr_only_before_lf b.
Proof.
  induction fuel as [|fuel IH]; intros s r H; [discriminate|].
  destruct s as [|c t]; cbn [p_cooked_fuel] in H; [discriminate|].
  destruct (N.eqb_spec c DQUOTE) as [->|Hq].
  { injection H as <-. exists []. split; [reflexivity|apply cr_only_nil]. }
  destruct (N.eqb_spec c CR) as [Ec|Hcr].
  { destruct t as [|c2 t]; [discriminate|]. destruct (N.eqb_spec c2 LF) as [Ec2|]; [|discriminate].
    destruct (IH _ _ H) as (b & -> & Hv). exists (c :: c2 :: b).
    split; [reflexivity|]. rewrite Ec, Ec2. now apply cr_only_crlf. }
  destruct (N.eqb_spec c BACKSLASH) as [Ec|Hb].
  - destruct t as [|c2 t2]; [discriminate|].
    destruct ((c2 =? LF) || (c2 =? CR)) eqn:Enl.
    + destruct (p_trail c2 t2) as [rest|] eqn:Et; [|discriminate].
      apply p_trail_cr in Et as (w & -> & Hw & Hc2).
      destruct (IH _ _ H) as (b & -> & Hv).
      exists (c :: c2 :: w ++ b). split; [cbn; now rewrite <- app_assoc|].
      apply cr_only_cons; [exact Hcr|].
      destruct (N.eq_dec c2 CR) as [Ebc|Hbc]; [|apply cr_only_cons; [exact Hbc|now apply cr_only_app]].
      destruct (Hc2 Ebc) as [w' ->]. rewrite Ebc. cbn [app]. apply cr_only_crlf.
      apply cr_only_app; [now apply cr_only_uncons in Hw|exact Hv].
    + destruct (esc_of k (c2 :: t2)) as [rest|] eqn:Ee; [|discriminate].
      apply esc_of_sound in Ee as (e & x & He & Ee).
      destruct (IH _ _ H) as (b & -> & Hv).
      exists (c :: e ++ b). split; [rewrite Ee; cbn; now rewrite <- app_assoc|].
      apply cr_only_cons; [exact Hcr|]. apply cr_only_app; [|exact Hv].
      apply cr_only_no_cr. now apply escape_no_cr in He.
  - destruct (ok_of k c) eqn:Eok; [|discriminate].
    destruct (IH _ _ H) as (b & -> & Hv). exists (c :: b). split; [reflexivity|]. now apply cr_only_cons.
Qed.
Lemma p_cooked_iff k s r : p_cooked (esc_of k) (ok_of k) s = Some r <->
  exists b v, s = b ++ DQUOTE :: r /\ cr_only_before_lf b /\ cooked k (crlf b) v.
Proof.
  unfold p_cooked. split.
  - intro H. destruct (p_cooked_sound _ _ _ _ H) as (b & v & E & Hv). destruct (p_cooked_cr _ _ _ _ H) as (b' & E' & Hb).
    assert (b' = b) as ->.
    { rewrite E in E'. apply app_inv_tail in E'. congruence. }
    exists b, v. auto.
  - intros (b & v & -> & Hb & Hv). apply (cooked_crlf_lexes k (crlf b) v Hv b Hb eq_refl).
    rewrite app_length. lia.
Qed.

(** *** Raw strings *)
Lemma ok_of_lf k : ok_of k LF = true. Proof. now destruct k. Qed.
Lemma raw_body_allowed k d b : raw_body (ok_of k) d b <-> cr_only_before_lf b /\ Forall (raw_allowed k) b.
Proof.
  rewrite raw_body_iff by apply ok_of_lf. apply and_iff_compat_l. split; apply Forall_impl; intros c H.
  - destruct (N.eq_dec c CR) as [->|Hc]; [destruct k; cbn; auto; lia|]. apply ok_of_raw. auto.
  - intros _. now apply ok_of_raw.
Qed.
Lemma p_raw_with_iff k s r : p_raw_with (ok_of k) s = Some r <->
  exists n b, s = repeat "#"%ch n ++ [DQUOTE] ++ b ++ [DQUOTE] ++ repeat "#"%ch n ++ r /\
    (n <= 255)%nat /\ cr_only_before_lf b /\ Forall (raw_allowed k) b /\
    (forall x y, b <> x ++ [DQUOTE] ++ repeat "#"%ch n ++ y).
Proof.
  unfold p_raw_with. split.
  - destruct (p_delim 0 s) as [[n t]|] eqn:E; [|discriminate]. intro H.
    apply p_delim_spec in E as (j & -> & Hj & ->). cbn [Nat.add] in *.
    destruct (p_raw_sound _ _ _ _ H) as (b & -> & Hb). exists j, b. split; [reflexivity|]. split; [exact Hj|].
    apply raw_body_allowed in Hb as [H1 H2]. split; [exact H1|]. split; [exact H2|].
    intros x y ->. rewrite <- !app_assoc in H. apply p_raw_earliest in H. cbn [app] in H. rewrite !app_length in H. cbn [length] in H. rewrite !app_length in H. lia.
  - intros (n & b & -> & Hn & H1 & H2 & H3). rewrite p_delim_pounds.
    replace (n <=? 255)%nat with true by (symmetry; now apply Nat.leb_le).
    apply p_raw_complete; [now apply raw_body_allowed|].
    intros x y E. eapply closing_first; [apply pounds_no_quote|exact H3|exact E].
Qed.

(** *** The unit of a character literal *)
Lemma p_unit_iff k s r : k <> KC ->
  (match k with KByte => u_byte s | _ => u_char s end) = Some r <->
  (exists c, s = c :: r /\ c <> BACKSLASH /\ (k = KByte -> c < 128)) \/
  (exists e v, s = BACKSLASH :: e ++ r /\ escape k e v).
Proof.
  intro Hk.
  assert (Hu : (match k with KByte => u_byte s | _ => u_char s end) =
    match s with [] => None | c :: t => if c =? BACKSLASH then esc_of k t else if ok_of k c then Some t else None end).
  { destruct k; [destruct s; reflexivity|reflexivity|congruence]. }
  rewrite Hu. clear Hu. split.
  - destruct s as [|c t]; [discriminate|]. destruct (N.eqb_spec c BACKSLASH) as [->|Hc].
    + intro H. right. apply esc_of_sound in H as (e & v & He & ->). eauto.
    + destruct (ok_of k c) eqn:E; [|discriminate]. intros [= <-]. left. exists c. repeat split; auto.
      intros ->. apply ok_of_spec in E as [E _]. auto.
  - intros [(c & -> & Hc & Hb)|(e & v & -> & He)].
    + rewrite (proj2 (N.eqb_neq _ _) Hc). assert (ok_of k c = true) as ->; [|reflexivity].
      apply ok_of_spec. split; [exact Hb|congruence].
    + change (BACKSLASH =? BACKSLASH) with true. cbn iota. now apply esc_of_complete with v.
Qed.
Lemma closing_quote_iff s r : closing_quote s = Some r <-> s = SQUOTE :: r.
Proof.
  unfold closing_quote. destruct s as [|c t]; [split; discriminate|].
  destruct (N.eqb_spec c SQUOTE) as [->|Hc]; split; congruence.
Qed.
Lemma unit_literal_iff k s r : k <> KC ->
  obind (match k with KByte => u_byte s | _ => u_char s end) closing_quote = Some r <->
  (exists c, s = c :: SQUOTE :: r /\ c <> BACKSLASH /\ (k = KByte -> c < 128)) \/
  (exists e v, s = BACKSLASH :: e ++ SQUOTE :: r /\ escape k e v).
Proof.
  intro Hk. split.
  - destruct (match k with KByte => u_byte s | _ => u_char s end) as [t|] eqn:E; [|discriminate]. cbn [obind].
    intro H. apply closing_quote_iff in H as ->. now apply p_unit_iff in E.
  - intro H. rewrite (proj2 (p_unit_iff k s (SQUOTE :: r) Hk) H). reflexivity.
Qed.

Section WithUnicode.
Context {U : unicode}.

Lemma quoted_complete q r : quoted q -> p_quoted (q ++ r) = Some r.
Proof using.
  intros [k b v Hb Hv|k n b Hn H1 H2 H3|k c Hk Hc Hb|k e v Hk He].
  - rewrite <- !app_assoc. apply cooked_quoted. apply p_cooked_iff. exists b, v. auto.
  - unfold raw_literal. rewrite <- !app_assoc. apply raw_quoted. apply p_raw_with_iff. exists n, b.
    repeat split; auto.
  - assert (H := proj2 (unit_literal_iff k (c :: SQUOTE :: r) r Hk) (or_introl (ex_intro _ c (conj eq_refl (conj Hc Hb))))).
    rewrite <- app_assoc. destruct k; [| |congruence].
    + exact H.
    + change (orelse (obind (u_byte (c :: SQUOTE :: r)) closing_quote) (q_char (tag "b'" ++ c :: SQUOTE :: r)) = Some r).
      now rewrite H.
  - assert (H := proj2 (unit_literal_iff k (BACKSLASH :: e ++ SQUOTE :: r) r Hk)
      (or_intror (ex_intro _ e (ex_intro _ v (conj eq_refl He))))).
    rewrite <- !app_assoc. destruct k; [| |congruence].
    + exact H.
    + change (orelse (obind (u_byte (BACKSLASH :: e ++ SQUOTE :: r)) closing_quote)
                (q_char (tag "b'" ++ BACKSLASH :: e ++ SQUOTE :: r)) = Some r).
      now rewrite H.
Qed.

Lemma quoted_sound s r : p_quoted s = Some r -> exists q, s = q ++ r /\ quoted q.
Proof using.
  assert (Hcook : forall k t, p_cooked (esc_of k) (ok_of k) t = Some r ->
    exists q, prefix k ++ [DQUOTE] ++ t = q ++ r /\ quoted q).
  { intros k t H. apply p_cooked_iff in H as (b & v & -> & Hb & Hv). exists (prefix k ++ [DQUOTE] ++ b ++ [DQUOTE]).
    split; [now rewrite <- !app_assoc|]. now apply quoted_cooked with v. }
  assert (Hraw : forall k t, p_raw_with (ok_of k) t = Some r ->
    exists q, prefix k ++ tag "r" ++ t = q ++ r /\ quoted q).
  { intros k t H. apply p_raw_with_iff in H as (n & b & -> & Hn & H1 & H2 & H3). exists (raw_literal k n b).
    split; [unfold raw_literal; now rewrite <- !app_assoc|]. now apply quoted_raw. }
  assert (Hunit : forall k t, k <> KC -> obind (match k with KByte => u_byte t | _ => u_char t end) closing_quote = Some r ->
    exists q, prefix k ++ [SQUOTE] ++ t = q ++ r /\ quoted q).
  { intros k t Hk H. apply unit_literal_iff in H; [|exact Hk]. destruct H as [(c & -> & Hc & Hb)|(e & v & -> & He)].
    - exists (prefix k ++ [SQUOTE; c; SQUOTE]). split; [now rewrite <- app_assoc|]. now apply quoted_char.
    - exists (prefix k ++ [SQUOTE; BACKSLASH] ++ e ++ [SQUOTE]). split; [now rewrite <- !app_assoc|].
      now apply quoted_escape with v. }
  intro H. apply p_quoted_cases in H as [H|[H|[H|[H|H]]]].
  - unfold q_string in H. destruct (starts_with s (tag """")) eqn:E.
    { apply starts_with_skipn in E. rewrite E. now apply (Hcook KStr). }
    destruct (starts_with s (tag "r")) eqn:E2; [|discriminate].
    apply starts_with_skipn in E2. rewrite E2. now apply (Hraw KStr).
  - unfold q_byte_string in H. destruct (starts_with s (tag "b""")) eqn:E.
    { apply starts_with_skipn in E. rewrite E. now apply (Hcook KByte). }
    destruct (starts_with s (tag "br")) eqn:E2; [|discriminate].
    apply starts_with_skipn in E2. rewrite E2. now apply (Hraw KByte).
  - unfold q_c_string in H. destruct (starts_with s (tag "c""")) eqn:E.
    { apply starts_with_skipn in E. rewrite E. now apply (Hcook KC). }
    destruct (starts_with s (tag "cr")) eqn:E2; [|discriminate].
    apply starts_with_skipn in E2. rewrite E2. now apply (Hraw KC).
  - unfold q_byte in H. destruct (starts_with s (tag "b'")) eqn:E; [|discriminate].
    apply starts_with_skipn in E. rewrite E. now apply (Hunit KByte).
  - unfold q_char in H. destruct (starts_with s (tag "'")) eqn:E; [|discriminate].
    apply starts_with_skipn in E. rewrite E. now apply (Hunit KStr).
Qed.

Lemma p_quoted_iff s r : p_quoted s = Some r <-> exists q, s = q ++ r /\ quoted q.
Proof using.
  split; [apply quoted_sound|]. intros (q & -> & H). now apply quoted_complete.
Qed.

End WithUnicode.
