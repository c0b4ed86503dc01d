(** * Literal constructors, values and the lexer, put together. *)
From Verif Require Import Base Unicode Tokens Lexer BaseFacts PureLexer LexerEquiv LexerEquiv4 Grammar Stable
  Trivia Compose LexProofs Fallback Escaper LitValue SpecLit EscaperFacts LitValueFacts Local LexCooked
  LitNew Utf8 LitNewFacts NumFacts.
From Verif Require Import SpecLex.
Import ListNotations.
Local Open Scope N_scope.

(** The text is one literal token, for the token stream parser and for
    [Literal::from_str]; both keep the text. *)

(** *** Raw strings, purely *)


(** [ok] accepts line feeds in all three kinds. *)
Lemma raw_body_iff ok d s : ok LF = true -> raw_body ok d s <->
  cr_only_before_lf s /\ Forall (fun c => c <> CR -> ok c = true) s.
Proof.
  intro Hlf. split.
  - induction 1 as [|s H [IH1 IH2]|c s Hc Hok H [IH1 IH2]].
    + split; [|constructor]. intros a b E. destruct a; discriminate.
    + split; [|repeat constructor; auto; congruence].
      intros a b E. destruct a as [|x [|y a]]; cbn in E.
      * injection E as <-. eauto.
      * injection E as _ E. discriminate.
      * injection E as _ _ E. eauto.
    + split; [|constructor; auto]. intros a b E. destruct a as [|x a]; cbn in E.
      * injection E as E _. congruence.
      * injection E as _ E. eauto.
  - induction s as [s IH] using (induction_ltof1 _ (@length _)). unfold ltof in IH. intros [H1 H2].
    destruct s as [|c s]; [constructor|]. inversion H2 as [|? ? Hc Hs]; subst.
    destruct (N.eq_dec c CR) as [E|E].
    + subst c. destruct (H1 [] s eq_refl) as [b' ->]. apply raw_crlf. apply IH; [cbn; lia|].
      split; [|now inversion Hs]. intros a b Eab. apply (H1 (CR :: LF :: a) b). cbn. congruence.
    + apply raw_char; auto. apply IH; [cbn; lia|]. split; [|exact Hs].
      intros a b Eab. apply (H1 (c :: a) b). cbn. congruence.
Qed.

Lemma closing_first d s x y : ~ In DQUOTE d ->
  (forall x y, s <> x ++ [DQUOTE] ++ d ++ y) ->
  s ++ [DQUOTE] ++ d = x ++ [DQUOTE] ++ d ++ y -> x = s.
Proof.
  intros Hd Hno E. apply app_eq_app in E as (l & [[E1 E2]|[E1 E2]]).
  - destruct l as [|c l]; [now rewrite app_nil_r in E1|]. exfalso.
    cbn in E2. injection E2 as <- E2. apply app_eq_app in E2 as (m & [[E3 E4]|[E3 E4]]).
    + destruct m as [|c m].
      * rewrite app_nil_r in E3. subst l. apply (Hno x []). now rewrite app_nil_r.
      * cbn in E4. injection E4 as <- _. apply Hd. rewrite E3. apply in_or_app. right. now left.
    + subst l. apply (Hno x m). exact E1.
  - apply (f_equal (@length _)) in E2. rewrite !app_length in E2.
    destruct l; [now rewrite app_nil_r in E1|]. cbn in E2. lia.
Qed.

Lemma p_raw_earliest ok d x : forall f r, p_raw ok d (x ++ [DQUOTE] ++ d ++ f) = Some r ->
  (length f <= length r)%nat.
Proof.
  induction x as [x IH] using (induction_ltof1 _ (@length _)). unfold ltof in IH. intros f r.
  destruct x as [|c x].
  - cbn [app p_raw]. change (DQUOTE =? DQUOTE) with true. rewrite starts_with_app. cbn [andb].
    rewrite skipn_app, skipn_all, Nat.sub_diag. intros [= <-]. reflexivity.
  - cbn [app p_raw].
    destruct ((c =? DQUOTE) && _) eqn:E.
    { intros [= <-]. rewrite skipn_length, app_length. cbn. rewrite app_length. lia. }
    destruct (c =? CR).
    + destruct x as [|c2 x]; cbn [app].
      * change (DQUOTE =? LF) with false. discriminate.
      * destruct (c2 =? LF); [|discriminate]. apply IH. cbn. lia.
    + destruct (ok c); [|discriminate]. apply IH. cbn. lia.
Qed.

Lemma pounds_no_quote n : ~ In DQUOTE (repeat "#"%ch n).
Proof. intro H. apply repeat_spec in H. discriminate. Qed.

Lemma p_delim_pounds n t :
  p_delim 0 (repeat "#"%ch n ++ [DQUOTE] ++ t) = if (n <=? 255)%nat then Some (n, t) else None.
Proof.
  destruct (Nat.leb_spec n 255) as [H|H].
  - apply p_delim_spec. exists n. repeat split; lia.
  - destruct (p_delim 0 _) as [[m t']|] eqn:E; [|reflexivity]. exfalso.
    apply p_delim_spec in E as (j & Hm & Hle & E). cbn in Hm. subst m.
    assert (n = j); [|lia]. clear -E. revert j E.
    induction n as [|n IH]; intros [|j] E; try discriminate; [reflexivity|].
    injection E as E. f_equal. now apply IH.
Qed.

Lemma ok_of_raw k c : ok_of k c = true <-> (raw_allowed k c).
Proof.
  destruct k; cbn [ok_of raw_allowed]; [tauto| |].
  - unfold is_ascii. lia.
  - unfold ok_nonnul. rewrite negb_true_iff, N.eqb_neq. tauto.
Qed.

Section WithUnicode.
Context {U : unicode} (UO : unicode_ok U).

Lemma accepted_iff start repr : start < two32 -> p_literal repr = Some [] <-> accepted start repr.
Proof.
  intro Hs. unfold accepted. rewrite literal_from_str_spec by exact Hs. split.
  - intro H. split.
    + pose proof (proj1 (p_literal_lexes UO repr) H) as [_ Hl].
      apply (lexes_iff U start _ _ Hs) in Hl as (ts & E & Et).
      destruct ts as [|t [|]]; try discriminate. injection Et as Et.
      destruct t; inversion Et; subst. eauto.
    + unfold p_literal_from_str. assert (head_is "-"%ch repr = false) as ->.
      { pose proof (p_literal_first _ _ H) as (c & t & -> & Hc). cbn [head_is].
        apply N.eqb_neq. intros <-. destruct Hc as [Hc|Hc]; [discriminate|].
        decompose [or] Hc; discriminate. }
      cbn [andb]. rewrite H. eauto.
  - intros [[sp E] [sp' E']]. apply (p_literal_lexes UO). split.
    + intros ->. vm_compute in E'. discriminate.
    + apply (lexes_iff U start _ _ Hs). exists [TLiteral repr sp]. auto.
Qed.

Lemma raw_quoted k s t : p_quoted (prefix k ++ tag "r" ++ s) = Some t <->
  p_raw_with (ok_of k) s = Some t.
Proof using.
  split.
  - intro H. apply p_quoted_cases in H as [H|[H|[H|[H|H]]]].
    + destruct k; [exact H| |]; apply q_string_first in H as (c & u & E & [Hc|Hc]); cbn in E; subst c;
        discriminate.
    + destruct k; [|exact H|]; apply q_byte_string_first in H as (c & u & E & _); discriminate.
    + destruct k; [| |exact H]; apply q_c_string_first in H as (c & u & E & _); discriminate.
    + exfalso. apply q_byte_first in H as (u & E). destruct k; discriminate.
    + exfalso. apply q_char_first in H as (u & E). destruct k; discriminate.
  - intro H. apply p_quoted_intro. destruct k; auto.
Qed.
Lemma raw_not_number k s : p_float (prefix k ++ tag "r" ++ s) = None /\ p_int (prefix k ++ tag "r" ++ s) = None.
Proof using.
  split.
  - destruct (p_float _) eqn:E; [|reflexivity]. apply p_float_first in E as (c & t & E & Hc).
    destruct k; injection E as <- _; discriminate.
  - destruct (p_int _) eqn:E; [|reflexivity]. apply p_int_first in E as (c & t & E & Hc).
    destruct k; injection E as <- _; discriminate.
Qed.

Lemma p_suffix_end r : p_suffix r = [] -> r = [] \/ exists x c, r = x ++ [c] /\ is_ident_continue c = true.
Proof.
  unfold p_suffix. intro H. destruct r as [|c t]; [now left|]. right.
  cbn [p_ident_not_raw] in H. destruct (is_ident_start c) eqn:Es; [|discriminate].
  destruct (p_continue t) as [r x] eqn:E. subst r.
  assert (Hall : forall t x, p_continue t = ([], x) -> Forall (fun c => is_ident_continue c = true) t).
  { clear. induction t as [|c t IH]; intros x; cbn [p_continue]; [constructor|].
    destruct (is_ident_continue c) eqn:Ec; [|discriminate].
    destruct (p_continue t) as [r y]. intros [= -> _]. constructor; eauto. }
  assert (Hf : Forall (fun c => is_ident_continue c = true) (c :: t)).
  { constructor; [now apply (ident_start_continue UO)|]. eapply Hall; eauto. }
  destruct (exists_last (l := c :: t) ltac:(discriminate)) as (y & d & Ey). exists y, d. split; [exact Ey|].
  rewrite Ey in Hf. apply Forall_app in Hf as [_ Hf]. now inversion Hf.
Qed.

Lemma raw_last n s r : r = [] \/ (exists x c, r = x ++ [c] /\ is_ident_continue c = true) ->
  suffix r (s ++ [DQUOTE] ++ repeat "#"%ch n) -> r = [].
Proof.
  intros [H|(x & c & -> & Hc)] Hs; [exact H|]. exfalso.
  destruct Hs as [y Hy].
  assert (Hin : c = DQUOTE \/ c = "#"%ch).
  { destruct n as [|n].
    - cbn [repeat] in Hy. rewrite !app_assoc, app_nil_r in Hy. apply app_inj_tail in Hy as [_ ->]. auto.
    - cbn [repeat] in Hy. rewrite repeat_cons, !app_assoc in Hy. apply app_inj_tail in Hy as [_ ->]. auto. }
  destruct Hin as [->| ->]; rewrite (ident_continue_ascii UO) in Hc by lia; discriminate.
Qed.

(** Exactly when a raw string is a literal token. *)
Lemma raw_token_iff k n s : p_literal (raw_literal k n s) = Some [] <->
  (n <= 255)%nat /\ cr_only_before_lf s /\ Forall (fun c => raw_allowed k c) s /\
  (forall x y, s <> x ++ [DQUOTE] ++ repeat "#"%ch n ++ y).
Proof.
  unfold raw_literal, p_literal.
  destruct (raw_not_number k (repeat "#"%ch n ++ [DQUOTE] ++ s ++ [DQUOTE] ++ repeat "#"%ch n)) as [-> ->].
  assert (Hlf : ok_of k LF = true) by (destruct k; reflexivity).
  assert (Hall : (cr_only_before_lf s /\ Forall (fun c => raw_allowed k c) s) <->
                 raw_body (ok_of k) (repeat "#"%ch n) s).
  { rewrite raw_body_iff by exact Hlf. split; intros [H1 H2]; (split; [exact H1|]).
    - revert H2. apply Forall_impl. intros c H _. now apply ok_of_raw.
    - apply Forall_forall. intros c Hc. rewrite Forall_forall in H2. apply ok_of_raw.
      destruct (N.eq_dec c CR) as [->|]; [now destruct k|auto]. }
  assert (Hq := raw_quoted k (repeat "#"%ch n ++ [DQUOTE] ++ s ++ [DQUOTE] ++ repeat "#"%ch n)).
  unfold p_raw_with in Hq. rewrite p_delim_pounds in Hq. split.
  - intro H. destruct (p_quoted _) as [r|] eqn:Eq; [|discriminate]. cbn [omap orelse] in H.
    injection H as H. pose proof (proj1 (Hq r) eq_refl) as Hr.
    destruct (Nat.leb_spec n 255) as [Hn|]; [|discriminate].
    pose proof (p_raw_sound _ _ _ _ Hr) as (b & Eb & Hb).
    assert (r = []) as ->.
    { apply (raw_last n s); [now apply p_suffix_end|]. exists (b ++ [DQUOTE] ++ repeat "#"%ch n).
      rewrite Eb, <- !app_assoc. reflexivity. }
    rewrite app_nil_r in Eb. apply app_inv_tail in Eb. subst b.
    apply Hall in Hb as [H1 H2]. repeat split; auto.
    intros x y E. rewrite E, <- !app_assoc in Hr.
    apply p_raw_earliest in Hr. rewrite app_length in Hr. cbn in Hr. lia.
  - intros (Hn & H1 & H2 & H3).
    assert (Hr : p_raw (ok_of k) (repeat "#"%ch n) (s ++ [DQUOTE] ++ repeat "#"%ch n) = Some []).
    { assert (E := p_raw_complete (ok_of k) (repeat "#"%ch n) s []). rewrite !app_nil_r in E.
      apply E; [apply Hall; auto|]. intros x y. apply closing_first; [apply pounds_no_quote|exact H3]. }
    apply Nat.leb_le in Hn. rewrite Hn in Hq. apply Hq in Hr. rewrite Hr. reflexivity.
Qed.
Lemma raw_too_many k n t : (255 < n)%nat ->
  p_literal (prefix k ++ tag "r" ++ repeat "#"%ch n ++ [DQUOTE] ++ t) = None.
Proof using.
  intro Hn. unfold p_literal.
  destruct (raw_not_number k (repeat "#"%ch n ++ [DQUOTE] ++ t)) as [-> ->].
  destruct (p_quoted _) as [r|] eqn:E; [|reflexivity]. exfalso.
  apply (raw_quoted k) in E. unfold p_raw_with in E. rewrite p_delim_pounds in E.
  destruct (Nat.leb_spec n 255); [lia|discriminate].
Qed.

(** *** Cooked strings *)

(** The accessor never disagrees with the reference's reading, in which CRLF is
    first turned into LF. *)
Lemma crlf_space ws s : Forall continuation_space ws -> ~ starts_continuation s ->
  exists ws', Forall continuation_space ws' /\ crlf (ws ++ s) = ws' ++ crlf s.
Proof using.
  intros Hw Hs. induction Hw as [|c ws Hc Hw (ws' & Hw' & E)]; [exists []; auto|].
  cbn [app crlf]. destruct (N.eqb_spec c CR) as [Ec|Ec].
  - destruct (ws ++ s) as [|d t] eqn:Et.
    + exists [c]. apply app_eq_nil in Et as [-> ->]. split; [now constructor|reflexivity].
    + rewrite E. destruct (d =? LF); [eauto|]. exists (c :: ws'). split; [now constructor|reflexivity].
  - rewrite E. exists (c :: ws'). split; [now constructor|reflexivity].
Qed.
Lemma crlf_starts s : ~ starts_continuation s -> ~ starts_continuation (crlf s).
Proof using.
  intros H (c & t & E & Hc). apply H. destruct s as [|d u]; [discriminate|]. exists d, u. split; [reflexivity|].
  cbn [crlf] in E. destruct (N.eqb_spec d CR) as [Ed|Ed].
  - unfold continuation_space. tauto.
  - injection E as -> _. exact Hc.
Qed.
Lemma cooked_crlf k s v : cooked k s v -> cooked k (crlf s) v.
Proof using.
  induction 1 as [|c s v H1 H2 H3 H4 H5 H IH|e x s v He H IH|ws s v Hw Hs H IH].
  - constructor.
  - rewrite crlf_cons by assumption. now apply cooked_char.
  - rewrite crlf_cons by discriminate. rewrite crlf_app by (eapply escape_no_cr; eauto).
    now apply cooked_escape.
  - rewrite crlf_cons by discriminate. rewrite crlf_cons by discriminate.
    destruct (crlf_space ws s Hw Hs) as (ws' & Hw' & ->).
    apply cooked_continue; auto. now apply crlf_starts.
Qed.

Lemma cooked_quoted k s t : p_quoted (prefix k ++ [DQUOTE] ++ s) = Some t <->
  p_cooked (esc_of k) (ok_of k) s = Some t.
Proof using.
  split.
  - intro H. apply p_quoted_cases in H as [H|[H|[H|[H|H]]]].
    + destruct k; [exact H| |]; apply q_string_first in H as (c & u & E & [Hc|Hc]); cbn in E; subst c;
        discriminate.
    + destruct k; [|exact H|]; apply q_byte_string_first in H as (c & u & E & _); discriminate.
    + destruct k; [| |exact H]; apply q_c_string_first in H as (c & u & E & _); discriminate.
    + exfalso. apply q_byte_first in H as (u & E). destruct k; discriminate.
    + exfalso. apply q_char_first in H as (u & E). destruct k; discriminate.
  - intro H. apply p_quoted_intro. destruct k; auto.
Qed.
Lemma cooked_not_number k s : p_float (prefix k ++ [DQUOTE] ++ s) = None /\ p_int (prefix k ++ [DQUOTE] ++ s) = None.
Proof using.
  split.
  - destruct (p_float _) eqn:E; [|reflexivity]. apply p_float_first in E as (c & t & E & Hc).
    destruct k; injection E as <- _; discriminate.
  - destruct (p_int _) eqn:E; [|reflexivity]. apply p_int_first in E as (c & t & E & Hc).
    destruct k; injection E as <- _; discriminate.
Qed.

(** An accepted cooked literal is a quoted text that means something once CRLF is
    read as LF, and a suffix. *)
Lemma cooked_shape k s : p_literal (prefix k ++ [DQUOTE] ++ s) = Some [] ->
  exists b v sfx, s = b ++ [DQUOTE] ++ sfx /\ cooked k (crlf b) v /\ p_suffix sfx = [].
Proof using.
  unfold p_literal. destruct (cooked_not_number k s) as [-> ->].
  destruct (p_quoted _) as [r|] eqn:E; [|discriminate]. cbn [omap orelse]. intros [= H].
  apply cooked_quoted in E. unfold p_cooked in E. apply p_cooked_sound in E as (b & v & Eb & Hc).
  exists b, v, r. auto.
Qed.

Lemma cooked_value k s : p_literal (prefix k ++ [DQUOTE] ++ s) = Some [] ->
  exists b v sfx, s = b ++ [DQUOTE] ++ sfx /\ p_suffix sfx = [] /\ cooked k (crlf b) v /\
    (sfx = [] -> ~ In CR b -> value_of k (prefix k ++ [DQUOTE] ++ s) = Ok (COk (finish k v))) /\
    (forall w, value_of k (prefix k ++ [DQUOTE] ++ s) = Ok (COk w) -> w = finish k v /\ sfx = []).
Proof.
  intro H. destruct (cooked_shape k s H) as (b & v & sfx & -> & Hc & Hsf).
  exists b, v, sfx. repeat split; auto.
  - intros -> Hn. rewrite crlf_id in Hc by exact Hn. rewrite app_nil_r.
    destruct (value_spec k (prefix k ++ [DQUOTE] ++ b ++ [DQUOTE])) as (r & -> & Hr). f_equal.
    apply Hr. now apply den_cooked.
  - rename H0 into Hw. revert w Hw. intros w Hw.
    destruct (value_spec k (prefix k ++ [DQUOTE] ++ b ++ [DQUOTE] ++ sfx)) as (r & Er & Hr).
    rewrite Er in Hw. injection Hw as Hw. apply Hr in Hw.
    remember (prefix k ++ [DQUOTE] ++ b ++ [DQUOTE] ++ sfx) as repr eqn:E.
    destruct Hw as [b' v' Hc'|n b']; [|exfalso; apply app_inv_head in E; discriminate].
    apply app_inv_head in E. injection E as E.
    assert (sfx = []).
    { apply (raw_last 0 b'); [now apply p_suffix_end|]. exists (b ++ [DQUOTE]). cbn. rewrite E, <- app_assoc.
      reflexivity. }
    subst sfx. apply app_inv_tail in E. subst b'. f_equal.
    eapply cooked_functional; [|exact Hc]. now apply cooked_crlf.
  - rename H0 into Hw.
    destruct (value_spec k (prefix k ++ [DQUOTE] ++ b ++ [DQUOTE] ++ sfx)) as (r & Er & Hr).
    rewrite Er in Hw. injection Hw as Hw. apply Hr in Hw.
    remember (prefix k ++ [DQUOTE] ++ b ++ [DQUOTE] ++ sfx) as repr eqn:E.
    destruct Hw as [b' v' Hc'|n b']; [|exfalso; apply app_inv_head in E; discriminate].
    apply app_inv_head in E. injection E as E.
    apply (raw_last 0 b'); [now apply p_suffix_end|]. exists (b ++ [DQUOTE]). cbn. rewrite E, <- app_assoc.
    reflexivity.
Qed.

(** *** C strings *)

Lemma encode_no_nul c : c <> 0 -> ~ In 0 (encode_utf8 c).
Proof using.
  intro H. unfold encode_utf8.
  destruct (c <? 0x80); [|destruct (c <? 0x800); [|destruct (c <? 0x10000)]]; cbn; lia.
Qed.
Lemma cooked_c_no_nul s v : cooked KC s v -> ~ In 0 v.
Proof using.
  induction 1 as [|c s v H1 H2 H3 H4 H5 H IH|e x s v He H IH|ws s v Hw Hs H IH].
  - auto.
  - rewrite in_app_iff. intros [Hi|Hi]; [|auto]. revert Hi. apply encode_no_nul. auto.
  - rewrite in_app_iff. intros [Hi|Hi]; [|auto]. clear -He Hi.
    inversion He as [c w Hc|Hk|a b y z Ha Hb Hs Hn|ds n w Hk Hu Hn Hs Hz]; subst.
    + cbn in Hc. repeat (destruct Hc as [Hc|Hc]; [injection Hc as <- <-; cbn in Hi; lia|]). destruct Hc.
    + now apply Hk.
    + destruct Hi as [Hi|[]]. now apply Hn in Hi.
    + revert Hi. apply encode_no_nul. auto.
  - exact IH.
Qed.
Lemma str_bytes_nonzero s : Forall (fun c => c <> 0) s -> ~ In 0 (str_bytes s).
Proof using.
  intros H Hi. unfold str_bytes in Hi. apply in_flat_map in Hi as (c & Hc & Hi).
  rewrite Forall_forall in H. revert Hi. apply encode_no_nul. auto.
Qed.
Lemma cstr_terminated repr w : p_literal repr = Some [] -> cstr_value repr = Ok (COk w) ->
  exists v, w = v ++ [0] /\ ~ In 0 v.
Proof.
  intros Hp Hw. destruct (value_spec KC repr) as (r & Er & Hr). cbn [value_of] in Er.
  rewrite Er in Hw. injection Hw as Hw. apply Hr in Hw. destruct Hw as [s v Hc|n s]; cbn [finish].
  - exists v. split; [reflexivity|]. eapply cooked_c_no_nul; eauto.
  - exists (str_bytes s). split; [reflexivity|].
    apply (raw_token_iff KC n s) in Hp as (_ & _ & H & _). now apply str_bytes_nonzero.
Qed.

Lemma accessors_total repr : exists a b c,
  str_value repr = Ok a /\ byte_str_value repr = Ok b /\ cstr_value repr = Ok c /\
  (forall w, a = COk w <-> denotes KStr repr w) /\
  (forall w, b = COk w <-> denotes KByte repr w) /\
  (forall w, c = COk w <-> denotes KC repr w).
Proof using.
  destruct (value_spec KStr repr) as (a & Ea & Ha). destruct (value_spec KByte repr) as (b & Eb & Hb).
  destruct (value_spec KC repr) as (c & Ec & Hc). exists a, b, c. auto 10.
Qed.

(** *** Constructors *)

Lemma denotes_value k repr v : denotes k repr v -> value_of k repr = Ok (COk v).
Proof using. intro H. destruct (value_spec k repr) as (r & -> & Hr). f_equal. now apply Hr. Qed.

Lemma string_roundtrip start s : start < two32 -> valid_str s ->
  accepted start (literal_string s) /\ denotes KStr (literal_string s) s /\
  str_value (literal_string s) = Ok (COk s).
Proof.
  intros Hs Hv. assert (Hd := literal_string_denotes s Hv). split; [|split; [exact Hd|]].
  - apply accepted_iff; [exact Hs|]. now apply literal_string_token.
  - exact (denotes_value KStr _ _ Hd).
Qed.
Lemma byte_string_roundtrip start bs : start < two32 -> Forall (fun b => b < 256) bs ->
  accepted start (literal_byte_string bs) /\ denotes KByte (literal_byte_string bs) bs /\
  byte_str_value (literal_byte_string bs) = Ok (COk bs).
Proof.
  intros Hs Hv. assert (Hd := literal_byte_string_denotes bs Hv). split; [|split; [exact Hd|]].
  - apply accepted_iff; [exact Hs|]. now apply literal_byte_string_token.
  - exact (denotes_value KByte _ _ Hd).
Qed.
Lemma c_string_roundtrip start bs : start < two32 -> Forall (fun b => b < 256 /\ b <> 0) bs ->
  exists repr, literal_c_string bs = Ok repr /\ accepted start repr /\ denotes KC repr (bs ++ [0]) /\
  cstr_value repr = Ok (COk (bs ++ [0])).
Proof.
  intros Hs Hv. destruct (literal_c_string_denotes bs Hv) as (repr & E & Hd). exists repr.
  split; [exact E|]. split; [|split; [exact Hd|]].
  - apply accepted_iff; [exact Hs|]. eapply literal_c_string_token; eauto.
  - exact (denotes_value KC _ _ Hd).
Qed.
Lemma character_roundtrip start c : start < two32 -> is_scalar c = true ->
  accepted start (literal_character c) /\ char_denotes KStr (literal_character c) c.
Proof.
  intros Hs Hv. assert (Hd := literal_character_denotes c Hv). split; [|exact Hd].
  apply accepted_iff; [exact Hs|]. eapply char_token; [exact Hd|discriminate].
Qed.
Lemma byte_character_roundtrip start b : start < two32 -> b < 256 ->
  accepted start (literal_byte_character b) /\ char_denotes KByte (literal_byte_character b) b.
Proof.
  intros Hs Hv. assert (Hd := literal_byte_character_denotes b Hv). split; [|exact Hd].
  apply accepted_iff; [exact Hs|]. eapply char_token; [exact Hd|discriminate].
Qed.

(** *** Numbers *)


Lemma minus_leaf d u : is_dec_digit d = true ->
  p_leaf ("-"%ch :: d :: u) = Some (d :: u, TPunct "-"%ch Alone).
Proof.
  intro Hd. apply (p_leaf_kind UO). apply LK_punct.
  assert (Hp : p_punct_char (d :: u) = None).
  { unfold p_punct_char. cbn [starts_with]. destruct (_ || _); [reflexivity|].
    destruct (contains punct_recognized d) eqn:E; [|reflexivity]. exfalso.
    unfold is_dec_digit, between in Hd. unfold contains in E. apply existsb_exists in E as (x & Hx & E).
    apply N.eqb_eq in E. subst x. cbn in Hx. repeat (destruct Hx as [Hx|Hx]; [subst d; discriminate|]).
    destruct Hx. }
  unfold p_punct. change (p_punct_char ("-"%ch :: d :: u)) with (Some (d :: u, "-"%ch)). cbn iota beta.
  change ("-"%ch =? SQUOTE) with false. cbn iota. now rewrite Hp.
Qed.

Lemma negative_accepted start body : start < two32 -> p_literal body = Some [] ->
  (exists d u, body = d :: u /\ is_dec_digit d = true) -> accepted_negative start body.
Proof.
  intros Hs Hp (d & u & -> & Hd). split; [|split].
  - rewrite literal_from_str_spec by exact Hs. unfold p_literal_from_str. cbn [head_is].
    change ("-"%ch =? "-"%ch) with true. cbn [andb skipn]. rewrite Hd. cbn [negb]. rewrite Hp. eauto.
  - assert (Hl : lexes ("-"%ch :: d :: u) [TPunct "-"%ch Alone call_site; TLiteral (d :: u) call_site]).
    { pose proof (proj1 (p_literal_lexes UO _) Hp) as [_ Hl]. unfold lexes in *.
      change (strip_bom ("-"%ch :: d :: u)) with ("-"%ch :: d :: u).
      assert (strip_bom (d :: u) = d :: u) as Eb.
      { cbn. destruct (N.eqb_spec 0xFEFF d) as [<-|]; [discriminate|].
        destruct d; reflexivity || (destruct (N.eqb_spec (N.pos p) 0xFEFF); [congruence|reflexivity]). }
      rewrite Eb in Hl. exact (Lex_leaf' UO _ _ _ _ _ (minus_leaf d u Hd) Hl). }
    apply (lexes_iff U start _ _ Hs) in Hl as (ts & E & Et).
    destruct ts as [|t1 [|t2 [|]]]; try discriminate. injection Et as E1 E2.
    destruct t1; inversion E1; subst. destruct t2; inversion E2; subst. eauto.
  - intro sp. reflexivity.
Qed.

Lemma digits_first i s : all_digits i -> exists d u, i ++ s = d :: u /\ is_dec_digit d = true.
Proof using.
  intros [Hn Hi]. destruct i as [|c i]; [contradiction|]. inversion Hi; subst.
  exists c, (i ++ s). split; [reflexivity|]. now apply digit_spec.
Qed.

Lemma int_roundtrip start z sfx : start < two32 -> num_suffix sfx ->
  exists ds, canonical_decimal ds (Z.abs_N z) /\
    ((0 <= z)%Z -> int_display z ++ sfx = ds ++ sfx /\ accepted start (ds ++ sfx)) /\
    ((z < 0)%Z -> int_display z ++ sfx = "-"%ch :: ds ++ sfx /\ accepted_negative start (ds ++ sfx)).
Proof.
  intros Hs Hx. exists (dec_digits (Z.abs_N z)).
  assert (Hc := dec_digits_canonical (Z.abs_N z)). assert (Hd := decimal_digits _ _ (proj1 Hc)).
  split; [exact Hc|]. unfold int_display.
  assert (Ht : p_literal (dec_digits (Z.abs_N z) ++ sfx) = Some []) by now apply int_token.
  destruct (Z.ltb_spec z 0) as [Hz|Hz]; (split; [intro H|intro H; try lia]); try lia.
  - split; [reflexivity|]. apply negative_accepted; auto. now apply digits_first.
  - split; [reflexivity|]. now apply accepted_iff.
Qed.

Lemma float_first text : float_text text -> forall s, exists d u, text ++ s = d :: u /\ is_dec_digit d = true.
Proof using.
  intros [i Hi|i f Hi Hf] s; [now apply digits_first|]. rewrite <- app_assoc. now apply digits_first.
Qed.
Lemma float_suffixed_roundtrip start t text : start < two32 ->
  float_text text ->
  float_suffixed t text = text ++ float_suffix t /\ accepted start (text ++ float_suffix t) /\
  float_suffixed t ("-"%ch :: text) = "-"%ch :: text ++ float_suffix t /\
  accepted_negative start (text ++ float_suffix t).
Proof.
  intros Hs H. unfold float_suffixed.
  assert (E : float_type_name t = float_suffix t) by now destruct t.
  assert (Ht : p_literal (text ++ float_suffix t) = Some []).
  { rewrite <- E. apply (float_suffixed_token UO); [exact H|apply float_type_suffix]. }
  rewrite E. split; [reflexivity|]. split; [now apply accepted_iff|]. split; [reflexivity|].
  apply negative_accepted; [exact Hs|exact Ht|now apply float_first].
Qed.
Lemma int_suffixed_roundtrip start z t : start < two32 ->
  exists ds, canonical_decimal ds (Z.abs_N z) /\
    ((0 <= z)%Z -> int_suffixed t z = ds ++ int_suffix t /\ accepted start (ds ++ int_suffix t)) /\
    ((z < 0)%Z -> int_suffixed t z = "-"%ch :: ds ++ int_suffix t /\
                  accepted_negative start (ds ++ int_suffix t)).
Proof.
  intro H. assert (E : int_type_name t = int_suffix t) by now destruct t.
  unfold int_suffixed. rewrite E. apply int_roundtrip; [exact H|]. rewrite <- E. apply int_type_suffix.
Qed.
Lemma float_unsuffixed_roundtrip start text : start < two32 -> float_text text ->
  exists i f, all_digits i /\ all_digits f /\
    (text = i /\ f = tag "0" \/ text = i ++ tag "." ++ f) /\
    float_unsuffixed text = i ++ tag "." ++ f /\
    accepted start (i ++ tag "." ++ f) /\
    float_unsuffixed ("-"%ch :: text) = "-"%ch :: i ++ tag "." ++ f /\
    accepted_negative start (i ++ tag "." ++ f).
Proof.
  intros Hs H. destruct (float_unsuffixed_shape _ H) as (i & f & Hi & Hf & E & Et). exists i, f.
  rewrite float_unsuffixed_neg, E. repeat (split; [assumption || reflexivity|]).
  assert (Ht : p_literal (i ++ tag "." ++ f) = Some []).
  { assert (Hx := float_token UO i f [] Hi Hf (or_introl eq_refl)). now rewrite app_nil_r in Hx. }
  split; [now apply accepted_iff|]. split; [reflexivity|].
  apply negative_accepted; auto. now apply digits_first.
Qed.

Lemma int_unsuffixed_roundtrip start z : start < two32 ->
  exists ds, canonical_decimal ds (Z.abs_N z) /\
    ((0 <= z)%Z -> int_unsuffixed z = ds /\ accepted start ds) /\
    ((z < 0)%Z -> int_unsuffixed z = "-"%ch :: ds /\ accepted_negative start ds).
Proof.
  intro Hs. destruct (int_roundtrip start z [] Hs (or_introl eq_refl)) as (ds & H). rewrite !app_nil_r in H. eauto.
Qed.
Lemma raw_accepted start k n s : start < two32 ->
  accepted start (raw_literal k n s) <->
  (n <= 255)%nat /\ cr_only_before_lf s /\ Forall (raw_allowed k) s /\
  (forall x y, s <> x ++ [DQUOTE] ++ repeat "#"%ch n ++ y).
Proof. intro Hs. rewrite <- (accepted_iff start) by exact Hs. apply raw_token_iff. Qed.
Lemma raw_value k n s :
  value_of k (raw_literal k n s) = Ok (COk (finish k (match k with KStr => s | _ => str_bytes s end))).
Proof using. apply denotes_value. apply den_raw. Qed.
Lemma raw_rejected start k n t : start < two32 -> (255 < n)%nat ->
  exists sp,
  literal_from_str start (prefix k ++ tag "r" ++ repeat "#"%ch n ++ [DQUOTE] ++ t) = Ok (LitErr sp).
Proof using.
  intros Hs Hn. rewrite literal_from_str_spec by exact Hs. unfold p_literal_from_str.
  assert (head_is "-"%ch (prefix k ++ tag "r" ++ repeat "#"%ch n ++ [DQUOTE] ++ t) = false) as ->
    by (destruct k; reflexivity).
  cbn [andb]. rewrite raw_too_many by exact Hn. eauto.
Qed.
Lemma cooked_accepted start k s : start < two32 ->
  accepted start (prefix k ++ [DQUOTE] ++ s) ->
  exists b v sfx, s = b ++ [DQUOTE] ++ sfx /\ cooked k (crlf b) v /\
    (sfx = [] -> ~ In CR b -> value_of k (prefix k ++ [DQUOTE] ++ s) = Ok (COk (finish k v))) /\
    (forall w, value_of k (prefix k ++ [DQUOTE] ++ s) = Ok (COk w) -> w = finish k v /\ sfx = []).
Proof.
  intros Hs H. apply accepted_iff in H; [|exact Hs].
  destruct (cooked_value k s H) as (b & v & sfx & H1 & _ & H2). eauto 6.
Qed.
Lemma denotes_quoted k b w : denotes k (prefix k ++ [DQUOTE] ++ b ++ [DQUOTE]) w ->
  exists v, cooked k b v /\ w = finish k v.
Proof using.
  intro H. remember (prefix k ++ [DQUOTE] ++ b ++ [DQUOTE]) as r eqn:E. destruct H as [s v H|n s].
  - apply app_inv_head in E. apply (app_inv_head [DQUOTE]) in E. apply app_inv_tail in E. subst. eauto.
  - apply app_inv_head in E. discriminate.
Qed.
Lemma cooked_exact start k s : start < two32 ->
  accepted start (prefix k ++ [DQUOTE] ++ s) ->
  exists b v sfx, s = b ++ [DQUOTE] ++ sfx /\ cooked k (crlf b) v /\
    (forall w, value_of k (prefix k ++ [DQUOTE] ++ s) = Ok (COk w) <->
       w = finish k v /\ sfx = [] /\ exists x, cooked k b x).
Proof.
  intros Hs H. destruct (cooked_accepted start k s Hs H) as (b & v & sfx & E & Hc & _ & Hv).
  exists b, v, sfx. split; [exact E|]. split; [exact Hc|]. intro w. split.
  - intro Hw. destruct (Hv w Hw) as [-> ->]. split; [reflexivity|]. split; [reflexivity|].
    rewrite E, app_nil_r in Hw. destruct (value_spec k (prefix k ++ [DQUOTE] ++ b ++ [DQUOTE])) as (r & Er & Hr).
    rewrite Er in Hw. injection Hw as Hw. apply Hr in Hw. apply denotes_quoted in Hw as (x & Hx & _). eauto.
  - intros (-> & -> & x & Hx). rewrite app_nil_r in E. subst s.
    assert (Hd := denotes_value k _ _ (den_cooked k b x Hx)). destruct (Hv _ Hd) as [F _]. now rewrite <- F.
Qed.
Lemma cooked_is_accepted start k s v : start < two32 ->
  cooked k s v -> ~ In CR s -> accepted start (prefix k ++ [DQUOTE] ++ s ++ [DQUOTE]).
Proof. intros Hs H Hn. apply accepted_iff; [exact Hs|]. eapply cooked_token; eauto. Qed.
Lemma accepted_cstr start repr w : start < two32 ->
  accepted start repr -> cstr_value repr = Ok (COk w) -> exists v, w = v ++ [0] /\ ~ In 0 v.
Proof. intros Hs H. apply accepted_iff in H; [|exact Hs]. now apply cstr_terminated. Qed.

End WithUnicode.

Lemma one_kind k k' repr v w :
  value_of k repr = Ok (COk v) -> value_of k' repr = Ok (COk w) -> k = k' /\ v = w.
Proof.
  intros Hv Hw.
  destruct (value_spec k repr) as (r & Er & Hr). rewrite Er in Hv. injection Hv as Hv. apply Hr in Hv.
  destruct (value_spec k' repr) as (r' & Er' & Hr'). rewrite Er' in Hw. injection Hw as Hw. apply Hr' in Hw.
  assert (E := denotes_kind _ _ _ _ _ Hv Hw). subst k'. split; [reflexivity|]. eapply denotes_fun; eauto.
Qed.

Lemma values_refuted :
  exists a b c : str,
    (forall r, In r [a; b; c] -> @accepted sample_unicode 0 r) /\
    a = tag """a" ++ [CR; LF] ++ tag "b""" /\ b = tag """a\" ++ [CR; LF] ++ tag "b""" /\ c = tag """a""x" /\
    (forall v, str_value a <> Ok (COk v)) /\ (forall v, str_value b <> Ok (COk v)) /\
    (forall v, str_value c <> Ok (COk v)).
Proof.
  eexists _, _, _. split; [|repeat (split; [reflexivity|])].
  - intros r [<-|[<-|[<-|[]]]]; vm_compute; split; eexists; reflexivity.
  - repeat split; intro v; vm_compute; discriminate.
Qed.
