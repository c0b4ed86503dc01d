(** * The escaper reports what the specification says. *)
From Verif Require Import Base Unicode BaseFacts Escaper LitValue SpecLit SpecEscape EscaperFacts.
From Verif Require Import SpecLex LitValueFacts.
Import ListNotations.
Local Open Scope N_scope.

Lemma not_hexadecimal c : to_digit16 c = None <-> ~ hexadecimal c.
Proof.
  unfold hexadecimal. split.
  - intros H [v Hv]. apply to_digit16_hexval in Hv. congruence.
  - intro H. destruct (to_digit16 c) eqn:E; [|reflexivity].
    apply to_digit16_hexval in E. destruct H. eauto.
Qed.

(** ** Digits of a unicode escape *)
Definition kept (n : nat) (v w : N) : Prop := (n <= 6)%nat -> w = v.

Lemma unicode_loop_exact s ds n v w t r :
  udigits ds n v -> kept n v w -> unicode_loop s w n = (t, r) ->
  (exists ds', s = ds' /\ t = [] /\ r = UErr UnclosedUnicodeEscape /\
     exists n' v', udigits (ds ++ ds') n' v')
  \/ (exists ds' n' v', s = ds' ++ "}"%ch :: t /\ udigits (ds ++ ds') n' v' /\
      r = if (6 <? n')%nat then UErr OverlongUnicodeEscape else UOk v')
  \/ (exists ds' c, s = ds' ++ c :: t /\ r = UErr InvalidCharInUnicodeEscape /\
      (exists n' v', udigits (ds ++ ds') n' v') /\
      ~ hexadecimal c /\ c <> "_"%ch /\ c <> "}"%ch).
Proof.
  revert ds n v w t r. induction s as [|c s IH]; intros ds n v w t r Hd Hk H; cbn [unicode_loop] in H.
  - injection H as <- <-. left. exists []. rewrite app_nil_r. eauto 10.
  - destruct (N.eqb_spec c "_"%ch) as [Ec|Ec].
    { assert (Hd1 : udigits (ds ++ [c]) n v) by (rewrite Ec; now apply ud_underscore).
      destruct (IH _ _ _ _ _ _ Hd1 Hk H)
        as [(ds' & -> & Ht & Hr & X)|[(ds' & n' & v' & -> & X & Hr)|(ds' & d & -> & Hr & X & Y)]].
      - left. exists (c :: ds'). rewrite <- app_assoc in X. auto.
      - right. left. exists (c :: ds'), n', v'. rewrite <- app_assoc in X. auto.
      - right. right. exists (c :: ds'), d. rewrite <- app_assoc in X. auto. }
    destruct (N.eqb_spec c "}"%ch) as [Ec'|Ec'].
    { injection H as <- <-. right. left. exists [], n, v. rewrite app_nil_r, Ec'.
      repeat split; auto. destruct (Nat.ltb_spec 6 n); [reflexivity|]. f_equal. now apply Hk. }
    destruct (to_digit16 c) as [d|] eqn:Ed.
    2:{ injection H as <- <-. right. right. exists [], c. rewrite app_nil_r.
        repeat split; eauto. now apply not_hexadecimal. }
    apply to_digit16_hexval in Ed.
    assert (Hd1 : udigits (ds ++ [c]) (S n) (16 * v + d)) by now apply ud_digit.
    assert (exists w', kept (S n) (16 * v + d) w' /\ unicode_loop s w' (S n) = (t, r))
      as (w' & Hk' & H').
    { destruct (Nat.ltb_spec 6 (S n)); eexists; (split; [|exact H]).
      - intro. lia.
      - intro. rewrite Hk by lia. lia. }
    destruct (IH _ _ _ _ _ _ Hd1 Hk' H')
        as [(ds' & -> & Ht & Hr & X)|[(ds' & n' & v' & -> & X & Hr)|(ds' & e & -> & Hr & X & Y)]].
    + left. exists (c :: ds'). rewrite <- app_assoc in X. auto.
    + right. left. exists (c :: ds'), n', v'. rewrite <- app_assoc in X. auto.
    + right. right. exists (c :: ds'), e. rewrite <- app_assoc in X. auto.
Qed.

Lemma unicode_escape_any ds n v t :
  udigits ds n v ->
  exists w, kept n v w /\ unicode_escape (tag "{" ++ ds ++ t) = unicode_loop t w n.
Proof.
  intro H. revert t. induction H as [c v H|ds n v c d H IH Hd|ds n v H IH]; intros t.
  - exists v. split; [intro; reflexivity|].
    cbn -[to_digit16 unicode_loop]. destruct (hexval_plain _ _ H) as (-> & -> & _).
    apply to_digit16_hexval in H. now rewrite H.
  - destruct (IH ([c] ++ t)) as (w & Hw & E). rewrite <- app_assoc, E. cbn [app unicode_loop].
    destruct (hexval_plain _ _ Hd) as (-> & -> & _).
    apply to_digit16_hexval in Hd. rewrite Hd.
    destruct (Nat.ltb_spec 6 (S n)); eexists; (split; [|reflexivity]).
    + intro. lia.
    + intro. rewrite Hw by lia. lia.
  - destruct (IH ([95] ++ t)) as (w & Hw & E). rewrite <- app_assoc, E. exists w.
    split; [exact Hw|reflexivity].
Qed.

Lemma itself_fun k c x y : itself k c x -> itself k c y -> x = y.
Proof.
  intros [H1 H2|H1 H2|H1 H2] [H3 H4|H3 H4|H3 H4]; try reflexivity; try congruence.
  - specialize (H1 H3). lia.
  - now specialize (H2 H3).
  - specialize (H3 H1). lia.
  - now specialize (H4 H1).
Qed.

Section Kind.
Context {A : Type} (k : kind) (u : unescaper A) (push : A -> list N).
Notation out := (out push).

Record exactly : Prop := {
  ex_zero : out (zero_result u) = match k with KC => UErr NulInCStr | _ => UOk [0] end;
  ex_char c : itself k c (out (char2unit u c));
  ex_hex b : out (hex2unit u b) =
    match k with
    | KStr => if b <? 128 then UOk [b] else UErr OutOfRangeHexEscape
    | KByte => UOk [b]
    | KC => if b =? 0 then UErr NulInCStr else UOk [b]
    end;
  ex_uni c : out (unicode2unit u (UOk c)) =
    match k with
    | KStr => UOk [c]
    | KByte => UErr UnicodeEscapeInByte
    | KC => if c =? 0 then UErr NulInCStr else UOk (encode_utf8 c)
    end;
  ex_uni_err e : unicode2unit u (UErr e) = UErr (match k with KByte => UnicodeEscapeInByte | _ => e end)
}.

Context (I : implements k u push) (X : exactly).

Lemma unescape_1_exact chars :
  exists e t r, unescape_1 u chars = (t, r) /\ chars = e ++ t /\ after_slash k e t (out r).
Proof.
  destruct chars as [|c chars]; cbn [unescape_1].
  { exists [], [], (UErr LoneSlash). repeat split. constructor. }
  destruct (N.eqb_spec c "0"%ch) as [Ec|Ec].
  { exists [c], chars, (zero_result u). repeat split. rewrite (ex_zero X), Ec.
    destruct k eqn:Ek.
    1, 2: apply as_value, esc_zero; discriminate.
    now apply as_zero. }
  destruct (simple_escape c) as [b|] eqn:Es.
  { exists [c], chars, (UOk (nonzero_byte2unit u b)). repeat split.
    apply simple_escape_spec in Es. cbn [SpecEscape.out]. rewrite (imp_nonzero _ _ _ I).
    - now apply as_value, esc_simple.
    - cbn in Es. repeat (destruct Es as [Es|Es]; [injection Es as <- <-; lia|]). destruct Es. }
  destruct (N.eqb_spec c "x"%ch) as [Ex|Ex].
  { unfold hex_escape. destruct chars as [|a chars].
    { exists [c], [], (UErr TooShortHexEscape). repeat split. rewrite Ex.
      apply (as_hex_short k []). now left. }
    destruct (to_digit16 a) as [x|] eqn:Ea.
    2:{ exists [c; a], chars, (UErr InvalidCharInHexEscape). repeat split. rewrite Ex.
        apply (as_hex_bad k [] a); [now left|now apply not_hexadecimal]. }
    apply to_digit16_hexval in Ea.
    destruct chars as [|b chars].
    { exists [c; a], [], (UErr TooShortHexEscape). repeat split. rewrite Ex.
      apply (as_hex_short k [a]). right. unfold hexadecimal. eauto. }
    destruct (to_digit16 b) as [y|] eqn:Eb.
    2:{ exists [c; a; b], chars, (UErr InvalidCharInHexEscape). repeat split. rewrite Ex.
        apply (as_hex_bad k [a] b); [right; unfold hexadecimal; eauto|now apply not_hexadecimal]. }
    apply to_digit16_hexval in Eb.
    exists [c; a; b], chars, (hex2unit u (x * 16 + y)). repeat split. rewrite Ex, (ex_hex X).
    replace (x * 16 + y) with (16 * x + y) by lia.
    destruct k eqn:Ek.
    - destruct (N.ltb_spec (16 * x + y) 128).
      + apply as_value, esc_hex; auto. discriminate.
      + now apply (as_hex_high KStr a b x y).
    - apply as_value, esc_hex; auto; discriminate.
    - destruct (N.eqb_spec (16 * x + y) 0).
      + assert (x = 0) by lia. assert (y = 0) by lia. subst x y.
        assert (a = 48) by (inversion Ea; lia). assert (b = 48) by (inversion Eb; lia).
        subst a b. now apply as_hex_nul.
      + apply as_value, esc_hex; auto. discriminate. }
  destruct (N.eqb_spec c "u"%ch) as [Eu|Eu].
  2:{ exists [c], chars, (UErr InvalidEscape). repeat split. apply as_unknown.
      intro Hin. cbn in Hin.
      repeat (destruct Hin as [Hin|Hin]; [subst c; first [congruence|discriminate Es]|]). destruct Hin. }
  subst c. unfold unicode_escape. destruct chars as [|a chars].
  { exists (tag "u"), [], (UErr NoBraceInUnicodeEscape). repeat split. constructor. }
  destruct (N.eqb_spec a "{"%ch) as [Ea|Ea]; cbn [negb].
  2:{ exists (tag "u" ++ [a]), chars, (UErr NoBraceInUnicodeEscape). repeat split. now constructor. }
  subst a. destruct chars as [|b chars].
  { exists (tag "u{"), [], (UErr UnclosedUnicodeEscape). repeat split.
    apply (as_unclosed k []). now left. }
  destruct (N.eqb_spec b "_"%ch) as [Eb|Eb].
  { subst b. exists (tag "u{_"), chars, (UErr LeadingUnderscoreUnicodeEscape). repeat split. constructor. }
  destruct (N.eqb_spec b "}"%ch) as [Eb'|Eb'].
  { subst b. exists (tag "u{}"), chars, (UErr EmptyUnicodeEscape). repeat split. constructor. }
  destruct (to_digit16 b) as [v|] eqn:Ed.
  2:{ exists (tag "u{" ++ [b]), chars, (UErr InvalidCharInUnicodeEscape). repeat split.
      apply (as_bad k [] b); auto; [now left|now apply not_hexadecimal]. }
  apply to_digit16_hexval in Ed.
  destruct (unicode_loop chars v 1) as [t r] eqn:El.
  destruct (unicode_loop_exact _ _ _ _ _ _ _ (ud_first _ _ Ed) (fun _ => eq_refl) El)
    as [(ds & -> & -> & -> & n & w & Hd)|[(ds & n & w & -> & Hd & Hr)|(ds & d & -> & -> & (n & w & Hd) & Y)]].
  - exists (tag "u{" ++ b :: ds), [], (UErr UnclosedUnicodeEscape). repeat split.
    { now rewrite app_nil_r. }
    apply as_unclosed. right. eauto.
  - cbn [app] in Hd. assert (Es' : "u"%ch :: "{"%ch :: b :: ds ++ "}"%ch :: t = (tag "u{" ++ (b :: ds) ++ tag "}") ++ t).
    { rewrite <- !app_assoc. reflexivity. }
    destruct (Nat.ltb_spec 6 n) as [Hn|Hn]; subst r.
    + exists (tag "u{" ++ (b :: ds) ++ tag "}"), t, (UErr OverlongUnicodeEscape).
      repeat split; [exact Es'|]. apply as_unicode with n w; auto. now apply bu_overlong.
    + destruct (N.ltb_spec char_max w) as [Hm|Hm].
      { rewrite (ex_uni_err X). exists (tag "u{" ++ (b :: ds) ++ tag "}"), t. eexists.
        split; [reflexivity|]. split; [exact Es'|].
        apply as_unicode with n w; auto. destruct k; [apply bu_range|apply bu_byte|apply bu_range]; auto;
          discriminate. }
      unfold char_from_u32. destruct (is_scalar w) eqn:Esc.
      2:{ rewrite (ex_uni_err X). exists (tag "u{" ++ (b :: ds) ++ tag "}"), t. eexists.
          split; [reflexivity|]. split; [exact Es'|].
          assert (0xD800 <= w <= 0xDFFF) by (unfold is_scalar, char_max in *; lia).
          apply as_unicode with n w; auto.
          destruct k; [apply bu_surrogate|apply bu_byte|apply bu_surrogate]; auto; discriminate. }
      exists (tag "u{" ++ (b :: ds) ++ tag "}"), t. eexists.
      split; [reflexivity|]. split; [exact Es'|]. rewrite (ex_uni X).
      destruct k eqn:Ek.
      * apply as_value. apply (esc_unicode KStr) with n; auto; discriminate.
      * apply as_unicode with n w; auto. now apply bu_byte.
      * destruct (N.eqb_spec w 0) as [->|Hz].
        -- apply as_unicode with n 0; auto. now apply bu_nul.
        -- apply as_value. apply (esc_unicode KC) with n; auto. discriminate.
  - exists (tag "u{" ++ (b :: ds) ++ [d]), t, (UErr InvalidCharInUnicodeEscape). repeat split.
    { rewrite <- !app_assoc. reflexivity. }
    apply as_bad; try apply Y. right. eauto.
Qed.

Lemma after_slash_computed e t x :
  after_slash k e t x -> exists r, unescape_1 u (e ++ t) = (t, r) /\ out r = x.
Proof.
  assert (Hhex : forall c ds r, few_digits ds -> ~ hexadecimal c ->
            hex_escape (ds ++ c :: r) = (r, UErr InvalidCharInHexEscape)).
  { intros c ds r [->|(a & -> & v & Hv)] Hc; apply not_hexadecimal in Hc; cbn [app hex_escape].
    - now rewrite Hc.
    - apply to_digit16_hexval in Hv. now rewrite Hv, Hc. }
  intros [e' r y He| |c r Hc|r Hk|ds Hds|ds c r Hds Hc|a b y z r Hk Ha Hb Hv|r Hk| |c r Hc|ds Hds|r|r
         |ds c r Hds H1 H2 H3|ds n v e' r Hd Hb].
  - destruct (unescape_1_complete k u push I _ _ r He) as (y' & -> & a & -> & <-). now exists (UOk a).
  - now exists (UErr LoneSlash).
  - exists (UErr InvalidEscape). split; [|reflexivity]. cbn [app unescape_1].
    assert (Hn : forall d, In d (tag "0nrtxu\'""") -> (c =? d) = false).
    { intros d Hd. apply N.eqb_neq. intros ->. contradiction. }
    unfold simple_escape. rewrite !Hn by (cbn; tauto). reflexivity.
  - exists (zero_result u). split; [reflexivity|]. rewrite (ex_zero X). now rewrite Hk.
  - exists (UErr TooShortHexEscape). split; [|reflexivity]. rewrite app_nil_r.
    destruct Hds as [->|(a & -> & v & Hv)]; [reflexivity|]. apply to_digit16_hexval in Hv.
    cbn -[to_digit16]. now rewrite Hv.
  - exists (UErr InvalidCharInHexEscape). split; [|reflexivity].
    rewrite <- !app_assoc. cbn -[hex_escape]. now rewrite (Hhex c ds r).
  - exists (hex2unit u (16 * y + z)). apply to_digit16_hexval in Ha, Hb.
    split. { cbn -[to_digit16 N.mul]. rewrite Ha, Hb. now rewrite N.mul_comm. }
    rewrite (ex_hex X), Hk. destruct (N.ltb_spec (16 * y + z) 128); [lia|reflexivity].
  - exists (hex2unit u 0). split; [reflexivity|]. now rewrite (ex_hex X), Hk.
  - now exists (UErr NoBraceInUnicodeEscape).
  - exists (UErr NoBraceInUnicodeEscape). split; [|reflexivity]. cbn.
    destruct (N.eqb_spec c 123); [contradiction|reflexivity].
  - exists (UErr UnclosedUnicodeEscape). split; [|reflexivity].
    destruct Hds as [->|(n & v & Hd)]; [reflexivity|].
    change ((tag "u{" ++ ds) ++ []) with ("u"%ch :: tag "{" ++ ds ++ []).
    rewrite unescape_1_u. destruct (unicode_escape_any _ _ _ [] Hd) as (w & _ & ->). reflexivity.
  - now exists (UErr LeadingUnderscoreUnicodeEscape).
  - now exists (UErr EmptyUnicodeEscape).
  - exists (UErr InvalidCharInUnicodeEscape). split; [|reflexivity].
    replace ((tag "u{" ++ ds ++ [c]) ++ r) with ("u"%ch :: tag "{" ++ ds ++ [c] ++ r)
      by now rewrite <- !app_assoc.
    rewrite unescape_1_u. apply not_hexadecimal in H1. apply N.eqb_neq in H2, H3.
    destruct Hds as [->|(n & v & Hd)].
    + cbn -[to_digit16 N.eqb]. change ("{"%ch =? "{"%ch) with true. cbn [negb].
      now rewrite H1, H2, H3.
    + destruct (unicode_escape_any _ _ _ ([c] ++ r) Hd) as (w & _ & ->).
      cbn [app unicode_loop]. now rewrite H1, H2, H3.
  - replace ((tag "u{" ++ ds ++ tag "}") ++ r) with ("u"%ch :: tag "{" ++ ds ++ tag "}" ++ r)
      by now rewrite <- !app_assoc.
    rewrite unescape_1_u. destruct (unicode_escape_any _ _ _ (tag "}" ++ r) Hd) as (w & Hw & ->).
    rewrite unicode_loop_close.
    inversion Hb as [n' v' Hn|n' v' Hn Hk|n' v' Hn Hk Hv|n' v' Hn Hk Hv|n' Hn Hk]; subst n'; try subst v'.
    + destruct (Nat.ltb_spec 6 n); [|lia]. eexists. split; reflexivity.
    + destruct (Nat.ltb_spec 6 n); [lia|]. eexists. split; [reflexivity|].
      destruct (char_max <? w); [now rewrite (ex_uni_err X), Hk|].
      destruct (char_from_u32 w).
      * now rewrite (ex_uni X), Hk.
      * now rewrite (ex_uni_err X), Hk.
    + destruct (Nat.ltb_spec 6 n); [lia|]. eexists. split; [reflexivity|]. rewrite (Hw Hn).
      destruct (N.ltb_spec char_max v); [|unfold char_max in *; lia].
      rewrite (ex_uni_err X). now destruct k.
    + destruct (Nat.ltb_spec 6 n); [lia|]. eexists. split; [reflexivity|]. rewrite (Hw Hn).
      destruct (N.ltb_spec char_max v); [unfold char_max in *; lia|].
      unfold char_from_u32. replace (is_scalar v) with false by (unfold is_scalar; lia).
      rewrite (ex_uni_err X). now destruct k.
    + destruct (Nat.ltb_spec 6 n); [lia|]. eexists. split; [reflexivity|]. subst v. rewrite (Hw Hn).
      change (char_max <? 0) with false. change (char_from_u32 0) with (Some 0).
      cbv iota. now rewrite (ex_uni X), Hk.
Qed.

(** ** Strings *)

Lemma skip_computed {B} p q ws s w w' :
  Forall continuation_space ws -> ~ starts_continuation s -> q = (p + 2 + str_len ws)%nat ->
  skipped_lines p q ws w -> unskipped p q s w' ->
  exists ev : list (event B), skip_ascii_whitespace (ws ++ s) p = Ok (s, ev) /\
    forall f, map (shown_event f) ev = w ++ w'.
Proof.
  intros H1 H2 Hq Hw Hw'. destruct (skip_position (ws ++ s)) as (ws' & s' & E & H3 & H4 & Hp).
  destruct (continuation_unique _ _ _ _ E H1 H2 H3 H4) as [<- <-].
  unfold skip_ascii_whitespace. rewrite Hp, split_at_app, <- Hq.
  eexists. split; [reflexivity|]. intro f. rewrite map_app. f_equal.
  - destruct Hw as [[Hin ->]|[Hin ->]]; destruct (contains ws LF) eqn:Ec; try reflexivity; exfalso.
    + apply not_true_iff_false in Ec. apply Ec. unfold contains. apply existsb_exists.
      exists LF. split; [exact Hin|apply N.eqb_refl].
    + unfold contains in Ec. apply existsb_exists in Ec. destruct Ec as (x & Hx & Ex).
      apply N.eqb_eq in Ex. subst x. contradiction.
  - destruct Hw' as [(c & t & -> & Hc & ->)|[Hn ->]].
    + now rewrite Hc.
    + destruct s as [|c t]; [reflexivity|]. now rewrite (Hn c t eq_refl).
Qed.
Lemma skipped_lines_exist p q ws : exists w, skipped_lines p q ws w.
Proof.
  unfold skipped_lines. destruct (in_dec N.eq_dec LF ws); eauto.
Qed.
Lemma unskipped_exist p q s : exists w, unskipped p q s w.
Proof.
  unfold unskipped. destruct s as [|c t].
  - exists []. right. split; [discriminate|reflexivity].
  - destruct (is_white_space c) eqn:Ec.
    + eexists. left. exists c, t. auto.
    + exists []. right. split; [|reflexivity]. now intros ? ? [= <- <-].
Qed.

Lemma reports_exist n : forall s p, (length s < n)%nat -> exists ev, reports k p s ev.
Proof.
  induction n as [|n IH]; intros s p Hl; [lia|].
  destruct s as [|c s]; [exists []; constructor|]. cbn [length] in Hl.
  destruct (N.eq_dec c DQUOTE) as [->|H1].
  { destruct (IH s (p + 1)%nat ltac:(lia)) as [ev H]. eexists. apply rp_quote. exact H. }
  destruct (N.eq_dec c CR) as [->|H2].
  { destruct (IH s (p + 1)%nat ltac:(lia)) as [ev H]. eexists. apply rp_return. exact H. }
  destruct (N.eq_dec c BACKSLASH) as [->|H3].
  2:{ destruct (IH s (p + len_utf8 c)%nat ltac:(lia)) as [ev H]. eexists.
      apply rp_char; eauto. apply (ex_char X). }
  assert (Hd : (exists t, s = LF :: t) \/ forall t, s <> LF :: t).
  { destruct s as [|d t]; [right; discriminate|].
    destruct (N.eq_dec d LF) as [->|Hd]; [left; eauto|right; intros ? [= ? _]; congruence]. }
  destruct Hd as [[t ->]|Hd].
  - destruct (skip_position t) as (ws & r & -> & Hw & Hr & _).
    destruct (skipped_lines_exist p (p + 2 + str_len ws)%nat ws) as [w Hs].
    destruct (unskipped_exist p (p + 2 + str_len ws)%nat r) as [w' Hu].
    cbn [length] in Hl. rewrite app_length in Hl.
    destruct (IH r (p + 2 + str_len ws)%nat ltac:(lia)) as [ev H].
    eexists. eapply rp_continue; eauto.
  - destruct (unescape_1_exact s) as (e & t & r & _ & -> & Ha).
    rewrite app_length in Hl.
    destruct (IH t (p + 1 + str_len e)%nat ltac:(lia)) as [ev H].
    eexists. eapply rp_escape; eauto.
Qed.

Lemma reports_computed p s ev :
  reports k p s ev ->
  forall fuel total, (length s < fuel)%nat -> total = (p + str_len s)%nat ->
  exists ev', unescape_loop u fuel total s = Ok ev' /\ map (shown_event push) ev' = ev.
Proof.
  induction 1 as [p|p s ev H IH|p s ev H IH|p c s x ev H1 H2 H3 Hx H IH|p e s x ev Hn Ha H IH
                 |p ws s q w w' ev Hw Hs Hq H1 H2 H IH]; intros [|fuel] total Hl Ht; try lia;
    cbn [unescape_loop].
  - now exists [].
  - cbn [length] in Hl. cbn [str_len] in Ht. change (len_utf8 DQUOTE) with 1%nat in Ht.
    destruct (IH fuel total ltac:(lia) ltac:(lia)) as (ev' & Hev & <-).
    rewrite checked_sub_ok by lia. cbn [bind]. change (len_utf8 DQUOTE) with 1%nat.
    rewrite checked_sub_ok by lia. cbn [bind].
    change (DQUOTE =? BACKSLASH) with false. change (DQUOTE =? DQUOTE) with true. cbn [andb].
    rewrite checked_sub_ok by lia. cbn [bind]. rewrite Hev. cbn [bind].
    eexists. split; [reflexivity|]. cbn [map]. unfold shown_event at 1. cbn [fst snd SpecEscape.out].
    do 3 f_equal; lia.
  - cbn [length] in Hl. cbn [str_len] in Ht. change (len_utf8 CR) with 1%nat in Ht.
    destruct (IH fuel total ltac:(lia) ltac:(lia)) as (ev' & Hev & <-).
    rewrite checked_sub_ok by lia. cbn [bind]. change (len_utf8 CR) with 1%nat.
    rewrite checked_sub_ok by lia. cbn [bind].
    change (CR =? BACKSLASH) with false. change (CR =? DQUOTE) with false.
    change (CR =? CR) with true. cbn [andb].
    rewrite checked_sub_ok by lia. cbn [bind]. rewrite Hev. cbn [bind].
    eexists. split; [reflexivity|]. cbn [map]. unfold shown_event at 1. cbn [fst snd SpecEscape.out].
    do 3 f_equal; lia.
  - cbn [length] in Hl. cbn [str_len] in Ht.
    destruct (IH fuel total ltac:(lia) ltac:(lia)) as (ev' & Hev & <-).
    rewrite checked_sub_ok by lia. cbn [bind]. rewrite checked_sub_ok by lia. cbn [bind].
    apply N.eqb_neq in H1, H2, H3. rewrite H1, H2, H3. cbn [andb].
    rewrite checked_sub_ok by lia. cbn [bind]. rewrite Hev. cbn [bind].
    eexists. split; [reflexivity|]. cbn [map]. unfold shown_event at 1. cbn [fst snd].
    f_equal. f_equal; [f_equal; lia|]. apply (itself_fun k c); [apply (ex_char X)|exact Hx].
  - cbn [length] in Hl. rewrite app_length in Hl. cbn [str_len] in Ht. rewrite str_len_app in Ht.
    change (len_utf8 BACKSLASH) with 1%nat in Ht.
    destruct (IH fuel total ltac:(lia) ltac:(lia)) as (ev' & Hev & <-).
    rewrite checked_sub_ok by (rewrite str_len_app; lia). cbn [bind].
    change (len_utf8 BACKSLASH) with 1%nat.
    rewrite checked_sub_ok by (rewrite str_len_app; lia). cbn [bind].
    change (BACKSLASH =? BACKSLASH) with true. cbn [andb].
    replace (match e ++ s with d :: _ => d =? LF | [] => false end) with false.
    2:{ destruct (e ++ s) as [|d t]; [reflexivity|]. symmetry. apply N.eqb_neq. intros ->. now apply (Hn t). }
    destruct (after_slash_computed _ _ _ Ha) as (r & -> & <-).
    rewrite checked_sub_ok by lia. cbn [bind]. rewrite Hev. cbn [bind].
    eexists. split; [reflexivity|]. cbn [map]. unfold shown_event at 1. cbn [fst snd].
    f_equal. f_equal. f_equal; [rewrite str_len_app; lia|lia].
  - cbn [length] in Hl. rewrite app_length in Hl. cbn [str_len] in Ht. rewrite str_len_app in Ht.
    change (len_utf8 BACKSLASH) with 1%nat in Ht. change (len_utf8 LF) with 1%nat in Ht.
    destruct (IH fuel total ltac:(lia) ltac:(lia)) as (ev' & Hev & <-).
    assert (El : str_len (LF :: ws ++ s) = (1 + str_len ws + str_len s)%nat).
    { cbn [str_len]. rewrite str_len_app. change (len_utf8 LF) with 1%nat. lia. }
    rewrite El, checked_sub_ok by lia. cbn [bind]. change (len_utf8 BACKSLASH) with 1%nat.
    rewrite checked_sub_ok by lia. cbn [bind].
    change (BACKSLASH =? BACKSLASH) with true. change (LF =? LF) with true. cbn [andb tl].
    replace (total - (1 + str_len ws + str_len s) - 1)%nat with p by lia.
    destruct (skip_computed (B := A) p q ws s w w' Hw Hs Hq H1 H2) as (ev'' & -> & Hm). cbn [bind].
    rewrite Hev. cbn [bind]. eexists. split; [reflexivity|]. now rewrite map_app, Hm, <- app_assoc.
Qed.

Lemma unescape_exact s :
  exists ev, unescape u s = Ok ev /\
    forall ev', reports k 0 s ev' <-> ev' = map (shown_event push) ev.
Proof.
  destruct (reports_exist (S (length s)) s 0 ltac:(lia)) as [ev0 H0].
  destruct (reports_computed _ _ _ H0 (S (length s)) (str_len s) ltac:(lia) eq_refl) as (ev & Hev & <-).
  exists ev. split; [exact Hev|]. intro ev'. split.
  - intro H. destruct (reports_computed _ _ _ H (S (length s)) (str_len s) ltac:(lia) eq_refl)
      as (ev1 & Hev1 & <-). congruence.
  - intros ->. exact H0.
Qed.

(** ** Characters *)

Lemma single_exact s :
  exists t r, unescape_single u s = (t, r) /\ (str_len t <= str_len s)%nat /\
    forall n x, single_report k s n x <-> n = (str_len s - str_len t)%nat /\ x = out r.
Proof.
  assert (Hc : forall n x, single_report k s n x ->
            exists t r, unescape_single u s = (t, r) /\ str_len s = (n + str_len t)%nat /\ x = out r).
  { intros n x [|c t Hin|t|c t e Hn Hi|c y Hn Hi|c y d t Hn Hi|e t y Ha|e y Ha|e y d t Ha];
      cbn [unescape_single].
    - now exists [], (UErr ZeroChars).
    - exists t, (UErr EscapeOnlyChar). cbn in Hin. destruct Hin as [<-|[<-|[<-|[]]]]; auto.
    - exists t, (UErr BareCarriageReturn). auto.
    - assert (Hf : forall d, In d [LF; TAB; SQUOTE; CR; BACKSLASH] -> (c =? d) = false).
      { intros d Hd. apply N.eqb_neq. intros ->. contradiction. }
      rewrite !Hf by (cbn; tauto). cbn [orb].
      assert (E := itself_fun k c _ _ (ex_char X c) Hi). destruct (char2unit u c); inversion E; subst.
      eexists _, _. split; [reflexivity|]. cbn [str_len]. split; [lia|reflexivity].
    - assert (Hf : forall d, In d [LF; TAB; SQUOTE; CR; BACKSLASH] -> (c =? d) = false).
      { intros d Hd. apply N.eqb_neq. intros ->. contradiction. }
      rewrite !Hf by (cbn; tauto). cbn [orb].
      assert (E := itself_fun k c _ _ (ex_char X c) Hi). destruct (char2unit u c); inversion E; subst.
      eexists _, _. split; [reflexivity|]. cbn [str_len]. split; [lia|reflexivity].
    - assert (Hf : forall d, In d [LF; TAB; SQUOTE; CR; BACKSLASH] -> (c =? d) = false).
      { intros d' Hd. apply N.eqb_neq. intros ->. contradiction. }
      rewrite !Hf by (cbn; tauto). cbn [orb].
      assert (E := itself_fun k c _ _ (ex_char X c) Hi). destruct (char2unit u c); inversion E; subst.
      eexists _, _. split; [reflexivity|]. cbn [str_len]. split; [lia|reflexivity].
    - destruct (after_slash_computed _ _ _ Ha) as (r & -> & E).
      change (BACKSLASH =? BACKSLASH) with true. cbv iota. destruct r; inversion E; subst.
      eexists _, _. split; [reflexivity|]. cbn [str_len]. rewrite str_len_app.
      change (len_utf8 BACKSLASH) with 1%nat. split; [lia|reflexivity].
    - destruct (after_slash_computed _ _ _ Ha) as (r & Hr & E). rewrite app_nil_r in Hr. rewrite Hr.
      change (BACKSLASH =? BACKSLASH) with true. cbv iota. destruct r; inversion E; subst.
      eexists _, _. split; [reflexivity|]. cbn [str_len].
      change (len_utf8 BACKSLASH) with 1%nat. split; [lia|reflexivity].
    - destruct (after_slash_computed _ _ _ Ha) as (r & -> & E).
      change (BACKSLASH =? BACKSLASH) with true. cbv iota. destruct r; inversion E; subst.
      eexists _, _. split; [reflexivity|]. cbn [str_len]. rewrite str_len_app. cbn [str_len].
      change (len_utf8 BACKSLASH) with 1%nat. split; [lia|reflexivity]. }
  assert (He : exists n x, single_report k s n x).
  { clear Hc. destruct s as [|c s]; [do 2 eexists; constructor|].
    destruct (in_dec N.eq_dec c [LF; TAB; SQUOTE]) as [Hi|Hi]; [do 2 eexists; now apply sr_special|].
    destruct (N.eq_dec c CR) as [->|Hr]; [do 2 eexists; apply sr_return|].
    destruct (N.eq_dec c BACKSLASH) as [->|Hb].
    - destruct (unescape_1_exact s) as (e & t & r & _ & -> & Ha).
      destruct (out r) as [x|x]; [|do 2 eexists; apply sr_bad_escape; exact Ha].
      destruct t as [|d t]; [|do 2 eexists; eapply sr_escape_more; exact Ha].
      rewrite app_nil_r. do 2 eexists; eapply sr_escape; exact Ha.
    - assert (Hn : ~ In c [LF; TAB; SQUOTE; CR; BACKSLASH]).
      { cbn in *. tauto || (intro H; repeat (destruct H as [H|H]; [subst c; tauto|]); exact H). }
      assert (Hx := ex_char X c). destruct (out (char2unit u c)) as [x|x].
      + destruct s as [|d s]; do 2 eexists; [eapply sr_char|eapply sr_char_more]; eauto.
      + do 2 eexists. eapply sr_bad; eauto. }
  destruct He as (n0 & x0 & H0). destruct (Hc _ _ H0) as (t & r & Hu & Hl & Hx).
  exists t, r. split; [exact Hu|]. split; [lia|]. intros n x. split.
  - intro H. destruct (Hc _ _ H) as (t' & r' & Hu' & Hl' & Hx').
    rewrite Hu in Hu'. injection Hu' as <- <-. split; [lia|exact Hx'].
  - intros [-> ->]. replace (str_len s - str_len t)%nat with n0 by lia. now rewrite <- Hx.
Qed.
End Kind.
