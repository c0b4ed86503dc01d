(** * Escapes with the arithmetic of the machine. *)
From Coq Require Import ZArith.
From Verif Require Import Base BaseFacts Unicode Escaper Lexer LitValue SpecLit SpecTree SpecLex EscaperFacts LitValueFacts
  LitProofs LexCooked Overflow SpecOverflow.
Import ListNotations.
Local Open Scope N_scope.

Section Build.
Variable ck : bool.

Lemma fit_ok w v : v < 2 ^ w -> fit ck w v = Ok v.
Proof. intro H. unfold fit. now destruct (N.ltb_spec v (2 ^ w)); [|lia]. Qed.
Lemma mul_ok a b : a * b < 2 ^ 32 -> mul_u32 ck a b = Ok (a * b).
Proof. apply fit_ok. Qed.
Lemma add_ok a b : a + b < 2 ^ 32 -> add_u32 ck a b = Ok (a + b).
Proof. apply fit_ok. Qed.
Lemma incr_ok a : (0 <= a < 2 ^ 31 - 1)%Z -> add_i32 ck a 1 = Ok (a + 1)%Z.
Proof.
  intro H. unfold add_i32. destruct (Z.leb_spec (- 2 ^ 31) (a + 1)); [|lia].
  destruct (Z.ltb_spec (a + 1) (2 ^ 31)); [reflexivity|lia].
Qed.

Lemma digit_u8_ok ch : digit_u8 ck ch = Ok (if is_hex_digit ch then Some (hex_value ch) else None).
Proof.
  unfold digit_u8, is_hex_digit, hex_value, between, sub_u8, add_u8, as_u8. cbn [Byte.to_N].
  change (2 ^ 8) with 256.
  destruct ((48 <=? ch) && (ch <=? 57)) eqn:E1.
  { rewrite N.mod_small by lia. destruct (N.leb_spec 48 ch); [reflexivity|lia]. }
  destruct ((97 <=? ch) && (ch <=? 102)) eqn:E2.
  { rewrite N.mod_small by lia. rewrite fit_ok by (change (2 ^ 8) with 256; lia). cbn [bind orb].
    destruct (N.leb_spec 97 (10 + ch)); [|lia]. cbn [bind]. do 2 f_equal. lia. }
  destruct ((65 <=? ch) && (ch <=? 70)) eqn:E3; [|reflexivity].
  rewrite N.mod_small by lia. rewrite fit_ok by (change (2 ^ 8) with 256; lia). cbn [bind orb].
  destruct (N.leb_spec 65 (10 + ch)); [|lia]. cbn [bind]. do 2 f_equal. lia.
Qed.
Lemma hex_value_bound ch : is_hex_digit ch = true -> hex_value ch < 16.
Proof.
  unfold is_hex_digit, hex_value, between. cbn [Byte.to_N]. intro H.
  destruct ((48 <=? ch) && (ch <=? 57)) eqn:E1; [lia|].
  destruct ((97 <=? ch) && (ch <=? 102)) eqn:E2; lia.
Qed.

Lemma pow16 n : (n <= 6)%nat -> 16 ^ N.of_nat n <= 16 ^ 6.
Proof. intro H. apply N.pow_le_mono_r; lia. Qed.
Lemma pow16_S n : 16 ^ N.of_nat (S n) = 16 * 16 ^ N.of_nat n.
Proof. rewrite Nat2N.inj_succ. apply N.pow_succ_r'. Qed.

Lemma backslash_u_loop_ok chars : forall i value len, (len <= 6)%nat -> value < 16 ^ N.of_nat len ->
  backslash_u_loop_in ck i chars value (Z.of_nat len) = backslash_u_loop i chars value len.
Proof.
  induction chars as [|c t IH]; intros i value len Hl Hv; [reflexivity|].
  cbn [backslash_u_loop_in backslash_u_loop]. rewrite digit_u8_ok. cbn [bind].
  destruct (is_hex_digit c) eqn:Eh.
  - destruct (Nat.eqb_spec len 6) as [->|Hn].
    { reflexivity. }
    destruct (Z.eqb_spec (Z.of_nat len) 6); [lia|].
    assert (Hb := hex_value_bound _ Eh).
    assert (H5 : 16 ^ N.of_nat len <= 16 ^ 5) by (apply N.pow_le_mono_r; lia).
    change (16 ^ 5) with 1048576 in H5. change (2 ^ 32) with 4294967296.
    rewrite mul_ok by (change (2 ^ 32) with 4294967296; lia). cbn [bind].
    rewrite add_ok by (change (2 ^ 32) with 4294967296; lia). cbn [bind].
    rewrite incr_ok by lia. cbn [bind].
    replace (Z.of_nat len + 1)%Z with (Z.of_nat (S len)) by lia.
    apply IH; [lia|]. rewrite pow16_S. lia.
  - replace (0 <? Z.of_nat len)%Z with (0 <? len)%nat.
    2:{ destruct (Nat.ltb_spec 0 len), (Z.ltb_spec 0 (Z.of_nat len)); lia. }
    destruct ((c =? "_"%ch) && (0 <? len)%nat); [now apply IH|].
    reflexivity.
Qed.
Lemma lexer_escapes it : backslash_u_in ck it = backslash_u it.
Proof.
  unfold backslash_u_in, backslash_u. destruct (ci_next it) as [[[a ch] [i t]]|]; [|reflexivity].
  destruct (ch =? "{"%ch); [|reflexivity]. apply (backslash_u_loop_ok t i 0 0); [lia|reflexivity].
Qed.

Lemma digit_bound c v : to_digit16 c = Some v -> v < 16.
Proof. intro H. apply to_digit16_hexval in H. now apply hexval_bound in H. Qed.
Lemma hex_ok chars : hex_escape_in ck chars = Ok (hex_escape chars).
Proof.
  destruct chars as [|a [|b t]]; cbn [hex_escape_in hex_escape]; try reflexivity.
  - destruct (to_digit16 a); reflexivity.
  - destruct (to_digit16 a) as [x|] eqn:Ea; [|reflexivity].
    destruct (to_digit16 b) as [y|] eqn:Eb; [|reflexivity].
    apply digit_bound in Ea, Eb.
    rewrite mul_ok by (change (2 ^ 32) with 4294967296; lia). cbn [bind].
    rewrite add_ok by (change (2 ^ 32) with 4294967296; lia). cbn [bind].
    unfold as_u8. rewrite N.mod_small by (change (2 ^ 8) with 256; lia). reflexivity.
Qed.

(** The digits from here on. *)
Fixpoint ahead (s : str) : nat :=
  match s with
  | [] => O
  | c :: t =>
      if c =? "_"%ch then ahead t
      else match to_digit16 c with Some _ => S (ahead t) | None => O end
  end.
Lemma ahead_length s : (ahead s <= length s)%nat.
Proof. induction s as [|c t IH]; cbn [ahead length]; [lia|]. destruct (c =? "_"%ch); [lia|]. destruct (to_digit16 c); lia. Qed.
Lemma brace_ahead c t : (c =? "}"%ch) = true -> ahead (c :: t) = O.
Proof. intro H. apply N.eqb_eq in H. subst c. reflexivity. Qed.

Lemma unicode_loop_ok s : forall v n, (1 <= n)%nat -> ((n <= 6)%nat -> v < 16 ^ N.of_nat n) ->
  N.of_nat n + N.of_nat (ahead s) < 2 ^ 31 ->
  unicode_loop_in ck s v (Z.of_nat n) = Ok (unicode_loop s v n).
Proof.
  induction s as [|c t IH]; intros v n H1 Hv Hn; [reflexivity|].
  cbn [unicode_loop_in unicode_loop]. cbn [ahead] in Hn.
  destruct (c =? "_"%ch) eqn:Eu; [now apply IH|].
  replace (6 <? Z.of_nat n)%Z with (6 <? n)%nat.
  2:{ destruct (Nat.ltb_spec 6 n), (Z.ltb_spec 6 (Z.of_nat n)); lia. }
  destruct (c =? "}"%ch); [reflexivity|].
  destruct (to_digit16 c) as [d|] eqn:Ed; [|reflexivity].
  change (2 ^ 31) with 2147483648 in *.
  rewrite incr_ok by (change (2 ^ 31)%Z with 2147483648%Z; lia). cbn [bind].
  replace (Z.of_nat n + 1)%Z with (Z.of_nat (S n)) by lia.
  replace (6 <? Z.of_nat (S n))%Z with (6 <? S n)%nat.
  2:{ destruct (Nat.ltb_spec 6 (S n)), (Z.ltb_spec 6 (Z.of_nat (S n))); lia. }
  destruct (Nat.ltb_spec 6 (S n)) as [H6|H6]; [apply IH; lia|].
  assert (Hb := digit_bound _ _ Ed).
  assert (H5 : 16 ^ N.of_nat n <= 16 ^ 5) by (apply N.pow_le_mono_r; lia).
  change (16 ^ 5) with 1048576 in H5. specialize (Hv ltac:(lia)).
  rewrite mul_ok by (change (2 ^ 32) with 4294967296; lia). cbn [bind].
  rewrite add_ok by (change (2 ^ 32) with 4294967296; lia). cbn [bind].
  apply IH; [lia| |lia]. intros _. rewrite pow16_S. lia.
Qed.

Lemma unicode_ok_short s : N.of_nat (ahead (tl s)) < 2 ^ 31 -> unicode_escape_in ck s = Ok (unicode_escape s).
Proof.
  destruct s as [|b [|c t]]; cbn [unicode_escape_in unicode_escape]; try reflexivity.
  - destruct (negb (b =? "{"%ch)); reflexivity.
  - destruct (negb (b =? "{"%ch)); [reflexivity|]. cbn [tl ahead]. intro H.
    destruct (c =? "_"%ch); [reflexivity|]. destruct (c =? "}"%ch); [reflexivity|].
    destruct (to_digit16 c) as [d|] eqn:Ed; [|reflexivity].
    apply (unicode_loop_ok t d 1); [lia| |lia]. intros _. now apply digit_bound in Ed.
Qed.
End Build.

(** ** The counter *)
Lemma unicode_loop_panic s : forall v n, (1 <= n)%nat -> ((n <= 6)%nat -> v < 16 ^ N.of_nat n) ->
  N.of_nat n < 2 ^ 31 -> 2 ^ 31 <= N.of_nat n + N.of_nat (ahead s) ->
  unicode_loop_in true s v (Z.of_nat n) = Panic.
Proof.
  change (2 ^ 31) with 2147483648.
  induction s as [|c t IH]; intros v n H1 Hv Hn Ha; [cbn in Ha; lia|].
  cbn [unicode_loop_in]. assert (Hbr := brace_ahead c t). cbn [ahead] in Ha, Hbr.
  destruct (c =? "_"%ch) eqn:Eu; [now apply IH|].
  destruct (c =? "}"%ch); [rewrite Hbr in Ha by reflexivity; lia|].
  destruct (to_digit16 c) as [d|] eqn:Ed; [|lia].
  destruct (N.eq_dec (N.of_nat n) 2147483647) as [E|E].
  { unfold add_i32. destruct (Z.leb_spec (- 2 ^ 31) (Z.of_nat n + 1)); [|change (2 ^ 31)%Z with 2147483648%Z in *; lia].
    destruct (Z.ltb_spec (Z.of_nat n + 1) (2 ^ 31)); [change (2 ^ 31)%Z with 2147483648%Z in *; lia|]. reflexivity. }
  rewrite incr_ok by (change (2 ^ 31)%Z with 2147483648%Z; lia). cbn [bind].
  replace (Z.of_nat n + 1)%Z with (Z.of_nat (S n)) by lia.
  destruct (Z.ltb_spec 6 (Z.of_nat (S n))) as [H6|H6]; [apply IH; lia|].
  assert (Hb := digit_bound _ _ Ed).
  assert (H5 : 16 ^ N.of_nat n <= 16 ^ 5) by (apply N.pow_le_mono_r; lia).
  change (16 ^ 5) with 1048576 in H5. specialize (Hv ltac:(lia)).
  rewrite mul_ok by (change (2 ^ 32) with 4294967296; lia). cbn [bind].
  rewrite add_ok by (change (2 ^ 32) with 4294967296; lia). cbn [bind].
  apply IH; [lia| |lia|lia]. intros _. rewrite pow16_S. lia.
Qed.

Lemma ahead_app ds n v : udigits ds n v -> forall t, (ahead (ds ++ t) = n + ahead t)%nat.
Proof.
  induction 1 as [c v H|ds n v c d H IH Hd|ds n v H IH]; intro t.
  - cbn [app ahead]. destruct (hexval_plain _ _ H) as (-> & _). apply to_digit16_hexval in H. now rewrite H.
  - rewrite <- app_assoc, IH. cbn [app ahead].
    destruct (hexval_plain _ _ Hd) as (-> & _). apply to_digit16_hexval in Hd. rewrite Hd. lia.
  - rewrite <- app_assoc, IH. cbn [app ahead]. reflexivity.
Qed.
Lemma ahead_split s : forall ds n v m, udigits ds n v -> (m <= ahead s)%nat ->
  exists x t w, s = x ++ t /\ udigits (ds ++ x) (n + m) w.
Proof.
  induction s as [|c s IH]; intros ds n v m Hd Hm.
  - cbn in Hm. exists [], [], v. split; [reflexivity|]. rewrite app_nil_r. now replace (n + m)%nat with n by lia.
  - destruct m as [|m]. { exists [], (c :: s), v. rewrite app_nil_r, Nat.add_0_r. auto. }
    cbn [ahead] in Hm. destruct (N.eqb_spec c "_"%ch) as [->|Hu].
    + destruct (IH (ds ++ [95]) n v (S m) (ud_underscore _ _ _ Hd) Hm) as (x & t & w & -> & H).
      exists ("_"%ch :: x), t, w. rewrite <- app_assoc in H. auto.
    + destruct (to_digit16 c) as [d|] eqn:Ed; [|lia]. apply to_digit16_hexval in Ed.
      destruct (IH (ds ++ [c]) (S n) _ m (ud_digit _ _ _ _ _ Hd Ed) ltac:(lia)) as (x & t & w & -> & H).
      exists (c :: x), t, w. rewrite <- app_assoc in H. replace (n + S m)%nat with (S n + m)%nat by lia. auto.
Qed.

Lemma uncountable_ahead s : uncountable s <-> exists c v t, s = "{"%ch :: c :: t /\ hexval c v /\ 2 ^ 31 <= N.of_nat (ahead (c :: t)).
Proof.
  split.
  - intros (ds & n & v & t & -> & Hd & Hn). destruct (udigits_cons _ _ _ Hd) as (c & x & u & Hc & E).
    exists c, x, (u ++ t). subst ds. split; [reflexivity|]. split; [exact Hc|].
    change (c :: u ++ t) with ((c :: u) ++ t). rewrite (ahead_app _ _ _ Hd). lia.
  - intros (c & v & t & -> & Hc & Ha). cbn [ahead] in Ha.
    destruct (hexval_plain _ _ Hc) as (Eu & _). rewrite Eu in Ha.
    assert (Hd := Hc). apply to_digit16_hexval in Hd. rewrite Hd in Ha.
    destruct (ahead_split t [c] 1 v (N.to_nat (2 ^ 31) - 1) (ud_first _ _ Hc) ltac:(lia)) as (x & r & w & -> & H).
    exists (c :: x), (1 + (N.to_nat (2 ^ 31) - 1))%nat, w, r. split; [reflexivity|]. split; [exact H|lia].
Qed.

Lemma unicode_exact s :
  (unicode_escape_in true s = Panic <-> uncountable s) /\
  (forall ck, ~ uncountable s -> unicode_escape_in ck s = Ok (unicode_escape s)).
Proof.
  assert (Hno : ~ uncountable s -> forall ck, unicode_escape_in ck s = Ok (unicode_escape s)).
  { rewrite uncountable_ahead. intros H ck.
    destruct s as [|b [|c t]]; [reflexivity|cbn; destruct (negb (b =? "{"%ch)); reflexivity|].
    destruct (N.eqb_spec b "{"%ch) as [->|Hb].
    2:{ cbn [unicode_escape_in unicode_escape]. apply N.eqb_neq in Hb. now rewrite Hb. }
    cbn [unicode_escape_in unicode_escape]. change ("{"%ch =? "{"%ch) with true. cbn [negb].
    destruct (c =? "_"%ch) eqn:Eu; [reflexivity|]. destruct (c =? "}"%ch); [reflexivity|].
    destruct (to_digit16 c) as [d|] eqn:Ed; [|reflexivity].
    assert (Hb := digit_bound _ _ Ed).
    apply (unicode_loop_ok ck t d 1); [lia|intros _; exact Hb|].
    apply N.nle_gt. intro Hle. apply H. exists c, d, t. split; [reflexivity|]. split; [now apply to_digit16_hexval|].
    cbn [ahead]. rewrite Eu, Ed. lia. }
  split; [|intros ck H; now apply Hno]. split.
  - intro H. destruct (N.le_gt_cases (2 ^ 31) (N.of_nat (ahead (tl s)))) as [Hl|Hl].
    2:{ rewrite unicode_ok_short in H by exact Hl. discriminate. }
    apply uncountable_ahead. destruct s as [|b [|c t]]; [discriminate|cbn in H; destruct (negb (b =? "{"%ch)); discriminate|].
    cbn [unicode_escape_in] in H. destruct (N.eqb_spec b "{"%ch) as [->|Hb]; cbn [negb] in H; [|discriminate].
    destruct (c =? "_"%ch) eqn:Eu; [discriminate|]. destruct (c =? "}"%ch); [discriminate|].
    destruct (to_digit16 c) as [d|] eqn:Ed; [|discriminate].
    exists c, d, t. split; [reflexivity|]. split; [now apply to_digit16_hexval|exact Hl].
  - rewrite uncountable_ahead. intros (c & v & t & -> & Hc & Ha). cbn [ahead] in Ha.
    destruct (hexval_plain _ _ Hc) as (Eu & Eb & _). rewrite Eu in Ha.
    assert (Hv := hexval_bound _ _ Hc). apply to_digit16_hexval in Hc. rewrite Hc in Ha.
    cbn [unicode_escape_in]. change ("{"%ch =? "{"%ch) with true. cbn [negb]. rewrite Eu, Eb, Hc.
    apply (unicode_loop_panic t v 1); [lia|intros _; exact Hv| |lia].
    change (2 ^ 31) with 2147483648. lia.
Qed.

(** ** Whole texts *)
(** All escapes are countable. *)
Inductive fine : str -> Prop :=
| fine_nil : fine []
| fine_char c s : c <> BACKSLASH -> fine s -> fine (c :: s)
| fine_escape d s : d <> "x"%ch -> d <> "u"%ch -> fine s -> fine (BACKSLASH :: d :: s)
| fine_hex a b x y s : hexval a x -> hexval b y -> fine s -> fine (BACKSLASH :: "x"%ch :: a :: b :: s)
| fine_unicode ds n v s : udigits ds n v -> (n <= 6)%nat -> fine s -> fine (tag "\u{" ++ ds ++ tag "}" ++ s).

Section Texts.
Variable ck : bool.
Context {A : Type} (u : unescaper A).

Lemma unescape_1_ok s : (forall t, s = "u"%ch :: t -> unicode_escape_in ck t = Ok (unicode_escape t)) ->
  unescape_1_in ck u s = Ok (unescape_1 u s).
Proof.
  intro H. destruct s as [|c t]; [reflexivity|]. cbn [unescape_1_in unescape_1].
  destruct (c =? "0"%ch); [reflexivity|]. destruct (simple_escape c); [reflexivity|].
  destruct (c =? "x"%ch).
  { rewrite hex_ok. cbn [bind]. destruct (hex_escape t) as [r [b|e]]; reflexivity. }
  destruct (N.eqb_spec c "u"%ch) as [->|]; [|reflexivity].
  rewrite (H t eq_refl). cbn [bind]. destruct (unicode_escape t) as [r [b|e]]; reflexivity.
Qed.

(** Texts of a class that is closed under going on. *)
Lemma unescape_class (P : str -> Prop) :
  (forall c s, c <> BACKSLASH -> P (c :: s) -> P s) ->
  (forall s, P (BACKSLASH :: s) -> (forall d t, s = d :: t -> d <> LF) ->
     P (fst (unescape_1 u s)) /\ (forall t, s = "u"%ch :: t -> unicode_escape_in ck t = Ok (unicode_escape t))) ->
  (forall s, P (BACKSLASH :: LF :: s) -> P s) ->
  forall fuel total s, P s -> unescape_loop_in ck u fuel total s = unescape_loop u fuel total s.
Proof.
  intros Pc Pe Pl. induction fuel as [|fuel IH]; intros total s H; [reflexivity|].
  cbn [unescape_loop_in unescape_loop]. destruct s as [|c s]; [reflexivity|].
  destruct (checked_sub total (str_len s)) as [before| | |]; cbn [bind]; try reflexivity.
  destruct (checked_sub before (len_utf8 c)) as [start| | |]; cbn [bind]; try reflexivity.
  destruct (N.eqb_spec c BACKSLASH) as [->|Hc]; cbn [andb].
  - destruct (match s with d :: _ => d =? LF | [] => false end) eqn:El.
    + destruct s as [|d s]; [discriminate|]. apply N.eqb_eq in El. subst d. cbn [tl].
      destruct (@skip_ascii_whitespace_spec A s start) as (ws & r & w & -> & Hw & _ & -> & _). cbn [bind].
      rewrite IH; [reflexivity|]. apply Pl in H. revert H.
      induction Hw as [|x ws Hx Hw IHw]; intro H; [exact H|]. apply IHw. apply (Pc x); [|exact H].
      unfold continuation_space in Hx. cbn. lia.
    + assert (Hd : forall d t, s = d :: t -> d <> LF).
      { intros d t ->. now apply N.eqb_neq. }
      destruct (Pe s H Hd) as [Hp Hu]. rewrite unescape_1_ok by exact Hu. cbn [bind].
      destruct (unescape_1 u s) as [r x]. cbn [fst] in Hp. now rewrite (IH total r Hp).
  - assert (Hs := Pc _ _ Hc H). destruct (c =? DQUOTE); [cbn [bind]; now rewrite IH|].
    destruct (c =? CR); cbn [bind]; now rewrite IH.
Qed.

Lemma unescape_1_tail s : exists x, s = x ++ fst (unescape_1 u s).
Proof.
  assert (Hl : forall s v n, exists x, s = x ++ fst (unicode_loop s v n)).
  { induction s0 as [|c t IH]; intros v n; cbn [unicode_loop]; [now exists []|].
    destruct (c =? "_"%ch); [destruct (IH v n) as [x Hx]; exists (c :: x); cbn [app]; now rewrite <- Hx|].
    destruct (c =? "}"%ch); [now exists [c]|]. destruct (to_digit16 c); [|now exists [c]].
    destruct (6 <? S n)%nat; [destruct (IH v (S n)) as [x Hx]|destruct (IH (v * 16 + n0) (S n)) as [x Hx]];
      exists (c :: x); cbn [app]; now rewrite <- Hx. }
  destruct s as [|c t]; cbn [unescape_1]; [now exists []|].
  destruct (c =? "0"%ch); [now exists [c]|]. destruct (simple_escape c); [now exists [c]|].
  destruct (c =? "x"%ch).
  { assert (H : exists x, t = x ++ fst (hex_escape t)).
    { destruct t as [|a [|b t]]; cbn [hex_escape]; [now exists []|destruct (to_digit16 a); now exists [a]|].
      destruct (to_digit16 a); [|now exists [a]]. destruct (to_digit16 b); now exists [a; b]. }
    destruct H as [x Hx]. exists (c :: x). destruct (hex_escape t) as [r [b|e]]; cbn [fst app] in *; now rewrite <- Hx. }
  destruct (c =? "u"%ch); [|now exists [c]].
  assert (H : exists x, t = x ++ fst (unicode_escape t)).
  { destruct t as [|a t]; cbn [unicode_escape]; [now exists []|]. destruct (negb (a =? "{"%ch)); [now exists [a]|].
    destruct t as [|b t]; [now exists [a]|]. destruct (b =? "_"%ch); [now exists [a; b]|].
    destruct (b =? "}"%ch); [now exists [a; b]|]. destruct (to_digit16 b) as [d|]; [|now exists [a; b]].
    destruct (Hl t d 1%nat) as [x Hx]. exists (a :: b :: x). cbn [app]. now rewrite <- Hx. }
  destruct H as [x Hx]. exists (c :: x). destruct (unicode_escape t) as [r [b|e]]; cbn [fst app] in *; now rewrite <- Hx.
Qed.

Lemma unescape_short fuel total s : strlen s < 2 ^ 31 ->
  unescape_loop_in ck u fuel total s = unescape_loop u fuel total s.
Proof.
  apply (unescape_class (fun s => strlen s < 2 ^ 31)); unfold strlen.
  - intros c t _. cbn [length]. lia.
  - intros t H _. split.
    + destruct (unescape_1_tail t) as [x Hx]. assert (E := f_equal (@length _) Hx). rewrite app_length in E.
      cbn [length] in H. lia.
    + intros r ->. apply unicode_ok_short. cbn [length] in H. assert (Ha := ahead_length (tl r)).
      destruct r as [|a r]; cbn [tl length] in *; lia.
  - intros t. cbn [length]. lia.
Qed.

Lemma unescape_fine fuel total s0 : fine s0 -> unescape_loop_in ck u fuel total s0 = unescape_loop u fuel total s0.
Proof.
  apply unescape_class.
  - intros c t Hc H. inversion H; subst; try congruence.
  - intros t H Hd. inversion H as [|c s Hc Hs|d s Hx Hu Hs|a b x y s Ha Hb Hs|ds n v s Hdg Hn Hs E]; subst; [congruence| | |].
    + split; [|intros r E; injection E as E _; congruence].
      cbn [unescape_1]. destruct (d =? "0"%ch); [exact Hs|]. destruct (simple_escape d); [exact Hs|].
      apply N.eqb_neq in Hx, Hu. rewrite Hx, Hu. exact Hs.
    + split; [|intros r E; discriminate E].
      change (fst (unescape_1 u ("x"%ch :: a :: b :: s))) with
        (fst (match hex_escape (a :: b :: s) with (c, UOk b) => (c, hex2unit u b) | (c, UErr e) => (c, UErr e) end)).
      cbn [hex_escape]. apply to_digit16_hexval in Ha, Hb. rewrite Ha, Hb. exact Hs.
    + assert (Ha : unicode_escape (tag "{" ++ ds ++ tag "}" ++ s) = unicode_loop (tag "}" ++ s) v n).
      { now apply unicode_escape_digits. }
      split.
      * assert (Hu := @unescape_1_u A u (tag "{" ++ ds ++ tag "}" ++ s)). cbn [app map] in Hu, Ha |- *.
        rewrite Hu, Ha. change ("}"%ch :: s) with (tag "}" ++ s). rewrite unicode_loop_close.
        destruct (Nat.ltb_spec 6 n); [lia|]. exact Hs.
      * intros r Er. injection Er as <-. apply unicode_ok_short. cbn [tl app].
        change (N.of_nat (ahead (ds ++ tag "}" ++ s)) < 2 ^ 31). rewrite (ahead_app _ _ _ Hdg).
        change (ahead (tag "}" ++ s)) with O. change (2 ^ 31) with 2147483648. lia.
  - intros t H. inversion H; subst; try assumption; try discriminate. congruence.
Qed.
End Texts.

(** The text between the quotes of an accepted literal. *)
Lemma crlf_cons b c s : crlf b = c :: s ->
  (exists b', b = c :: b' /\ crlf b' = s) \/ (c = LF /\ exists b', b = CR :: LF :: b' /\ crlf b' = s).
Proof.
  destruct b as [|d t]; [discriminate|]. cbn [crlf]. destruct (N.eqb_spec d CR) as [->|Hd].
  2:{ intro E. injection E as -> <-. left. now exists t. }
  destruct t as [|e t]. { intro E. injection E as <- <-. left. now exists []. }
  destruct (N.eqb_spec e LF) as [->|He].
  - intro E. right. change (LF :: crlf t = c :: s) in E. injection E as <- <-. split; [reflexivity|]. now exists t.
  - intro E. left. injection E as <- <-. now exists (e :: t).
Qed.
Lemma crlf_app e : Forall (fun c => c <> LF) e -> forall b s, crlf b = e ++ s ->
  exists b', b = e ++ b' /\ crlf b' = s.
Proof.
  induction 1 as [|c e Hc He IH]; intros b s E; [now exists b|].
  destruct (crlf_cons _ _ _ E) as [(b' & -> & Eb)|(Hl & _)]; [|now destruct Hc].
  destruct (IH _ _ Eb) as (b'' & -> & E2). now exists b''.
Qed.
Lemma hexval_lf c v : hexval c v -> c <> LF /\ c <> BACKSLASH.
Proof. intros []; cbn; lia. Qed.
Lemma udigits_lf ds n v : udigits ds n v -> Forall (fun c => c <> LF) ds.
Proof.
  induction 1 as [c v H|ds n v c d H IH Hd|ds n v H IH].
  - constructor; [now apply hexval_lf in H|constructor].
  - apply Forall_app. split; [exact IH|]. constructor; [now apply hexval_lf in Hd|constructor].
  - apply Forall_app. split; [exact IH|]. constructor; [discriminate|constructor].
Qed.
Lemma cooked_fine k s v : cooked k s v -> forall b, crlf b = s -> fine b.
Proof.
  induction 1 as [|c s v Hq Hb Hr _ _ H IH|e x s v He H IH|ws s v Hw Hs H IH]; intros b E.
  - destruct b as [|d t]; [constructor|]. cbn [crlf] in E. destruct (d =? CR); [|discriminate].
    destruct t as [|e t]; [discriminate|]. destruct (N.eqb_spec e LF) as [->|]; discriminate.
  - destruct (crlf_cons _ _ _ E) as [(b' & -> & Eb)|(-> & b' & -> & Eb)].
    + now apply fine_char; [|apply IH].
    + apply fine_char; [discriminate|]. apply fine_char; [discriminate|]. now apply IH.
  - destruct (crlf_cons _ _ _ E) as [(b' & -> & Eb)|(Hl & _)]; [|discriminate].
    destruct He as [c w Hc|Hk|a d y z Ha Hd _ _|ds n w Hk Hdg Hn _ _].
    + assert (Hp : c <> LF /\ c <> "x"%ch /\ c <> "u"%ch).
      { cbn in Hc. intuition (try discriminate); repeat match goal with H : (_, _) = (_, _) |- _ => injection H as <- <- end; discriminate. }
      destruct Hp as (H1 & H2 & H3).
      destruct (crlf_app [c] ltac:(now repeat constructor) _ _ Eb) as (r & -> & Er).
      apply fine_escape; auto.
    + destruct (crlf_app ["0"%ch] ltac:(repeat constructor; discriminate) _ _ Eb) as (r & -> & Er).
      apply fine_escape; [discriminate|discriminate|auto].
    + destruct (crlf_app ["x"%ch; a; d]) with (2 := Eb) as (r & -> & Er).
      { repeat constructor; [discriminate|now apply hexval_lf in Ha|now apply hexval_lf in Hd]. }
      eapply fine_hex; eauto.
    + destruct (crlf_app (tag "u{" ++ ds ++ tag "}")) with (2 := Eb) as (r & -> & Er).
      { apply Forall_app. split; [repeat constructor; discriminate|]. apply Forall_app.
        split; [now apply udigits_lf in Hdg|repeat constructor; discriminate]. }
      rewrite <- !app_assoc. eapply (fine_unicode ds n w r); eauto.
  - destruct (crlf_cons _ _ _ E) as [(b' & -> & Eb)|(Hl & _)]; [|discriminate].
    assert (Hws : forall b, crlf b = ws ++ s -> fine b).
    { clear Eb E. induction Hw as [|c ws Hc Hw IHw]; intros r Er; [now apply IH|].
      destruct (crlf_cons _ _ _ Er) as [(r' & -> & Er')|(-> & r' & -> & Er')].
      - apply fine_char; [|now apply IHw]. unfold continuation_space in Hc. cbn. lia.
      - apply fine_char; [discriminate|]. apply fine_char; [discriminate|]. now apply IHw. }
    destruct (crlf_cons _ _ _ Eb) as [(r & -> & Er)|(_ & r & -> & Er)].
    + apply fine_escape; [discriminate|discriminate|auto].
    + apply fine_escape; [discriminate|discriminate|]. apply fine_char; [discriminate|auto].
Qed.

(** ** The accessors *)
Lemma value_quoted ck k repr :
  (forall q, repr = prefix k ++ [DQUOTE] ++ q ++ [DQUOTE] -> forall A (u : unescaper A) fuel total,
     unescape_loop_in ck u fuel total q = unescape_loop u fuel total q) ->
  value_in ck k repr = value_of k repr.
Proof.
  intro H. destruct k; cbn [value_in value_of];
    unfold str_value_in, byte_str_value_in, cstr_value_in, str_value, byte_str_value, cstr_value.
  - destruct (quoted_text_spec (tag """") repr) as ([q|] & -> & Hq); cbn [bind]; [|reflexivity].
    unfold unescaped_in, unescaped, unescape_in, unescape. rewrite H; [reflexivity|]. now apply Hq.
  - destruct (quoted_text_spec (tag "b""") repr) as ([q|] & -> & Hq); cbn [bind]; [|reflexivity].
    unfold unescaped_in, unescaped, unescape_in, unescape. rewrite H; [reflexivity|]. now apply Hq.
  - destruct (quoted_text_spec (tag "c""") repr) as ([q|] & -> & Hq); cbn [bind]; [|reflexivity].
    unfold unescaped_in, unescaped, unescape_in, unescape. rewrite H; [reflexivity|]. now apply Hq.
Qed.
Lemma value_short ck k repr : strlen repr < 2 ^ 31 -> value_in ck k repr = value_of k repr.
Proof.
  intro H. apply value_quoted. intros q -> A u fuel total. apply unescape_short.
  revert H. unfold strlen. rewrite !app_length. lia.
Qed.
Lemma value_accepted U : unicode_ok U -> forall ck start k repr, start < two32 -> accepted start repr ->
  value_in ck k repr = value_of k repr.
Proof.
  intros UO ck start k repr Hs H. apply value_quoted. intros q -> A u fuel total.
  apply unescape_fine. apply (accepted_iff UO start _ Hs) in H.
  destruct (@cooked_shape U k _ H) as (b & v & sfx & E & Hc & Hsf).
  assert (sfx = []).
  { apply (raw_last UO 0 q); [now apply p_suffix_end|]. exists (b ++ [DQUOTE]). cbn [repeat app].
    rewrite E, <- app_assoc. reflexivity. }
  subst sfx. rewrite app_nil_r in E. apply app_inv_tail in E. subst b. eapply cooked_fine; eauto.
Qed.

(** ** Where the counter does overflow *)
Lemma str_len_app_le (a b : str) : (str_len b <= str_len (a ++ b))%nat.
Proof. rewrite str_len_app. lia. Qed.
Lemma str_value_one ck e : e <> [] -> (forall d t, e = d :: t -> d <> LF) ->
  (unescape_1_in ck str_unescaper e = Panic -> str_value_in ck ([DQUOTE; BACKSLASH] ++ e ++ [DQUOTE]) = Panic) /\
  (forall r, unescape_1_in ck str_unescaper e = Ok ([], r) ->
     str_value_in ck ([DQUOTE; BACKSLASH] ++ e ++ [DQUOTE]) =
     Ok (match r with UOk c => COk [c] | UErr x => if is_fatal x then CFailed x else COk [] end)).
Proof.
  intros He Hl. unfold str_value_in.
  destruct (quoted_text_spec (tag """") ([DQUOTE; BACKSLASH] ++ e ++ [DQUOTE])) as (o & -> & Ho).
  assert (Eo : o = Some (BACKSLASH :: e)) by (apply Ho; reflexivity). subst o. cbn [bind].
  unfold unescaped_in, unescape_in. cbn [length].
  assert (Hsub : forall a b, (b <= a)%nat -> checked_sub a b = Ok (a - b)%nat).
  { intros a b H. unfold checked_sub. destruct (Nat.ltb_spec a b); [lia|reflexivity]. }
  assert (Hn : match e with d :: _ => d =? LF | [] => false end = false).
  { destruct e as [|d t]; [reflexivity|]. apply N.eqb_neq. now apply (Hl d t). }
  cbn [unescape_loop_in]. change (str_len (BACKSLASH :: e)) with (S (str_len e)).
  rewrite Hsub by lia. cbn [bind]. rewrite Hsub by (change (len_utf8 BACKSLASH) with 1%nat; lia). cbn [bind].
  rewrite Hn. change (BACKSLASH =? BACKSLASH) with true. cbn [andb]. split.
  - intros ->. reflexivity.
  - intros r ->. cbn [bind]. rewrite Hsub by (cbn; lia). cbn [bind].
    destruct (length e) eqn:El; [destruct e; [now destruct He|discriminate]|]. cbn [unescape_loop_in bind].
    destruct r as [c|x]; cbn [collect app]; [reflexivity|]. destruct (is_fatal x); reflexivity.
Qed.

Definition zeros (n : nat) : str := repeat "0"%ch n.
Lemma zeros_digits n : udigits (zeros (S n)) (S n) 0.
Proof.
  induction n as [|n IH]; [apply (ud_first _ 0), (hex_09 0); lia|].
  assert (E : zeros (S (S n)) = zeros (S n) ++ ["0"%ch]).
  { unfold zeros. change (S (S n)) with (1 + S n)%nat. rewrite Nat.add_comm, repeat_app. reflexivity. }
  rewrite E. apply (ud_digit _ _ 0 _ 0); [exact IH|]. apply (hex_09 0). lia.
Qed.
Lemma zeros_loop m : forall n t, (1 <= n)%Z -> (n + Z.of_nat m < 2 ^ 31)%Z ->
  unicode_loop_in false (zeros m ++ t) 0 n = unicode_loop_in false t 0 (n + Z.of_nat m)%Z.
Proof.
  induction m as [|m IH]; intros n t H1 Hn.
  - cbn [zeros repeat app]. now rewrite Z.add_0_r.
  - cbn [zeros repeat app unicode_loop_in]. change ("0"%ch =? "_"%ch) with false. change ("0"%ch =? "}"%ch) with false.
    change (to_digit16 "0"%ch) with (Some 0). rewrite incr_ok by lia. cbn [bind].
    fold (zeros m). replace (n + Z.of_nat (S m))%Z with (n + 1 + Z.of_nat m)%Z by lia.
    change (mul_u32 false 0 16) with (Ok 0). cbn [bind].
    change (add_u32 false 0 0) with (Ok 0). cbn [bind].
    rewrite !IH by lia. now destruct (6 <? n + 1)%Z.
Qed.
Lemma overlong s : forall v n, (6 < n)%nat -> Forall (fun c => c = "0"%ch) s -> unicode_loop (s ++ tag "}") v n = ([], UErr OverlongUnicodeEscape).
Proof.
  induction s as [|c s IH]; intros v n Hn H.
  - change (unicode_loop ([] ++ tag "}") v n) with (@nil N, if (6 <? n)%nat then UErr OverlongUnicodeEscape else UOk v).
    now destruct (Nat.ltb_spec 6 n); [|lia].
  - inversion H as [|? ? -> H']; subst. cbn [app unicode_loop].
    change ("0"%ch =? "_"%ch) with false. change ("0"%ch =? "}"%ch) with false.
    change (to_digit16 "0"%ch) with (Some 0). destruct (Nat.ltb_spec 6 (S n)); [|lia]. apply IH; [lia|exact H'].
Qed.
Lemma zeros_unchecked n : N.of_nat n = 2 ^ 31 ->
  unescape_1_in false str_unescaper (tag "u{" ++ zeros n ++ tag "}") = Ok ([], UOk 0).
Proof.
  change (2 ^ 31) with 2147483648. intro Hn. destruct n as [|[|n]]; [discriminate|discriminate|].
  change (tag "u{" ++ zeros (S (S n)) ++ tag "}") with ("u"%ch :: "{"%ch :: "0"%ch :: zeros (S n) ++ tag "}").
  cbn [unescape_1_in unicode_escape_in].
  change ("u"%ch =? "0"%ch) with false. change (simple_escape "u"%ch) with (@None byte).
  change ("u"%ch =? "x"%ch) with false. change ("u"%ch =? "u"%ch) with true. change (negb ("{"%ch =? "{"%ch)) with false.
  change ("0"%ch =? "_"%ch) with false. change ("0"%ch =? "}"%ch) with false. change (to_digit16 "0"%ch) with (Some 0).
  assert (E : zeros (S n) ++ tag "}" = zeros n ++ "0"%ch :: tag "}").
  { unfold zeros. replace (S n) with (n + 1)%nat by lia. now rewrite repeat_app, <- app_assoc. }
  cbv iota beta. rewrite E, zeros_loop by (change (2 ^ 31)%Z with 2147483648%Z; lia). cbn [unicode_loop_in].
  change ("0"%ch =? "_"%ch) with false. change ("0"%ch =? "}"%ch) with false. change (to_digit16 "0"%ch) with (Some 0).
  replace (1 + Z.of_nat n)%Z with (2147483647)%Z by lia. reflexivity.
Qed.
Lemma zeros_model n : (6 < n)%nat ->
  unescape_1 str_unescaper (tag "u{" ++ zeros n ++ tag "}") = ([], UErr OverlongUnicodeEscape).
Proof.
  intro Hn. replace n with (6 + (n - 6))%nat by lia. unfold zeros. rewrite repeat_app, <- app_assoc.
  change (tag "u{" ++ repeat "0"%ch 6 ++ repeat "0"%ch (n - 6) ++ tag "}") with
    ("u"%ch :: (tag "{" ++ zeros 6 ++ repeat "0"%ch (n - 6) ++ tag "}")).
  rewrite unescape_1_u, (unicode_escape_digits (zeros 6) 6 0) by (apply (zeros_digits 5) || lia).
  destruct (n - 6)%nat as [|m] eqn:Em; [lia|]. cbn [repeat app unicode_loop].
  change ("0"%ch =? "_"%ch) with false. change ("0"%ch =? "}"%ch) with false. change (to_digit16 "0"%ch) with (Some 0).
  cbn [Nat.ltb Nat.leb]. rewrite overlong; [reflexivity|lia|]. clear. induction m; constructor; auto.
Qed.

Lemma overflow_witness : exists repr,
  value_in true KStr repr = Panic /\ value_in false KStr repr = Ok (COk [0]) /\
  value_of KStr repr = Ok (CFailed OverlongUnicodeEscape).
Proof.
  assert (Hex : exists n, N.of_nat n = 2 ^ 31) by (exists (N.to_nat (2 ^ 31)); apply N2Nat.id).
  destruct Hex as [n Hn]. exists ([DQUOTE; BACKSLASH] ++ (tag "u{" ++ zeros n ++ tag "}") ++ [DQUOTE]).
  assert (H6 : (6 < n)%nat) by (change (2 ^ 31) with 2147483648 in Hn; lia).
  assert (Hl : forall d t, tag "u{" ++ zeros n ++ tag "}" = d :: t -> d <> LF).
  { intros d t E. injection E as <- _. discriminate. }
  assert (H1 := fun ck => str_value_one ck (tag "u{" ++ zeros n ++ tag "}") ltac:(discriminate) Hl).
  split; [|split].
  - apply H1. change (tag "u{" ++ zeros n ++ tag "}") with ("u"%ch :: tag "{" ++ zeros n ++ tag "}").
    cbn [unescape_1_in]. change ("u"%ch =? "0"%ch) with false. change (simple_escape "u"%ch) with (@None byte).
    change ("u"%ch =? "x"%ch) with false. change ("u"%ch =? "u"%ch) with true. cbv iota beta.
    assert (Hp : unicode_escape_in true (tag "{" ++ zeros n ++ tag "}") = Panic).
    { apply unicode_exact. exists (zeros n), n, 0, (tag "}"). split; [reflexivity|]. split; [|exact Hn].
      destruct n as [|n]; [lia|apply zeros_digits]. }
    now rewrite Hp.
  - exact (proj2 (H1 false) _ (zeros_unchecked n Hn)).
  - cbn [value_of]. unfold str_value.
    destruct (quoted_text_spec (tag """") ([DQUOTE; BACKSLASH] ++ (tag "u{" ++ zeros n ++ tag "}") ++ [DQUOTE])) as (o & -> & Ho).
    assert (Eo : o = Some (BACKSLASH :: tag "u{" ++ zeros n ++ tag "}")) by (apply Ho; reflexivity). subst o. cbn [bind].
    assert (Hz := zeros_model n H6). remember (tag "u{" ++ zeros n ++ tag "}") as e eqn:Ee.
    unfold unescaped, unescape. cbn [length unescape_loop]. change (str_len (BACKSLASH :: e)) with (S (str_len e)).
    assert (Hsub : forall a b, (b <= a)%nat -> checked_sub a b = Ok (a - b)%nat).
    { intros a b H. unfold checked_sub. destruct (Nat.ltb_spec a b); [lia|reflexivity]. }
    rewrite Hsub by lia. cbn [bind]. rewrite Hsub by (change (len_utf8 BACKSLASH) with 1%nat; lia). cbn [bind].
    replace (match e with d :: _ => d =? LF | [] => false end) with false by (rewrite Ee; reflexivity).
    rewrite Hz. change (BACKSLASH =? BACKSLASH) with true. cbn [andb]. rewrite Hsub by (cbn; lia). cbn [bind].
    destruct (length e) eqn:El; [rewrite Ee in El; discriminate|]. reflexivity.
Qed.
