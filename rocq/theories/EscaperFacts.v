(** * The escaper computes the values of the specification. *)
From Verif Require Import Base Unicode BaseFacts Escaper LitValue SpecLit.
Import ListNotations.
Local Open Scope N_scope.

Lemma to_digit16_hexval c v : to_digit16 c = Some v <-> hexval c v.
Proof.
  unfold to_digit16, between. cbn [Byte.to_N]. split.
  - intro H.
    destruct ((48 <=? c) && (c <=? 57)) eqn:E1.
    { injection H as <-. replace c with (48 + (c - 48)) at 1 by lia. constructor; lia. }
    destruct ((97 <=? c) && (c <=? 102)) eqn:E2.
    { injection H as <-. replace c with (87 + (c - 97 + 10)) at 1 by lia. constructor; lia. }
    destruct ((65 <=? c) && (c <=? 70)) eqn:E3; [|discriminate].
    injection H as <-. replace c with (55 + (c - 65 + 10)) at 1 by lia. constructor; lia.
  - intros [x Hx|x Hx|x Hx].
    + replace ((48 <=? 48 + x) && (48 + x <=? 57)) with true by lia. f_equal; lia.
    + replace ((48 <=? 87 + x) && (87 + x <=? 57)) with false by lia.
      replace ((97 <=? 87 + x) && (87 + x <=? 102)) with true by lia. f_equal; lia.
    + replace ((48 <=? 55 + x) && (55 + x <=? 57)) with false by lia.
      replace ((97 <=? 55 + x) && (55 + x <=? 102)) with false by lia.
      replace ((65 <=? 55 + x) && (55 + x <=? 70)) with true by lia. f_equal; lia.
Qed.

Lemma hexval_fun c v w : hexval c v -> hexval c w -> v = w.
Proof. rewrite <- !to_digit16_hexval. congruence. Qed.

Lemma hexval_bound c v : hexval c v -> v < 16.
Proof. intros []; lia. Qed.

Lemma hexval_range c v : hexval c v -> 48 <= c <= 57 \/ 65 <= c <= 70 \/ 97 <= c <= 102.
Proof. intros []; lia. Qed.

Section Kind.
Context {A : Type} (k : kind) (u : unescaper A) (push : A -> list N).

Definition yields (r : uresult A) (x : list N) : Prop := exists a, r = UOk a /\ push a = x.
Definition fails (r : uresult A) : Prop := exists e, r = UErr e /\ is_fatal e = true.

Definition char_ok (c : char) : Prop := (k = KByte -> c < 128) /\ (k = KC -> c <> 0).
Definition hex_ok (b : byte) : Prop := (k = KStr -> b < 128) /\ (k = KC -> b <> 0).
Definition uni_ok (c : char) : Prop := k <> KByte /\ (k = KC -> c <> 0).

Record implements : Prop := {
  imp_zero : (k <> KC /\ yields (zero_result u) [0]) \/ (k = KC /\ fails (zero_result u));
  imp_nonzero b : 0 < b < 128 -> push (nonzero_byte2unit u b) = [b];
  imp_char c : (char_ok c /\ yields (char2unit u c) (units k c))
               \/ (~ char_ok c /\ fails (char2unit u c));
  imp_hex b : (hex_ok b /\ yields (hex2unit u b) [b]) \/ (~ hex_ok b /\ fails (hex2unit u b));
  imp_uni c : (uni_ok c /\ yields (unicode2unit u (UOk c)) (units k c))
              \/ (~ uni_ok c /\ fails (unicode2unit u (UOk c)));
  imp_uni_err e : is_fatal e = true -> fails (unicode2unit u (UErr e))
}.

Context (I : implements).

(** *** Escapes *)

Lemma unicode_loop_sound s value n t r ds :
  udigits ds n value -> (n <= 6)%nat -> unicode_loop s value n = (t, r) ->
  (exists x, s = x ++ t) /\
  ((exists e, r = UErr e /\ is_fatal e = true)
   \/ exists ds' n' v, s = ds' ++ tag "}" ++ t /\ udigits (ds ++ ds') n' v /\ (n' <= 6)%nat
                       /\ r = UOk v).
Proof.
  assert (Hover : forall s value n t r, (6 < n)%nat -> unicode_loop s value n = (t, r) ->
            (exists x, s = x ++ t) /\ exists e, r = UErr e /\ is_fatal e = true).
  { clear. induction s as [|c s IH]; intros value n t r Hn H; cbn [unicode_loop] in H.
    - injection H as <- <-. split; [now exists []|eexists; split; reflexivity].
    - destruct (c =? "_"%ch).
      { destruct (IH _ _ _ _ Hn H) as [[x ->] He]. split; [now exists (c :: x)|exact He]. }
      destruct (c =? "}"%ch).
      { injection H as <- <-. split; [now exists [c]|].
        destruct (Nat.ltb_spec 6 n); [|lia]. eexists; split; reflexivity. }
      destruct (to_digit16 c).
      2:{ injection H as <- <-. split; [now exists [c]|]. eexists; split; reflexivity. }
      destruct (Nat.ltb_spec 6 (S n)); [|lia].
      destruct (IH _ (S n) _ _ ltac:(lia) H) as [[x ->] He]. split; [now exists (c :: x)|exact He]. }
  revert value n t r ds.
  induction s as [|c s IH]; intros value n t r ds Hd Hn H; cbn [unicode_loop] in H.
  - injection H as <- <-. split; [now exists []|left; eexists; split; reflexivity].
  - destruct (N.eqb_spec c "_"%ch) as [Ec|Ec].
    { assert (Hd1 : udigits (ds ++ [c]) n value) by (rewrite Ec; now apply ud_underscore).
      destruct (IH _ _ _ _ _ Hd1 Hn H) as [[x Hx] Hr].
      split; [exists (c :: x); cbn; now rewrite <- Hx|].
      destruct Hr as [He|(ds' & n' & v & Es & Hd' & Hn' & ->)]; [now left|right].
      exists (c :: ds'), n', v. rewrite <- app_assoc in Hd'. cbn. rewrite Es. auto. }
    destruct (N.eqb_spec c "}"%ch) as [Ec'|Ec'].
    { injection H as <- <-. split; [now exists [c]|]. right.
      exists [], n, value. rewrite app_nil_r. destruct (Nat.ltb_spec 6 n); [lia|].
      rewrite Ec'. auto. }
    destruct (to_digit16 c) as [d|] eqn:Ed.
    2:{ injection H as <- <-. split; [now exists [c]|]. left. eexists; split; reflexivity. }
    destruct (Nat.ltb_spec 6 (S n)).
    { destruct (Hover _ _ _ _ _ ltac:(eassumption) H) as [[x Hx] He].
      split; [exists (c :: x); cbn; now rewrite <- Hx|now left]. }
    apply to_digit16_hexval in Ed.
    assert (Hd1 : udigits (ds ++ [c]) (S n) (value * 16 + d)).
    { rewrite (N.mul_comm value). now apply ud_digit. }
    destruct (IH _ _ _ _ _ Hd1 ltac:(lia) H)
      as [[x Hx] Hr].
    split; [exists (c :: x); cbn; now rewrite <- Hx|].
    destruct Hr as [He|(ds' & n' & v & Es & Hd' & Hn' & ->)]; [now left|right].
    exists (c :: ds'), n', v. rewrite <- app_assoc in Hd'. cbn. rewrite Es. auto.
Qed.

Lemma hexval_plain c v : hexval c v -> (c =? "_"%ch) = false /\ (c =? "}"%ch) = false
                                       /\ (c =? "{"%ch) = false.
Proof. intros []; cbn; lia. Qed.

Lemma udigits_cons ds n v : udigits ds n v -> exists c x t, hexval c x /\ ds = c :: t.
Proof.
  induction 1 as [c v H|ds n v c d H (c0 & x & t & Hc & ->) Hd|ds n v H (c0 & x & t & Hc & ->)].
  - now exists c, v, [].
  - exists c0, x, (t ++ [c]). auto.
  - exists c0, x, (t ++ [95]). auto.
Qed.
Lemma udigits_pos ds n v : udigits ds n v -> (1 <= n)%nat.
Proof. induction 1; lia. Qed.

Lemma unicode_escape_digits ds n v t :
  udigits ds n v -> (n <= 6)%nat ->
  unicode_escape (tag "{" ++ ds ++ t) = unicode_loop t v n.
Proof.
  intro H. revert t. induction H as [c v H|ds n v c d H IH Hd|ds n v H IH]; intros t Hn.
  - cbn -[to_digit16 unicode_loop]. destruct (hexval_plain _ _ H) as (-> & -> & _).
    apply to_digit16_hexval in H. now rewrite H.
  - rewrite <- app_assoc, IH by lia. cbn [app unicode_loop].
    destruct (hexval_plain _ _ Hd) as (-> & -> & _).
    apply to_digit16_hexval in Hd. rewrite Hd.
    destruct (Nat.ltb_spec 6 (S n)); [lia|]. f_equal. lia.
  - rewrite <- app_assoc, IH by lia. reflexivity.
Qed.

Lemma simple_escape_spec c b :
  simple_escape c = Some b <->
  In (c, b) [("n"%ch, 10); ("r"%ch, 13); ("t"%ch, 9); ("\"%ch, 92); ("'"%ch, 39);
             (""""%ch, 34)].
Proof.
  split.
  - unfold simple_escape. intro H.
    repeat match type of H with
           | (if ?c =? ?x then _ else _) = _ =>
               destruct (N.eqb_spec c x) as [->|]; [injection H as <-; cbn; tauto|]
           end.
    discriminate.
  - intro H. cbn in H.
    repeat (destruct H as [H|H]; [injection H as <- <-; reflexivity|]). destruct H.
Qed.

Lemma unescape_1_sound chars t r :
  unescape_1 u chars = (t, r) ->
  (exists p, chars = p ++ t) /\
  (fails r \/ exists e x, escape k e x /\ chars = e ++ t /\ yields r x).
Proof.
  intro H. destruct chars as [|c chars]; cbn [unescape_1] in H.
  { injection H as <- <-. split; [now exists []|]. left. eexists; split; reflexivity. }
  destruct (N.eqb_spec c "0"%ch) as [Ec|Ec].
  { injection H as <- <-. split; [now exists [c]|].
    destruct (imp_zero I) as [[Hk Hy]|[Hk Hf]]; [right|now left].
    exists ["0"%ch], [0]. rewrite Ec. split; [now constructor|]. auto. }
  destruct (simple_escape c) as [b|] eqn:Es.
  { injection H as <- <-. split; [now exists [c]|]. right.
    apply simple_escape_spec in Es. exists [c], [b]. split; [now constructor|].
    split; [reflexivity|]. eexists. split; [reflexivity|]. apply (imp_nonzero I).
    cbn in Es. repeat (destruct Es as [Es|Es]; [injection Es as <- <-; lia|]). destruct Es. }
  destruct (N.eqb_spec c "x"%ch) as [Ex|Ex].
  { destruct (hex_escape chars) as [t' r'] eqn:Eh.
    assert (Hh : (exists p, chars = p ++ t') /\
              ((exists e, r' = UErr e /\ is_fatal e = true) \/
               exists a b x y, chars = [a; b] ++ t' /\ hexval a x /\ hexval b y
                               /\ r' = UOk (16 * x + y))).
    { unfold hex_escape in Eh. destruct chars as [|a chars].
      { injection Eh as <- <-. split; [now exists []|left; eexists; split; reflexivity]. }
      destruct (to_digit16 a) as [x|] eqn:Ea.
      2:{ injection Eh as <- <-. split; [now exists [a]|left; eexists; split; reflexivity]. }
      destruct chars as [|b chars].
      { injection Eh as <- <-. split; [now exists [a]|left; eexists; split; reflexivity]. }
      destruct (to_digit16 b) as [y|] eqn:Eb.
      2:{ injection Eh as <- <-. split; [now exists [a; b]|left; eexists; split; reflexivity]. }
      injection Eh as <- <-. split; [now exists [a; b]|]. right.
      exists a, b, x, y. rewrite <- !to_digit16_hexval. repeat split; auto. f_equal; lia. }
    destruct Hh as [[p Hp] Hh].
    assert (Et : t' = t) by (destruct r'; now injection H). subst t'.
    split; [exists (c :: p); cbn; now rewrite <- Hp|].
    destruct Hh as [(e & -> & He)|(a & b & x & y & Hs & Ha & Hb & ->)].
    { injection H as <-. left. now exists e. }
    injection H as <-.
    destruct (imp_hex I (16 * x + y)) as [[Hok Hy]|[_ Hf]]; [right|now left].
    exists ["x"%ch; a; b], [16 * x + y]. destruct Hok. split; [now constructor|].
    split; [rewrite Hs, Ex; reflexivity|exact Hy]. }
  destruct (N.eqb_spec c "u"%ch) as [Eu|Eu].
  2:{ injection H as <- <-. split; [now exists [c]|]. left. eexists; split; reflexivity. }
  destruct (unicode_escape chars) as [t' r'] eqn:Eh.
  assert (Et : t' = t) by (destruct r'; now injection H). subst t'.
  assert (Hh : (exists p, chars = p ++ t) /\
            ((exists e, r' = UErr e /\ is_fatal e = true) \/
             exists ds n v, chars = tag "{" ++ ds ++ tag "}" ++ t /\ udigits ds n v
                            /\ (n <= 6)%nat /\ r' = UOk v)).
  { unfold unicode_escape in Eh. destruct chars as [|a chars].
    { injection Eh as <- <-. split; [now exists []|left; eexists; split; reflexivity]. }
    destruct (N.eqb_spec a "{"%ch) as [Ea|]; cbn [negb] in Eh.
    2:{ injection Eh as <- <-. split; [now exists [a]|left; eexists; split; reflexivity]. }
    destruct chars as [|b chars].
    { injection Eh as <- <-. split; [now exists [a]|left; eexists; split; reflexivity]. }
    destruct (N.eqb_spec b "_"%ch).
    { injection Eh as <- <-. split; [now exists [a; b]|left; eexists; split; reflexivity]. }
    destruct (N.eqb_spec b "}"%ch).
    { injection Eh as <- <-. split; [now exists [a; b]|left; eexists; split; reflexivity]. }
    destruct (to_digit16 b) as [v|] eqn:Eb.
    2:{ injection Eh as <- <-. split; [now exists [a; b]|left; eexists; split; reflexivity]. }
    apply to_digit16_hexval in Eb.
    destruct (unicode_loop_sound _ _ _ _ _ [b] (ud_first _ _ Eb) ltac:(lia) Eh)
      as [[p Hp] [He|(ds' & n' & w & Es' & Hd & Hn & Er)]].
    - split; [exists (a :: b :: p); cbn; now rewrite <- Hp|now left].
    - split; [exists (a :: b :: p); cbn; now rewrite <- Hp|right].
      exists (b :: ds'), n', w. cbn. rewrite Ea, Es'. cbn in Hd. auto. }
  destruct Hh as [[p Hp] Hh].
  split; [exists (c :: p); cbn; now rewrite <- Hp|].
  destruct Hh as [(e & -> & He)|(ds & n & v & Hs & Hd & Hn & ->)].
  { injection H as <-. left. now exists e. }
  injection H as <-.
  destruct (N.ltb_spec char_max v) as [Hmax|Hmax].
  { left. now apply (imp_uni_err I). }
  unfold char_from_u32. destruct (is_scalar v) eqn:Esc.
  2:{ left. now apply (imp_uni_err I). }
  destruct (imp_uni I v) as [[[Hk1 Hk2] Hy]|[_ Hf]]; [right|now left].
  exists (tag "u{" ++ ds ++ tag "}"), (units k v). split; [now apply esc_unicode with n|].
  split; [rewrite Hs, Eu; cbn; rewrite <- !app_assoc; reflexivity|exact Hy].
Qed.

Lemma unescape_1_u chars :
  unescape_1 u ("u"%ch :: chars) =
  match unicode_escape chars with
  | (chars, UErr e) => (chars, UErr e)
  | (chars, UOk value) =>
      (chars,
       unicode2unit u
         (if char_max <? value then UErr OutOfRangeUnicodeEscape
          else match char_from_u32 value with
               | Some c => UOk c
               | None => UErr LoneSurrogateUnicodeEscape
               end))
  end.
Proof. reflexivity. Qed.
Lemma unicode_loop_close t v n :
  unicode_loop (tag "}" ++ t) v n =
  (t, if (6 <? n)%nat then UErr OverlongUnicodeEscape else UOk v).
Proof. reflexivity. Qed.

Lemma unescape_1_complete e x t :
  escape k e x -> exists r, unescape_1 u (e ++ t) = (t, r) /\ yields r x.
Proof.
  intros [c v Hin|Hk|a b y z Ha Hb H1 H2|ds n v Hk Hd Hn Hv H2].
  - cbn [app unescape_1]. assert (Hs := proj2 (simple_escape_spec c v) Hin).
    assert (E0 : (c =? "0"%ch) = false).
    { destruct (N.eqb_spec c "0"%ch) as [->|]; [discriminate Hs|reflexivity]. }
    rewrite E0, Hs. eexists. split; [reflexivity|]. eexists. split; [reflexivity|].
    apply (imp_nonzero I).
    cbn in Hin. repeat (destruct Hin as [Hin|Hin]; [injection Hin as <- <-; lia|]). destruct Hin.
  - cbn. eexists. split; [reflexivity|].
    destruct (imp_zero I) as [[_ H]|[H _]]; [exact H|congruence].
  - apply to_digit16_hexval in Ha, Hb. cbn -[to_digit16]. rewrite Ha, Hb.
    eexists. split; [reflexivity|].
    replace (y * 16 + z) with (16 * y + z) by lia.
    destruct (imp_hex I (16 * y + z)) as [[_ H]|[H _]]; [exact H|].
    destruct H. split; auto.
  - change ((tag "u{" ++ ds ++ tag "}") ++ t) with ("u"%ch :: (tag "{" ++ ds ++ tag "}") ++ t).
    rewrite unescape_1_u, <- !app_assoc.
    rewrite (unicode_escape_digits _ _ _ (tag "}" ++ t) Hd Hn), unicode_loop_close.
    destruct (Nat.ltb_spec 6 n) as [Hlt|_]; [lia|].
    destruct (N.ltb_spec char_max v) as [Hm|_].
    { unfold is_scalar, char_max in *. lia. }
    unfold char_from_u32. rewrite Hv. eexists. split; [reflexivity|].
    destruct (imp_uni I v) as [[_ H]|[H _]]; [exact H|]. destruct H. split; auto.
Qed.

(** *** Continuations *)

Lemma skipped_space_spec b : skipped_space b = true <-> continuation_space b.
Proof.
  unfold skipped_space, continuation_space. split; [|intros [ | [ | [ | ]]]; subst b; reflexivity].
  destruct (N.eqb_spec b SPACE); [now left|]. destruct (N.eqb_spec b TAB); [now right; left|].
  destruct (N.eqb_spec b LF); [now right; right; left|].
  destruct (N.eqb_spec b CR); [now right; right; right|]. discriminate.
Qed.

Lemma skip_position s :
  exists ws rest,
    s = ws ++ rest /\ Forall continuation_space ws /\ ~ starts_continuation rest /\
    match position (fun b => negb (skipped_space b)) (str_bytes s) with
    | Some n => n
    | None => str_len s
    end = str_len ws.
Proof.
  induction s as [|c s (ws & rest & -> & Hw & Hr & Hp)].
  - exists [], []. repeat split; auto. intros (? & ? & ? & _). discriminate.
  - destruct (skipped_space c) eqn:Ec.
    + exists (c :: ws), rest. assert (Hc := proj1 (skipped_space_spec c) Ec).
      assert (c < 128) by (destruct Hc as [ | [ | [ | ]]]; lia).
      repeat split; auto. rewrite str_bytes_cons, (encode_ascii c) by assumption.
      cbn [app position]. rewrite Ec. cbn [negb].
      change (str_len (c :: ws)) with (len_utf8 c + str_len ws)%nat.
      change (str_len (c :: ws ++ rest)) with (len_utf8 c + str_len (ws ++ rest))%nat.
      rewrite (len_utf8_ascii c) by assumption.
      destruct (position _ _); lia.
    + exists [], (c :: ws ++ rest). repeat split; auto.
      { intros (? & ? & E & H). injection E as <- _. apply skipped_space_spec in H. congruence. }
      rewrite str_bytes_cons.
      assert (exists b t, encode_utf8 c = b :: t /\ skipped_space b = false) as (b & t & Eb & Hb).
      { destruct (N.ltb_spec c 128) as [Hl|Hl].
        - rewrite (encode_ascii c Hl). now exists c, [].
        - assert (Hh := encode_high c Hl). destruct (encode_nonempty c) as (b & t & Eb).
          exists b, t. split; [exact Eb|]. rewrite Eb in Hh. inversion Hh as [|? ? H0 _]; subst.
          unfold skipped_space. lia. }
      rewrite Eb. cbn [app position]. rewrite Hb. reflexivity.
Qed.

Definition warnings (w : list (event A)) : Prop :=
  Forall (fun r => exists g e, r = (g, UErr e) /\ is_fatal e = false) w.

Lemma skip_ascii_whitespace_spec s start :
  exists ws rest w,
    s = ws ++ rest /\ Forall continuation_space ws /\ ~ starts_continuation rest /\
    skip_ascii_whitespace s start = Ok (rest, w) /\ warnings w.
Proof.
  destruct (skip_position s) as (ws & rest & E & Hw & Hr & Hp).
  unfold skip_ascii_whitespace. rewrite Hp, E, split_at_app.
  exists ws, rest. eexists. repeat split; auto. unfold warnings.
  rewrite Forall_app. split.
  - destruct (contains ws LF); [|constructor].
    constructor; [do 2 eexists; split; reflexivity|constructor].
  - destruct rest as [|c t]; [constructor|]. destruct (is_white_space c); [|constructor].
    constructor; [do 2 eexists; split; reflexivity|constructor].
Qed.

Lemma continuation_unique ws rest ws' rest' :
  ws ++ rest = ws' ++ rest' ->
  Forall continuation_space ws -> ~ starts_continuation rest ->
  Forall continuation_space ws' -> ~ starts_continuation rest' ->
  ws = ws' /\ rest = rest'.
Proof.
  revert ws'. induction ws as [|c ws IH]; intros [|c' ws'] E H1 H2 H3 H4.
  - auto.
  - cbn in E. subst rest. destruct H2. inversion H3; subst. now exists c', (ws' ++ rest').
  - cbn in E. subst rest'. destruct H4. inversion H1; subst. now exists c, (ws ++ rest).
  - cbn in E. injection E as <- E. inversion H1; subst. inversion H3; subst.
    destruct (IH _ E) as [-> ->]; auto.
Qed.

(** *** The event list *)

Fixpoint ev_value (events : list (event A)) : option (list N) :=
  match events with
  | [] => Some []
  | (_, UOk a) :: t => option_map (app (push a)) (ev_value t)
  | (_, UErr e) :: t => if is_fatal e then None else ev_value t
  end.

Lemma ev_value_warnings w ev : warnings w -> ev_value (w ++ ev) = ev_value ev.
Proof. induction 1 as [|r w (g & e & -> & He) _ IH]; [reflexivity|]. cbn. now rewrite He. Qed.

Lemma collect_error v e0 ev : exists v' e, collect push v (Some e0) ev = (v', Some e).
Proof.
  revert v e0. induction ev as [|[g [a|e]] ev IH]; intros v e0; cbn [collect].
  - now exists v, e0.
  - apply IH.
  - destruct (is_fatal e); apply IH.
Qed.
Lemma collect_value v ev :
  match ev_value ev with
  | Some x => collect push v None ev = (v ++ x, None)
  | None => exists v' e, collect push v None ev = (v', Some e)
  end.
Proof.
  revert v. induction ev as [|[g [a|e]] ev IH]; intro v; cbn [ev_value collect].
  - now rewrite app_nil_r.
  - specialize (IH (v ++ push a)). destruct (ev_value ev); cbn [option_map].
    + now rewrite IH, <- app_assoc.
    + exact IH.
  - destruct (is_fatal e); [apply collect_error|apply IH].
Qed.

Lemma yields_value g r x ev v : yields r x -> ev_value ev = Some v -> ev_value ((g, r) :: ev) = Some (x ++ v).
Proof. intros (a & -> & <-) H. cbn. now rewrite H. Qed.
Lemma fails_value g r ev : fails r -> ev_value ((g, r) :: ev) = None.
Proof. intros (e & -> & He). cbn. now rewrite He. Qed.
Lemma yields_value_inv g r x ev w :
  yields r x -> ev_value ((g, r) :: ev) = Some w -> exists v, ev_value ev = Some v /\ w = x ++ v.
Proof.
  intros (a & -> & <-) H. cbn in H. destruct (ev_value ev) as [v|]; [|discriminate].
  exists v. split; [reflexivity|]. now injection H.
Qed.

Lemma checked_sub_ok a b : (b <= a)%nat -> checked_sub a b = Ok (a - b)%nat.
Proof. unfold checked_sub. destruct (Nat.ltb_spec a b); [lia|reflexivity]. Qed.

Lemma unescape_loop_sound fuel total s :
  (length s < fuel)%nat -> (str_len s <= total)%nat ->
  exists ev, unescape_loop u fuel total s = Ok ev /\ forall v, ev_value ev = Some v -> cooked k s v.
Proof.
  revert s. induction fuel as [|fuel IH]; intros s Hl Ht; [lia|].
  destruct s as [|c s]; cbn [unescape_loop].
  { exists []. split; [reflexivity|]. intros v [= <-]. constructor. }
  cbn [length] in Hl. cbn [str_len] in Ht.
  rewrite checked_sub_ok by lia. cbn [bind]. rewrite checked_sub_ok by lia. cbn [bind].
  set (start := (total - str_len s - len_utf8 c)%nat).
  destruct ((c =? BACKSLASH) && match s with d :: _ => d =? LF | [] => false end) eqn:E.
  - apply andb_prop in E. destruct E as [Ec Es].
    apply N.eqb_eq in Ec. destruct s as [|d s]; [discriminate|]. apply N.eqb_eq in Es.
    cbn [tl]. destruct (skip_ascii_whitespace_spec s start) as (ws & rest & w & E & H1 & H2 & H3 & H4).
    rewrite H3. cbn [bind].
    destruct (IH rest) as (ev & Hev & Hv).
    { rewrite E in Hl. cbn in Hl. rewrite app_length in Hl. lia. }
    { rewrite E in Ht. cbn [str_len] in Ht. rewrite str_len_app in Ht. lia. }
    rewrite Hev. cbn [bind]. exists (w ++ ev). split; [reflexivity|].
    intros v Hx. rewrite ev_value_warnings in Hx by assumption.
    rewrite Ec, Es, E. apply cooked_continue; auto.
  - destruct (N.eqb_spec c BACKSLASH) as [Ec|Ec].
    + destruct (unescape_1 u s) as [t r] eqn:E1.
      destruct (unescape_1_sound _ _ _ E1) as [[p Hp] Hr].
      destruct (IH t) as (ev & Hev & Hv).
      { rewrite Hp, app_length in Hl. lia. }
      { rewrite Hp, str_len_app in Ht. lia. }
      rewrite checked_sub_ok by (rewrite Hp, str_len_app in Ht; lia). cbn [bind].
      rewrite Hev. cbn [bind]. eexists. split; [reflexivity|]. intros v Hx.
      destruct Hr as [Hf|(e & x & He & Hs & Hy)].
      { rewrite fails_value in Hx by assumption. discriminate. }
      destruct (yields_value_inv _ _ _ _ _ Hy Hx) as (v' & Hv' & ->).
      rewrite Ec, Hs. apply cooked_escape; auto.
    + destruct (IH s ltac:(lia) ltac:(lia)) as (ev & Hev & Hv).
      destruct (N.eqb_spec c DQUOTE) as [Eq|Eq]; [|destruct (N.eqb_spec c CR) as [Er|Er]];
        rewrite checked_sub_ok by lia; cbn [bind]; rewrite Hev; cbn [bind]; eexists; (split; [reflexivity|]); intros v Hx.
      1, 2: cbn in Hx; discriminate.
      destruct (imp_char I c) as [[[H1 H2] Hy]|[_ Hf]].
      2:{ rewrite fails_value in Hx by assumption. discriminate. }
      destruct (yields_value_inv _ _ _ _ _ Hy Hx) as (v' & Hv' & ->).
      apply cooked_char; auto.
Qed.

Lemma escape_not_newline e x t : escape k e x -> match e ++ t with d :: _ => d =? LF | [] => false end = false.
Proof.
  intros [c v Hin|Hk|a b y z Ha Hb H1 H2|ds n v Hk Hd Hn Hv H2]; try reflexivity.
  cbn in Hin. repeat (destruct Hin as [Hin|Hin]; [injection Hin as <- <-; reflexivity|]). destruct Hin.
Qed.

Lemma unescape_loop_complete s v :
  cooked k s v ->
  forall fuel total, (length s < fuel)%nat -> (str_len s <= total)%nat ->
  exists ev, unescape_loop u fuel total s = Ok ev /\ ev_value ev = Some v.
Proof.
  induction 1 as [|c s v H1 H2 H3 H4 H5 H IH|e x s v He H IH|ws s v Hw Hs H IH];
    intros [|fuel] total Hl Ht; try lia; cbn [unescape_loop].
  - now exists [].
  - cbn [length] in Hl. cbn [str_len] in Ht.
    destruct (IH fuel total ltac:(lia) ltac:(lia)) as (ev & Hev & Hv).
    rewrite checked_sub_ok by lia. cbn [bind]. rewrite checked_sub_ok by lia. cbn [bind].
    destruct (N.eqb_spec c BACKSLASH); [congruence|]. cbn [andb].
    destruct (N.eqb_spec c DQUOTE); [congruence|]. destruct (N.eqb_spec c CR); [congruence|].
    rewrite checked_sub_ok by lia. cbn [bind].
    rewrite Hev. cbn [bind]. eexists. split; [reflexivity|].
    destruct (imp_char I c) as [[_ Hy]|[Hn _]]; [|destruct Hn; split; auto].
    now apply yields_value.
  - cbn [length] in Hl. rewrite app_length in Hl.
    cbn [str_len] in Ht. rewrite str_len_app in Ht.
    destruct (IH fuel total ltac:(lia) ltac:(lia)) as (ev & Hev & Hv).
    rewrite checked_sub_ok by (rewrite str_len_app; lia). cbn [bind].
    rewrite checked_sub_ok by (rewrite str_len_app; lia). cbn [bind].
    rewrite (escape_not_newline _ _ s He), N.eqb_refl. cbn [andb].
    destruct (unescape_1_complete _ _ s He) as (r & -> & Hy).
    rewrite checked_sub_ok by lia. cbn [bind].
    rewrite Hev. cbn [bind]. eexists. split; [reflexivity|]. now apply yields_value.
  - cbn [length] in Hl. rewrite app_length in Hl.
    cbn [str_len] in Ht. rewrite str_len_app in Ht.
    destruct (IH fuel total ltac:(lia) ltac:(lia)) as (ev & Hev & Hv).
    rewrite checked_sub_ok by (cbn [str_len]; rewrite str_len_app; lia). cbn [bind].
    rewrite checked_sub_ok by (cbn [str_len]; rewrite str_len_app; lia). cbn [bind].
    rewrite !N.eqb_refl. cbn [andb tl].
    set (start := (total - str_len (LF :: ws ++ s) - len_utf8 BACKSLASH)%nat).
    destruct (skip_ascii_whitespace_spec (ws ++ s) start)
      as (ws' & rest & w & E & H1 & H2 & H3 & H4).
    destruct (continuation_unique _ _ _ _ E Hw Hs H1 H2) as [<- <-].
    rewrite H3. cbn [bind]. rewrite Hev. cbn [bind]. eexists. split; [reflexivity|].
    now rewrite ev_value_warnings.
Qed.

Lemma unescaped_spec ending s :
  exists r, unescaped u push ending s = Ok r /\ r <> CInvalidKind /\
  forall w, r = COk w <-> exists v, cooked k s v /\ w = v ++ ending.
Proof.
  unfold unescaped, unescape.
  destruct (unescape_loop_sound (S (length s)) (str_len s) s ltac:(lia) (le_n _)) as (ev & Hev & Hs).
  rewrite Hev. cbn [bind]. assert (Hc := collect_value [] ev).
  assert (Hiff : forall v, cooked k s v -> ev_value ev = Some v).
  { intros v Hv. destruct (unescape_loop_complete _ _ Hv (S (length s)) (str_len s) ltac:(lia) (le_n _)) as (ev' & E & Hv').
    congruence. }
  destruct (ev_value ev) as [x|] eqn:Ex.
  - rewrite Hc. cbn [app]. eexists. split; [reflexivity|]. split; [discriminate|]. intro w. split.
    + intros [= <-]. exists x. auto.
    + intros (v & Hv & ->). apply Hiff in Hv. now injection Hv as ->.
  - destruct Hc as (v' & e & ->). eexists. split; [reflexivity|]. split; [discriminate|]. intro w. split.
    + discriminate.
    + intros (v & Hv & ->). apply Hiff in Hv. discriminate.
Qed.

Lemma cooked_fun s v w : cooked k s v -> cooked k s w -> v = w.
Proof.
  intros H1 H2.
  destruct (unescape_loop_complete _ _ H1 (S (length s)) (str_len s) ltac:(lia) (le_n _)) as (ev & E & Hv).
  destruct (unescape_loop_complete _ _ H2 (S (length s)) (str_len s) ltac:(lia) (le_n _)) as (ev' & E' & Hv').
  congruence.
Qed.

End Kind.
