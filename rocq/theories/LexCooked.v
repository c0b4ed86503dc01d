(** * The lexer accepts exactly the quoted texts that have a value, up to CRLF. *)
From Verif Require Import Base Unicode Tokens Lexer BaseFacts PureLexer Escaper LitValue SpecLit
  EscaperFacts LitValueFacts Local.
Import ListNotations.
Local Open Scope N_scope.

Definition esc_of (k : kind) : str -> option str :=
  match k with KStr => esc_str | KByte => esc_byte | KC => esc_c end.
Definition ok_of (k : kind) : char -> bool :=
  match k with KStr => ok_any | KByte => is_ascii | KC => ok_nonnul end.

Lemma hexval_digit c v : hexval c v <-> is_hex_digit c = true /\ v = hex_value c.
Proof.
  rewrite <- to_digit16_hexval. unfold to_digit16, is_hex_digit, hex_value.
  destruct (between "0"%ch c "9"%ch).
  { split; [intros [= <-]; auto|intros [_ ->]; reflexivity]. }
  destruct (between "a"%ch c "f"%ch).
  { split; [intros [= <-]; split; [reflexivity|lia]|intros [_ ->]; f_equal; lia]. }
  destruct (between "A"%ch c "F"%ch).
  { split; [intros [= <-]; split; [reflexivity|lia]|intros [_ ->]; f_equal; lia]. }
  split; [discriminate|]. intros [[=] _].
Qed.
Lemma hexval_is c v : hexval c v -> is_hex_digit c = true.
Proof. intro H. now apply hexval_digit in H. Qed.
Lemma is_hexval c : is_hex_digit c = true -> hexval c (hex_value c).
Proof. intro H. now apply hexval_digit. Qed.
Lemma hexval_value c v : hexval c v -> hex_value c = v.
Proof. intro H. apply hexval_digit in H. symmetry. apply H. Qed.

Lemma hexval_07 c v : hexval c v -> between "0"%ch c "7"%ch = (v <? 8).
Proof. intros []; unfold between; cbn -[N.leb N.ltb]; lia. Qed.
Lemma hexval_zero c v : hexval c v -> (c =? "0"%ch) = (v =? 0).
Proof. intros []; cbn -[N.eqb]; lia. Qed.

(** *** Unicode escapes *)

Lemma p_u_loop_digits ds n v t :
  udigits ds n v -> (n <= 6)%nat -> p_u_loop (ds ++ t) 0 0 = p_u_loop t v n.
Proof.
  intro H. revert t. induction H as [c v H|ds n v c d H IH Hd|ds n v H IH]; intros t Hn.
  - cbn [app p_u_loop]. rewrite (hexval_is _ _ H). cbn [Nat.eqb]. rewrite (hexval_value _ _ H).
    f_equal.
  - rewrite <- app_assoc, IH by lia. cbn [app p_u_loop]. rewrite (hexval_is _ _ Hd).
    destruct (Nat.eqb_spec n 6); [lia|]. rewrite (hexval_value _ _ Hd). f_equal. lia.
  - rewrite <- app_assoc, IH by lia. cbn [app p_u_loop].
    change (is_hex_digit 95) with false. cbn iota. change (95 =? "_"%ch) with true.
    assert (1 <= n)%nat by (eapply udigits_pos; eassumption).
    destruct (Nat.ltb_spec 0 n); [reflexivity|lia].
Qed.

Lemma p_u_complete ds n v t :
  udigits ds n v -> (n <= 6)%nat -> is_scalar v = true ->
  p_u (tag "{" ++ ds ++ tag "}" ++ t) = Some (t, v).
Proof.
  intros Hd Hn Hv. cbn [app p_u p_u_loop].
  change ("{"%ch =? "{"%ch) with true. cbn iota.
  rewrite (p_u_loop_digits _ _ _ _ Hd Hn). cbn [p_u_loop].
  change (is_hex_digit "}"%ch) with false. change ("}"%ch =? "_"%ch) with false.
  change ("}"%ch =? "}"%ch) with true. cbn [andb].
  assert (1 <= n)%nat by (eapply udigits_pos; eassumption).
  destruct (Nat.ltb_spec 0 n); [|lia]. unfold char_from_u32. now rewrite Hv.
Qed.

Lemma p_u_loop_sound s : forall ds v n t c,
  (n = 0%nat /\ v = 0 /\ ds = [] \/ udigits ds n v) -> (n <= 6)%nat ->
  p_u_loop s v n = Some (t, c) ->
  exists ds' n', s = ds' ++ tag "}" ++ t /\ udigits (ds ++ ds') n' c /\ (n' <= 6)%nat
                 /\ is_scalar c = true.
Proof.
  induction s as [|ch s IH]; intros ds v n t c Hd Hn H; cbn [p_u_loop] in H; [discriminate|].
  destruct (is_hex_digit ch) eqn:Eh.
  { destruct (Nat.eqb_spec n 6); [discriminate|].
    apply is_hexval in Eh.
    assert (Hd1 : udigits (ds ++ [ch]) (S n) (v * 0x10 + hex_value ch)).
    { destruct Hd as [(-> & -> & ->)|Hd].
      - cbn [app]. replace (0 * 0x10 + hex_value ch) with (hex_value ch) by lia. now apply ud_first.
      - rewrite (N.mul_comm v). now apply ud_digit. }
    destruct (IH _ _ _ _ _ (or_intror Hd1) ltac:(lia) H) as (ds' & n' & -> & H1 & H2 & H3).
    exists (ch :: ds'), n'. rewrite <- app_assoc in H1. auto. }
  destruct (N.eqb_spec ch "_"%ch) as [Ec|Ec]; cbn [andb] in H.
  - destruct (Nat.ltb_spec 0 n) as [Hp|Hp].
    2:{ rewrite Ec in H. discriminate. }
    destruct Hd as [(-> & _)|Hd]; [lia|].
    assert (Hd1 : udigits (ds ++ [ch]) n v) by (rewrite Ec; now apply ud_underscore).
    destruct (IH _ _ _ _ _ (or_intror Hd1) Hn H) as (ds' & n' & -> & H1 & H2 & H3).
    exists (ch :: ds'), n'. rewrite <- app_assoc in H1. auto.
  - destruct (N.eqb_spec ch "}"%ch) as [Ec'|Ec']; cbn [andb] in H; [|discriminate].
    destruct (Nat.ltb_spec 0 n) as [Hp|Hp]; [|discriminate].
    destruct Hd as [(-> & _)|Hd]; [lia|].
    unfold char_from_u32 in H. destruct (is_scalar v) eqn:Ev; [|discriminate].
    injection H as <- <-. exists [], n. rewrite app_nil_r, Ec'. auto.
Qed.

Lemma p_u_sound s t c : p_u s = Some (t, c) ->
  exists ds n, s = tag "{" ++ ds ++ tag "}" ++ t /\ udigits ds n c /\ (n <= 6)%nat
               /\ is_scalar c = true.
Proof.
  destruct s as [|a s]; cbn [p_u]; [discriminate|].
  destruct (N.eqb_spec a "{"%ch) as [->|]; [|discriminate]. intro H.
  destruct (p_u_loop_sound _ [] _ _ _ _ (or_introl (conj eq_refl (conj eq_refl eq_refl)))
              (Nat.le_0_l _) H) as (ds & n & -> & H1 & H2 & H3).
  exists ds, n. auto.
Qed.

(** *** Escapes *)

Lemma esc_of_complete k e x t : escape k e x -> esc_of k (e ++ t) = Some t.
Proof.
  intros [c v Hin|Hk|a b y z Ha Hb H1 H2|ds n v Hk Hd Hn Hv H2].
  - cbn in Hin.
    repeat (destruct Hin as [Hin|Hin]; [injection Hin as <- <-; destruct k; reflexivity|]).
    destruct Hin.
  - destruct k; try reflexivity. congruence.
  - assert (Ha16 := hexval_bound _ _ Ha). assert (Hb16 := hexval_bound _ _ Hb).
    destruct k; cbn [esc_of app].
    + change (p_x_char (a :: b :: t) = Some t). unfold p_x_char.
      rewrite (hexval_07 _ _ Ha), (hexval_is _ _ Hb). specialize (H1 eq_refl).
      destruct (N.ltb_spec y 8); [reflexivity|lia].
    + change (p_x_byte (a :: b :: t) = Some t). unfold p_x_byte.
      now rewrite (hexval_is _ _ Ha), (hexval_is _ _ Hb).
    + change (p_x_nonzero (a :: b :: t) = Some t). unfold p_x_nonzero.
      rewrite (hexval_is _ _ Ha), (hexval_is _ _ Hb), (hexval_zero _ _ Ha), (hexval_zero _ _ Hb).
      specialize (H2 eq_refl).
      destruct (N.eqb_spec y 0), (N.eqb_spec z 0); try reflexivity. lia.
  - rewrite <- !app_assoc.
    assert (E : p_u (tag "{" ++ ds ++ tag "}" ++ t) = Some (t, v)) by (eapply p_u_complete; eassumption).
    destruct k; [|congruence|].
    + change (esc_of KStr (tag "u{" ++ ds ++ tag "}" ++ t))
        with (match p_u (tag "{" ++ ds ++ tag "}" ++ t) with Some (r, _) => Some r | None => None end).
      now rewrite E.
    + change (esc_of KC (tag "u{" ++ ds ++ tag "}" ++ t))
        with (match p_u (tag "{" ++ ds ++ tag "}" ++ t) with
              | Some (r, v) => if (v =? NUL)%N then None else Some r | None => None end).
      rewrite E. specialize (H2 eq_refl). destruct (N.eqb_spec v NUL); [contradiction|reflexivity].
Qed.

Lemma simple_sound k c t :
  simple_escape_c c = true -> exists e x, escape k e x /\ c :: t = e ++ t.
Proof.
  unfold simple_escape_c. intro H. exists [c].
  repeat match type of H with
         | _ || _ = true => apply orb_prop in H; destruct H as [H|H]
         end;
    apply N.eqb_eq in H; subst c; eexists; (split; [apply esc_simple; cbn; tauto|reflexivity]).
Qed.
Lemma simple0_sound k c t :
  k <> KC -> simple_escape0 c = true -> exists e x, escape k e x /\ c :: t = e ++ t.
Proof.
  intros Hk. unfold simple_escape0. intro H. exists [c].
  repeat match type of H with
         | _ || _ = true => apply orb_prop in H; destruct H as [H|H]
         end;
    apply N.eqb_eq in H; subst c; eexists;
    (split; [first [now apply esc_zero | apply esc_simple; cbn; tauto]|reflexivity]).
Qed.

Lemma esc_of_sound k s t : esc_of k s = Some t -> exists e x, escape k e x /\ s = e ++ t.
Proof.
  destruct s as [|c s]; [destruct k; discriminate|].
  destruct k; cbn [esc_of esc_str esc_byte esc_c]; intro H.
  - destruct (N.eqb_spec c "x"%ch) as [->|].
    { unfold p_x_char in H. destruct s as [|a [|b s]]; try discriminate.
      destruct (between "0"%ch a "7"%ch) eqn:Ea; [|discriminate].
      destruct (is_hex_digit b) eqn:Eb; [|discriminate]. injection H as <-.
      assert (Ha : hexval a (hex_value a)).
      { apply is_hexval. unfold is_hex_digit, between in *. cbn -[N.leb] in *. lia. }
      apply is_hexval in Eb. assert (Hb16 := hexval_bound _ _ Eb).
      rewrite (hexval_07 _ _ Ha) in Ea. apply N.ltb_lt in Ea.
      eexists _, _. split; [apply (esc_hex _ a b _ _ Ha Eb); [lia|discriminate]|reflexivity]. }
    destruct (simple_escape0 c) eqn:Es.
    { injection H as <-. now apply simple0_sound. }
    destruct (N.eqb_spec c "u"%ch) as [->|]; [|discriminate].
    destruct (p_u s) as [[r v]|] eqn:Eu; [|discriminate]. injection H as <-.
    apply p_u_sound in Eu as (ds & m & -> & H1 & H2 & H3).
    exists (tag "u{" ++ ds ++ tag "}"). eexists. split.
    + eapply esc_unicode; try eassumption; discriminate.
    + cbn. now rewrite <- app_assoc.
  - destruct (N.eqb_spec c "x"%ch) as [->|].
    { unfold p_x_byte in H. destruct s as [|a [|b s]]; try discriminate.
      destruct (is_hex_digit a) eqn:Ea; [|discriminate].
      destruct (is_hex_digit b) eqn:Eb; [|discriminate]. injection H as <-.
      apply is_hexval in Ea, Eb.
      eexists _, _. split; [apply (esc_hex _ a b _ _ Ea Eb); discriminate|reflexivity]. }
    destruct (simple_escape0 c) eqn:Es; [|discriminate].
    injection H as <-. now apply simple0_sound.
  - destruct (N.eqb_spec c "x"%ch) as [->|].
    { unfold p_x_nonzero in H. destruct s as [|a [|b s]]; try discriminate.
      destruct (is_hex_digit a) eqn:Ea; [|discriminate].
      destruct (is_hex_digit b) eqn:Eb; [|discriminate]. cbn [andb] in H.
      apply is_hexval in Ea, Eb.
      rewrite (hexval_zero _ _ Ea), (hexval_zero _ _ Eb) in H.
      destruct (N.eqb_spec (hex_value a) 0), (N.eqb_spec (hex_value b) 0); cbn [andb negb] in H;
        try discriminate; injection H as <-;
        (eexists _, _; split; [apply (esc_hex _ a b _ _ Ea Eb); [discriminate|lia]|reflexivity]). }
    destruct (simple_escape_c c) eqn:Es.
    { injection H as <-. now apply simple_sound. }
    destruct (N.eqb_spec c "u"%ch) as [->|]; [|discriminate].
    destruct (p_u s) as [[r v]|] eqn:Eu; [|discriminate].
    destruct (N.eqb_spec v NUL); [discriminate|]. injection H as <-.
    apply p_u_sound in Eu as (ds & m & -> & H1 & H2 & H3).
    exists (tag "u{" ++ ds ++ tag "}"). eexists. split.
    + eapply esc_unicode; try eassumption; [discriminate|auto].
    + cbn. now rewrite <- app_assoc.
Qed.

Lemma escape_no_cr k e x : escape k e x -> ~ In CR e.
Proof.
  intros [c v Hin|Hk|a b y z Ha Hb H1 H2|ds n v Hk Hd Hn Hv H2] H.
  - destruct H as [H|[]]. rewrite H in Hin. cbn in Hin.
    repeat (destruct Hin as [Hin|Hin]; [discriminate Hin|]). destruct Hin.
  - destruct H as [H|[]]. discriminate H.
  - apply hexval_range in Ha, Hb.
    destruct H as [H|[H|[H|[]]]]; [discriminate H| |]; subst; lia.
  - rewrite !in_app_iff in H. destruct H as [H|[H|H]].
    + cbn in H. repeat (destruct H as [H|H]; [discriminate H|]). destruct H.
    + clear -Hd H. induction Hd as [c v Hc|ds n v c d _ IH Hc|ds n v _ IH].
      * destruct H as [H|[]]. rewrite H in Hc. apply hexval_range in Hc. lia.
      * rewrite in_app_iff in H. destruct H as [H|[H|[]]]; [auto|]. rewrite H in Hc. apply hexval_range in Hc. lia.
      * rewrite in_app_iff in H. destruct H as [H|[H|[]]]; [auto|]. discriminate H.
    + cbn in H. repeat (destruct H as [H|H]; [discriminate H|]). destruct H.
Qed.

(** *** CRLF *)

Lemma crlf_cons c s : c <> CR -> crlf (c :: s) = c :: crlf s.
Proof. intro H. cbn [crlf]. destruct (N.eqb_spec c CR); [contradiction|reflexivity]. Qed.
Lemma crlf_crlf s : crlf (CR :: LF :: s) = LF :: crlf s.
Proof. reflexivity. Qed.
Lemma crlf_app a s : ~ In CR a -> crlf (a ++ s) = a ++ crlf s.
Proof.
  induction a as [|c a IH]; intro H; [reflexivity|]. cbn [app].
  rewrite crlf_cons, IH; [reflexivity| |]; intros H'; apply H; [now right|left; auto].
Qed.
Lemma crlf_id s : ~ In CR s -> crlf s = s.
Proof. intro H. rewrite <- (app_nil_r s) at 1. now rewrite crlf_app, app_nil_r. Qed.

(** *** Continuations *)

Lemma trail_ws_spec c : is_trail_ws c = true <-> continuation_space c.
Proof. apply skipped_space_spec. Qed.

Lemma p_trail_complete ws : forall last c t,
  last <> CR -> Forall continuation_space ws -> ~ In CR ws -> ~ continuation_space c ->
  p_trail last (ws ++ c :: t) = Some (c :: t).
Proof.
  induction ws as [|w ws IH]; intros last c t Hl Hw Hn Hc; cbn [app p_trail].
  - destruct (N.eqb_spec last CR); [contradiction|].
    destruct (is_trail_ws c) eqn:E; [apply trail_ws_spec in E; contradiction|reflexivity].
  - destruct (N.eqb_spec last CR); [contradiction|]. inversion Hw as [|? ? H1 H2]; subst.
    apply trail_ws_spec in H1. rewrite H1. apply IH; auto.
    + intro H. apply Hn. now left.
    + intro H. apply Hn. now right.
Qed.

Lemma p_trail_sound m : forall s last rest,
  (length s <= m)%nat -> continuation_space last -> p_trail last s = Some rest ->
  exists w ws,
    s = w ++ rest /\ Forall continuation_space ws
    /\ (exists c t, rest = c :: t /\ ~ continuation_space c)
    /\ forall b, crlf (last :: w ++ b) = (if last =? CR then LF else last) :: ws ++ crlf b.
Proof.
  induction m as [|m IH]; intros s last rest Hm Hlast H.
  { destruct s; [discriminate|cbn in Hm; lia]. }
  destruct s as [|c t]; cbn [p_trail] in H; [discriminate|]. cbn [length] in Hm.
  destruct (N.eqb_spec last CR) as [El|El].
  - destruct (N.eqb_spec c LF) as [Ec|]; [|discriminate].
    destruct t as [|b t]; [discriminate|].
    destruct (is_trail_ws b) eqn:Eb.
    + apply trail_ws_spec in Eb.
      destruct (IH t b rest ltac:(cbn in Hm; lia) Eb H) as (w & ws & -> & Hw & Hr & Hc).
      exists (c :: b :: w), ((if b =? CR then LF else b) :: ws). repeat split; auto.
      * constructor; [|exact Hw]. destruct (b =? CR); [unfold continuation_space; lia|exact Eb].
      * intro s. cbn [app]. rewrite El, Ec, crlf_crlf, Hc. reflexivity.
    + injection H as <-. exists [c], []. repeat split; auto.
      * exists b, t. split; [reflexivity|]. intro Hx. apply trail_ws_spec in Hx. congruence.
      * intro s. cbn [app]. rewrite El, Ec, crlf_crlf. reflexivity.
  - destruct (is_trail_ws c) eqn:Ec.
    + apply trail_ws_spec in Ec.
      destruct (IH t c rest ltac:(lia) Ec H) as (w & ws & -> & Hw & Hr & Hc).
      exists (c :: w), ((if c =? CR then LF else c) :: ws). repeat split; auto.
      * constructor; [|exact Hw]. destruct (c =? CR); [unfold continuation_space; lia|exact Ec].
      * intro s. cbn [app]. rewrite crlf_cons by assumption. now rewrite Hc.
    + injection H as <-. exists [], []. repeat split; auto.
      * exists c, t. split; [reflexivity|]. intro Hx. apply trail_ws_spec in Hx. congruence.
      * intro s. cbn [app]. now rewrite crlf_cons by assumption.
Qed.

(** *** Cooked strings *)

Lemma ok_of_spec k c : ok_of k c = true <-> char_ok k c.
Proof.
  unfold char_ok. destruct k; cbn.
  - split; [split; discriminate|reflexivity].
  - unfold is_ascii. rewrite N.ltb_lt. split; [intro; split; [auto|discriminate]|intros [H _]; auto].
  - unfold ok_nonnul. rewrite negb_true_iff, N.eqb_neq.
    split; [intro; split; [discriminate|auto]|intros [_ H]; auto].
Qed.

(** [cooked] text without carriage returns in continuations: those have to be
    part of a CRLF in the source. *)
Lemma cooked_lexes k s v : cooked k s v -> ~ In CR s -> forall fuel r,
  (length s < fuel)%nat ->
  p_cooked_fuel (esc_of k) (ok_of k) fuel (s ++ DQUOTE :: r) = Some r.
Proof.
  induction 1 as [|c s v H1 H2 H3 H4 H5 H IH|e x s v He H IH|ws s v Hw Hs H IH]; intros Hn [|fuel] r Hl;
    try lia; cbn [app p_cooked_fuel].
  - reflexivity.
  - cbn [length] in Hl.
    destruct (N.eqb_spec c DQUOTE); [contradiction|]. destruct (N.eqb_spec c CR); [contradiction|].
    destruct (N.eqb_spec c BACKSLASH); [contradiction|].
    assert (E : ok_of k c = true) by (apply ok_of_spec; split; auto).
    rewrite E. apply IH; [intro; apply Hn; now right|lia].
  - cbn [length] in Hl. rewrite app_length in Hl.
    change (BACKSLASH =? DQUOTE) with false. change (BACKSLASH =? CR) with false.
    change (BACKSLASH =? BACKSLASH) with true. cbn iota.
    assert (Hnl := escape_not_newline k e x (s ++ DQUOTE :: r) He).
    assert (Hne := esc_of_complete k e x (s ++ DQUOTE :: r) He).
    assert (Hcr := escape_no_cr _ _ _ He).
    rewrite <- app_assoc.
    destruct e as [|c2 e].
    { destruct k; inversion He; discriminate. }
    cbn [app] in *. rewrite Hnl.
    destruct (N.eqb_spec c2 CR); [exfalso; apply Hcr; now left|]. cbn [orb]. rewrite Hne.
    apply IH; [|cbn in Hl; lia]. intro Hx. apply Hn. right. right. apply in_or_app. now right.
  - cbn [length] in Hl. rewrite app_length in Hl.
    change (BACKSLASH =? DQUOTE) with false. change (BACKSLASH =? CR) with false.
    change (BACKSLASH =? BACKSLASH) with true. cbn iota.
    change (LF =? LF) with true. cbn [orb]. rewrite <- app_assoc.
    assert (Hws : ~ In CR ws).
    { intro Hx. apply Hn. right. right. apply in_or_app. now left. }
    assert (exists c t, s ++ DQUOTE :: r = c :: t /\ ~ continuation_space c) as (c & t & Ec & Hc).
    { destruct s as [|c s].
      - exists DQUOTE, r. split; [reflexivity|]. unfold continuation_space. lia.
      - exists c, (s ++ DQUOTE :: r). split; [reflexivity|]. intro Hx. apply Hs. now exists c, s. }
    rewrite Ec, p_trail_complete; auto; [|discriminate].
    rewrite <- Ec. apply IH; [|lia]. intro Hx. apply Hn. right. right. apply in_or_app. now right.
Qed.

Lemma p_cooked_sound k fuel : forall s r,
  p_cooked_fuel (esc_of k) (ok_of k) fuel s = Some r ->
  exists b v, s = b ++ DQUOTE :: r /\ cooked k (crlf b) v.
Proof.
  induction fuel as [|fuel IH]; intros s r H; [discriminate|].
  destruct s as [|c t]; cbn [p_cooked_fuel] in H; [discriminate|].
  destruct (N.eqb_spec c DQUOTE) as [->|Hq].
  { injection H as <-. exists [], []. split; [reflexivity|constructor]. }
  destruct (N.eqb_spec c CR) as [Ec|Hcr].
  { destruct t as [|c2 t]; [discriminate|]. destruct (N.eqb_spec c2 LF) as [Ec2|]; [|discriminate].
    destruct (IH _ _ H) as (b & v & -> & Hv). exists (c :: c2 :: b), (units k LF ++ v).
    split; [reflexivity|]. rewrite Ec, Ec2, crlf_crlf. apply cooked_char; auto; lia. }
  destruct (N.eqb_spec c BACKSLASH) as [Ec|Hb].
  - destruct t as [|c2 t2]; [discriminate|].
    destruct ((c2 =? LF) || (c2 =? CR)) eqn:Enl.
    + destruct (p_trail c2 t2) as [rest|] eqn:Et; [|discriminate].
      assert (Hc2 : continuation_space c2) by (unfold continuation_space; lia).
      destruct (p_trail_sound _ _ _ _ (Nat.le_refl _) Hc2 Et)
        as (w & ws & -> & Hws & (d & t & Er & Hd) & Hcr2).
      destruct (IH _ _ H) as (b & v & Eb & Hv).
      exists (c :: c2 :: w ++ b), v. split.
      { rewrite Eb. cbn. now rewrite <- app_assoc. }
      rewrite crlf_cons by assumption. rewrite Hcr2.
      replace (if c2 =? CR then LF else c2) with LF.
      2:{ destruct (N.eqb_spec c2 CR); [reflexivity|]. lia. }
      rewrite Ec. apply cooked_continue; auto.
      intros (x & y & Ex & Hx). destruct b as [|b0 b]; [discriminate|].
      assert (b0 = d) by (rewrite Er in Eb; cbn in Eb; congruence). subst b0.
      rewrite crlf_cons in Ex by (unfold continuation_space in Hd; lia).
      injection Ex as -> _. contradiction.
    + destruct (esc_of k (c2 :: t2)) as [rest|] eqn:Ee; [|discriminate].
      apply esc_of_sound in Ee as (e & x & He & Ee).
      destruct (IH _ _ H) as (b & v & Eb & Hv).
      exists (c :: e ++ b), (x ++ v). split.
      { rewrite Ee, Eb. cbn. now rewrite <- app_assoc. }
      rewrite crlf_cons, crlf_app by (auto; now apply escape_no_cr in He).
      rewrite Ec. now apply cooked_escape.
  - destruct (ok_of k c) eqn:Eok; [|discriminate]. apply ok_of_spec in Eok as [H1 H2].
    destruct (IH _ _ H) as (b & v & -> & Hv). exists (c :: b), (units k c ++ v).
    split; [reflexivity|]. rewrite crlf_cons by assumption. apply cooked_char; auto.
Qed.

(** *** Raw strings *)

Lemma p_delim_spec s : forall n m t,
  p_delim n s = Some (m, t) <->
  exists j, m = (n + j)%nat /\ (m <= 255)%nat /\ s = repeat "#"%ch j ++ [DQUOTE] ++ t.
Proof.
  induction s as [|c s IH]; intros n m t; cbn [p_delim].
  - split; [discriminate|]. intros (j & _ & _ & E). destruct j; discriminate.
  - destruct (N.eqb_spec c DQUOTE) as [->|Hc].
    + destruct (N.ltb_spec 255 (N.of_nat n)) as [Hn|Hn].
      * split; [discriminate|]. intros (j & Hm & Hle & E). destruct j; [|discriminate]. lia.
      * split.
        { intros [= <- <-]. exists 0%nat. repeat split; lia. }
        intros (j & Hm & Hle & E). destruct j; [|discriminate].
        injection E as ->. do 2 f_equal. lia.
    + destruct (N.eqb_spec c "#"%ch) as [->|Hp].
      * rewrite IH. split; intros (j & Hm & Hle & E).
        { exists (S j). cbn. rewrite E. repeat split; lia. }
        { destruct j; [discriminate|]. injection E as E. exists j. repeat split; [lia|lia|exact E]. }
      * split; [discriminate|]. intros (j & _ & _ & E). destruct j; injection E as E; congruence.
Qed.

(** The text of a raw string contains no closing delimiter and no carriage
    return outside CRLF, only allowed characters. *)
Inductive raw_body (ok : char -> bool) (d : str) : str -> Prop :=
| raw_nil : raw_body ok d []
| raw_crlf s : raw_body ok d s -> raw_body ok d (CR :: LF :: s)
| raw_char c s : c <> CR -> ok c = true -> raw_body ok d s -> raw_body ok d (c :: s).

Lemma p_raw_sound ok d s : forall r, p_raw ok d s = Some r ->
  exists b, s = b ++ [DQUOTE] ++ d ++ r /\ raw_body ok d b.
Proof.
  induction s as [s IH] using (induction_ltof1 _ (@length _)). unfold ltof in IH. intros r H.
  destruct s as [|c t]; cbn [p_raw] in H; [discriminate|].
  destruct ((c =? DQUOTE) && starts_with t d) eqn:E.
  { apply andb_prop in E as [Ec Es]. apply N.eqb_eq in Ec. apply starts_with_skipn in Es.
    injection H as <-. exists []. split; [|constructor]. cbn. now rewrite <- Es, Ec. }
  destruct (N.eqb_spec c CR) as [Ec|Ec].
  { destruct t as [|c2 t]; [discriminate|]. destruct (N.eqb_spec c2 LF) as [Ec2|]; [|discriminate].
    destruct (IH t ltac:(cbn; lia) _ H) as (b & -> & Hb).
    exists (c :: c2 :: b). split; [reflexivity|]. rewrite Ec, Ec2. now constructor. }
  destruct (ok c) eqn:Eok; [|discriminate].
  destruct (IH t ltac:(cbn; lia) _ H) as (b & -> & Hb).
  exists (c :: b). split; [reflexivity|]. now constructor.
Qed.

Lemma p_raw_complete ok d b r :
  raw_body ok d b ->
  (forall x y, b ++ [DQUOTE] ++ d = x ++ [DQUOTE] ++ d ++ y -> x = b) ->
  p_raw ok d (b ++ [DQUOTE] ++ d ++ r) = Some r.
Proof.
  intro H. induction H as [|s H IH|c s Hc Hok H IH]; intro Hu.
  - cbn [app p_raw]. change (DQUOTE =? DQUOTE) with true. rewrite starts_with_app. cbn [andb].
    rewrite skipn_app, skipn_all, Nat.sub_diag. reflexivity.
  - cbn [app p_raw]. change (CR =? DQUOTE) with false. cbn [andb].
    change (CR =? CR) with true. change (LF =? LF) with true. cbn iota.
    apply IH. intros x y E. specialize (Hu (CR :: LF :: x) y). cbn [app] in Hu.
    cbn [app] in E. rewrite E in Hu. specialize (Hu eq_refl). congruence.
  - cbn [app p_raw].
    destruct ((c =? DQUOTE) && starts_with (s ++ [DQUOTE] ++ d ++ r) d) eqn:E.
    + exfalso. apply andb_prop in E as [Ec Es]. apply N.eqb_eq in Ec.
      rewrite !app_assoc in Es. apply starts_with_spec in Es as [y Ey].
      assert (Hlen : (length d <= length ((s ++ [DQUOTE]) ++ d))%nat) by (rewrite !app_length; lia).
      assert (Hx : exists y', (s ++ [DQUOTE]) ++ d = d ++ y').
      { exists (skipn (length d) ((s ++ [DQUOTE]) ++ d)).
        rewrite <- (firstn_skipn (length d) ((s ++ [DQUOTE]) ++ d)) at 1. f_equal.
        apply (f_equal (firstn (length d))) in Ey.
        rewrite firstn_app in Ey. replace (length d - length ((s ++ [DQUOTE]) ++ d))%nat with 0%nat in Ey by lia.
        rewrite firstn_O, app_nil_r in Ey. rewrite Ey, firstn_app, firstn_all, Nat.sub_diag, firstn_O, app_nil_r.
        reflexivity. }
      destruct Hx as [y' Hy]. specialize (Hu [] y'). cbn [app] in Hu. rewrite <- app_assoc in Hy.
      cbn [app] in Hy. rewrite Hy, Ec in Hu. specialize (Hu eq_refl). discriminate.
    + destruct (N.eqb_spec c CR); [contradiction|]. rewrite Hok.
      change (DQUOTE :: d ++ r) with ([DQUOTE] ++ d ++ r). rewrite E.
      apply IH. intros x y Ex. specialize (Hu (c :: x) y). cbn [app] in Hu.
      cbn [app] in Ex. rewrite Ex in Hu. specialize (Hu eq_refl). congruence.
Qed.
