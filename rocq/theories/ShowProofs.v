(** * The constructors print exactly the text of SpecShow.v. *)
From Verif Require Import Base Unicode Tokens Lexer BaseFacts SpecLit SpecShow LitNew Utf8 LitNewFacts.
Import ListNotations.
Local Open Scope N_scope.

Lemma lower_hexval d : d < 16 -> hexval (hex_digit_lower d) d /\ ~ 65 <= hex_digit_lower d <= 70.
Proof.
  intro H. split; [now apply hex_lower_val|]. unfold hex_digit_lower.
  destruct (N.ltb_spec d 10); lia.
Qed.
Lemma upper_hexval d : d < 16 -> hexval (hex_digit_upper d) d /\ ~ 97 <= hex_digit_upper d <= 102.
Proof.
  intro H. split; [now apply hex_upper_val|]. unfold hex_digit_upper.
  destruct (N.ltb_spec d 10); lia.
Qed.

Lemma hex_digits_aux_lower f : forall v acc, v < 16 ^ N.of_nat (S f) ->
  exists ds, hex_digits_aux (S f) v acc = ds ++ acc /\ lower_hex ds v.
Proof.
  induction f as [|f IH]; intros v acc Hv;
    assert (Hm := N.mod_lt v 16 ltac:(lia)); assert (Hd := N.div_mod v 16 ltac:(lia));
    destruct (lower_hexval (v mod 16) Hm) as [H1 H2].
  - cbn [hex_digits_aux]. change (16 ^ N.of_nat 1) with 16 in Hv.
    rewrite (N.div_small v 16 Hv). change (0 =? 0) with true. cbn iota.
    exists [hex_digit_lower (v mod 16)]. split; [reflexivity|].
    rewrite (N.mod_small v 16 Hv) in *. now apply lh_first.
  - remember (S f) as g. cbn [hex_digits_aux].
    destruct (N.eqb_spec (v / 16) 0) as [E|E].
    + exists [hex_digit_lower (v mod 16)]. split; [reflexivity|].
      replace (v mod 16) with v in * by lia. now apply lh_first.
    + destruct (IH (v / 16) (hex_digit_lower (v mod 16) :: acc)) as (ds & Eds & Hu).
      { apply N.div_lt_upper_bound; [lia|].
        replace (N.of_nat (S g)) with (N.succ (N.of_nat g)) in Hv by lia.
        now rewrite N.pow_succ_r' in Hv. }
      exists (ds ++ [hex_digit_lower (v mod 16)]). split.
      * rewrite Eds, <- app_assoc. reflexivity.
      * rewrite Hd at 2. now apply lh_more.
Qed.
Lemma escape_unicode_code c : is_scalar c = true -> char_code c (escape_unicode c).
Proof.
  intro H. destruct (hex_digits_aux_lower 5 c []) as (ds & E & Hu).
  { unfold is_scalar in H. change (16 ^ N.of_nat 6) with 16777216. lia. }
  rewrite app_nil_r in E. exists ds. split; [exact Hu|]. unfold escape_unicode, hex_digits. now rewrite E.
Qed.
Lemma hex_upper2_code b : b < 256 -> byte_code b (hex_upper2 b).
Proof.
  intro H. assert (Hm := N.mod_lt b 16 ltac:(lia)). assert (Hd := N.div_mod b 16 ltac:(lia)).
  destruct (upper_hexval (b / 16)) as [H1 H2]; [lia|]. destruct (upper_hexval (b mod 16) Hm) as [H3 H4].
  exists (hex_digit_upper (b / 16)), (hex_digit_upper (b mod 16)), (b / 16), (b mod 16).
  auto 10.
Qed.

Section WithUnicode.
Context {U : unicode} (UO : unicode_ok U).

Lemma not_special q c : c <> 0 -> c <> TAB -> c <> LF -> c <> CR -> c <> BACKSLASH -> c <> q -> ~ special q c.
Proof using. intros ? ? ? ? ? ? H. cbn in H. decompose [or] H; congruence || contradiction. Qed.

(** One character: inside the quotes [q], apart from the other quote. *)
Lemma escape_debug_shown q next c : (q = DQUOTE \/ q = SQUOTE) ->
  is_scalar c = true -> c <> 0 -> (c = DQUOTE \/ c = SQUOTE -> c = q) ->
  shown q char_plain char_code next c (escape_debug c).
Proof using.
  intros Hq Hs H0 Ho. unfold escape_debug.
  destruct (N.eqb_spec c 0) as [->|_]; [contradiction|].
  destruct (N.eqb_spec c TAB) as [->|H1]; [apply sh_letter; cbn; tauto|].
  destruct (N.eqb_spec c CR) as [->|H2]; [apply sh_letter; cbn; tauto|].
  destruct (N.eqb_spec c LF) as [->|H3]; [apply sh_letter; cbn; tauto|].
  destruct (N.eqb_spec c BACKSLASH) as [->|H4]; [apply sh_mark; now right|]. cbn [orb].
  destruct (N.eqb_spec c DQUOTE) as [->|H5]; [apply sh_mark; left; auto|]. cbn [orb].
  destruct (N.eqb_spec c SQUOTE) as [->|H6]; [apply sh_mark; left; auto|].
  assert (Hn : ~ special q c) by (apply not_special; auto; destruct Hq as [-> | ->]; auto).
  destruct (is_grapheme_extended c) eqn:Eg.
  { apply sh_code; [exact Hn| |now apply escape_unicode_code]. intros [_ X]. congruence. }
  destruct (is_printable c) eqn:Ep.
  { apply sh_plain; [exact Hn|]. now split. }
  apply sh_code; [exact Hn| |now apply escape_unicode_code]. intros [X _]. congruence.
Qed.

Lemma ascii_plain c : 0x20 <= c <= 0x7E -> char_plain c.
Proof. intro H. split; now apply (printable_ascii _ UO). Qed.

Lemma squote_shown next : shown DQUOTE char_plain char_code next SQUOTE [SQUOTE].
Proof.
  apply sh_plain; [apply not_special; discriminate|]. apply ascii_plain. lia.
Qed.

(** NUL, by what follows. *)
Lemma nul_shown q plain code next :
  shown q plain code next 0
    (match next with
     | n :: _ => if between "0"%ch n "7"%ch then tag "\x00" else tag "\0"
     | [] => tag "\0"
     end).
Proof using.
  destruct next as [|n t]; [apply sh_nul; discriminate|].
  destruct (between "0"%ch n "7"%ch) eqn:E; unfold between in E.
  - eapply sh_octal; [reflexivity|]. unfold octal_digit. lia.
  - apply sh_nul. intros d u [= <- <-]. unfold octal_digit. lia.
Qed.

Lemma escape_utf8_shown s : valid_str s -> shown_text DQUOTE char_plain char_code s (escape_utf8 s).
Proof.
  induction 1 as [|c s Hc Hs IH]; [constructor|]. cbn [escape_utf8]. apply st_cons; [|exact IH].
  destruct (N.eqb_spec c 0) as [->|H0]; [apply nul_shown|].
  destruct (N.eqb_spec c SQUOTE) as [->|Hq]; [apply squote_shown|].
  apply escape_debug_shown; auto. tauto.
Qed.
Lemma literal_string_shown s : valid_str s ->
  exists b, shown_text DQUOTE char_plain char_code s b /\ literal_string s = [DQUOTE] ++ b ++ [DQUOTE].
Proof. intro H. exists (escape_utf8 s). split; [now apply escape_utf8_shown|reflexivity]. Qed.

Lemma literal_character_shown c : is_scalar c = true ->
  exists e, shown SQUOTE char_plain char_code [] c e /\ literal_character c = [SQUOTE] ++ e ++ [SQUOTE].
Proof.
  intro Hs. unfold literal_character. eexists. split; [|reflexivity].
  destruct (N.eqb_spec c DQUOTE) as [->|Hd].
  { apply sh_plain; [apply not_special; discriminate|]. apply ascii_plain. lia. }
  destruct (N.eqb_spec c 0) as [->|H0]; [apply sh_nul; discriminate|].
  apply escape_debug_shown; auto. tauto.
Qed.

Lemma escape_bytes_shown bs : Forall (fun b => b < 256) bs ->
  shown_text DQUOTE byte_plain byte_code bs (escape_bytes bs).
Proof using.
  induction 1 as [|b bs Hb Hbs IH]; [constructor|]. cbn [escape_bytes]. apply st_cons; [|exact IH].
  destruct (N.eqb_spec b 0) as [->|H0]; [apply nul_shown|].
  destruct (N.eqb_spec b TAB) as [->|H1]; [apply sh_letter; cbn; tauto|].
  destruct (N.eqb_spec b LF) as [->|H2]; [apply sh_letter; cbn; tauto|].
  destruct (N.eqb_spec b CR) as [->|H3]; [apply sh_letter; cbn; tauto|].
  destruct (N.eqb_spec b DQUOTE) as [->|H4]; [apply sh_mark; now left|].
  destruct (N.eqb_spec b BACKSLASH) as [->|H5]; [apply sh_mark; now right|].
  destruct (between 0x20 b 0x7E) eqn:E; unfold between in E.
  - apply sh_plain; [now apply not_special|]. unfold byte_plain. lia.
  - apply sh_code; [now apply not_special| |now apply hex_upper2_code]. unfold byte_plain. lia.
Qed.
Lemma literal_byte_string_shown bs : Forall (fun b => b < 256) bs ->
  exists b, shown_text DQUOTE byte_plain byte_code bs b /\
    literal_byte_string bs = tag "b" ++ [DQUOTE] ++ b ++ [DQUOTE].
Proof using. intro H. exists (escape_bytes bs). split; [now apply escape_bytes_shown|reflexivity]. Qed.

Lemma literal_byte_character_shown b : b < 256 ->
  exists e, shown SQUOTE byte_plain byte_code [] b e /\ literal_byte_character b = tag "b'" ++ e ++ [SQUOTE].
Proof using.
  intro Hb. unfold literal_byte_character. eexists. split; [|reflexivity].
  destruct (N.eqb_spec b 0) as [->|H0]; [apply sh_nul; discriminate|].
  destruct (N.eqb_spec b TAB) as [->|H1]; [apply sh_letter; cbn; tauto|].
  destruct (N.eqb_spec b LF) as [->|H2]; [apply sh_letter; cbn; tauto|].
  destruct (N.eqb_spec b CR) as [->|H3]; [apply sh_letter; cbn; tauto|].
  destruct (N.eqb_spec b SQUOTE) as [->|H4]; [apply sh_mark; now left|].
  destruct (N.eqb_spec b BACKSLASH) as [->|H5]; [apply sh_mark; now right|].
  destruct (between 0x20 b 0x7E) eqn:E; unfold between in E.
  - apply sh_plain; [now apply not_special|]. unfold byte_plain. lia.
  - apply sh_code; [now apply not_special| |now apply hex_upper2_code]. unfold byte_plain. lia.
Qed.

(** *** C strings *)

(** No encoded character begins here. *)
Definition raw_here (v : list byte) : Prop := forall c r, is_scalar c = true -> v <> encode_utf8 c ++ r.

Lemma len_utf8_pos c : (1 <= len_utf8 c)%nat.
Proof using. unfold len_utf8. repeat destruct (_ <? _); lia. Qed.

Lemma raw_at_error v e : from_utf8 v = Utf8Err 0 e -> raw_here v.
Proof using.
  intros E c r Hs ->. rewrite (from_utf8_cons c r Hs) in E. assert (H := len_utf8_pos c).
  destruct (from_utf8 r); cbn [utf8_cons] in E; [discriminate|]. injection E as E _. lia.
Qed.
Lemma raw_continuation b v : is_continuation b = true -> raw_here (b :: v).
Proof using.
  intro Hb. apply (raw_at_error _ (Some 1%nat)). cbn [from_utf8]. unfold is_continuation, between in Hb.
  destruct (N.ltb_spec b 0x80); [lia|].
  replace (between 0xC2 b 0xDF) with false by (unfold between; lia).
  replace (between 0xE0 b 0xEF) with false by (unfold between; lia).
  replace (between 0xF0 b 0xF4) with false by (unfold between; lia). reflexivity.
Qed.
Lemma second_three_continuation f b : second_of_three f b = true -> is_continuation b = true.
Proof using. unfold second_of_three, is_continuation, between. lia. Qed.
Lemma second_four_continuation f b : second_of_four f b = true -> is_continuation b = true.
Proof using. unfold second_of_four, is_continuation, between. lia. Qed.

Definition error_bytes (v : list byte) (n : nat) (e : option nat) : nat :=
  match e with Some k => k | None => length v - n end%nat.

(** The bytes of an error: none of them begins a character. *)
Definition raw_error (v : list byte) (n : nat) (e : option nat) : Prop :=
  forall i, (n <= i < n + error_bytes v n e)%nat -> raw_here (skipn i v).

Lemma raw_error_app v1 v2 n e : raw_error v2 n e -> raw_error (v1 ++ v2) (length v1 + n) e.
Proof using.
  intros H i Hi. replace (skipn i (v1 ++ v2)) with (skipn (i - length v1) v2).
  - apply H. unfold error_bytes in *. destruct e; [|rewrite app_length in Hi]; lia.
  - rewrite skipn_app. rewrite (skipn_all2 v1) by lia. reflexivity.
Qed.

Lemma from_utf8_raw v : match from_utf8 v with Utf8Ok _ => True | Utf8Err n e => raw_error v n e end.
Proof using.
  induction v as [v IH] using (induction_ltof1 _ (@length _)). unfold ltof in IH.
  assert (Hcons : forall c v1 v2, v = v1 ++ v2 -> (1 <= length v1)%nat ->
            match utf8_cons c (length v1) (from_utf8 v2) with
            | Utf8Ok _ => True | Utf8Err n e => raw_error v n e end).
  { intros c v1 v2 -> Hl. assert (H := IH v2). rewrite app_length in H. specialize (H ltac:(lia)).
    destruct (from_utf8 v2) as [s|n e]; cbn [utf8_cons]; [exact I|]. now apply raw_error_app. }
  assert (H0 : forall e, from_utf8 v = Utf8Err 0 e -> (forall i, (1 <= i < error_bytes v 0 e)%nat ->
             exists b t, skipn i v = b :: t /\ is_continuation b = true) -> raw_error v 0 e).
  { intros e E H i Hi. destruct i as [|i]; [exact (raw_at_error _ _ E)|].
    destruct (H (S i) ltac:(lia)) as (b & t & -> & Hb). now apply raw_continuation. }
  destruct (from_utf8 v) as [s|n e] eqn:E; [exact I|].
  destruct v as [|f v1]; [discriminate|]. cbn [from_utf8] in E.
  destruct (f <? 0x80) eqn:E1.
  { assert (H := Hcons f [f] v1 eq_refl ltac:(cbn; lia)). cbn [length] in H. now rewrite E in H. }
  destruct (between 0xC2 f 0xDF) eqn:E2.
  { destruct v1 as [|b v2].
    { injection E as <- <-. apply H0; [reflexivity|]. cbn. lia. }
    destruct (is_continuation b) eqn:Eb.
    - assert (H := Hcons ((f - 0xC0) * 64 + (b - 0x80)) [f; b] v2 eq_refl ltac:(cbn; lia)).
      cbn [length] in H. now rewrite E in H.
    - injection E as <- <-. apply H0; [reflexivity|]. cbn. lia. }
  destruct (between 0xE0 f 0xEF) eqn:E3.
  { destruct v1 as [|b v2].
    { injection E as <- <-. apply H0; [reflexivity|]. cbn. lia. }
    destruct (second_of_three f b) eqn:Eb.
    2:{ injection E as <- <-. apply H0; [reflexivity|]. cbn. lia. }
    assert (Hb := second_three_continuation _ _ Eb).
    destruct v2 as [|d v3].
    { injection E as <- <-. apply H0; [reflexivity|]. cbn. intros i Hi. assert (i = 1)%nat as -> by lia.
      eexists _, _. split; [reflexivity|exact Hb]. }
    destruct (is_continuation d) eqn:Ed.
    - assert (H := Hcons ((f - 0xE0) * 4096 + (b - 0x80) * 64 + (d - 0x80)) [f; b; d] v3 eq_refl ltac:(cbn; lia)).
      cbn [length] in H. now rewrite E in H.
    - injection E as <- <-. apply H0; [reflexivity|]. cbn. intros i Hi. assert (i = 1)%nat as -> by lia.
      eexists _, _. split; [reflexivity|exact Hb]. }
  destruct (between 0xF0 f 0xF4) eqn:E4.
  2:{ injection E as <- <-. apply H0; [reflexivity|]. cbn. lia. }
  destruct v1 as [|b v2].
  { injection E as <- <-. apply H0; [reflexivity|]. cbn. lia. }
  destruct (second_of_four f b) eqn:Eb.
  2:{ injection E as <- <-. apply H0; [reflexivity|]. cbn. lia. }
  assert (Hb := second_four_continuation _ _ Eb).
  destruct v2 as [|d v3].
  { injection E as <- <-. apply H0; [reflexivity|]. cbn. intros i Hi. assert (i = 1)%nat as -> by lia.
    eexists _, _. split; [reflexivity|exact Hb]. }
  destruct (is_continuation d) eqn:Ed.
  2:{ injection E as <- <-. apply H0; [reflexivity|]. cbn. intros i Hi. assert (i = 1)%nat as -> by lia.
    eexists _, _. split; [reflexivity|exact Hb]. }
  destruct v3 as [|g v4].
  { injection E as <- <-. apply H0; [reflexivity|]. cbn. intros i Hi.
    assert (i = 1 \/ i = 2)%nat as [-> | ->] by lia; eexists _, _; (split; [reflexivity|assumption]). }
  destruct (is_continuation g) eqn:Eg.
  - assert (H := Hcons ((f - 0xF0) * 262144 + (b - 0x80) * 4096 + (d - 0x80) * 64 + (g - 0x80))
                   [f; b; d; g] v4 eq_refl ltac:(cbn; lia)).
    cbn [length] in H. now rewrite E in H.
  - injection E as <- <-. apply H0; [reflexivity|]. cbn. intros i Hi.
    assert (i = 1 \/ i = 2)%nat as [-> | ->] by lia; eexists _, _; (split; [reflexivity|assumption]).
Qed.

Lemma c_shown_text s : forall bs b, valid_str s -> ~ In 0 s -> c_shown bs b ->
  c_shown (str_bytes s ++ bs) (escape_utf8 s ++ b).
Proof.
  induction s as [|c s IH]; intros bs b Hs Hn Hb; [exact Hb|].
  rewrite str_bytes_cons. cbn [escape_utf8]. rewrite <- !app_assoc. inversion Hs; subst.
  apply cs_char; [assumption| |apply IH; auto; intro; apply Hn; now right].
  assert (c <> 0) by (intros ->; apply Hn; now left).
  destruct (N.eqb_spec c 0) as [->|H0]; [contradiction|].
  destruct (N.eqb_spec c SQUOTE) as [->|Hq]; [apply squote_shown|].
  apply escape_debug_shown; auto. tauto.
Qed.
Lemma c_shown_bytes inv : forall bs b,
  Forall (fun x => x < 256) inv ->
  (forall i, (i < length inv)%nat -> raw_here (skipn i (inv ++ bs))) -> c_shown bs b ->
  c_shown (inv ++ bs) (flat_map hex_upper2 inv ++ b).
Proof using.
  induction inv as [|x inv IH]; intros bs b Hx Hr Hb; [exact Hb|].
  cbn [flat_map]. rewrite <- app_assoc. inversion Hx; subst. cbn [app]. apply cs_byte.
  - exact (Hr 0%nat ltac:(cbn; lia)).
  - now apply hex_upper2_code.
  - apply IH; auto. intros i Hi. exact (Hr (S i) ltac:(cbn; lia)).
Qed.

Lemma c_string_loop_shown fuel : forall bytes,
  (length bytes < fuel)%nat -> Forall (fun b => b < 256 /\ b <> 0) bytes ->
  exists body, c_string_loop fuel bytes = Ok body /\ c_shown bytes body.
Proof.
  induction fuel as [|fuel IH]; intros bytes Hf Hb; [lia|]. cbn [c_string_loop].
  destruct bytes as [|b0 bt] eqn:Eb.
  { exists []. split; [reflexivity|constructor]. }
  rewrite <- Eb in *. assert (Hne : (0 < length bytes)%nat) by (rewrite Eb; cbn; lia). clear Eb b0 bt.
  assert (Hno : forall x, (forall b, In b x -> In b bytes) -> ~ In 0 x).
  { intros x Hx Hin. apply Hx in Hin. rewrite Forall_forall in Hb. now apply Hb in Hin. }
  assert (Hgood := from_utf8_good bytes). unfold utf8_good in Hgood.
  assert (Hraw := from_utf8_raw bytes).
  destruct (from_utf8 bytes) as [s|n e].
  - destruct Hgood as [Es Hs]. cbn [bind].
    destruct fuel as [|fuel]; [lia|]. cbn [c_string_loop bind flat_map].
    eexists. split; [reflexivity|]. cbn [app]. rewrite <- (app_nil_r bytes), <- Es.
    apply c_shown_text; [exact Hs| |constructor].
    apply str_bytes_no_nul. rewrite Es. now apply Hno.
  - destruct Hgood as ((s & Es & Hs) & Hn & He).
    unfold split_bytes at 1. destruct (Nat.leb_spec n (length bytes)); [|lia]. cbn [bind].
    rewrite <- Es, (from_utf8_str s Hs).
    assert (Hl : str_len s = n).
    { rewrite <- length_str_bytes, Es, firstn_length. lia. }
    assert (Hinv : exists inv m, (1 <= m)%nat /\ (n + m <= length bytes)%nat /\ m = error_bytes bytes n e
              /\ inv = firstn m (skipn n bytes) /\ length inv = m
              /\ match e with None => Ok (skipn n bytes, []) | Some k => split_bytes (skipn n bytes) k end
                 = Ok (inv, skipn m (skipn n bytes))).
    { destruct e as [k|].
      - exists (firstn k (skipn n bytes)), k. unfold split_bytes. rewrite skipn_length.
        destruct (Nat.leb_spec k (length bytes - n)); [|lia].
        rewrite firstn_length, skipn_length. repeat split; lia.
      - exists (skipn n bytes), (length bytes - n)%nat.
        rewrite (firstn_all2 (skipn n bytes)) by (rewrite skipn_length; lia).
        rewrite (skipn_all2 (skipn n bytes)) by (rewrite skipn_length; lia).
        rewrite skipn_length. repeat split; lia. }
    destruct Hinv as (inv & m & Hm & Hnm & Em & Einv & Hlinv & ->). cbn [bind].
    unfold split_bytes. rewrite Hl, Hlinv.
    destruct (Nat.leb_spec (n + m) (length bytes)); [|lia]. cbn [bind].
    destruct (IH (skipn (n + m) bytes)) as (body & -> & Hbody).
    { rewrite skipn_length. lia. }
    { rewrite Forall_forall in Hb |- *. intros x Hx. apply Hb.
      rewrite <- (firstn_skipn (n + m) bytes). apply in_or_app. now right. }
    cbn [bind]. eexists. split; [reflexivity|].
    assert (Esplit : skipn n bytes = inv ++ skipn (n + m) bytes).
    { rewrite Einv, skipn_plus. now rewrite firstn_skipn. }
    rewrite <- (firstn_skipn n bytes) at 1. rewrite <- Es, Esplit.
    apply c_shown_text; [exact Hs| |].
    + apply str_bytes_no_nul. rewrite Es. apply Hno.
      intros b Hx. rewrite <- (firstn_skipn n bytes). apply in_or_app. now left.
    + apply c_shown_bytes; [| |exact Hbody].
      * rewrite Forall_forall in Hb |- *. intros x Hx. apply Hb.
        rewrite <- (firstn_skipn n bytes), Esplit. apply in_or_app. right. apply in_or_app. now left.
      * intros i Hi. rewrite <- Esplit. rewrite <- skipn_plus. apply Hraw. lia.
Qed.

Lemma literal_c_string_shown bytes : Forall (fun b => b < 256 /\ b <> 0) bytes ->
  exists b, c_shown bytes b /\ literal_c_string bytes = Ok (tag "c" ++ [DQUOTE] ++ b ++ [DQUOTE]).
Proof.
  intro H. unfold literal_c_string.
  destruct (c_string_loop_shown (S (length bytes)) bytes ltac:(lia) H) as (body & -> & Hc).
  eauto.
Qed.

End WithUnicode.

(** *** The text is determined by the value *)

Lemma hexval_case c d : hexval c d -> ~ 65 <= c <= 70 -> d < 10 /\ c = 48 + d \/ 10 <= d < 16 /\ c = 87 + d.
Proof. intros [v H|v H|v H] Hn; [left|right|]; lia. Qed.
Lemma lower_hex_nonempty ds v : lower_hex ds v -> ds <> [].
Proof. intros [c d _ _|ds' v' c d _ _ _ _]; [discriminate|]. now destruct ds'. Qed.
Lemma lower_hex_fun ds v : lower_hex ds v -> forall ds', lower_hex ds' v -> ds = ds'.
Proof.
  induction 1 as [c d Hc Hn|ds v c d H IH Hv Hc Hn]; intros ds' H'.
  - apply hexval_case in Hc; [|exact Hn].
    inversion H' as [c' d' Hc' Hn' E|ds2 v2 c' d' H2 Hv2 Hc' Hn' E E2]; subst.
    + apply hexval_case in Hc'; [|exact Hn']. f_equal. lia.
    + apply hexval_case in Hc'; [|exact Hn']. lia.
  - apply hexval_case in Hc; [|exact Hn].
    inversion H' as [c' d' Hc' Hn' E|ds2 v2 c' d' H2 Hv2 Hc' Hn' E E2]; subst.
    + apply hexval_case in Hc'; [|exact Hn']. lia.
    + apply hexval_case in Hc'; [|exact Hn']. assert (v2 = v) by lia. subst v2.
      assert (d' = d) by lia. subst d'. rewrite (IH ds2 H2). do 2 f_equal. lia.
Qed.
Lemma char_code_fun c a b : char_code c a -> char_code c b -> a = b.
Proof. intros (x & Hx & ->) (y & Hy & ->). now rewrite (lower_hex_fun _ _ Hx _ Hy). Qed.

Lemma shown_fun q plain (code : char -> str -> Prop) next c a b : q = DQUOTE \/ q = SQUOTE ->
  (forall c a b, code c a -> code c b -> a = b) ->
  shown q plain code next c a -> shown q plain code next c b -> a = b.
Proof.
  intros Hq Hf Ha Hb.
  assert (Hl : forall c e, In (c, e) [(9, "t"%ch); (10, "n"%ch); (13, "r"%ch)] -> special q c).
  { intros c0 e [H|[H|[H|[]]]]; injection H as <- <-; cbn; tauto. }
  assert (Hm : forall c, c = q \/ c = BACKSLASH -> special q c) by (cbn; intuition).
  assert (H0 : special q 0) by (cbn; tauto).
  assert (Hq0 : q <> 0 /\ q <> 9 /\ q <> 10 /\ q <> 13) by (destruct Hq; subst; repeat split; discriminate).
  destruct Ha as [d t En Ho|Ho|c e He|c Hc|c Hs Hp|c e Hs Hp Hc];
    inversion Hb as [d' t' En' Ho' E|Ho' E|c' e' He' E|c' Hc' E|c' Hs' Hp' E|c' e' Hs' Hp' Hc' E]; subst;
    try reflexivity; try contradiction; try (exfalso; eauto; fail);
    try (exfalso; cbn in *; intuition (congruence || discriminate); fail).
  - exfalso. now apply (Ho' d t).
  - exfalso. now apply (Ho d' t').
  - cbn in He, He'. intuition congruence.
  - eauto.
Qed.
Lemma byte_code_fun c a b : byte_code c a -> byte_code c b -> a = b.
Proof.
  intros (c1 & d1 & x1 & y1 & H1 & H2 & H3 & H4 & -> & ->) (c2 & d2 & x2 & y2 & K1 & K2 & K3 & K4 & E & ->).
  assert (Hc : forall c d, hexval c d -> ~ 97 <= c <= 102 -> d < 10 /\ c = 48 + d \/ 10 <= d < 16 /\ c = 55 + d).
  { intros c d [v H|v H|v H] Hn; [left|right|right]; lia. }
  apply Hc in H1, H2, K1, K2; auto. do 3 f_equal; [|f_equal]; lia.
Qed.
Lemma shown_text_fun q plain (code : char -> str -> Prop) s a b : q = DQUOTE \/ q = SQUOTE ->
  (forall c a b, code c a -> code c b -> a = b) ->
  shown_text q plain code s a -> shown_text q plain code s b -> a = b.
Proof.
  intros Hq Hf Ha. revert b. induction Ha as [|c s e a He Ha IH]; intros b Hb.
  - now inversion Hb.
  - inversion Hb; subst. f_equal; [|now apply IH].
    eapply shown_fun; [exact Hq|exact Hf|eassumption|eassumption].
Qed.
Lemma encode_inj c d r t : is_scalar c = true -> is_scalar d = true ->
  encode_utf8 c ++ r = encode_utf8 d ++ t -> c = d /\ r = t.
Proof.
  intros Hc Hd E. assert (c = d) as ->; [|split; [reflexivity|]; now apply app_inv_head in E].
  assert (H : from_utf8 (encode_utf8 c ++ r) = from_utf8 (encode_utf8 d ++ t)) by now rewrite E.
  rewrite !from_utf8_cons in H by assumption.
  assert (Hh : forall c, is_scalar c = true -> exists h u, encode_utf8 c = h :: u).
  { intros x _. unfold encode_utf8. repeat destruct (_ <? _); eauto. }
  assert (Hl : forall c, length (encode_utf8 c) = len_utf8 c).
  { intro x. unfold encode_utf8, len_utf8. repeat destruct (_ <? _); reflexivity. }
  assert (El : len_utf8 c = len_utf8 d).
  { (* the first byte gives the length *)
    revert E. clear - Hc Hd. unfold is_scalar in *. unfold encode_utf8, len_utf8.
    assert (B1 : forall x, x < 0x800 -> 128 <= x -> 2 <= x / 64 < 32).
    { intros x H1 H2. split; [apply N.div_le_lower_bound; lia|apply N.div_lt_upper_bound; lia]. }
    assert (B2 : forall x, x < 0x10000 -> x / 4096 < 16) by (intros; apply N.div_lt_upper_bound; lia).
    repeat match goal with |- context [if (?a <? ?b) then _ else _] => destruct (N.ltb_spec a b) end;
      try reflexivity; cbn [app]; intros [= E _]; exfalso; 
      repeat match goal with
      | H : ?x < 0x800, K : 128 <= ?x |- _ => pose proof (B1 x H K); clear K
      | H : ?x < 0x10000 |- _ => pose proof (B2 x H); clear H
      end; lia. }
  assert (Ee : encode_utf8 c = encode_utf8 d).
  { apply (f_equal (firstn (len_utf8 c))) in E. rewrite !firstn_app in E.
    rewrite !Hl, El, Nat.sub_diag in E. cbn [firstn] in E. rewrite !app_nil_r in E.
    rewrite (firstn_all2 (encode_utf8 c)), (firstn_all2 (encode_utf8 d)) in E by (rewrite Hl; lia). exact E. }
  assert (H1 := from_utf8_cons c [] Hc). assert (H2 := from_utf8_cons d [] Hd).
  rewrite Ee in H1. rewrite H1 in H2. cbn in H2. now injection H2.
Qed.
Lemma c_shown_fun U bs a b : @c_shown U bs a -> @c_shown U bs b -> a = b.
Proof.
  intro Ha. revert b. induction Ha as [|c e bs a Hc He Ha IH|x e bs a Hr He Ha IH]; intros b Hb.
  - inversion Hb as [|c e bs a Hc He Ha E E'|]; [reflexivity|].
    exfalso. revert E. unfold encode_utf8. repeat destruct (_ <? _); discriminate.
  - remember (encode_utf8 c ++ bs) as v eqn:Ev. destruct Hb as [|c' e' bs' b' Hc' He' Hb'|x' e' bs' b' Hr' He' Hb'].
    + exfalso. revert Ev. unfold encode_utf8. repeat destruct (_ <? _); discriminate.
    + apply encode_inj in Ev as [-> ->]; auto. f_equal; [|now apply IH].
      eapply shown_fun; [now left|apply char_code_fun|eassumption|eassumption].
    + exfalso. now apply (Hr' c bs).
  - remember (x :: bs) as v eqn:Ev. destruct Hb as [|c' e' bs' b' Hc' He' Hb'|x' e' bs' b' Hr' He' Hb'].
    + discriminate.
    + exfalso. now apply (Hr c' bs').
    + injection Ev as -> ->. f_equal; [|now apply IH]. eapply byte_code_fun; eassumption.
Qed.
Lemma shown_unique (U : unicode) :
  (forall q next c a b, q = DQUOTE \/ q = SQUOTE ->
     shown q char_plain char_code next c a -> shown q char_plain char_code next c b -> a = b) /\
  (forall q next c a b, q = DQUOTE \/ q = SQUOTE ->
     shown q byte_plain byte_code next c a -> shown q byte_plain byte_code next c b -> a = b) /\
  (forall q s a b, q = DQUOTE \/ q = SQUOTE ->
     shown_text q char_plain char_code s a -> shown_text q char_plain char_code s b -> a = b) /\
  (forall q s a b, q = DQUOTE \/ q = SQUOTE ->
     shown_text q byte_plain byte_code s a -> shown_text q byte_plain byte_code s b -> a = b) /\
  (forall bs a b, c_shown bs a -> c_shown bs b -> a = b).
Proof.
  split; [|split; [|split; [|split]]].
  - intros q next c a b Hq. apply shown_fun; [exact Hq|apply char_code_fun].
  - intros q next c a b Hq. apply shown_fun; [exact Hq|apply byte_code_fun].
  - intros q s a b Hq. apply shown_text_fun; [exact Hq|apply char_code_fun].
  - intros q s a b Hq. apply shown_text_fun; [exact Hq|apply byte_code_fun].
  - apply c_shown_fun.
Qed.
