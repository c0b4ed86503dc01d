(** * UTF-8: decoding inverts encoding. *)
From Verif Require Import Base BaseFacts LitNew.
Import ListNotations.
Local Open Scope N_scope.

Lemma div_mod_digits a b c : b < c -> (a * c + b) / c = a /\ (a * c + b) mod c = b.
Proof.
  intro H. rewrite N.add_comm, N.div_add, N.mod_add by lia.
  rewrite N.div_small, N.mod_small by assumption. lia.
Qed.

Lemma div_div c a b : a <> 0 -> b <> 0 -> c / a / b = c / (a * b).
Proof. intros. now apply N.div_div. Qed.

Lemma encode_two f b :
  between 0xC2 f 0xDF = true -> is_continuation b = true ->
  encode_utf8 ((f - 0xC0) * 64 + (b - 0x80)) = [f; b]
  /\ is_scalar ((f - 0xC0) * 64 + (b - 0x80)) = true.
Proof.
  unfold is_continuation, between. intros Hf Hb.
  set (c := (f - 0xC0) * 64 + (b - 0x80)).
  assert (Hc : 0x80 <= c < 0x800) by (unfold c; lia).
  destruct (div_mod_digits (f - 0xC0) (b - 0x80) 64 ltac:(lia)) as [E1 E2].
  fold c in E1, E2. split.
  - unfold encode_utf8. destruct (N.ltb_spec c 0x80); [lia|]. destruct (N.ltb_spec c 0x800); [|lia].
    rewrite E1, E2. repeat f_equal; lia.
  - unfold is_scalar. lia.
Qed.

Lemma encode_three f b d :
  between 0xE0 f 0xEF = true -> second_of_three f b = true -> is_continuation d = true ->
  encode_utf8 ((f - 0xE0) * 4096 + (b - 0x80) * 64 + (d - 0x80)) = [f; b; d]
  /\ is_scalar ((f - 0xE0) * 4096 + (b - 0x80) * 64 + (d - 0x80)) = true.
Proof.
  unfold second_of_three, is_continuation, between. intros Hf Hb Hd.
  assert (Hb' : 0x80 <= b <= 0xBF) by lia.
  set (c := (f - 0xE0) * 4096 + (b - 0x80) * 64 + (d - 0x80)).
  assert (Hc : 0x800 <= c < 0x10000 /\ ~ (0xD800 <= c <= 0xDFFF)) by (unfold c; lia).
  destruct (div_mod_digits ((f - 0xE0) * 64 + (b - 0x80)) (d - 0x80) 64 ltac:(lia)) as [E1 E2].
  replace (((f - 0xE0) * 64 + (b - 0x80)) * 64 + (d - 0x80)) with c in E1, E2 by (unfold c; lia).
  destruct (div_mod_digits (f - 0xE0) (b - 0x80) 64 ltac:(lia)) as [E3 E4].
  split.
  - unfold encode_utf8. destruct (N.ltb_spec c 0x80); [lia|]. destruct (N.ltb_spec c 0x800); [lia|].
    destruct (N.ltb_spec c 0x10000); [|lia].
    replace 4096 with (64 * 64) by reflexivity. rewrite <- N.div_div by lia.
    rewrite E1, E2, E3, E4. repeat f_equal; lia.
  - unfold is_scalar. lia.
Qed.

Lemma encode_four f b d e :
  between 0xF0 f 0xF4 = true -> second_of_four f b = true -> is_continuation d = true ->
  is_continuation e = true ->
  encode_utf8 ((f - 0xF0) * 262144 + (b - 0x80) * 4096 + (d - 0x80) * 64 + (e - 0x80))
  = [f; b; d; e]
  /\ is_scalar ((f - 0xF0) * 262144 + (b - 0x80) * 4096 + (d - 0x80) * 64 + (e - 0x80)) = true.
Proof.
  unfold second_of_four, is_continuation, between. intros Hf Hb Hd He.
  assert (Hb' : 0x80 <= b <= 0xBF) by lia.
  set (c := (f - 0xF0) * 262144 + (b - 0x80) * 4096 + (d - 0x80) * 64 + (e - 0x80)).
  assert (Hc : 0x10000 <= c < 0x110000) by (unfold c; lia).
  set (c1 := (f - 0xF0) * 4096 + (b - 0x80) * 64 + (d - 0x80)).
  set (c2 := (f - 0xF0) * 64 + (b - 0x80)).
  destruct (div_mod_digits c1 (e - 0x80) 64 ltac:(lia)) as [E1 E2].
  replace (c1 * 64 + (e - 0x80)) with c in E1, E2 by (unfold c, c1; lia).
  destruct (div_mod_digits c2 (d - 0x80) 64 ltac:(lia)) as [E3 E4].
  replace (c2 * 64 + (d - 0x80)) with c1 in E3, E4 by (unfold c1, c2; lia).
  destruct (div_mod_digits (f - 0xF0) (b - 0x80) 64 ltac:(lia)) as [E5 E6].
  fold c2 in E5, E6.
  split.
  - unfold encode_utf8. destruct (N.ltb_spec c 0x80); [lia|]. destruct (N.ltb_spec c 0x800); [lia|].
    destruct (N.ltb_spec c 0x10000); [lia|].
    replace 262144 with (64 * 64 * 64) by reflexivity. replace 4096 with (64 * 64) by reflexivity.
    rewrite <- !N.div_div by lia.
    rewrite E1, E2, E3, E4, E5, E6. repeat f_equal; lia.
  - unfold is_scalar. lia.
Qed.

Lemma encode_one f : f <? 0x80 = true -> encode_utf8 f = [f] /\ is_scalar f = true.
Proof. intro H. split; [apply encode_ascii; lia|unfold is_scalar; lia]. Qed.

Definition utf8_good (v : list byte) : Prop :=
  match from_utf8 v with
  | Utf8Ok s => str_bytes s = v /\ valid_str s
  | Utf8Err n e =>
      (exists s, str_bytes s = firstn n v /\ valid_str s) /\ (n < length v)%nat
      /\ match e with Some k => (1 <= k)%nat /\ (n + k <= length v)%nat | None => True end
  end.

Lemma utf8_good_cons c w v1 v2 :
  encode_utf8 c = v1 /\ is_scalar c = true -> length v1 = w -> utf8_good v2 ->
  match utf8_cons c w (from_utf8 v2) with
  | Utf8Ok s => str_bytes s = v1 ++ v2 /\ valid_str s
  | Utf8Err n e =>
      (exists s, str_bytes s = firstn n (v1 ++ v2) /\ valid_str s)
      /\ (n < length (v1 ++ v2))%nat
      /\ match e with Some k => (1 <= k)%nat /\ (n + k <= length (v1 ++ v2))%nat | None => True end
  end.
Proof.
  intros [He Hs] Hw Hg. unfold utf8_good in Hg. destruct (from_utf8 v2) as [s|n e]; cbn [utf8_cons].
  - destruct Hg as [<- Hv]. rewrite str_bytes_cons, He. split; [reflexivity|now constructor].
  - destruct Hg as ((s & E & Hv) & Hn & Hk). rewrite app_length, Hw. split; [|split].
    + exists (c :: s). split; [|now constructor]. rewrite str_bytes_cons, He, E.
      rewrite firstn_app, Hw. rewrite (firstn_all2 v1) by lia. do 2 f_equal. lia.
    + lia.
    + destruct e; [lia|exact I].
Qed.

Lemma from_utf8_good v : utf8_good v.
Proof.
  induction v as [v IH] using (induction_ltof1 _ (@length _)). unfold ltof in IH.
  destruct v as [|f v1]; [split; constructor|].
  unfold utf8_good. cbn [from_utf8].
  assert (Hstop : forall e, match e with Some k => (1 <= k <= length (f :: v1))%nat | None => True end ->
            (exists s, str_bytes s = firstn 0 (f :: v1) /\ valid_str s) /\ (0 < length (f :: v1))%nat
            /\ match e with Some k => (1 <= k)%nat /\ (0 + k <= length (f :: v1))%nat | None => True end).
  { intros e He. split; [exists []; split; [reflexivity|constructor]|]. split; [cbn; lia|].
    destruct e; [lia|exact I]. }
  destruct (f <? 0x80) eqn:E1.
  { apply (utf8_good_cons f 1 [f] v1); [now apply encode_one|reflexivity|apply IH; cbn; lia]. }
  destruct (between 0xC2 f 0xDF) eqn:E2.
  { destruct v1 as [|b v2]; [exact (Hstop None I)|].
    destruct (is_continuation b) eqn:Eb; [|apply (Hstop (Some 1%nat)); cbn; lia].
    apply (utf8_good_cons _ 2 [f; b] v2); [now apply encode_two|reflexivity|apply IH; cbn; lia]. }
  destruct (between 0xE0 f 0xEF) eqn:E3.
  { destruct v1 as [|b v2]; [exact (Hstop None I)|].
    destruct (second_of_three f b) eqn:Eb; [|apply (Hstop (Some 1%nat)); cbn; lia].
    destruct v2 as [|d v3]; [exact (Hstop None I)|].
    destruct (is_continuation d) eqn:Ed; [|apply (Hstop (Some 2%nat)); cbn; lia].
    apply (utf8_good_cons _ 3 [f; b; d] v3); [now apply encode_three|reflexivity|apply IH; cbn; lia]. }
  destruct (between 0xF0 f 0xF4) eqn:E4; [|apply (Hstop (Some 1%nat)); cbn; lia].
  destruct v1 as [|b v2]; [exact (Hstop None I)|].
  destruct (second_of_four f b) eqn:Eb; [|apply (Hstop (Some 1%nat)); cbn; lia].
  destruct v2 as [|d v3]; [exact (Hstop None I)|].
  destruct (is_continuation d) eqn:Ed; [|apply (Hstop (Some 2%nat)); cbn; lia].
  destruct v3 as [|g v4]; [exact (Hstop None I)|].
  destruct (is_continuation g) eqn:Eg; [|apply (Hstop (Some 3%nat)); cbn; lia].
  apply (utf8_good_cons _ 4 [f; b; d; g] v4); [now apply encode_four|reflexivity|apply IH; cbn; lia].
Qed.

(** Encoding is decoded back. *)
Lemma from_utf8_cons c v : is_scalar c = true ->
  from_utf8 (encode_utf8 c ++ v) = utf8_cons c (len_utf8 c) (from_utf8 v).
Proof.
  intro Hs. unfold encode_utf8, len_utf8.
  destruct (N.ltb_spec c 0x80) as [H1|H1].
  { cbn [app from_utf8]. destruct (N.ltb_spec c 0x80); [reflexivity|lia]. }
  assert (Hm := N.mod_lt c 64 ltac:(lia)). assert (Hd := N.div_mod c 64 ltac:(lia)).
  destruct (N.ltb_spec c 0x800) as [H2|H2].
  { set (q := c / 64) in *. set (r := c mod 64) in *. cbn [app from_utf8].
    destruct (N.ltb_spec (0xC0 + q) 0x80); [lia|].
    replace (between 0xC2 (0xC0 + q) 0xDF) with true by (unfold between; lia).
    replace (is_continuation (0x80 + r)) with true by (unfold is_continuation, between; lia).
    f_equal. lia. }
  assert (Hm1 := N.mod_lt (c / 64) 64 ltac:(lia)). assert (Hd1 := N.div_mod (c / 64) 64 ltac:(lia)).
  destruct (N.ltb_spec c 0x10000) as [H3|H3].
  { replace (c / 4096) with (c / 64 / 64) by (rewrite N.div_div by lia; reflexivity).
    set (q1 := c / 64) in *. set (q := q1 / 64) in *. set (r1 := q1 mod 64) in *.
    set (r := c mod 64) in *. cbn [app from_utf8]. unfold is_scalar in Hs.
    destruct (N.ltb_spec (0xE0 + q) 0x80); [lia|].
    replace (between 0xC2 (0xE0 + q) 0xDF) with false by (unfold between; lia).
    replace (between 0xE0 (0xE0 + q) 0xEF) with true by (unfold between; lia).
    replace (second_of_three (0xE0 + q) (0x80 + r1)) with true.
    2:{ unfold second_of_three, between. lia. }
    replace (is_continuation (0x80 + r)) with true by (unfold is_continuation, between; lia).
    f_equal. lia. }
  replace (c / 262144) with (c / 64 / 64 / 64) by (rewrite !N.div_div by lia; reflexivity).
  replace (c / 4096) with (c / 64 / 64) by (rewrite N.div_div by lia; reflexivity).
  set (q1 := c / 64) in *.
  assert (Hm2 := N.mod_lt (q1 / 64) 64 ltac:(lia)). assert (Hd2 := N.div_mod (q1 / 64) 64 ltac:(lia)).
  set (q2 := q1 / 64) in *. set (q := q2 / 64) in *. set (r2 := q2 mod 64) in *.
  set (r1 := q1 mod 64) in *. set (r := c mod 64) in *. cbn [app from_utf8]. unfold is_scalar in Hs.
  destruct (N.ltb_spec (0xF0 + q) 0x80); [lia|].
  replace (between 0xC2 (0xF0 + q) 0xDF) with false by (unfold between; lia).
  replace (between 0xE0 (0xF0 + q) 0xEF) with false by (unfold between; lia).
  replace (between 0xF0 (0xF0 + q) 0xF4) with true by (unfold between; lia).
  replace (second_of_four (0xF0 + q) (0x80 + r2)) with true.
  2:{ unfold second_of_four, between. lia. }
  replace (is_continuation (0x80 + r1)) with true by (unfold is_continuation, between; lia).
  replace (is_continuation (0x80 + r)) with true by (unfold is_continuation, between; lia).
  f_equal. lia.
Qed.
Lemma from_utf8_str s : valid_str s -> from_utf8 (str_bytes s) = Utf8Ok s.
Proof.
  induction 1 as [|c s Hc _ IH]; [reflexivity|].
  rewrite str_bytes_cons, from_utf8_cons, IH by assumption. reflexivity.
Qed.

Lemma str_bytes_inj a b : valid_str a -> valid_str b -> str_bytes a = str_bytes b -> a = b.
Proof.
  intros Ha Hb E. apply from_utf8_str in Ha, Hb. rewrite E in Ha. congruence.
Qed.
