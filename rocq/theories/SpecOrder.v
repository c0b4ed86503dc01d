(** * Lexicographic order of strings (specification), and that UTF-8 preserves it. *)
From Verif Require Import Base Unicode Tokens Lexer BaseFacts Fallback.
Import ListNotations.
Local Open Scope N_scope.

(** Order by code points: a proper prefix, or smaller at the first difference. *)
Definition str_lt (a b : str) : Prop :=
  (exists c t, b = a ++ c :: t) \/
  (exists p x y u v, a = p ++ x :: u /\ b = p ++ y :: v /\ x < y).

Lemma str_lt_nil c t : str_lt [] (c :: t).
Proof. left. exists c, t. reflexivity. Qed.
Lemma str_lt_cons c a b : str_lt a b -> str_lt (c :: a) (c :: b).
Proof.
  intros [(d & t & ->)|(p & x & y & u & v & -> & -> & H)].
  - left. exists d, t. reflexivity.
  - right. exists (c :: p), x, y, u, v. auto.
Qed.
Lemma str_lt_head c d a b : c < d -> str_lt (c :: a) (d :: b).
Proof. intro H. right. exists [], c, d, a, b. auto. Qed.
Lemma str_lt_inv a c b d : str_lt (c :: a) (d :: b) -> c < d \/ c = d /\ str_lt a b.
Proof.
  intros [(x & t & E)|(p & x & y & u & v & E1 & E2 & H)].
  - injection E as -> ->. right. split; [reflexivity|]. left. eauto.
  - destruct p as [|z p]; cbn in *; injection E1 as -> ->; injection E2 as -> ->; [now left|].
    right. split; [reflexivity|]. right. exists p, x, y, u, v. auto.
Qed.
Lemma str_lt_nil_r a : ~ str_lt a [].
Proof.
  intros [(x & t & E)|(p & x & y & u & v & E1 & E2 & H)].
  - destruct a; discriminate.
  - destruct p; discriminate.
Qed.
Lemma str_lt_irrefl a : ~ str_lt a a.
Proof.
  induction a as [|c a IH]; [apply str_lt_nil_r|]. intro H. apply str_lt_inv in H as [H|[_ H]]; [lia|auto].
Qed.
Lemma str_lt_trans a b c : str_lt a b -> str_lt b c -> str_lt a c.
Proof.
  revert b c. induction a as [|x a IH]; intros b c H1 H2.
  - destruct c; [now apply str_lt_nil_r in H2|apply str_lt_nil].
  - destruct b as [|y b]; [now apply str_lt_nil_r in H1|]. destruct c as [|z c]; [now apply str_lt_nil_r in H2|].
    apply str_lt_inv in H1. apply str_lt_inv in H2.
    destruct H1 as [H1|[-> H1]], H2 as [H2|[E H2]]; try subst z.
    + apply str_lt_head. lia.
    + now apply str_lt_head.
    + now apply str_lt_head.
    + apply str_lt_cons. eauto.
Qed.
Lemma str_lt_total a b : a = b \/ str_lt a b \/ str_lt b a.
Proof.
  revert b. induction a as [|x a IH]; intros [|y b].
  - now left.
  - right; left. apply str_lt_nil.
  - right; right. apply str_lt_nil.
  - destruct (N.lt_trichotomy x y) as [H|[->|H]].
    + right; left. now apply str_lt_head.
    + destruct (IH b) as [->|[H|H]]; [now left|right; left; now apply str_lt_cons|right; right; now apply str_lt_cons].
    + right; right. now apply str_lt_head.
Qed.

(** *** UTF-8 *)
Lemma bytes_cmp_refl_app p a b : bytes_cmp (p ++ a) (p ++ b) = bytes_cmp a b.
Proof. induction p as [|x p IH]; [reflexivity|]. cbn. now rewrite N.compare_refl. Qed.
Lemma bytes_cmp_lt x y a b : x < y -> bytes_cmp (x :: a) (y :: b) = Lt.
Proof. intro H. cbn. now rewrite (proj2 (N.compare_lt_iff x y) H). Qed.
Lemma bytes_cmp_step x y a b : x <= y -> (x = y -> bytes_cmp a b = Lt) -> bytes_cmp (x :: a) (y :: b) = Lt.
Proof.
  intros H1 H2. cbn. destruct (N.compare_spec x y) as [E|E|E]; [auto|reflexivity|lia].
Qed.
Lemma bytes_cmp_opp a b : bytes_cmp b a = CompOpp (bytes_cmp a b).
Proof.
  revert b. induction a as [|x a IH]; intros [|y b]; try reflexivity. cbn.
  rewrite (N.compare_antisym x y). destruct (x ?= y); cbn; auto.
Qed.
Lemma div_split c k : k <> 0 -> c = k * (c / k) + c mod k /\ c mod k < k.
Proof. intro H. split; [now apply N.div_mod|now apply N.mod_lt]. Qed.
Lemma encode_lt c d a b : c < 0x110000 -> d < 0x110000 -> c < d ->
  bytes_cmp (encode_utf8 c ++ a) (encode_utf8 d ++ b) = Lt.
Proof.
  intros Hc0 Hd0 H. unfold encode_utf8.
  assert (E1 : c / 4096 = c / 64 / 64) by now rewrite N.div_div.
  assert (E2 : c / 262144 = c / 64 / 64 / 64) by now rewrite !N.div_div.
  assert (E3 : d / 4096 = d / 64 / 64) by now rewrite N.div_div.
  assert (E4 : d / 262144 = d / 64 / 64 / 64) by now rewrite !N.div_div.
  rewrite E1, E2, E3, E4. clear E1 E2 E3 E4.
  destruct (div_split c 64 ltac:(discriminate)) as [C1 C2].
  destruct (div_split (c / 64) 64 ltac:(discriminate)) as [C3 C4].
  destruct (div_split (c / 64 / 64) 64 ltac:(discriminate)) as [C5 C6].
  destruct (div_split d 64 ltac:(discriminate)) as [D1 D2].
  destruct (div_split (d / 64) 64 ltac:(discriminate)) as [D3 D4].
  destruct (div_split (d / 64 / 64) 64 ltac:(discriminate)) as [D5 D6].
  generalize dependent (c / 64 / 64 / 64); intros c3; generalize dependent (c / 64 / 64 mod 64); intros m3;
  generalize dependent (c / 64 / 64); intros c2; generalize dependent ((c / 64) mod 64); intros m2;
  generalize dependent (c / 64); intros c1; generalize dependent (c mod 64); intros m1.
  generalize dependent (d / 64 / 64 / 64); intros d3; generalize dependent (d / 64 / 64 mod 64); intros n3;
  generalize dependent (d / 64 / 64); intros d2; generalize dependent ((d / 64) mod 64); intros n2;
  generalize dependent (d / 64); intros d1; generalize dependent (d mod 64); intros n1.
  intros.
  destruct (N.ltb_spec c 0x80), (N.ltb_spec d 0x80); try lia; cbn [app];
    try (destruct (N.ltb_spec c 0x800)); try (destruct (N.ltb_spec d 0x800)); try lia; cbn [app];
    try (destruct (N.ltb_spec c 0x10000)); try (destruct (N.ltb_spec d 0x10000)); try lia; cbn [app];
    repeat (first [apply bytes_cmp_lt; lia|apply bytes_cmp_step; [lia|intro]]); lia.
Qed.
Lemma scalar_bound c : is_scalar c = true -> c < 0x110000.
Proof. unfold is_scalar. intro H. lia. Qed.
Lemma encode_nonempty c : exists x l, encode_utf8 c = x :: l.
Proof. unfold encode_utf8. destruct (c <? 128), (c <? 2048), (c <? 65536); eauto. Qed.

Lemma bytes_cmp_str_lt a b : valid_str a -> valid_str b -> str_lt a b -> bytes_cmp (str_bytes a) (str_bytes b) = Lt.
Proof.
  intros Ha Hb [(c & t & ->)|(p & x & y & u & v & -> & -> & H)]; unfold str_bytes; rewrite ?flat_map_app.
  - cbn [flat_map]. rewrite <- (app_nil_r (flat_map encode_utf8 a)) at 1. rewrite bytes_cmp_refl_app.
    destruct (encode_nonempty c) as (z & l & ->). reflexivity.
  - rewrite bytes_cmp_refl_app. cbn [flat_map]. apply Forall_app in Ha as [_ Ha]. apply Forall_app in Hb as [_ Hb].
    inversion Ha; subst. inversion Hb; subst. apply encode_lt; auto using scalar_bound.
Qed.
Lemma bytes_cmp_spec a b : valid_str a -> valid_str b ->
  match bytes_cmp (str_bytes a) (str_bytes b) with
  | Eq => a = b | Lt => str_lt a b | Gt => str_lt b a
  end.
Proof.
  intros Ha Hb. destruct (str_lt_total a b) as [->|[H|H]].
  - pose proof (bytes_cmp_refl_app (str_bytes b) [] []) as E. rewrite app_nil_r in E. now rewrite E.
  - now rewrite bytes_cmp_str_lt.
  - now rewrite bytes_cmp_opp, bytes_cmp_str_lt.
Qed.
