(** Facts about the representation layer. *)
From Verif Require Import Base.

Ltac inv H := inversion H; subst; clear H.

(** Evaluate comparisons between constants. *)
Ltac cmp1 t :=
  let v := eval vm_compute in t in
  match v with
  | true => change t with true
  | false => change t with false
  end.
Ltac cmpc :=
  repeat match goal with
  | |- context [N.eqb ?a ?b] => cmp1 (N.eqb a b)
  | |- context [N.leb ?a ?b] => cmp1 (N.leb a b)
  | |- context [N.ltb ?a ?b] => cmp1 (N.ltb a b)
  end; cbn [andb orb negb].

Lemma len_utf8_pos c : 1 <= len_utf8 c.
Proof. unfold len_utf8. repeat destruct (_ <? _)%N; lia. Qed.

Lemma len_utf8_ascii c : (c < 128)%N -> len_utf8 c = 1.
Proof. intros H. unfold len_utf8. destruct (N.ltb_spec c 128); [reflexivity|lia]. Qed.

Lemma length_encode c : length (encode_utf8 c) = len_utf8 c.
Proof. unfold encode_utf8, len_utf8. repeat destruct (_ <? _)%N; reflexivity. Qed.

Lemma encode_ascii c : (c < 128)%N -> encode_utf8 c = [c].
Proof. intros H. unfold encode_utf8. destruct (N.ltb_spec c 128); [reflexivity|lia]. Qed.

Lemma encode_high c : (128 <= c)%N -> Forall (fun b => (128 <= b)%N) (encode_utf8 c).
Proof.
  intros H. unfold encode_utf8. destruct (N.ltb_spec c 128); [lia|].
  repeat destruct (_ <? _)%N; repeat constructor; lia.
Qed.

Lemma encode_nonempty c : exists b t, encode_utf8 c = b :: t.
Proof. unfold encode_utf8. repeat destruct (_ <? _)%N; eauto. Qed.

Lemma length_str_bytes s : length (str_bytes s) = str_len s.
Proof.
  induction s as [|c t IH]; cbn; [reflexivity|].
  rewrite app_length, length_encode. f_equal. exact IH.
Qed.

Lemma str_bytes_app a b : str_bytes (a ++ b) = str_bytes a ++ str_bytes b.
Proof. apply flat_map_app. Qed.

Lemma str_bytes_cons c t : str_bytes (c :: t) = encode_utf8 c ++ str_bytes t.
Proof. reflexivity. Qed.

Lemma str_len_app a b : str_len (a ++ b) = str_len a + str_len b.
Proof. induction a; cbn; lia. Qed.

Lemma length_le_str_len s : length s <= str_len s.
Proof. induction s as [|c t IH]; cbn; [lia|]. pose proof (len_utf8_pos c). lia. Qed.

(** *** Suffixes *)
Definition suffix (r s : list N) : Prop := exists p, s = p ++ r.

Lemma suffix_refl s : suffix s s. Proof. exists []. reflexivity. Qed.
Lemma suffix_nil s : suffix [] s. Proof. exists s. now rewrite app_nil_r. Qed.
Lemma suffix_cons c r s : suffix r s -> suffix r (c :: s).
Proof. intros [p ->]. exists (c :: p). reflexivity. Qed.
Lemma suffix_trans a b c : suffix a b -> suffix b c -> suffix a c.
Proof. intros [p ->] [q ->]. exists (q ++ p). now rewrite app_assoc. Qed.
Lemma suffix_length a b : suffix a b -> length a <= length b.
Proof. intros [p ->]. rewrite app_length. lia. Qed.
Lemma suffix_app p s : suffix s (p ++ s). Proof. now exists p. Qed.
Lemma suffix_str_len a b : suffix a b -> str_len a <= str_len b.
Proof. intros [p ->]. rewrite str_len_app. lia. Qed.
Lemma suffix_tail c a b : suffix (c :: a) b -> suffix a b.
Proof. intros [p ->]. exists (p ++ [c]). now rewrite <- app_assoc. Qed.
Global Hint Resolve suffix_refl suffix_nil suffix_cons suffix_app : core.

Lemma suffix_length_eq a b : suffix a b -> length a = length b -> a = b.
Proof. intros [p ->]. rewrite app_length. destruct p; cbn; [reflexivity|lia]. Qed.

(** *** split_at *)
Lemma split_at_app p r : split_at (p ++ r) (str_len p) = Some (p, r).
Proof.
  induction p as [|c p IH]; cbn [app str_len].
  - destruct r; reflexivity.
  - pose proof (len_utf8_pos c) as Hp.
    destruct (len_utf8 c + str_len p) as [|m] eqn:E; [lia|].
    cbn [split_at].
    destruct (Nat.leb_spec (len_utf8 c) (S m)); [|lia].
    replace (S m - len_utf8 c) with (str_len p) by lia.
    now rewrite IH.
Qed.

Lemma split_at_inv s n p r : split_at s n = Some (p, r) -> s = p ++ r /\ n = str_len p.
Proof.
  revert n p r. induction s as [|c s IH]; intros n p r H.
  - destruct n; cbn in H; inv H. split; reflexivity.
  - destruct n as [|n]; [cbn in H; inv H; split; reflexivity|].
    cbn [split_at] in H. destruct (Nat.leb_spec (len_utf8 c) (S n)); [|discriminate].
    destruct (split_at s (S n - len_utf8 c)) as [[a b]|] eqn:E; [|discriminate].
    inv H. apply IH in E as [-> E]. split; [reflexivity|]. cbn [str_len]. lia.
Qed.

Lemma slice_from_app p r : slice_from (p ++ r) (str_len p) = Ok r.
Proof. unfold slice_from. now rewrite split_at_app. Qed.
Lemma slice_to_app p r : slice_to (p ++ r) (str_len p) = Ok p.
Proof. unfold slice_to. now rewrite split_at_app. Qed.
Lemma slice_from_eq s p r n : s = p ++ r -> n = str_len p -> slice_from s n = Ok r.
Proof. intros -> ->. apply slice_from_app. Qed.
Lemma slice_to_eq s p r n : s = p ++ r -> n = str_len p -> slice_to s n = Ok p.
Proof. intros -> ->. apply slice_to_app. Qed.
Lemma slice_eq s p m r a b :
  s = p ++ m ++ r -> a = str_len p -> b = str_len (p ++ m) -> slice s a b = Ok m.
Proof.
  intros -> -> ->. unfold slice. rewrite str_len_app.
  destruct (Nat.ltb_spec (str_len p + str_len m) (str_len p)); [lia|].
  rewrite (slice_to_eq _ (p ++ m) r) by (rewrite ?app_assoc, ?str_len_app; auto).
  cbn. apply slice_from_app.
Qed.

(** *** starts_with *)
Lemma starts_with_spec s t : starts_with s t = true <-> exists r, s = t ++ r.
Proof.
  revert s. induction t as [|c t IH]; intros s; cbn.
  - split; [eauto|reflexivity].
  - destruct s as [|d u]; [split; [discriminate|intros [r H]; discriminate]|].
    rewrite andb_true_iff, IH. split.
    + intros [E [r ->]]. apply N.eqb_eq in E as ->. eauto.
    + intros [r H]. inv H. rewrite N.eqb_refl. eauto.
Qed.

Lemma starts_with_app t r : starts_with (t ++ r) t = true.
Proof. apply starts_with_spec. eauto. Qed.

Lemma starts_with_single s c :
  starts_with s [c] = match s with [] => false | d :: _ => (c =? d)%N end.
Proof. destruct s; cbn; [reflexivity|]. now rewrite andb_true_r. Qed.

Lemma starts_with_skipn s t : starts_with s t = true -> s = t ++ skipn (length t) s.
Proof.
  intros H. apply starts_with_spec in H as [r ->].
  now rewrite skipn_app, skipn_all, Nat.sub_diag.
Qed.

Lemma starts_with_longer s a b : starts_with s (a ++ b) = true -> starts_with s a = true.
Proof.
  intros H. apply starts_with_spec in H as [r ->]. apply starts_with_spec.
  exists (b ++ r). now rewrite app_assoc.
Qed.

Lemma str_eqb_spec a b : reflect (a = b) (str_eqb a b).
Proof.
  revert b. induction a as [|x a IH]; intros [|y b]; cbn; try (constructor; congruence).
  destruct (N.eqb_spec x y) as [->|]; cbn; [|constructor; congruence].
  destruct (IH b); constructor; congruence.
Qed.

Lemma str_eqb_refl a : str_eqb a a = true.
Proof. destruct (str_eqb_spec a a); congruence. Qed.

Lemma contains_In s c : contains s c = true <-> In c s.
Proof.
  unfold contains. rewrite existsb_exists. split.
  - intros (d & Hd & E). apply N.eqb_eq in E as ->. exact Hd.
  - intros H. exists c. now rewrite N.eqb_refl.
Qed.

(** *** First byte *)
Lemma first_byte_char c t :
  exists b u, str_bytes (c :: t) = b :: u /\
    ((c < 128)%N /\ b = c /\ u = str_bytes t \/ (128 <= c)%N /\ (128 <= b)%N).
Proof.
  rewrite str_bytes_cons. destruct (N.lt_ge_cases c 128) as [H|H].
  - rewrite encode_ascii by exact H. exists c, (str_bytes t). auto.
  - pose proof (encode_high c H) as Hf. destruct (encode_nonempty c) as (b & u & E).
    rewrite E in Hf. inv Hf. exists b, (u ++ str_bytes t). rewrite E. auto.
Qed.

Lemma str_bytes_nil_inv s : str_bytes s = [] -> s = [].
Proof.
  destruct s as [|c t]; [reflexivity|].
  destruct (first_byte_char c t) as (b & u & E & _). rewrite E. discriminate.
Qed.

(** *** Arithmetic modulo 2^32 *)
Lemma wrap32_small x : (x < two32)%N -> wrap32 x = x.
Proof. intros H. apply N.mod_small. exact H. Qed.
Lemma wrap32_lt x : (wrap32 x < two32)%N.
Proof. apply N.mod_lt. discriminate. Qed.
Lemma wrap32_add_l a b : wrap32 (wrap32 a + b) = wrap32 (a + b).
Proof. unfold wrap32. apply N.add_mod_idemp_l. discriminate. Qed.
