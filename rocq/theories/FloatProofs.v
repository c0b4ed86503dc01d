(** * Proofs of C103. *)
From Verif Require Import Base Unicode Tokens Lexer Fallback LitNew Messages FloatLit SpecLit SpecLex SpecFloats NumFacts LitProofs.
From Verif Require MapClaims.
Import ListNotations.
Local Open Scope N_scope.

(** ** Bits *)
Lemma pos_pow n : 0 < 2 ^ n.
Proof. apply N.neq_0_lt_0, N.pow_nonzero. discriminate. Qed.
Lemma float_parts t bits : bits < 2 ^ (1 + exponent_bits t + fraction_bits t) -> exists p, float_of t p bits.
Proof.
  intros H. set (M := 2 ^ fraction_bits t). set (E := 2 ^ exponent_bits t).
  assert (HM : 0 < M) by apply pos_pow. assert (HE : 0 < E) by apply pos_pow.
  assert (B : bits < 2 * E * M).
  { replace (2 * E * M) with (2 ^ (1 + exponent_bits t + fraction_bits t)); [exact H|]. now rewrite !N.pow_add_r. }
  pose proof (N.div_mod bits M ltac:(lia)) as D1. pose proof (N.mod_lt bits M ltac:(lia)) as L1.
  pose proof (N.div_mod (bits / M) E ltac:(lia)) as D2. pose proof (N.mod_lt (bits / M) E ltac:(lia)) as L2.
  assert (Q : bits / M / E < 2).
  { rewrite N.div_div by lia. apply N.div_lt_upper_bound; nia. }
  exists (mkparts (bits / M / E =? 1) ((bits / M) mod E) (bits mod M)).
  split; [|split; assumption]. cbn [negative expo frac]. fold M E.
  set (q := bits / M / E) in *. set (x := (bits / M) mod E) in *. set (f := bits mod M) in *.
  destruct (N.eqb_spec q 1) as [K|K].
  - rewrite K in D2. rewrite D1, D2. lia.
  - assert (K0 : q = 0) by lia. rewrite K0 in D2. rewrite D1, D2. lia.
Qed.
Lemma float_once t p q bits : float_of t p bits -> float_of t q bits -> p = q.
Proof.
  intros (E1 & X1 & F1) (E2 & X2 & F2). destruct p as [s x f], q as [s' x' f']. cbn [negative expo frac] in *.
  set (M := 2 ^ fraction_bits t) in *. set (E := 2 ^ exponent_bits t) in *.
  destruct (N.div_mod_unique M ((if s then 1 else 0) * E + x) ((if s' then 1 else 0) * E + x') f f' F1 F2) as [H <-]; [lia|].
  destruct s, s'; try (assert (x = x') by lia; now subst); lia.
Qed.
Lemma finite_spec t p bits : float_of t p bits -> (is_finite t bits = true <-> a_number t p).
Proof.
  intros (-> & X & F). unfold is_finite, a_number. rewrite N.ltb_lt.
  assert (A : abs_bits t (((if negative p then 1 else 0) * 2 ^ exponent_bits t + expo p) * 2 ^ fraction_bits t + frac p)
              = expo p * 2 ^ fraction_bits t + frac p).
  { unfold abs_bits. symmetry. apply (N.mod_unique _ _ (if negative p then 1 else 0)); destruct t;
      cbn [exponent_bits fraction_bits] in *; change (2 ^ 8) with 256 in *; change (2 ^ 11) with 2048 in *;
      change (2 ^ 23) with 8388608 in *; change (2 ^ 52) with 4503599627370496 in *; lia. }
  rewrite A. clear A. destruct t; cbn [exponent_bits fraction_bits] in *; change (2 ^ 8) with 256 in *; change (2 ^ 11) with 2048 in *;
    change (2 ^ 23) with 8388608 in *; change (2 ^ 52) with 4503599627370496 in *; lia.
Qed.

(** ** Rounding has one result *)
Definition two_even t : N.even (2 ^ fraction_bits t) = true.
Proof. destruct t; reflexivity. Qed.
Lemma units_small t e f s : f < 2 ^ fraction_bits t -> units t (mkparts s e f) < 2 ^ fraction_bits t * 2 ^ e.
Proof.
  intros F. unfold units. cbn [expo frac]. destruct (N.eqb_spec e 0) as [->|Z].
  - rewrite N.pow_0_r. lia.
  - replace e with (N.succ (e - 1)) at 2 by lia. rewrite N.pow_succ_r'. pose proof (pos_pow (e - 1)). nia.
Qed.
Lemma units_large t e f s : e <> 0 -> 2 ^ fraction_bits t * 2 ^ (e - 1) <= units t (mkparts s e f).
Proof. intros Z. unfold units. cbn [expo frac]. destruct (N.eqb_spec e 0); [lia|]. apply N.mul_le_mono_r. lia. Qed.
Lemma units_next t e f s s' : units t (mkparts s e f) < units t (mkparts s' e (f + 1)).
Proof. unfold units. cbn [expo frac]. destruct (e =? 0); [lia|]. pose proof (pos_pow (e - 1)). nia. Qed.
Lemma units_more t e f g s s' : f < g -> units t (mkparts s e f) < units t (mkparts s' e g).
Proof. intros L. unfold units. cbn [expo frac]. destruct (e =? 0); [lia|]. pose proof (pos_pow (e - 1)). nia. Qed.
Lemma units_up t e f s e' f' s' : f < 2 ^ fraction_bits t -> e < e' -> units t (mkparts s e f) < units t (mkparts s' e' f').
Proof.
  intros F L. pose proof (units_small t e f s F). pose proof (units_large t e' f' s' ltac:(lia)).
  assert (2 ^ e <= 2 ^ (e' - 1)) by (apply N.pow_le_mono_r; lia). pose proof (pos_pow (fraction_bits t)). nia.
Qed.
Lemma even_next t f : f < 2 ^ fraction_bits t -> N.even f = true -> f + 1 < 2 ^ fraction_bits t.
Proof.
  intros F E. pose proof (two_even t) as T. apply N.even_spec in E as (a & ->). apply N.even_spec in T as (b & T). lia.
Qed.
(** Two even floats have another between them. *)
Lemma between_even t e f e' f' : f < 2 ^ fraction_bits t -> f' < 2 ^ fraction_bits t ->
  N.even f = true -> N.even f' = true -> e < e' \/ (e = e' /\ f < f') ->
  f + 1 < 2 ^ fraction_bits t /\ units t (mkparts false e f) < units t (mkparts false e (f + 1)) /\
  units t (mkparts false e (f + 1)) < units t (mkparts false e' f').
Proof.
  intros F F' E E' L. pose proof (even_next t f F E) as G. split; [exact G|]. split; [apply units_next|].
  destruct L as [L|[<- L]]; [now apply units_up|]. apply units_more.
  apply N.even_spec in E as (a & ->). apply N.even_spec in E' as (b & ->). lia.
Qed.
Lemma nearer X u v w : (u < v < w)%Z -> Z.abs (X - u) = Z.abs (X - w) -> (Z.abs (X - v) < Z.abs (X - u))%Z.
Proof. lia. Qed.
Lemma nearest_not_two t n k e f e' f' : nearest t n k e f -> nearest t n k e' f' -> ~ (e < e' \/ (e = e' /\ f < f')).
Proof.
  intros (A & F & H) (A' & F' & H') L.
  destruct (H (mkparts false e' f') A' F') as [H1 H2]. destruct (H' (mkparts false e f) A F) as [H3 H4].
  assert (D : distance t n k (mkparts false e f) = distance t n k (mkparts false e' f')) by lia.
  cbn [expo frac] in *.
  destruct (H2 D) as [[E1 E2]|Ev]; [lia|]. destruct (H4 (eq_sym D)) as [[E1 E2]|Ev']; [lia|].
  destruct (between_even t e f e' f' F F' Ev Ev' L) as (G & U1 & U2).
  destruct (H (mkparts false e (f + 1)) A G) as [B _].
  assert (K : 0 < 10 ^ k) by (apply N.neq_0_lt_0, N.pow_nonzero; discriminate).
  unfold distance in *.
  apply (N.mul_lt_mono_pos_r (10 ^ k)) in U1, U2; [|exact K|exact K].
  pose proof (nearer (Z.of_N (n * 2 ^ places t)) (Z.of_N (units t (mkparts false e f) * 10 ^ k))
    (Z.of_N (units t (mkparts false e (f + 1)) * 10 ^ k)) (Z.of_N (units t (mkparts false e' f') * 10 ^ k)) ltac:(lia) D). lia.
Qed.
Lemma nearest_once t n k e f e' f' : nearest t n k e f -> nearest t n k e' f' -> e = e' /\ f = f'.
Proof.
  intros H H'. pose proof (nearest_not_two _ _ _ _ _ _ _ H H'). pose proof (nearest_not_two _ _ _ _ _ _ _ H' H). lia.
Qed.

(** ** Texts *)
Lemma digits_point i f i' f' : Forall (fun c => 48 <= c <= 57) i -> Forall (fun c => 48 <= c <= 57) i' ->
  i ++ tag "." ++ f = i' ++ tag "." ++ f' -> i = i' /\ f = f'.
Proof.
  intros H. revert i'. induction H as [|c i C H IH]; intros [|c' i'] H' E; cbn in E.
  - injection E as E. auto.
  - injection E as <- _. apply Forall_inv in H'. lia.
  - injection E as -> _. lia.
  - injection E as <- E. destruct (IH i' (Forall_inv_tail H') E) as [-> ->]. auto.
Qed.
Lemma digits_no_point i f s : all_digits s -> s <> i ++ tag "." ++ f.
Proof. intros [_ H] ->. apply Forall_app in H as [_ H]. apply Forall_inv in H. lia. Qed.
Lemma decimal_text_once text n k m j : decimal_text text n k -> decimal_text text m j -> n = m /\ k = j.
Proof.
  intros [(A & D & ->)|(i & f & A & B & -> & D & ->)] [(A' & D' & ->)|(i' & f' & A' & B' & E & D' & ->)].
  - split; [exact (MapClaims.decimal_value _ _ _ D D')|reflexivity].
  - now apply (digits_no_point i' f') in E.
  - now apply (digits_no_point i f) in A'.
  - apply digits_point in E as [<- <-]; [|apply A|apply A']. split; [exact (MapClaims.decimal_value _ _ _ D D')|reflexivity].
Qed.
Lemma reads_once t text p q : reads_as t text p -> reads_as t text q -> expo p = expo q /\ frac p = frac q.
Proof.
  intros (n & k & D & N) (m & j & D' & N'). destruct (decimal_text_once _ _ _ _ _ D D') as [<- <-].
  exact (nearest_once _ _ _ _ _ _ _ N N').
Qed.
Lemma decimal_float_text text n k : decimal_text text n k -> float_text text.
Proof. intros [(A & _)|(i & f & A & B & -> & _)]; [now apply ft_int|now apply ft_frac]. Qed.
Lemma nearest_ten t n e f : nearest t n 0 e f -> nearest t (10 * n) 1 e f.
Proof.
  assert (S : forall p, distance t (10 * n) 1 p = (10 * distance t n 0 p)%Z).
  { intros p. unfold distance. rewrite N.pow_0_r, N.pow_1_r. lia. }
  intros (A & F & H). split; [exact A|]. split; [exact F|]. intros p P Q. rewrite !S. destruct (H p P Q) as [H1 H2].
  split; [lia|]. intros E. apply H2. lia.
Qed.

Lemma signed_minus neg text : signed neg text = if neg then "-"%ch :: text else text.
Proof. reflexivity. Qed.
Lemma first_digit text n k : decimal_text text n k -> exists c r, text = c :: r /\ 48 <= c <= 57.
Proof.
  intros [((N & A) & _)|(i & f & (N & A) & _ & -> & _)];
    [destruct text as [|c r]|destruct i as [|c r]]; try congruence; apply Forall_inv in A; eauto.
  cbn. eauto.
Qed.
Lemma signed_inj t b p text q text' : reads_as t text p -> reads_as t text' q ->
  signed b text = signed (negative q) text' -> b = negative q /\ text = text'.
Proof.
  intros (n & k & D & _) (m & j & D' & _). destruct (first_digit _ _ _ D) as (c & r & -> & C), (first_digit _ _ _ D') as (c' & r' & -> & C').
  unfold signed. destruct b, (negative q); cbn; intros E; injection E as E; subst; auto; try lia.
Qed.
Lemma signed_app b text s : signed b text ++ s = signed b (text ++ s).
Proof. now destruct b. Qed.

Section WithDisplay.
Context {D : float_display}.

Lemma panics t p bits : float_of t p bits ->
  let m := tag "assertion failed: f.is_finite()" in
  (a_number t p -> exists a b, float_new_unsuffixed t bits = Returns a /\ float_new_suffixed t bits = Returns b) /\
  (~ a_number t p -> float_new_unsuffixed t bits = Panics m /\ float_new_suffixed t bits = Panics m).
Proof.
  intros P m. pose proof (finite_spec t p bits P) as F. unfold float_new_unsuffixed, float_new_suffixed, float_new.
  destruct (is_finite t bits); split; intros H; try (exfalso; now apply H, F); eauto.
  apply F in H. discriminate.
Qed.

Hypothesis OK : display_ok shown.

Lemma unsuffixed_text t p bits : float_of t p bits -> a_number t p ->
  exists i f, all_digits i /\ all_digits f /\ reads_as t (i ++ tag "." ++ f) p /\
    float_new_unsuffixed t bits = Returns (TLiteral (signed (negative p) (i ++ tag "." ++ f)) call_site) /\
    forall U, unicode_ok U -> forall start, start < two32 ->
      if negative p then accepted_negative start (i ++ tag "." ++ f) else accepted start (i ++ tag "." ++ f).
Proof.
  intros P A. destruct (OK t p bits P A) as (text & S & n & k & T & N).
  pose proof (decimal_float_text _ _ _ T) as FT.
  assert (R : float_new_unsuffixed t bits = Returns (TLiteral (float_unsuffixed (signed (negative p) text)) call_site)).
  { unfold float_new_unsuffixed, float_new. apply (finite_spec t p bits P) in A. now rewrite A, S. }
  destruct (@float_unsuffixed_roundtrip sample_unicode sample_unicode_ok 0 text eq_refl FT) as (i & f & I & F & C & E1 & _ & E2 & _).
  exists i, f. split; [exact I|]. split; [exact F|]. split; [|split].
  - destruct C as [[-> ->]|C].
    + destruct T as [(_ & Dn & ->)|(i' & f' & _ & _ & E & _)]; [|now apply (digits_no_point i' f') in E].
      exists (10 * n), 1. split; [|now apply nearest_ten]. right. exists i, (tag "0"). split; [exact I|]. split; [exact F|].
      split; [reflexivity|]. split; [|reflexivity]. replace (10 * n) with (10 * n + 0) by lia. now apply (dec_more i n 0).
    + rewrite <- C. exists n, k. auto.
  - rewrite R. rewrite !signed_minus. destruct (negative p); [now rewrite E2|now rewrite E1].
  - intros U UO start Hs. destruct (@float_unsuffixed_roundtrip U UO start text Hs FT) as (i' & f' & I' & F' & C' & E1' & Ac & _ & An).
    rewrite E1 in E1'. apply digits_point in E1' as [<- <-]; [|apply I|apply I']. destruct (negative p); assumption.
Qed.
Lemma suffixed_text t p bits : float_of t p bits -> a_number t p ->
  exists text, reads_as t text p /\
    float_new_suffixed t bits = Returns (TLiteral (signed (negative p) (text ++ float_suffix t)) call_site) /\
    forall U, unicode_ok U -> forall start, start < two32 ->
      if negative p then accepted_negative start (text ++ float_suffix t) else accepted start (text ++ float_suffix t).
Proof.
  intros P A. destruct (OK t p bits P A) as (text & S & n & k & T & N).
  pose proof (decimal_float_text _ _ _ T) as FT. exists text. split; [exists n, k; auto|]. split.
  - unfold float_new_suffixed, float_new. apply (finite_spec t p bits P) in A. rewrite A, S. unfold float_suffixed.
    rewrite signed_app. now destruct t.
  - intros U UO start Hs. destruct (@float_suffixed_roundtrip U UO start t text Hs FT) as (_ & Ac & _ & An). destruct (negative p); assumption.
Qed.
(** Different floats of a type have different literals. *)
Lemma literals_differ t p q a b : float_of t p a -> float_of t q b -> a_number t p -> a_number t q ->
  float_new_unsuffixed t a = float_new_unsuffixed t b \/ float_new_suffixed t a = float_new_suffixed t b -> a = b.
Proof.
  intros P Q A B H.
  assert (E : exists x y, reads_as t x p /\ reads_as t y q /\ signed (negative p) x = signed (negative q) y).
  { destruct H as [H|H].
    - destruct (unsuffixed_text t p a P A) as (i & f & _ & _ & R & E & _). destruct (unsuffixed_text t q b Q B) as (i' & f' & _ & _ & R' & E' & _).
      rewrite E, E' in H. injection H as H. eauto.
    - destruct (suffixed_text t p a P A) as (x & R & E & _). destruct (suffixed_text t q b Q B) as (y & R' & E' & _).
      rewrite E, E' in H. injection H as H. rewrite <- !signed_app in H. apply app_inv_tail in H. eauto. }
  destruct E as (x & y & R & R' & E). apply (signed_inj t (negative p) p x q y R R') in E as [En ->].
  destruct (reads_once _ _ _ _ R R') as [E1 E2]. destruct P as (-> & _), Q as (-> & _). now rewrite En, E1, E2.
Qed.
End WithDisplay.

(** ** The assumption can be met: printing all the digits *)
Fixpoint padded (k : nat) (n : N) : str :=
  match k with O => [] | S k => padded k (n / 10) ++ [48 + n mod 10] end.
Lemma padded_length k : forall n, length (padded k n) = k.
Proof. induction k as [|k IH]; intros n; cbn; [reflexivity|]. rewrite app_length, IH. cbn. lia. Qed.
Lemma padded_decimal k : forall i v r, decimal i v -> r < 10 ^ N.of_nat k -> decimal (i ++ padded k r) (v * 10 ^ N.of_nat k + r).
Proof.
  induction k as [|k IH]; intros i v r H L.
  - change (10 ^ N.of_nat 0) with 1 in *. cbn [padded]. rewrite app_nil_r. replace (v * 1 + r) with v by lia. exact H.
  - cbn [padded]. rewrite app_assoc. replace (N.of_nat (S k)) with (N.succ (N.of_nat k)) in * by lia. rewrite N.pow_succ_r' in *.
    pose proof (N.div_mod r 10 ltac:(lia)) as E. pose proof (N.mod_lt r 10 ltac:(lia)).
    replace (v * (10 * 10 ^ N.of_nat k) + r) with (10 * (v * 10 ^ N.of_nat k + r / 10) + r mod 10) by lia.
    apply dec_more; [|lia]. apply IH; [exact H|]. apply N.div_lt_upper_bound; lia.
Qed.
Lemma padded_digits k n : Forall (fun c => 48 <= c <= 57) (padded k n).
Proof.
  revert n. induction k as [|k IH]; intros n; cbn; [constructor|]. apply Forall_app. split; [apply IH|].
  pose proof (N.mod_lt n 10 ltac:(lia)). constructor; [lia|constructor].
Qed.
Definition all_places (n : N) (k : nat) : str := dec_digits (n / 10 ^ N.of_nat k) ++ tag "." ++ padded k (n mod 10 ^ N.of_nat k).
Lemma all_places_text n k : (0 < k)%nat -> decimal_text (all_places n k) n (N.of_nat k).
Proof.
  intros K. right. exists (dec_digits (n / 10 ^ N.of_nat k)), (padded k (n mod 10 ^ N.of_nat k)).
  destruct (dec_digits_canonical (n / 10 ^ N.of_nat k)) as [Hd _].
  assert (Z : 10 ^ N.of_nat k <> 0) by (apply N.pow_nonzero; discriminate).
  split; [exact (decimal_digits _ _ Hd)|]. split.
  { split; [|apply padded_digits]. intros E. apply (f_equal (@length _)) in E. rewrite padded_length in E. cbn in E. lia. }
  split; [reflexivity|]. split; [|now rewrite padded_length].
  rewrite (N.div_mod n _ Z) at 3. rewrite (N.mul_comm (10 ^ N.of_nat k)). apply padded_decimal; [exact Hd|now apply N.mod_lt].
Qed.
Definition exact_text (t : float_type) (bits : N) : str :=
  let M := 2 ^ fraction_bits t in let E := 2 ^ exponent_bits t in
  let p := mkparts (bits / M / E =? 1) ((bits / M) mod E) (bits mod M) in
  signed (negative p) (all_places (units t p * 5 ^ places t) (N.to_nat (places t))).
Definition exact_display : float_display := {| shown := exact_text |}.
Lemma exact_distance t n k p : n * 2 ^ places t = units t p * 10 ^ k -> distance t n k p = 0%Z.
Proof. intros E. unfold distance. rewrite E. lia. Qed.
Lemma nearest_exact t n k e f : e + 1 < 2 ^ exponent_bits t -> f < 2 ^ fraction_bits t ->
  n * 2 ^ places t = units t (mkparts false e f) * 10 ^ k -> nearest t n k e f.
Proof.
  intros A F E. split; [exact A|]. split; [exact F|]. intros p P Q. rewrite (exact_distance _ _ _ _ E).
  split; [apply Z.abs_nonneg|]. intros H. left.
  assert (U : units t p = units t (mkparts false e f)).
  { unfold distance in H. rewrite E in H. assert (K : 0 < 10 ^ k) by (apply N.neq_0_lt_0, N.pow_nonzero; discriminate).
    apply (N.mul_cancel_r _ _ (10 ^ k)); lia. }
  destruct p as [s x g]. cbn [expo frac] in *.
  destruct (N.lt_trichotomy e x) as [L|[<-|L]].
  - pose proof (units_up t e f false x g s F L). lia.
  - destruct (N.lt_trichotomy f g) as [L|[<-|L]]; [|auto|].
    + pose proof (units_more t e f g false s L). lia.
    + pose proof (units_more t e g f s false L). lia.
  - pose proof (units_up t x g s e f false Q L). lia.
Qed.
Lemma exact_ok : display_ok (@shown exact_display).
Proof.
  intros t p bits P A.
  assert (P' : float_of t (mkparts (bits / 2 ^ fraction_bits t / 2 ^ exponent_bits t =? 1)
      ((bits / 2 ^ fraction_bits t) mod 2 ^ exponent_bits t) (bits mod 2 ^ fraction_bits t)) bits).
  { destruct P as (-> & X & F). destruct p as [s x f]. cbn [negative expo frac] in *.
    set (M := 2 ^ fraction_bits t) in *. set (E := 2 ^ exponent_bits t) in *.
    rewrite N.div_add_l by lia. rewrite (N.div_small f M) by lia. rewrite N.add_0_r.
    rewrite N.div_add_l by lia. rewrite (N.div_small x E) by lia. rewrite N.add_0_r.
    rewrite (N.add_comm (_ * M)), N.mod_add by lia. rewrite (N.mod_small f) by lia.
    rewrite (N.add_comm (_ * E)), N.mod_add by lia. rewrite (N.mod_small x) by lia.
    split; [|split; assumption]. cbn [negative expo frac]. fold M E. replace ((if s then 1 else 0) =? 1) with s by now destruct s. clearbody M E. destruct s; lia. }
  pose proof (float_once _ _ _ _ P P') as Ep. cbn [shown exact_display]. unfold exact_text. cbv zeta. rewrite <- Ep. clear P' Ep.
  eexists. split; [reflexivity|]. eexists _, _. split.
  - apply all_places_text. destruct t; vm_compute; lia.
  - destruct P as (_ & X & F). rewrite N2Nat.id. apply nearest_exact; [exact A|exact F|].
    destruct p as [s x f]. cbn [expo frac].
    change (units t (mkparts s x f)) with (units t (mkparts false x f)).
    rewrite <- N.mul_assoc, <- N.pow_mul_l. reflexivity.
Qed.
(** A float that is nearer than its two neighbours is the nearest. *)
Lemma nearer_neighbours t n k e f : e + 1 < 2 ^ exponent_bits t -> f + 2 < 2 ^ fraction_bits t ->
  (distance t n k (mkparts false e (f + 1)) < distance t n k (mkparts false e f))%Z ->
  (distance t n k (mkparts false e (f + 1)) < distance t n k (mkparts false e (f + 2)))%Z ->
  nearest t n k e (f + 1).
Proof.
  intros A F L R. split; [exact A|]. split; [lia|]. intros p P Q.
  enough (p = mkparts (negative p) e (f + 1) \/ (distance t n k (mkparts false e (f + 1)) < distance t n k p)%Z) as [->|G].
  - cbn. split; [unfold distance, units; cbn; lia|auto].
  - split; [lia|intros; lia].
  - assert (K : 0 < 10 ^ k) by (apply N.neq_0_lt_0, N.pow_nonzero; discriminate).
    assert (M : forall a b, units t a <= units t b -> units t a * 10 ^ k <= units t b * 10 ^ k) by (intros; now apply N.mul_le_mono_r).
    assert (C : p = mkparts (negative p) e (f + 1) \/ units t p <= units t (mkparts false e f) \/ units t (mkparts false e (f + 2)) <= units t p).
    { destruct p as [s x g]. cbn [negative expo frac] in *. destruct (N.lt_trichotomy x e) as [X|[->|X]].
      - right. left. apply N.lt_le_incl, units_up; assumption.
      - destruct (N.lt_trichotomy g (f + 1)) as [G|[->|G]]; [|auto|]; right.
        + left. destruct (N.eq_dec g f) as [->|Z]; [reflexivity|]. apply N.lt_le_incl, units_more. lia.
        + right. destruct (N.eq_dec g (f + 2)) as [->|Z]; [reflexivity|]. apply N.lt_le_incl, units_more. lia.
      - right. right. apply N.lt_le_incl, units_up; [lia|assumption]. }
    destruct C as [C|C]; [auto|]. right.
    assert (U1 := units_next t e f false false). assert (U2 := units_more t e (f + 1) (f + 2) false false ltac:(lia)).
    apply (N.mul_lt_mono_pos_r (10 ^ k)) in U1, U2; [|exact K|exact K].
    unfold distance in *. destruct C as [C|C]; apply M in C; lia.
Qed.
