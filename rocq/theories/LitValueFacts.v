(** * The value accessors are total and return exactly the specified values. *)
From Verif Require Import Base Unicode BaseFacts Escaper LitValue SpecLit EscaperFacts.
From Verif Require Import SpecLex.
Import ListNotations.
Local Open Scope N_scope.

(** ** The three escapers *)

Lemma fatal_err {A} e : is_fatal e = true -> fails (A := A) (UErr e).
Proof. intro H. now exists e. Qed.

Lemma str_implements : implements KStr str_unescaper (fun c => [c]).
Proof.
  split; unfold char_ok, hex_ok, uni_ok; cbn.
  - left. split; [discriminate|]. now exists 0.
  - reflexivity.
  - intro c. left. split; [split; discriminate|]. now exists c.
  - intro b. destruct (N.ltb_spec b 0x80) as [Hb|Hb].
    + left. split; [split; [auto|discriminate]|]. now exists b.
    + right. split; [intros [H _]; specialize (H eq_refl); lia|]. now apply fatal_err.
  - intro c. left. split; [split; discriminate|]. now exists c.
  - intros e H. now apply fatal_err.
Qed.

Lemma byte_implements : implements KByte byte_unescaper (fun c => [c]).
Proof.
  split; unfold char_ok, hex_ok, uni_ok; cbn.
  - left. split; [discriminate|]. now exists 0.
  - reflexivity.
  - intro c. unfold char2byte. destruct (N.ltb_spec c 0x80) as [Hb|Hb].
    + left. split; [split; [auto|discriminate]|]. now exists c.
    + right. split; [intros [H _]; specialize (H eq_refl); lia|]. now apply fatal_err.
  - intro b. left. split; [split; discriminate|]. now exists b.
  - intro c. right. split; [intros [H _]; congruence|]. now apply fatal_err.
  - intros e H. now apply fatal_err.
Qed.

Lemma push_nonzero b : push_mixed (mixed_of_nonzero b) = [b].
Proof.
  unfold mixed_of_nonzero. destruct (N.ltb_spec b 0x80) as [Hb|Hb]; cbn [push_mixed]; [|reflexivity].
  now apply encode_ascii.
Qed.
Lemma c_implements : implements KC c_unescaper push_mixed.
Proof.
  split; unfold char_ok, hex_ok, uni_ok; cbn -[push_mixed].
  - right. split; [reflexivity|]. now apply fatal_err.
  - intros b _. apply push_nonzero.
  - intro c. unfold mixed_of_char, nonzero_char_new. destruct (N.eqb_spec c 0) as [Hc|Hc].
    + right. split; [intros [_ H]; now specialize (H eq_refl)|]. now apply fatal_err.
    + left. split; [split; [discriminate|auto]|]. now exists (MChar c).
  - intro b. unfold mixed_of_byte. destruct (N.eqb_spec b 0) as [Hc|Hc].
    + right. split; [intros [_ H]; now specialize (H eq_refl)|]. now apply fatal_err.
    + left. split; [split; [discriminate|auto]|]. eexists. split; [reflexivity|]. apply push_nonzero.
  - intro c. unfold mixed_of_char, nonzero_char_new. destruct (N.eqb_spec c 0) as [Hc|Hc].
    + right. split; [intros [_ H]; now specialize (H eq_refl)|]. now apply fatal_err.
    + left. split; [split; [discriminate|auto]|]. now exists (MChar c).
  - intros e H. now apply fatal_err.
Qed.

Lemma cooked_functional k s v w : cooked k s v -> cooked k s w -> v = w.
Proof.
  destruct k.
  - apply (cooked_fun _ _ _ str_implements).
  - apply (cooked_fun _ _ _ byte_implements).
  - apply (cooked_fun _ _ _ c_implements).
Qed.

(** ** Slicing off quotes *)

Lemma ends_with_quote s : ends_with s [DQUOTE] = true <-> exists t, s = t ++ [DQUOTE].
Proof.
  unfold ends_with. change (rev [DQUOTE]) with [DQUOTE]. rewrite starts_with_spec. split.
  - intros [r H]. exists (rev r). rewrite <- (rev_involutive s), H. reflexivity.
  - intros [t ->]. exists (rev t). now rewrite rev_app_distr.
Qed.

Lemma quoted_text_spec open repr :
  exists o, quoted_text open repr = Ok o /\
            forall q, o = Some q <-> repr = open ++ q ++ [DQUOTE].
Proof.
  unfold quoted_text.
  destruct (starts_with repr open) eqn:Es; cbn [negb].
  2:{ eexists. split; [reflexivity|]. intro q. split; [discriminate|]. intros ->.
      now rewrite starts_with_app in Es. }
  apply starts_with_spec in Es. destruct Es as [r ->].
  rewrite slice_from_app. cbn [bind].
  destruct (ends_with r [DQUOTE]) eqn:Ee; cbn [negb].
  2:{ eexists. split; [reflexivity|]. intro q. split; [discriminate|]. intro E.
      apply app_inv_head in E. assert (ends_with r [DQUOTE] = true); [|congruence].
      apply ends_with_quote. now exists q. }
  apply ends_with_quote in Ee. destruct Ee as [q ->].
  assert (El : str_len (open ++ q ++ [DQUOTE]) = S (str_len open + str_len q)).
  { rewrite !str_len_app. change (str_len [DQUOTE]) with 1%nat. lia. }
  unfold checked_sub. rewrite El. cbn [Nat.ltb Nat.leb bind]. change (S (str_len open + str_len q) <? 1)%nat with false.
  cbn [bind]. rewrite (slice_eq _ open q [DQUOTE]).
  2: reflexivity. 2: reflexivity. 2: { rewrite ?str_len_app. lia. }
  cbn [bind]. eexists. split; [reflexivity|]. intro q'. split.
  - intros [= ->]. reflexivity.
  - intro E. apply app_inv_head in E. apply app_inv_tail in E. now subst.
Qed.

Lemma trim_start_spec s c :
  exists n, s = repeat c n ++ trim_start s c /\ forall t, trim_start s c <> c :: t.
Proof.
  induction s as [|d s (n & E & H)].
  - exists 0%nat. split; [reflexivity|]. discriminate.
  - cbn [trim_start]. destruct (N.eqb_spec d c) as [->|Hd].
    + exists (S n). split; [cbn; now rewrite <- E|exact H].
    + exists 0%nat. split; [reflexivity|]. intros t [= ->]. congruence.
Qed.
Lemma repeat_unique (c : char) n m a b :
  repeat c n ++ a = repeat c m ++ b ->
  (forall t, a <> c :: t) -> (forall t, b <> c :: t) -> n = m /\ a = b.
Proof.
  revert m. induction n as [|n IH]; intros [|m] E Ha Hb; cbn in E.
  - auto.
  - exfalso. eapply Ha. exact E.
  - exfalso. eapply Hb. symmetry. exact E.
  - injection E as E. destruct (IH _ E Ha Hb). split; congruence.
Qed.
Lemma trim_start_repeat (c : char) n a :
  (forall t, a <> c :: t) -> trim_start (repeat c n ++ a) c = a.
Proof.
  intro Ha. destruct (trim_start_spec (repeat c n ++ a) c) as (m & E & H).
  now destruct (repeat_unique _ _ _ _ _ E Ha H).
Qed.
Lemma rev_repeat {A} (c : A) n : rev (repeat c n) = repeat c n.
Proof.
  induction n as [|n IH]; [reflexivity|]. cbn. rewrite IH. clear.
  induction n as [|n IH]; [reflexivity|]. cbn. now rewrite IH.
Qed.
Lemma trim_end_spec s c :
  exists n, s = trim_end s c ++ repeat c n /\ forall t, trim_end s c <> t ++ [c].
Proof.
  unfold trim_end. destruct (trim_start_spec (rev s) c) as (n & E & H).
  exists n. split.
  - apply (f_equal (@rev _)) in E. rewrite rev_involutive, rev_app_distr, rev_repeat in E. exact E.
  - intros t Et. apply (H (rev t)). rewrite <- (rev_involutive (trim_start (rev s) c)), Et.
    now rewrite rev_app_distr.
Qed.
Lemma trim_end_repeat (c : char) n a :
  (forall t, a <> t ++ [c]) -> trim_end (a ++ repeat c n) c = a.
Proof.
  intro Ha. unfold trim_end. rewrite rev_app_distr, rev_repeat, trim_start_repeat.
  - apply rev_involutive.
  - intros t E. apply (Ha (rev t)). rewrite <- (rev_involutive a), E. reflexivity.
Qed.
Lemma str_len_pounds n : str_len (repeat "#"%ch n) = n.
Proof. induction n as [|n IH]; [reflexivity|]. cbn [repeat str_len]. rewrite IH. reflexivity. Qed.

Definition raw_form (n : nat) (s : str) : str :=
  repeat "#"%ch n ++ [DQUOTE] ++ s ++ [DQUOTE] ++ repeat "#"%ch n.

Lemma get_raw_spec repr :
  exists o, get_raw repr = Ok o /\ forall s, o = Some s <-> exists n, repr = raw_form n s.
Proof.
  unfold get_raw.
  destruct (trim_start_spec repr "#"%ch) as (n & En & Hn).
  set (body := trim_start repr "#"%ch) in *.
  assert (Ep : checked_sub (str_len repr) (str_len body) = Ok n).
  { unfold checked_sub. rewrite En, str_len_app, str_len_pounds.
    destruct (Nat.ltb_spec (n + str_len body) (str_len body)); [lia|]. f_equal. lia. }
  rewrite Ep. cbn [bind].
  assert (Hform : forall m s, repr = raw_form m s ->
            m = n /\ body = [DQUOTE] ++ s ++ [DQUOTE] ++ repeat "#"%ch m).
  { intros m s E. rewrite En in E. unfold raw_form in E.
    apply repeat_unique in E as [-> ->]; auto. discriminate. }
  assert (Hlen : str_len repr = (n + str_len body)%nat).
  { rewrite En at 1. now rewrite str_len_app, str_len_pounds. }
  assert (HNone : (forall s, body <> [DQUOTE] ++ s ++ [DQUOTE] ++ repeat "#"%ch n) ->
            exists o, Ok (None (A := str)) = Ok o /\ forall s, o = Some s <-> exists n, repr = raw_form n s).
  { intro H. exists None. split; [reflexivity|]. intro s. split; [discriminate|].
    intros (m & E). apply Hform in E as [-> E]. now apply H in E. }
  destruct (Nat.leb_spec (n + 1 + 1 + n) (str_len repr)) as [Hl|Hl]; cbn [negb].
  2:{ apply HNone. intros s E. rewrite Hlen, E, !str_len_app, str_len_pounds in Hl.
      change (str_len [DQUOTE]) with 1%nat in Hl. lia. }
  rewrite (slice_from_eq repr (repeat "#"%ch n) body) by (auto; now rewrite str_len_pounds).
  cbn [bind].
  destruct (starts_with body [DQUOTE]) eqn:Eb; cbn [negb].
  2:{ apply HNone. intros s E. rewrite E in Eb. discriminate. }
  apply starts_with_spec in Eb. destruct Eb as [b Eb].
  destruct (trim_end_spec repr "#"%ch) as (m & Em & Hm).
  set (front := trim_end repr "#"%ch) in *.
  assert (Hlm : str_len repr = (str_len front + m)%nat).
  { rewrite Em at 1. now rewrite str_len_app, str_len_pounds. }
  destruct (Nat.eqb_spec (str_len front + n) (str_len repr)) as [Ef|Ef]; cbn [negb].
  2:{ apply HNone. intros s E. apply Ef. rewrite Hlm. f_equal.
      assert (repr = (repeat "#"%ch n ++ [DQUOTE] ++ s ++ [DQUOTE]) ++ repeat "#"%ch n) as E'.
      { rewrite En, E, <- !app_assoc. reflexivity. }
      assert (Hx : front = repeat "#"%ch n ++ [DQUOTE] ++ s ++ [DQUOTE]).
      { unfold front. rewrite E'. apply trim_end_repeat. intros t Et.
        rewrite !app_assoc in Et. apply app_inj_tail in Et as [_ Et]. discriminate. }
      rewrite Em, Hx in E'. apply app_inv_head in E'. apply (f_equal (@length _)) in E'.
      rewrite !repeat_length in E'. auto. }
  assert (m = n) by lia. subst m.
  unfold checked_sub at 1. destruct (Nat.ltb_spec (str_len repr) n); [lia|]. cbn [bind].
  rewrite (slice_to_eq repr front (repeat "#"%ch n)) by (auto; lia). cbn [bind].
  destruct (ends_with front [DQUOTE]) eqn:Ee; cbn [negb].
  2:{ apply HNone. intros s E.
      assert (repr = (repeat "#"%ch n ++ [DQUOTE] ++ s ++ [DQUOTE]) ++ repeat "#"%ch n) as E'.
      { rewrite En, E, <- !app_assoc. reflexivity. }
      rewrite Em in E'. apply app_inv_tail in E'.
      assert (ends_with front [DQUOTE] = true); [|congruence].
      apply ends_with_quote. exists (repeat "#"%ch n ++ [DQUOTE] ++ s).
      rewrite E', <- !app_assoc. reflexivity. }
  apply ends_with_quote in Ee. destruct Ee as [f Ef'].
  assert (Hlf : str_len front = S (str_len f)).
  { rewrite Ef', str_len_app. change (str_len [DQUOTE]) with 1%nat. lia. }
  unfold checked_sub. destruct (Nat.ltb_spec (str_len repr - n) 1); [lia|]. cbn [bind].
  (* the front is #^n " s " *)
  assert (exists s, f = repeat "#"%ch n ++ [DQUOTE] ++ s) as [s Es].
  { assert (E : (repeat "#"%ch n ++ [DQUOTE]) ++ b = f ++ [DQUOTE] ++ repeat "#"%ch n).
    { rewrite <- app_assoc. rewrite Eb in En. rewrite <- En, Em, Ef', <- app_assoc. reflexivity. }
    apply app_eq_app in E as [l [[E1 E2]|[E1 E2]]].
    - assert (El : str_len (repeat "#"%ch n ++ [DQUOTE]) = (str_len f + str_len l)%nat)
        by (now rewrite E1, str_len_app).
      rewrite str_len_app, str_len_pounds in El. change (str_len [DQUOTE]) with 1%nat in El.
      assert (Hl0 : (length l <= 0)%nat) by (pose proof (length_le_str_len l); lia).
      destruct l; [|cbn in Hl0; lia]. rewrite app_nil_r in E1. exists [].
      rewrite app_nil_r. auto.
    - exists l. now rewrite E1, <- app_assoc. }
  rewrite (slice_eq repr (repeat "#"%ch n ++ [DQUOTE]) s ([DQUOTE] ++ repeat "#"%ch n)).
  - cbn [bind]. eexists. split; [reflexivity|]. intro s'. split.
    + intros [= <-]. exists n. unfold raw_form. rewrite Em, Ef', Es, <- !app_assoc. reflexivity.
    + intros (m & E). apply Hform in E as [-> E]. f_equal.
      assert (E' : repr = raw_form n s') by (unfold raw_form; now rewrite En, E).
      rewrite Em, Ef', Es in E'. unfold raw_form in E'. rewrite <- !app_assoc in E'.
      apply app_inv_head in E'. cbn [app] in E'. injection E' as E'.
      now apply app_inv_tail in E'.
  - rewrite Em, Ef', Es, <- !app_assoc. reflexivity.
  - rewrite str_len_app, str_len_pounds. reflexivity.
  - rewrite !str_len_app, str_len_pounds. change (str_len [DQUOTE]) with 1%nat.
    rewrite Hlm, Hlf, Es, !str_len_app, str_len_pounds. change (str_len [DQUOTE]) with 1%nat. lia.
Qed.

Lemma raw_text_spec open repr :
  exists o, raw_text open repr = Ok o /\
            forall s, o = Some s <-> exists n, repr = open ++ raw_form n s.
Proof.
  unfold raw_text.
  destruct (starts_with repr open) eqn:Es; cbn [negb].
  2:{ eexists. split; [reflexivity|]. intro q. split; [discriminate|]. intros (n & ->).
      now rewrite starts_with_app in Es. }
  apply starts_with_spec in Es. destruct Es as [r ->].
  rewrite slice_from_app. cbn [bind].
  destruct (get_raw_spec r) as (o & Ho & Hs). exists o. split; [exact Ho|].
  intro s. rewrite Hs. split; intros (n & E); exists n.
  - now rewrite E.
  - now apply app_inv_head in E.
Qed.

(** ** The accessors *)


Lemma value_shape k repr :
  exists r, value_of k repr = Ok r /\ (forall w, r = COk w <-> denotes k repr w) /\
    (r = CInvalidKind <->
     (forall q, repr <> prefix k ++ [DQUOTE] ++ q ++ [DQUOTE]) /\ (forall n s, repr <> raw_literal k n s)).
Proof.
  assert (Hgen : forall {A} (u : unescaper A) push ending,
    implements k u push -> (forall v, finish k v = v ++ ending) ->
    exists r,
      (let? q := quoted_text (prefix k ++ [DQUOTE]) repr in
       match q with
       | Some quoted => unescaped u push ending quoted
       | None =>
           let? r := raw_text (prefix k ++ tag "r") repr in
           match r with
           | Some raw => Ok (COk (finish k match k with KStr => raw | _ => str_bytes raw end))
           | None => Ok CInvalidKind
           end
       end) = Ok r /\ (forall w, r = COk w <-> denotes k repr w) /\
      (r = CInvalidKind <->
       (forall q, repr <> prefix k ++ [DQUOTE] ++ q ++ [DQUOTE]) /\ (forall n s, repr <> raw_literal k n s))).
  { intros A u push ending I Hf.
    destruct (quoted_text_spec (prefix k ++ [DQUOTE]) repr) as (q & -> & Hq). cbn [bind].
    destruct q as [q|].
    - assert (Hr := proj1 (Hq q) eq_refl).
      destruct (unescaped_spec k u push I ending q) as (r & Hu & Hk & Hv).
      exists r. split; [exact Hu|]. split.
      2:{ split; [intro E; now apply Hk in E|]. intros [H _]. exfalso. apply (H q). now rewrite Hr, <- app_assoc. }
      intro w. rewrite Hv. split.
      + intros (v & Hc & ->). rewrite <- Hf, Hr, <- app_assoc. now apply den_cooked.
      + intro Hd. inversion Hd as [s v Hc E Ew|n s E Ew].
        * exists v. rewrite <- Hf. split; [|reflexivity].
          assert (s = q); [|now subst].
          rewrite <- E in Hr. rewrite <- app_assoc in Hr. apply app_inv_head in Hr.
          cbn [app] in Hr. injection Hr as Hr. now apply app_inv_tail in Hr.
        * exfalso. rewrite <- E in Hr. rewrite <- app_assoc in Hr. apply app_inv_head in Hr.
          discriminate.
    - destruct (raw_text_spec (prefix k ++ tag "r") repr) as (o & -> & Ho). cbn [bind].
      destruct o as [s|].
      + eexists. split; [reflexivity|]. destruct (proj1 (Ho s) eq_refl) as [n Hn].
        split.
        2:{ split; [discriminate|]. intros [_ H]. exfalso. apply (H n s). rewrite Hn, <- app_assoc. reflexivity. }
        intro w. split.
        * intros [= <-]. rewrite Hn, <- app_assoc. unfold raw_form. apply den_raw.
        * intro Hd. inversion Hd as [s' v Hc E Ew|m s' E Ew].
          { exfalso. rewrite <- E in Hn. rewrite <- app_assoc in Hn. apply app_inv_head in Hn.
            discriminate. }
          assert (Some s = Some s') as [= ->]; [|reflexivity].
          apply Ho. exists m. rewrite <- E. unfold raw_form. now rewrite <- app_assoc.
      + eexists. split; [reflexivity|]. split.
        2:{ split; [intros _|reflexivity]. split.
            - intros q ->. assert (None = Some q); [|discriminate]. apply Hq. now rewrite <- app_assoc.
            - intros n s ->. assert (None = Some s); [|discriminate]. apply Ho. exists n. unfold raw_form, raw_literal.
              now rewrite <- app_assoc. }
        intro w. split; [discriminate|]. intro Hd.
        inversion Hd as [s' v Hc E Ew|m s' E Ew].
        * assert (None = Some s'); [|discriminate]. apply Hq. now rewrite <- E, <- app_assoc.
        * assert (None = Some s'); [|discriminate]. apply Ho. exists m. unfold raw_form.
          now rewrite <- E, <- app_assoc. }
  destruct k.
  - apply (Hgen _ _ _ [] str_implements). intro v. cbn. now rewrite app_nil_r.
  - apply (Hgen _ _ _ [] byte_implements). intro v. cbn. now rewrite app_nil_r.
  - apply (Hgen _ _ _ [0] c_implements). reflexivity.
Qed.

Lemma value_spec k repr :
  exists r, value_of k repr = Ok r /\ forall w, r = COk w <-> denotes k repr w.
Proof. destruct (value_shape k repr) as (r & H1 & H2 & _). eauto. Qed.
Lemma value_error_kind k repr :
  (value_of k repr = Ok CInvalidKind <->
   (forall q, repr <> prefix k ++ [DQUOTE] ++ q ++ [DQUOTE]) /\ (forall n s, repr <> raw_literal k n s)) /\
  ((exists e, value_of k repr = Ok (CFailed e)) <->
   exists q, repr = prefix k ++ [DQUOTE] ++ q ++ [DQUOTE] /\ forall v, ~ cooked k q v).
Proof.
  destruct (value_shape k repr) as (r & -> & Hv & Hk). split.
  { rewrite <- Hk. split; [now intros [= ->]|now intros ->]. }
  split.
  - intros [e [= ->]]. destruct Hk as [_ Hk].
    destruct (quoted_text_spec (prefix k ++ [DQUOTE]) repr) as (q & _ & Hq). destruct q as [q|].
    + exists q. assert (E := proj1 (Hq q) eq_refl). rewrite <- app_assoc in E. split; [exact E|].
      intros v Hc. assert (CFailed e = COk (finish k v)); [|discriminate]. apply Hv. rewrite E. now apply den_cooked.
    + destruct (raw_text_spec (prefix k ++ tag "r") repr) as (o & _ & Ho). destruct o as [s|].
      * exfalso. destruct (proj1 (Ho s) eq_refl) as [n Hn].
        assert (CFailed e = COk (finish k match k with KStr => s | _ => str_bytes s end)); [|discriminate].
        apply Hv. rewrite Hn, <- app_assoc. unfold raw_form. apply den_raw.
      * exfalso. assert (@CFailed (list N) e = CInvalidKind); [|discriminate]. apply Hk. split.
        -- intros q ->. assert (None = Some q); [|discriminate]. apply Hq. now rewrite <- app_assoc.
        -- intros n s ->. assert (None = Some s); [|discriminate]. apply Ho. exists n. unfold raw_form, raw_literal.
           now rewrite <- app_assoc.
  - intros (q & E & Hn). destruct r as [w|e|].
    + exfalso. assert (Hd := proj1 (Hv w) eq_refl). rewrite E in Hd.
      inversion Hd as [s v Hc E' Ew|n s E' Ew].
      * apply app_inv_head in E'. injection E' as E'. apply app_inv_tail in E'. subst s. eapply Hn; eauto.
      * apply app_inv_head in E'. discriminate.
    + eauto.
    + exfalso. apply (proj1 (proj1 Hk eq_refl) q). exact E.
Qed.

Lemma denotes_fun k repr v w : denotes k repr v -> denotes k repr w -> v = w.
Proof.
  destruct (value_spec k repr) as (r & _ & H). intros Hv Hw.
  apply H in Hv, Hw. congruence.
Qed.

Lemma denotes_first k repr v : denotes k repr v ->
  match k with
  | KStr => exists t, repr = DQUOTE :: t \/ repr = "r"%ch :: t
  | KByte => exists t, repr = "b"%ch :: t
  | KC => exists t, repr = "c"%ch :: t
  end.
Proof.
  intros [s w H|n s]; destruct k; cbn [prefix].
  - exists (s ++ [DQUOTE]). now left.
  - eexists. reflexivity.
  - eexists. reflexivity.
  - eexists. right. reflexivity.
  - eexists. reflexivity.
  - eexists. reflexivity.
Qed.

Lemma denotes_kind k k' repr v w : denotes k repr v -> denotes k' repr w -> k = k'.
Proof.
  intros H H'. apply denotes_first in H, H'.
  destruct k, k'; try reflexivity; destruct H as [t H], H' as [t' H'];
    repeat match goal with H : _ \/ _ |- _ => destruct H end; congruence.
Qed.
