(** * The standard library's functions of the model against their documentation.

    Nothing here is used by the properties: the model and the specifications share the functions
    of [Base] and [Unicode] that stand for the standard library, and this file says that these are
    what their documentation says. *)
From Coq Require Import Lia ZArith Arith.
From Verif Require Import Base BaseFacts Unicode.
Import ListNotations.
Local Open Scope N_scope.

(** ** UTF-8, as in RFC 3629 *)
Definition tail_byte (b x : N) : Prop := b = 0x80 + x /\ x < 64.
Inductive utf8 : char -> list byte -> Prop :=
| utf8_1 c : c < 0x80 -> utf8 c [c]
| utf8_2 x y b : x < 32 -> tail_byte b y -> 0x80 <= x * 64 + y -> utf8 (x * 64 + y) [0xC0 + x; b]
| utf8_3 x y z b1 b2 : x < 16 -> tail_byte b1 y -> tail_byte b2 z -> 0x800 <= (x * 64 + y) * 64 + z ->
    utf8 ((x * 64 + y) * 64 + z) [0xE0 + x; b1; b2]
| utf8_4 x y z w b1 b2 b3 : x < 8 -> tail_byte b1 y -> tail_byte b2 z -> tail_byte b3 w -> 0x10000 <= ((x * 64 + y) * 64 + z) * 64 + w ->
    utf8 (((x * 64 + y) * 64 + z) * 64 + w) [0xF0 + x; b1; b2; b3].

Lemma split64 c : exists x y, c = x * 64 + y /\ y < 64 /\ c / 64 = x /\ c mod 64 = y.
Proof.
  exists (c / 64), (c mod 64). pose proof (N.div_mod c 64 ltac:(lia)). pose proof (N.mod_lt c 64 ltac:(lia)). repeat split; lia.
Qed.
Lemma join64 x y : y < 64 -> (x * 64 + y) / 64 = x /\ (x * 64 + y) mod 64 = y.
Proof.
  intros H. split.
  - symmetry. apply (N.div_unique _ 64 x y); lia.
  - symmetry. apply (N.mod_unique _ 64 x y); lia.
Qed.
Lemma div4096 c : c / 4096 = c / 64 / 64.
Proof. rewrite N.div_div by lia. reflexivity. Qed.
Lemma div262144 c : c / 262144 = c / 64 / 64 / 64.
Proof. rewrite !N.div_div by lia. reflexivity. Qed.
Theorem encode_is_utf8 c bs : is_scalar c = true -> encode_utf8 c = bs <-> utf8 c bs.
Proof.
  intros S. assert (L : c < 0x110000) by (unfold is_scalar in S; lia). split.
  - intros <-. unfold encode_utf8. destruct (c <? 0x80) eqn:E1; [constructor; lia|]. rewrite div4096, div262144.
    destruct (split64 c) as (q & y & EC & Y & -> & ->). destruct (c <? 0x800) eqn:E2.
    { subst c. apply utf8_2; [lia|now split|lia]. }
    destruct (split64 q) as (q' & y' & EQ & Y' & -> & ->). destruct (c <? 0x10000) eqn:E3.
    { subst q. rewrite EC in *. apply utf8_3; try (now split); lia. }
    destruct (split64 q') as (q2 & y2 & EQ2 & Y2 & -> & ->). subst q q'. rewrite EC in *. apply utf8_4; try (now split); lia.
  - unfold encode_utf8. rewrite div4096, div262144.
    intros [d H|x y b H [-> Y] M|x y z b1 b2 H [-> Y] [-> Z] M|x y z w b1 b2 b3 H [-> Y] [-> Z] [-> W] M].
    + destruct (N.ltb_spec d 0x80); [reflexivity|lia].
    + destruct (N.ltb_spec (x * 64 + y) 0x80); [lia|]. destruct (N.ltb_spec (x * 64 + y) 0x800); [|lia]. now destruct (join64 x y Y) as [-> ->].
    + set (v := (x * 64 + y) * 64 + z) in *. destruct (N.ltb_spec v 0x80); [lia|]. destruct (N.ltb_spec v 0x800); [lia|]. destruct (N.ltb_spec v 0x10000); [|lia].
      unfold v. destruct (join64 (x * 64 + y) z Z) as [-> ->]. now destruct (join64 x y Y) as [-> ->].
    + set (v := ((x * 64 + y) * 64 + z) * 64 + w) in *. destruct (N.ltb_spec v 0x80); [lia|]. destruct (N.ltb_spec v 0x800); [lia|]. destruct (N.ltb_spec v 0x10000); [lia|].
      unfold v. destruct (join64 ((x * 64 + y) * 64 + z) w W) as [-> ->]. destruct (join64 (x * 64 + y) z Z) as [-> ->]. now destruct (join64 x y Y) as [-> ->].
Qed.
(** A sequence of bytes encodes one character, and no encoding is the beginning of another. *)
Theorem utf8_prefix_free c d bs t t' : utf8 c bs -> forall bs', utf8 d bs' -> bs ++ t = bs' ++ t' -> c = d /\ bs = bs' /\ t = t'.
Proof.
  intros H bs' H' E.
  destruct H as [c H|x y b H [-> Y] M|x y z b1 b2 H [-> Y] [-> Z] M|x y z w b1 b2 b3 H [-> Y] [-> Z] [-> W] M];
  destruct H' as [d H'|x' y' b' H' [-> Y'] M'|x' y' z' b1' b2' H' [-> Y'] [-> Z'] M'|x' y' z' w' b1' b2' b3' H' [-> Y'] [-> Z'] [-> W'] M'];
  cbn [app] in E; injection E; clear E; intros; try (exfalso; lia); repeat match goal with X : _ = _ :> list N |- _ => revert X end; intros; subst; repeat split; try lia; repeat (f_equal; try lia).
Qed.
Lemma bytes_prefix a : valid_str a -> forall b t, valid_str b -> str_bytes a ++ t = str_bytes b -> exists r, b = a ++ r.
Proof.
  induction 1 as [|c a C _ IH]; intros b t B E; [now exists b|]. rewrite str_bytes_cons, <- app_assoc in E.
  destruct B as [|d b D B]; [exfalso; destruct (encode_nonempty c) as (x & y & X); rewrite X in E; discriminate E|]. rewrite str_bytes_cons in E.
  destruct (utf8_prefix_free c d _ _ _ (proj1 (encode_is_utf8 c _ C) eq_refl) _ (proj1 (encode_is_utf8 d _ D) eq_refl) E) as (-> & _ & E').
  destruct (IH b t B E') as (r & ->). now exists r.
Qed.
(** [str::starts_with] compares bytes. *)
Theorem starts_with_bytes s t : valid_str s -> valid_str t -> starts_with s t = true <-> exists r, str_bytes s = str_bytes t ++ r.
Proof.
  intros S T. rewrite starts_with_spec. split; [intros (r & ->); exists (str_bytes r); apply str_bytes_app|].
  intros (r & E). exact (bytes_prefix t T s r S (eq_sym E)).
Qed.
(** Equal bytes, equal strings. *)
Theorem str_bytes_inj a b : valid_str a -> valid_str b -> str_bytes a = str_bytes b -> a = b.
Proof.
  intros A B E. destruct (bytes_prefix a A b [] B) as (r & ->); [now rewrite app_nil_r|]. rewrite str_bytes_app in E.
  assert (str_bytes r = []) by (apply (app_inv_head (str_bytes a)); now rewrite app_nil_r). apply str_bytes_nil_inv in H. subst r. now rewrite app_nil_r.
Qed.

(** ** [str::is_char_boundary]: the end, or a byte that does not continue a character *)
Definition continuation (b : byte) : Prop := 0x80 <= b <= 0xBF.
Lemma encode_bytes c : is_scalar c = true -> exists b t, encode_utf8 c = b :: t /\ ~ continuation b /\ Forall continuation t.
Proof.
  intros S. pose proof (proj1 (encode_is_utf8 c _ S) eq_refl) as H. destruct H as [d H|x y b H [-> Y] M|x y z b1 b2 H [-> Y] [-> Z] M|x y z w b1 b2 b3 H [-> Y] [-> Z] [-> W] M];
    eexists _, _; (split; [reflexivity|]); (split; [unfold continuation; lia|repeat constructor; lia]).
Qed.
Theorem boundary_bytes s : valid_str s -> forall n, is_char_boundary s n = true <->
  n = length (str_bytes s) \/ exists b, nth_error (str_bytes s) n = Some b /\ ~ continuation b.
Proof.
  unfold is_char_boundary. induction 1 as [|c s C _ IH]; intros n.
  - destruct n as [|n]; [split; [now left|reflexivity]|]. cbn. split; [discriminate|]. intros [E|(b & E & _)]; discriminate E.
  - rewrite str_bytes_cons, app_length. destruct (encode_bytes c C) as (b & t & E & NB & T). pose proof (length_encode c) as LE. rewrite E in LE. cbn [length] in LE.
    destruct n as [|n]; [split; [intros _; right; exists b; rewrite E; now split|reflexivity]|].
    change (split_at (c :: s) (S n)) with (if (len_utf8 c <=? S n)%nat then match split_at s (S n - len_utf8 c) with Some (a, b) => Some (c :: a, b) | None => None end else None).
    destruct (Nat.leb_spec (len_utf8 c) (S n)) as [L|L].
    + specialize (IH (S n - len_utf8 c)%nat). rewrite nth_error_app2 by (rewrite length_encode; lia). rewrite (length_encode c).
      transitivity (match split_at s (S n - len_utf8 c) with Some _ => true | None => false end = true); [destruct (split_at s (S n - len_utf8 c)) as [[? ?]|]; reflexivity|].
      rewrite IH. split; (intros [K|K]; [left; lia|right; exact K]).
    + split; [discriminate|]. rewrite E. cbn [app length]. intros [K|(b' & K & NB')]; [lia|]. exfalso. cbn [nth_error] in K.
      rewrite nth_error_app1 in K by lia. apply NB'. apply nth_error_In in K. now apply (proj1 (Forall_forall _ _) T).
Qed.

(** ** [char::escape_unicode]: hexadecimal without leading zeros *)
Definition hex_number (s : str) : N := fold_left (fun v c => v * 16 + hex_value c) s 0.
Lemma hex_fold s : forall v, fold_left (fun v c => v * 16 + hex_value c) s v = v * 16 ^ N.of_nat (length s) + hex_number s.
Proof.
  unfold hex_number. induction s as [|c s IH]; intros v; [cbn; lia|]. cbn [fold_left length]. rewrite IH, (IH (0 * 16 + hex_value c)).
  replace (N.of_nat (S (length s))) with (N.succ (N.of_nat (length s))) by lia. rewrite N.pow_succ_r'. lia.
Qed.
Lemma hex_lower d : d < 16 -> hex_value (hex_digit_lower d) = d /\ is_hex_digit (hex_digit_lower d) = true /\ (hex_digit_lower d = "0"%ch -> d = 0).
Proof.
  intros H. unfold hex_value, hex_digit_lower, is_hex_digit, between. destruct (N.ltb_spec d 10);
    repeat match goal with |- context [?a <=? ?b] => destruct (N.leb_spec a b) end; cbn [andb orb]; repeat split; lia.
Qed.
Lemma hex_aux f : forall v acc, v < 16 ^ N.of_nat (S f) -> exists ds, hex_digits_aux (S f) v acc = ds ++ acc /\ hex_number ds = v /\
  Forall (fun c => is_hex_digit c = true) ds /\ (forall t, ds = "0"%ch :: t -> t = []).
Proof.
  induction f as [|f IH]; intros v acc B; pose proof (N.mod_lt v 16 ltac:(lia)) as ML; pose proof (N.div_mod v 16 ltac:(lia)) as DM; destruct (hex_lower _ ML) as (HV & HD & H0).
  - change (16 ^ N.of_nat 1) with 16 in B. assert (Q : v / 16 = 0) by (now apply N.div_small). change (hex_digits_aux 1 v acc) with (if v / 16 =? 0 then hex_digit_lower (v mod 16) :: acc else hex_digits_aux 0 (v / 16) (hex_digit_lower (v mod 16) :: acc)).
    rewrite Q. cbn [N.eqb]. exists [hex_digit_lower (v mod 16)]. split; [reflexivity|]. split; [unfold hex_number; cbn [fold_left]; rewrite HV; lia|]. split; [now repeat constructor|]. intros t E. now injection E as _ <-.
  - change (hex_digits_aux (S (S f)) v acc) with (if v / 16 =? 0 then hex_digit_lower (v mod 16) :: acc else hex_digits_aux (S f) (v / 16) (hex_digit_lower (v mod 16) :: acc)).
    destruct (N.eqb_spec (v / 16) 0) as [Q|Q].
    + exists [hex_digit_lower (v mod 16)]. split; [reflexivity|]. split; [unfold hex_number; cbn [fold_left]; rewrite HV; lia|]. split; [now repeat constructor|]. intros t E. now injection E as _ <-.
    + destruct (IH (v / 16) (hex_digit_lower (v mod 16) :: acc)) as (ds & E & N & F & Z).
      { apply N.div_lt_upper_bound; [lia|]. rewrite <- N.pow_succ_r'. replace (N.succ (N.of_nat (S f))) with (N.of_nat (S (S f))) by lia. exact B. }
      exists (ds ++ [hex_digit_lower (v mod 16)]). split; [rewrite E, <- app_assoc; reflexivity|]. split.
      { unfold hex_number in *. rewrite fold_left_app, N. cbn [fold_left]. rewrite HV. lia. }
      split; [apply Forall_app; split; [exact F|now repeat constructor]|]. intros t E2. destruct ds as [|c ds].
      * exfalso. apply Q. rewrite <- N. reflexivity.
      * injection E2 as -> E2. exfalso. apply Q. rewrite <- N. rewrite (Z ds eq_refl). reflexivity.
Qed.
Theorem escape_unicode_spec c : is_scalar c = true -> exists ds, escape_unicode c = tag "\u{" ++ ds ++ tag "}" /\ hex_number ds = c /\
  ds <> [] /\ Forall (fun c => is_hex_digit c = true) ds /\ (forall t, ds = "0"%ch :: t -> t = []).
Proof.
  intros S. destruct (hex_aux 5 c []) as (ds & E & N & F & Z).
  { change (16 ^ N.of_nat 6) with 0x1000000. unfold is_scalar in S. lia. }
  rewrite app_nil_r in E. exists ds. unfold escape_unicode, hex_digits. rewrite E. split; [reflexivity|]. split; [exact N|]. split; [|now split].
  intros ->. change (hex_digits_aux 6 c []) with (if c / 16 =? 0 then [hex_digit_lower (c mod 16)] else hex_digits_aux 5 (c / 16) [hex_digit_lower (c mod 16)]) in E.
  destruct (c / 16 =? 0); [discriminate E|]. assert (K : forall f v acc, acc <> [] -> hex_digits_aux f v acc <> []).
  { clear. induction f as [|f IH]; intros v acc A; cbn; [exact A|]. destruct (v / 16 =? 0); [discriminate|]. apply IH. discriminate. }
  apply (K 5%nat (c / 16) [hex_digit_lower (c mod 16)]) in E; [contradiction|discriminate].
Qed.
