(** * The messages name the mistake. *)
From Coq Require Import Lia.
From Verif Require Import Base BaseFacts Unicode Tokens Lexer Fallback LitNew SourceMap SpecTree SpecLit SpecMap.
From Verif Require Import LitNewFacts LitValueFacts PrintProofs MapFacts MapProofs SpecStale StaleProofs MapCaught.
From Verif Require Import Messages SpecMessages.
Import ListNotations.
Local Open Scope N_scope.

(** ** The constructors *)
Section Constructors.
Context {U : unicode}.

Lemma debug_str_quotes s : valid_str s -> quotes (debug_str s) s.
Proof.
  intros Hs. unfold debug_str. eexists. split; [reflexivity|].
  induction Hs as [|c s Hc Hs IH]; [apply cooked_nil|]. cbn [flat_map].
  destruct (N.eqb_spec c SQUOTE) as [->|Hq].
  { apply (cooked_char KStr SQUOTE); try discriminate. exact IH. }
  destruct (N.eqb_spec c 0) as [->|H0].
  { apply (cooked_escape KStr ["0"%ch] [0]); [|exact IH]. apply esc_zero. discriminate. }
  apply (piece_cooked KStr _ c _ s); [|exact IH]. apply escape_debug_piece; auto. discriminate.
Qed.
Lemma debug_char_denotes c : is_scalar c = true -> char_denotes KStr (debug_char c) c.
Proof. exact (literal_character_denotes c). Qed.

Lemma digits_digits s : forallb is_dec_digit (str_bytes s) = true <-> Forall decimal_digit s.
Proof.
  rewrite str_digit_bytes, forallb_forall, Forall_forall. unfold is_dec_digit, between, decimal_digit.
  split; intros H c Hc; specialize (H c Hc); lia.
Qed.
Lemma validate_says s : valid_str s ->
  match validate_ident_says s with Returns _ => ident_text s | Panics m => ident_complaint s m end.
Proof.
  intros Hs. unfold validate_ident_says. destruct s as [|c t] eqn:E; [now apply empty_complaint|]. rewrite <- E in *.
  assert (N : s <> []) by (now rewrite E). clear E.
  pose proof (digits_digits s) as D. destruct (forallb _ _).
  { apply number_complaint; tauto. }
  pose proof (ident_ok_spec s) as I. destruct (ident_ok s); [tauto|].
  apply other_complaint; auto; [intuition discriminate|intuition discriminate|]. now apply debug_str_quotes.
Qed.
Lemma ident_says s sp : valid_str s ->
  match ident_new_says s sp with Returns t => t = TIdent s false sp /\ ident_text s | Panics m => ident_complaint s m end.
Proof. intros Hs. unfold ident_new_says. pose proof (validate_says s Hs). destruct validate_ident_says; auto. Qed.
Lemma raw_says s sp : valid_str s ->
  match ident_new_raw_says s sp with
  | Returns t => t = TIdent s true sp /\ ident_text s /\ ~ In s never_raw
  | Panics m => raw_complaint s m
  end.
Proof.
  intros Hs. unfold ident_new_raw_says, validate_ident_raw_says. pose proof (validate_says s Hs) as H.
  destruct validate_ident_says; [|now apply as_ident].
  assert (E : existsb (str_eqb s) [tag "_"; tag "super"; tag "self"; tag "Self"; tag "crate"] = true <-> In s never_raw).
  { unfold never_raw. rewrite existsb_exists. split.
    - intros (x & Hx & E). destruct (str_eqb_spec s x); [|discriminate]. now subst.
    - intros Hi. exists s. split; [exact Hi|]. apply str_eqb_refl. }
  destruct (existsb _ _).
  - apply reserved_complaint; tauto.
  - repeat split; auto. intuition discriminate.
Qed.
Lemma punct_says c s : is_scalar c = true ->
  match punct_new_says c s with
  | Returns t => t = TPunct c s call_site /\ In c punct_chars
  | Panics m => punct_complaint c m
  end.
Proof.
  intros Hc. unfold punct_new_says. change punct_new_chars with punct_chars.
  pose proof (contains_In punct_chars c) as H. destruct (contains punct_chars c).
  - split; [reflexivity|tauto].
  - apply unsupported_complaint; [intuition discriminate|]. now apply debug_char_denotes.
Qed.

(** The functions with messages and those without. *)
Lemma validate_agrees s : validate_ident s = match validate_ident_says s with Returns _ => true | Panics _ => false end.
Proof.
  unfold validate_ident, validate_ident_says. destruct s as [|c t]; [reflexivity|]. cbn [negb].
  destruct (forallb is_dec_digit _); cbn [negb andb]; [reflexivity|]. now destruct ident_ok.
Qed.
Lemma ident_agrees s sp : ident_new s sp = match ident_new_says s sp with Returns t => Ok t | Panics _ => Panic end.
Proof. unfold ident_new, ident_new_says. rewrite validate_agrees. now destruct validate_ident_says. Qed.
Lemma raw_agrees s sp : ident_new_raw s sp = match ident_new_raw_says s sp with Returns t => Ok t | Panics _ => Panic end.
Proof.
  unfold ident_new_raw, validate_ident_raw, ident_new_raw_says, validate_ident_raw_says. rewrite validate_agrees.
  destruct validate_ident_says; [|reflexivity]. cbn [andb]. now destruct (existsb _ _).
Qed.
Lemma punct_agrees c s : punct_new c s = match punct_new_says c s with Returns t => Ok t | Panics _ => Panic end.
Proof. unfold punct_new, punct_new_says. now destruct contains. Qed.

(** ** What a message tells *)
Lemma quotes_inj q s t : quotes q s -> quotes q t -> s = t.
Proof.
  intros (b & -> & H) (b' & E & H'). injection E as E. apply app_inj_tail in E as [<- _].
  exact (cooked_functional _ _ _ _ H H').
Qed.
Lemma ident_tells s t m : ident_complaint s m -> ident_complaint t m ->
  s = t \/ Forall decimal_digit s /\ Forall decimal_digit t.
Proof.
  intros H H'. inversion H as [E M|N D M|q N D I Q M]; inversion H' as [E' M'|N' D' M'|q' N' D' I' Q' M'].
  - left. congruence.
  - rewrite <- M in M'. discriminate.
  - exfalso. destruct Q' as (b & -> & _). rewrite <- M in M'. discriminate.
  - rewrite <- M in M'. discriminate.
  - now right.
  - exfalso. destruct Q' as (b & -> & _). rewrite <- M in M'. discriminate.
  - exfalso. destruct Q as (b & -> & _). rewrite <- M in M'. discriminate.
  - exfalso. destruct Q as (b & -> & _). rewrite <- M in M'. discriminate.
  - left. rewrite <- M in M'. apply app_inv_tail in M'. subst q'. exact (quotes_inj q s t Q Q').
Qed.
Lemma reserved_apart s t : ~ ident_complaint t (lit "`r#" ++ s ++ lit "` cannot be a raw identifier").
Proof.
  intros H. inversion H as [E M|N D M|q N D I (b & -> & _) M]; discriminate.
Qed.
Lemma raw_tells s t m : raw_complaint s m -> raw_complaint t m ->
  s = t \/ Forall decimal_digit s /\ Forall decimal_digit t.
Proof.
  intros H H'. inversion H as [m0 C M|I R M]; inversion H' as [m1 C' M'|I' R' M']; subst.
  - now apply (ident_tells s t m).
  - now apply reserved_apart in C.
  - now apply reserved_apart in C'.
  - left. apply app_inv_head in M'. apply app_inv_tail in M'. now symmetry.
Qed.
Lemma char_denotes_inj q c d : char_denotes KStr q c -> char_denotes KStr q d -> c = d.
Proof.
  intros H H'. inversion H as [a B1 B2 B3 B4 B5 B6 E E1|e v He E E1]; inversion H' as [a' B1' B2' B3' B4' B5' B6' E' E1'|e' v' He' E' E1']; subst.
  - injection E' as <-. reflexivity.
  - exfalso. injection E'. intros. congruence.
  - exfalso. injection E'. intros. congruence.
  - injection E' as E'. apply app_inj_tail in E' as [<- _].
    pose proof (cooked_escape KStr _ _ _ _ He (cooked_nil KStr)) as A.
    pose proof (cooked_escape KStr _ _ _ _ He' (cooked_nil KStr)) as A'.
    pose proof (cooked_functional _ _ _ _ A A') as E. now injection E.
Qed.
Lemma punct_tells c d m : punct_complaint c m -> punct_complaint d m -> c = d.
Proof.
  intros H H'. inversion H as [q N D M]. inversion H' as [q' N' D' M']. rewrite <- M in M'. apply app_inv_head in M'. subst q'.
  exact (char_denotes_inj q c d D D').
Qed.
End Constructors.

(** ** The source map *)
Local Close Scope N_scope.
Lemma old_honest {A} (f g : A -> res comparison) xs : (forall x, In x xs -> f x = g x \/ f x = Panic) ->
  forall fuel l r, search_old f xs fuel l r = search_old g xs fuel l r \/ search_old f xs fuel l r = Panic.
Proof.
  intros H. induction fuel as [|fuel IH]; intros l r; [now left|]. cbn [search_old].
  destruct (l <? r); [|now left]. cbv zeta. destruct (nth_error xs _) as [x|] eqn:E; [|now left].
  cbn [unwrap bind]. destruct (H x (nth_error_In _ _ E)) as [->| ->]; [|now right].
  destruct (g x) as [[| |]| | |]; cbn [bind]; auto.
Qed.
Lemma new_honest {A} (f g : A -> res comparison) xs : (forall x, In x xs -> f x = g x \/ f x = Panic) ->
  forall fuel b n, search_new f xs fuel b n = search_new g xs fuel b n \/ search_new f xs fuel b n = Panic.
Proof.
  intros H. induction fuel as [|fuel IH]; intros b n; [now left|]. cbn [search_new].
  destruct (1 <? n); cbv zeta; (destruct (nth_error xs _) as [x|] eqn:E; [|now left]);
    cbn [unwrap bind]; (destruct (H x (nth_error_In _ _ E)) as [->| ->]; [|now right]); destruct (g x) as [[| |]| | |]; cbn [bind]; auto.
Qed.
Lemma std_old_honest : search_honest std_old.
Proof. intros A f g xs H. now apply old_honest. Qed.
Lemma std_new_honest : search_honest std_new.
Proof. intros A f g xs H. cbn [std_new binary_search_by]. destruct xs; [now left|]. now apply new_honest. Qed.

Section Map.
Context {U : unicode} {S : std_search} (HS : search_ok S) (HT : search_strict S) (HH : search_honest S).

Lemma find_agrees m sp : find_says m sp = match find m sp with Ok i => Returns i | _ => find_says m sp end.
Proof using. unfold find_says, find. destruct (binary_search_by _ m) as [[i|i]| | |]; reflexivity. Qed.

Definition side (sp : span) (f : file) : comparison :=
  if (hi (fspan f) <? lo sp)%N then Lt else if (hi sp <? lo (fspan f))%N then Gt else Eq.
Lemma side_sorted ts m sp : files_ok 0 ts m -> (lo sp <= hi sp)%N -> sorted_for (side sp) m.
Proof using.
  intros Hok Hsp i j x y Hij Hx Hy.
  destruct (files_nth 0 ts m i x Hok Hx) as (t & Ht & Hf). destruct (files_nth 0 ts m j y Hok Hy) as (u & Hu & Hg).
  pose proof (start_of_lt ts i j t Ht Hij) as L. unfold side. rewrite (fo_span _ _ _ Hf), (fo_span _ _ _ Hg). cbn [lo hi].
  rewrite !N.add_0_l. destruct (N.ltb_spec (start_of ts i + N.of_nat (length t)) (lo sp)); [cbn; lia|].
  destruct (N.ltb_spec (start_of ts j + N.of_nat (length u)) (lo sp)); [lia|].
  destruct (N.ltb_spec (hi sp) (start_of ts i)), (N.ltb_spec (hi sp) (start_of ts j)); cbn; lia.
Qed.
(** Every text is the place of its span. *)
Lemma whole_place ts m i f : files_ok 0 ts m -> nth_error m i = Some f ->
  exists p, valid_place ts p /\ span_at ts p = fspan f.
Proof using.
  intros Hok Hf. destruct (files_nth 0 ts m i f Hok Hf) as (t & Ht & Hfo).
  exists (mkplace i 0 (length t)). split.
  - exists t. cbn. repeat split; auto; lia.
  - rewrite (fo_span _ _ _ Hfo). unfold span_at. cbn [pfile pfrom pto]. f_equal; lia.
Qed.
Lemma place_file ts m p : files_ok 0 ts m -> valid_place ts p ->
  exists f, nth_error m (pfile p) = Some f /\ (lo (fspan f) <= lo (span_at ts p))%N /\ (hi (span_at ts p) <= hi (fspan f))%N.
Proof using.
  intros Hok (t & Ht & H1 & H2). destruct (files_ok_nth 0 ts m _ t Hok Ht) as (f & Hf & Hfo). exists f. split; [exact Hf|].
  rewrite (fo_span _ _ _ Hfo). unfold span_at. cbn [lo hi]. lia.
Qed.
Lemma find_complaint ts m sp : files_ok 0 ts m -> (lo sp <= hi sp)%N ->
  match find_says m sp with
  | Returns i => exists p, valid_place ts p /\ sp = span_at ts p /\ i = pfile p
  | Panics msg => span_complaint ts sp msg
  end.
Proof using HS HT HH.
  intros Hok Hsp. destruct (find_any HT ts m sp Hok Hsp) as [(p & Hp & ->)|Hf].
  { rewrite find_agrees, (find_ok HS _ _ _ Hok Hp). eauto. }
  assert (Hno : forall p, valid_place ts p -> sp <> span_at ts p).
  { intros p Hp ->. rewrite (find_ok HS _ _ _ Hok Hp) in Hf. discriminate. }
  unfold find in Hf. unfold find_says.
  match type of Hf with context [binary_search_by ?f m] => set (cmp := f) in * end.
  change (binary_search_by _ m) with (binary_search_by cmp m).
  assert (Hcmp : forall x, In x m -> cmp x = Ok (side sp x) \/ cmp x = Panic).
  { intros x _. unfold cmp, side. destruct (_ <? _)%N; [now left|]. destruct (_ <? _)%N; [now left|]. destruct span_within; auto. }
  pose proof (HS _ (fun x => Ok (side sp x)) (side sp) m (fun x _ => eq_refl) (side_sorted ts m sp Hok Hsp)) as G.
  pose proof (HT _ cmp m) as T.
  assert (Hmeet : forall i x, nth_error m i = Some x -> side sp x = Eq ->
    span_complaint ts sp (lit "assertion failed: file.span_within(span)")).
  { intros i x Hx Hs. destruct (whole_place ts m i x Hok Hx) as (p & Hp & E).
    apply (across_complaint ts sp p Hp); [|exact Hno]. rewrite E. unfold side in Hs. unfold meet.
    destruct (N.ltb_spec (hi (fspan x)) (lo sp)); [discriminate|]. destruct (N.ltb_spec (hi sp) (lo (fspan x))); [discriminate|]. lia. }
  destruct (HH _ cmp (fun x => Ok (side sp x)) m Hcmp) as [E|E].
  - rewrite E in *. destruct (binary_search_by _ m) as [[i|i]| | |]; try contradiction; [discriminate Hf|].
    apply nowhere_complaint. intros p Hp M. destruct (place_file ts m p Hok Hp) as (f & Hfi & L & R).
    destruct G as [_ G]. destruct (G _ f Hfi) as [G1 G2]. unfold meet in M. unfold side in G1, G2.
    destruct (N.ltb_spec (hi (fspan f)) (lo sp)); [lia|]. destruct (N.ltb_spec (hi sp) (lo (fspan f))); [lia|].
    destruct (Nat.lt_ge_cases (pfile p) i) as [K|K]; [discriminate (G1 K)|discriminate (G2 K)].
  - rewrite E in T |- *. destruct T as (x & Hx & Ex). apply In_nth_error in Hx as [i Hi]. apply (Hmeet i x Hi).
    unfold cmp in Ex. unfold side. destruct (_ <? _)%N; [discriminate|]. destruct (_ <? _)%N; [discriminate|]. reflexivity.
Qed.
Theorem span_says os st s sp : reached os st s -> (lo sp <= hi sp)%N ->
  match find_says (smap st) sp with
  | Returns i => exists p, valid_place (texts s) p /\ sp = span_at (texts s) p /\ i = pfile p
  | Panics msg => span_complaint (texts s) sp msg
  end.
Proof using HS HT HH.
  intros H Hsp. apply (reached_related HS) in H. exact (find_complaint _ _ _ (rel_files _ _ H) Hsp).
Qed.
(** A query panics if and only if [find] does. *)
Theorem query_says os st s q sp : reached os st s -> (lo sp <= hi sp)%N ->
  snd (ask (smap st) q sp) = Panicked <-> exists msg, find_says (smap st) sp = Panics msg.
Proof using HS HT HH.
  intros H Hsp. pose proof (span_says os st s sp H Hsp) as F.
  destruct (any_span HS HT os st s q sp H Hsp) as [(p & Hp & -> & A)|[N E]].
  - apply (reached_related HS) in H. rewrite find_agrees, (find_ok HS _ _ _ (rel_files _ _ H) Hp). split.
    + intros K. rewrite K in A. destruct q; cbn [answer_at] in A; discriminate.
    + intros (msg & K). discriminate.
  - rewrite E. split; [|reflexivity]. intros _. destruct find_says as [i|msg]; [|eauto].
    destruct F as (p & Hp & Ep & _). exfalso. exact (N p Hp Ep).
Qed.
End Map.
(** The two messages are for different mistakes. *)
Lemma span_tells ts sp m m' : span_complaint ts sp m -> span_complaint ts sp m' -> m = m'.
Proof. intros [H|p H1 H2 H3] [K|p' K1 K2 K3]; try reflexivity; exfalso; eauto. now apply (H p'). now apply (K p). Qed.
