(** * Numbers: the lexer follows the grammar.  Not a model of code. *)
From Verif Require Import Base BaseFacts Unicode Tokens Lexer PureLexer.
From Verif Require Import LexerEquiv LexerEquiv2 LexerEquiv3 LexerEquiv4 Grammar Stable Trivia.
From Verif Require Import SpecText Comments Fallback SpecTree Spans EscaperFacts LitValueFacts.
From Verif Require Import SpecLit LexCooked SpecGrammar.
From Verif Require Import SpecLex.
Local Open Scope N_scope.

Lemma take_run (P : char -> bool) s :
  exists m r, s = m ++ r /\ Forall (fun c => P c = true) m /\
    (r = [] \/ exists c t, r = c :: t /\ P c = false).
Proof.
  induction s as [|c t (m & r & -> & Hm & Hr)]; [exists [], []; auto|].
  destruct (P c) eqn:E.
  - exists (c :: m), r. split; [reflexivity|]. split; [constructor; auto|exact Hr].
  - exists [], (c :: m ++ r). split; [reflexivity|]. split; [constructor|]. right. eauto.
Qed.

Definition dou (c : char) : bool := is_dec_digit c || (c =? "_"%ch).
Lemma dou_spec c : dou c = true <-> digit_or_underscore c.
Proof. unfold dou, digit_or_underscore, dec_digit, is_dec_digit, between. lia. Qed.
Lemma digit_is c : is_dec_digit c = true <-> dec_digit c.
Proof. unfold dec_digit, is_dec_digit, between. lia. Qed.
Lemma Forall_dou m : Forall digit_or_underscore m <-> Forall (fun c => dou c = true) m.
Proof. split; apply Forall_impl; intro c; apply dou_spec. Qed.

Definition radix_base (b : N) : Prop := b = 16 \/ b = 8 \/ b = 2.

Section WithUnicode.
Context {U : unicode} (UO : unicode_ok U).

Lemma start_char_spec c : is_ident_start c = true <-> start_char c.
Proof using. unfold is_ident_start, start_char. lia. Qed.
Lemma start_char_false c : is_ident_start c = false <-> ~ start_char c.
Proof using. rewrite <- start_char_spec. destruct (is_ident_start c); intuition congruence. Qed.
Lemma word_end_break r : word_end r <-> p_word_break r = Some r.
Proof using.
  unfold word_end, p_word_break, is_ident_continue. destruct r as [|c t].
  - split; [reflexivity|discriminate].
  - split.
    + intro H. now rewrite (H c t eq_refl).
    + intros H c' t' E. injection E as <- _. destruct (is_xid_continue c); [discriminate|reflexivity].
Qed.
Lemma word_end_head r : word_end r <-> head_cont r = false.
Proof using.
  unfold word_end, head_cont. destruct r as [|c t]; [split; [reflexivity|discriminate]|].
  split; [intro H; now apply (H c t)|]. intros H c' t' E. now injection E as <- _.
Qed.
Lemma word_break_same s r : p_word_break s = Some r -> s = r.
Proof using. unfold p_word_break. destruct s as [|c t]; [congruence|]. destruct (is_ident_continue c); congruence. Qed.

Lemma p_continue_word t r : Forall (fun c => is_xid_continue c = true) t -> word_end r ->
  p_continue (t ++ r) = (r, t).
Proof using.
  intros H Hr. induction H as [|c t Hc Ht IH]; cbn [app p_continue].
  - destruct r as [|c u]; [reflexivity|]. cbn [p_continue]. unfold is_ident_continue. now rewrite (Hr c u eq_refl).
  - unfold is_ident_continue. rewrite Hc, IH. reflexivity.
Qed.
Lemma p_ident_not_raw_word s r : ident_text s -> word_end r -> p_ident_not_raw (s ++ r) = Some (r, s).
Proof using.
  intros (c & t & -> & Hc & Ht) Hr. cbn [app p_ident_not_raw].
  rewrite (proj2 (start_char_spec c) Hc), p_continue_word by assumption. reflexivity.
Qed.
Lemma p_ident_not_raw_iff s r x : p_ident_not_raw s = Some (r, x) <-> s = x ++ r /\ ident_text x /\ word_end r.
Proof using.
  split.
  - intro H. split; [now apply LexerEquiv2.p_ident_not_raw_app|]. apply p_ident_not_raw_shape in H as [H1 H2].
    split; [exact H1|]. now apply word_end_head.
  - intros (-> & H1 & H2). now apply p_ident_not_raw_word.
Qed.
Lemma p_suffix_word s r : ident_text s -> word_end r -> p_suffix (s ++ r) = r.
Proof using. intros H Hr. unfold p_suffix. now rewrite p_ident_not_raw_word. Qed.
Lemma p_suffix_none r : no_word r -> p_suffix r = r.
Proof using.
  intro H. unfold p_suffix. destruct r as [|c t]; [reflexivity|]. cbn [p_ident_not_raw].
  assert (is_ident_start c = false) as ->; [|reflexivity]. apply start_char_false. now apply (H c t).
Qed.
Lemma p_suffix_inv s r : p_suffix s = r ->
  (s = r /\ no_word r) \/ exists x, s = x ++ r /\ ident_text x /\ word_end r.
Proof using.
  unfold p_suffix. destruct (p_ident_not_raw s) as [[r' x]|] eqn:E; intros <-.
  - right. exists x. now apply p_ident_not_raw_iff.
  - left. split; [reflexivity|]. intros c t ->. cbn [p_ident_not_raw] in E.
    apply start_char_false. destruct (is_ident_start c); [|reflexivity].
    destruct (p_continue t). discriminate.
Qed.
Lemma no_word_end r : word_end r -> no_word r.
Proof using UO.
  intros H c t E Hc. apply start_char_spec in Hc. apply (ident_start_continue UO) in Hc.
  unfold is_ident_continue in Hc. rewrite (H c t E) in Hc. discriminate.
Qed.
Lemma start_not_digit c : start_char c -> is_dec_digit c = false.
Proof using UO.
  intro H. apply start_char_spec in H. destruct (is_dec_digit c) eqn:E; [|reflexivity].
  assert (Hc : c < 128) by (unfold is_dec_digit, between in E; lia).
  rewrite (ident_start_ascii UO) in H by exact Hc. unfold ascii_letter, is_dec_digit, between in *. lia.
Qed.
Lemma word_end_dou r : word_end r -> forall c t, r = c :: t -> dou c = false.
Proof using UO.
  intros H c t E. apply H in E. destruct (dou c) eqn:Ed; [|reflexivity].
  assert (Hc : c < 128) by (unfold dou, is_dec_digit, between in Ed; lia).
  rewrite (xid_continue_ascii _ UO) in E by exact Hc. unfold dou, is_dec_digit, between in *. lia.
Qed.

(** The rest of a number: a suffix and the end of the word. *)
Lemma number_tail_iff s r : (forall c t, s = c :: t -> dou c = false) ->
  p_number_tail s = Some r <-> exists x, s = x ++ r /\ number_suffix x /\ word_end r.
Proof using UO.
  intro Hs. unfold p_number_tail. split.
  - destruct s as [|c t].
    { intros [= <-]. exists []. split; [reflexivity|]. split; [now left|]. intros c t; discriminate. }
    destruct (is_ident_start c) eqn:E.
    + intro H. pose proof (word_break_same _ _ H) as E'. rewrite E' in H. apply word_end_break in H.
      apply p_suffix_inv in E' as [[E' Hn]|(x & Ex & Hx & Hr)].
      { exfalso. apply (Hn c t); [now symmetry|now apply start_char_spec]. }
      exists x. split; [exact Ex|]. split; [|exact Hr]. right. split; [exact Hx|].
      intros [y ->]. cbn [app] in Ex. injection Ex as -> ->. specialize (Hs _ _ eq_refl). discriminate.
    + intro H. pose proof (word_break_same _ _ H) as <-. apply word_end_break in H.
      exists []. split; [reflexivity|]. split; [now left|exact H].
  - intros (x & -> & [->|[Hx Hu]] & Hr).
    + cbn [app]. destruct r as [|c t]; [reflexivity|].
      pose proof (no_word_end _ Hr c t eq_refl) as Hc. apply start_char_false in Hc. rewrite Hc.
      now apply word_end_break.
    + destruct Hx as (c & t & -> & Hc & Ht). cbn [app].
      rewrite (proj2 (start_char_spec c) Hc).
      change (c :: t ++ r) with ((c :: t) ++ r). rewrite p_suffix_word; [|exists c, t; auto|exact Hr].
      now apply word_end_break.
Qed.
(** A suffix or the end of a word does not continue a run of digits. *)
Lemma suffix_stops x r : number_suffix x -> word_end r -> forall c t, x ++ r = c :: t -> dou c = false.
Proof using UO.
  intros [->|[(d & u & -> & Hd & Hu) Hn]] Hr c t E.
  - now apply (word_end_dou r Hr c t).
  - cbn [app] in E. injection E as -> _. unfold dou. rewrite (start_not_digit c Hd).
    destruct (N.eqb_spec c "_"%ch) as [->|]; [|reflexivity]. elim Hn. exists u. reflexivity.
Qed.

(** *** Mantissa *)
Lemma p_mantissa_run m s hd : Forall (fun c => dou c = true) m -> p_mantissa (m ++ s) hd = p_mantissa s hd.
Proof using. induction 1 as [|c m Hc Hm IH]; [reflexivity|]. cbn [app p_mantissa]. unfold dou in Hc. now rewrite Hc. Qed.
Lemma p_mantissa_end_run m s hd : Forall (fun c => dou c = true) m -> p_mantissa_end (m ++ s) hd = p_mantissa_end s hd.
Proof using. induction 1 as [|c m Hc Hm IH]; [reflexivity|]. cbn [app p_mantissa_end]. unfold dou in Hc. now rewrite Hc. Qed.
Lemma p_mantissa_end_stop s : (forall c t, s = c :: t -> dou c = false) -> p_mantissa_end s true = s.
Proof using.
  destruct s as [|c t]; [reflexivity|]. intro H. specialize (H _ _ eq_refl). cbn [p_mantissa_end]. unfold dou in H.
  rewrite H. now destruct (c =? "."%ch).
Qed.

(** *** Exponent *)
Lemma p_exponent_run m s b : Forall (fun c => dou c = true) m -> p_exponent (m ++ s) b true = p_exponent s b true.
Proof using.
  induction 1 as [|c m Hc Hm IH]; [reflexivity|]. cbn [app p_exponent]. unfold dou in Hc.
  assert ((c =? "+"%ch) || (c =? "-"%ch) = false) as -> by (unfold is_dec_digit, between in Hc; lia).
  destruct (is_dec_digit c); [exact IH|]. cbn [orb] in Hc. now rewrite Hc.
Qed.
Lemma p_exponent_stop s b : (forall c t, s = c :: t -> dou c = false) -> p_exponent s b true = Some s.
Proof using.
  destruct s as [|c t]; [reflexivity|]. intro H. specialize (H _ _ eq_refl). cbn [p_exponent]. unfold dou in H.
  apply orb_false_iff in H as [-> ->]. now destruct (_ || _).
Qed.
Lemma p_exponent_under u s b : Forall (fun c => c = "_"%ch) u -> p_exponent (u ++ s) b false = p_exponent s b false.
Proof using. induction 1 as [|c u -> Hu IH]; [reflexivity|]. exact IH. Qed.
Lemma p_exponent_digits ds s b : dec_text ds -> p_exponent (ds ++ s) b false = p_exponent s b true.
Proof using.
  intros (c & t & -> & Hc & Ht). cbn [app p_exponent].
  assert ((c =? "+"%ch) || (c =? "-"%ch) = false) as -> by (unfold dec_digit in Hc; lia).
  rewrite (proj2 (digit_is c) Hc). apply p_exponent_run. now apply Forall_dou.
Qed.
Lemma p_exponent_text e s : exponent_text e -> p_exponent (e ++ s) false false = p_exponent s (existsb (fun c => (c =? "+"%ch) || (c =? "-"%ch)) e) true.
Proof using.
  intros (u & sg & u' & ds & -> & Hu & Hsg & Hu' & Hds). rewrite <- !app_assoc, p_exponent_under by exact Hu.
  assert (Hn : forall l, Forall (fun c => c = "_"%ch) l -> existsb (fun c => (c =? "+"%ch) || (c =? "-"%ch)) l = false).
  { induction 1 as [|c l -> Hl IH]; [reflexivity|]. exact IH. }
  assert (Hd : existsb (fun c => (c =? "+"%ch) || (c =? "-"%ch)) ds = false).
  { destruct Hds as (c & t & -> & Hc & Ht). cbn [existsb].
    assert ((c =? "+"%ch) || (c =? "-"%ch) = false) as -> by (unfold dec_digit in Hc; lia). cbn [orb].
    induction Ht as [|d t Hd Ht IH]; [reflexivity|]. cbn [existsb]. rewrite IH.
    unfold digit_or_underscore, dec_digit in Hd. lia. }
  rewrite !existsb_app, (Hn u Hu), (Hn u' Hu'), Hd.
  destruct Hsg as [->|[->| ->]].
  - cbn [app]. now rewrite p_exponent_under, p_exponent_digits by assumption.
  - cbn [app]. change (p_exponent ("+"%ch :: u' ++ ds ++ s) false false) with (p_exponent (u' ++ ds ++ s) true false).
    now rewrite p_exponent_under, p_exponent_digits by assumption.
  - cbn [app]. change (p_exponent ("-"%ch :: u' ++ ds ++ s) false false) with (p_exponent (u' ++ ds ++ s) true false).
    now rewrite p_exponent_under, p_exponent_digits by assumption.
Qed.
(** Soundness of the loop from each state. *)
Lemma p_exponent_value s : forall b r, p_exponent s b true = Some r ->
  exists m, s = m ++ r /\ Forall (fun c => dou c = true) m /\ (forall c t, r = c :: t -> dou c = false).
Proof using.
  induction s as [|c t IH]; intros b r; cbn [p_exponent].
  - intros [= <-]. exists []. repeat split; [constructor|discriminate].
  - destruct ((c =? "+"%ch) || (c =? "-"%ch)) eqn:E1.
    { intros [= <-]. exists []. repeat split; [constructor|]. intros c' t' [= <- <-]. unfold dou, is_dec_digit, between. lia. }
    destruct (is_dec_digit c) eqn:E2.
    { intro H. apply IH in H as (m & -> & Hm & Hr). exists (c :: m). repeat split; auto. constructor; [unfold dou; now rewrite E2|exact Hm]. }
    destruct (c =? "_"%ch) eqn:E3.
    { intro H. apply IH in H as (m & -> & Hm & Hr). exists (c :: m). repeat split; auto. constructor; [unfold dou; now rewrite E2, E3|exact Hm]. }
    intros [= <-]. exists []. repeat split; [constructor|]. intros c' t' [= <- <-]. unfold dou. now rewrite E2, E3.
Qed.
Lemma p_exponent_signed s : forall r, p_exponent s true false = Some r ->
  exists u ds, s = u ++ ds ++ r /\ Forall (fun c => c = "_"%ch) u /\ dec_text ds /\ (forall c t, r = c :: t -> dou c = false).
Proof using.
  induction s as [|c t IH]; intros r; cbn [p_exponent]; [discriminate|].
  destruct ((c =? "+"%ch) || (c =? "-"%ch)) eqn:E1; [discriminate|].
  destruct (is_dec_digit c) eqn:E2.
  - intro H. apply p_exponent_value in H as (m & -> & Hm & Hr). exists [], (c :: m). repeat split; auto.
    exists c, m. repeat split; [now apply digit_is|now apply digit_is|now apply Forall_dou].
  - destruct (N.eqb_spec c "_"%ch) as [->|]; [|discriminate]. intro H. apply IH in H as (u & ds & -> & Hu & Hd & Hr).
    exists ("_"%ch :: u), ds. repeat split; auto.
Qed.
Lemma p_exponent_sound s : forall r, p_exponent s false false = Some r ->
  exists e, s = e ++ r /\ exponent_text e /\ (forall c t, r = c :: t -> dou c = false).
Proof using.
  induction s as [|c t IH]; intros r; cbn [p_exponent]; [discriminate|].
  destruct ((c =? "+"%ch) || (c =? "-"%ch)) eqn:E1.
  - intro H. apply p_exponent_signed in H as (u & ds & -> & Hu & Hd & Hr).
    exists (c :: u ++ ds). split; [cbn; now rewrite <- app_assoc|]. split; [|exact Hr].
    exists [], [c], u, ds. repeat split; auto.
    right. apply orb_true_iff in E1 as [E|E]; apply N.eqb_eq in E as ->; auto.
  - destruct (is_dec_digit c) eqn:E2.
    + intro H. apply p_exponent_value in H as (m & -> & Hm & Hr). exists (c :: m). split; [reflexivity|]. split; [|exact Hr].
      exists [], [], [], (c :: m). repeat split; auto.
      exists c, m. repeat split; [now apply digit_is|now apply digit_is|now apply Forall_dou].
    + destruct (N.eqb_spec c "_"%ch) as [->|]; [|discriminate]. intro H. apply IH in H as (e & -> & He & Hr).
      exists ("_"%ch :: e). split; [reflexivity|]. split; [|exact Hr].
      destruct He as (u & sg & u' & ds & -> & Hu & Hs & Hu' & Hd).
      exists ("_"%ch :: u), sg, u', ds. repeat split; auto.
Qed.
Lemma p_exponent_none s : p_exponent s false false = None -> ~ exists e y, s = e ++ y /\ exponent_text e.
Proof using.
  intros H (e & y & -> & He). rewrite p_exponent_text in H by exact He.
  revert H. generalize (existsb (fun c => (c =? "+"%ch) || (c =? "-"%ch)) e). clear. intro b.
  induction y as [|c t IH]; cbn [p_exponent]; [discriminate|].
  destruct (_ || _); [discriminate|]. destruct (is_dec_digit c); [exact IH|]. destruct (c =? "_"%ch); [exact IH|discriminate].
Qed.

(** *** Floats *)
Lemma dec_text_split s c t : s = c :: t -> is_dec_digit c = true ->
  exists m r, s = m ++ r /\ dec_text m /\ (forall c t, r = c :: t -> dou c = false).
Proof using.
  intros -> Hc. destruct (take_run dou t) as (m & r & -> & Hm & Hr). exists (c :: m), r. split; [reflexivity|]. split.
  - exists c, m. split; [reflexivity|]. split; [now apply digit_is|now apply Forall_dou].
  - destruct Hr as [->|(c' & t' & -> & Hc')]; [discriminate|]. now intros ? ? [= <- <-].
Qed.
Lemma p_float_digits_dec d s : dec_text d -> p_float_digits (d ++ s) =
  match p_mantissa s false with
  | None => None
  | Some (has_dot, has_exp, r) =>
      if negb (has_dot || has_exp) then None
      else if has_exp then
        match p_exponent r false false with
        | None => if has_dot then Some (p_mantissa_end s false) else None
        | Some r => Some r
        end
      else Some r
  end.
Proof using.
  intros (c & t & -> & Hc & Ht). cbn [app p_float_digits]. rewrite (proj2 (digit_is c) Hc).
  apply Forall_dou in Ht. now rewrite p_mantissa_run, p_mantissa_end_run by exact Ht.
Qed.

Lemma p_float_complete t r : float_at t r -> p_float (t ++ r) = Some r.
Proof using UO.
  intros [d r' Hd Hr Hdot|d f s r' Hd Hf Hs Hr Hno|d f m e s r' Hd Hf Hm He Hs Hr]; clear t r; unfold p_float;
    rewrite <- ?app_assoc, p_float_digits_dec by exact Hd.
  - assert (E : p_mantissa (tag "." ++ r') false = Some (true, false, r')).
    { cbn [app p_mantissa]. change (is_dec_digit "."%ch || ("."%ch =? "_"%ch)) with false.
      change ("."%ch =? "."%ch) with true. cbn iota.
      assert (E : p_mantissa r' true = Some (true, false, r')).
      { destruct r' as [|c t]; [reflexivity|]. cbn [p_mantissa].
        pose proof (word_end_dou _ Hr c t eq_refl) as E. unfold dou in E. rewrite E.
        destruct (c =? "."%ch); [reflexivity|].
        destruct ((c =? "e"%ch) || (c =? "E"%ch)) eqn:Ee; [|reflexivity]. exfalso. specialize (Hr c t eq_refl).
        rewrite (xid_continue_ascii _ UO) in Hr by lia. unfold ascii_letter, between in Hr. lia. }
      destruct r' as [|c t]; [exact E|].
      assert (c =? "."%ch = false) as ->.
      { apply N.eqb_neq. intros ->. apply Hdot. exists t. reflexivity. }
      rewrite (proj2 (start_char_false c)) by (now apply (no_word_end _ Hr c t)). exact E. }
    rewrite E. cbn [orb negb obind]. apply number_tail_iff; [now apply word_end_dou|].
    exists []. repeat split; auto. now left.
  - assert (Hstop := suffix_stops s r' Hs Hr).
    destruct Hf as (c & f' & -> & Hc & Hf). assert (Hf' := proj1 (Forall_dou _) Hf).
    assert (Hc' := proj2 (digit_is c) Hc).
    assert (E : p_mantissa (tag "." ++ (c :: f') ++ s ++ r') false = p_mantissa (s ++ r') true).
    { cbn [app p_mantissa]. change (is_dec_digit "."%ch || ("."%ch =? "_"%ch)) with false.
      change ("."%ch =? "."%ch) with true. cbn iota.
      assert (is_ident_start c = false) as ->.
      { destruct (is_ident_start c) eqn:E; [|reflexivity]. apply start_char_spec in E. apply start_not_digit in E. congruence. }
      assert (c =? "."%ch = false) as -> by (unfold dec_digit in Hc; lia). cbn [orb].
      rewrite Hc'. cbn [orb]. now apply p_mantissa_run. }
    assert (E' : p_mantissa_end (tag "." ++ (c :: f') ++ s ++ r') false = s ++ r').
    { cbn [app p_mantissa_end]. change (is_dec_digit "."%ch || ("."%ch =? "_"%ch)) with false.
      change ("."%ch =? "."%ch) with true. cbn iota. rewrite Hc'. cbn [orb].
      rewrite p_mantissa_end_run by exact Hf'. now apply p_mantissa_end_stop. }
    rewrite E, E'.
    assert (Htail : p_number_tail (s ++ r') = Some r') by (apply number_tail_iff; eauto).
    destruct (s ++ r') as [|a u] eqn:Es.
    { cbn [p_mantissa orb negb obind]. exact Htail. }
    cbn [p_mantissa]. pose proof (Hstop a u eq_refl) as Ha. unfold dou in Ha. rewrite Ha.
    destruct (a =? "."%ch) eqn:Ed; [exact Htail|].
    destruct ((a =? "e"%ch) || (a =? "E"%ch)) eqn:Ee; [|exact Htail]. cbn [orb negb].
    assert (Hnone : p_exponent u false false = None).
    { destruct (p_exponent u false false) as [y|] eqn:Ey; [exfalso|reflexivity].
      apply p_exponent_sound in Ey as (e & -> & He & _).
      destruct s as [|a' s'].
      - cbn [app] in Es. subst r'. specialize (Hr _ _ eq_refl). rewrite (xid_continue_ascii _ UO) in Hr by lia.
        unfold ascii_letter, between in Hr. lia.
      - cbn [app] in Es. injection Es as -> Es. apply (Hno [a] s'); [|reflexivity|eauto].
        unfold exponent_letter. apply orb_true_iff in Ee as [Ee|Ee]; apply N.eqb_eq in Ee as ->; auto. }
    rewrite Hnone. cbn [obind]. exact Htail.
  - assert (Hstop := suffix_stops s r' Hs Hr).
    assert (Em : forall hd, p_mantissa (m ++ e ++ s ++ r') hd = Some (hd, true, e ++ s ++ r')).
    { intro hd. destruct Hm as [-> | ->]; reflexivity. }
    assert (Ef : p_mantissa (f ++ m ++ e ++ s ++ r') false = Some (match f with [] => false | _ => true end, true, e ++ s ++ r')).
    { destruct Hf as [->|(f' & -> & Hf)]; [apply Em|].
      destruct Hf as (c & f'' & -> & Hc & Hf). assert (Hf' := proj1 (Forall_dou _) Hf).
      assert (Hc' := proj2 (digit_is c) Hc).
      cbn [app p_mantissa]. change (is_dec_digit "."%ch || ("."%ch =? "_"%ch)) with false.
      change ("."%ch =? "."%ch) with true. cbn iota.
      assert (is_ident_start c = false) as ->.
      { destruct (is_ident_start c) eqn:E; [|reflexivity]. apply start_char_spec in E. apply start_not_digit in E. congruence. }
      assert (c =? "."%ch = false) as -> by (unfold dec_digit in Hc; lia). cbn [orb].
      rewrite Hc'. cbn [orb]. rewrite p_mantissa_run by exact Hf'. apply Em. }
    rewrite Ef, orb_true_r. cbn [negb]. rewrite p_exponent_text by exact He.
    rewrite p_exponent_stop by exact Hstop. cbn [obind]. apply number_tail_iff; eauto.
Qed.

Lemma p_float_sound s r : p_float s = Some r -> exists t, s = t ++ r /\ float_at t r.
Proof using UO.
  intro H. pose proof (p_float_first _ _ H) as (c & t & E & Hc).
  destruct (dec_text_split s c t E Hc) as (d & s' & -> & Hd & Hs'). clear c t E Hc.
  unfold p_float in H. rewrite p_float_digits_dec in H by exact Hd.
  destruct s' as [|c t]; [discriminate|]. pose proof (Hs' c t eq_refl) as Hc. cbn [p_mantissa p_mantissa_end] in H.
  unfold dou in Hc. rewrite Hc in H.
  destruct (N.eqb_spec c "."%ch) as [->|Hdot].
  - (* a point *)
    destruct t as [|c2 t2].
    { cbn [p_mantissa orb negb obind] in H. injection H as <-. exists (d ++ tag "."). split; [now rewrite <- app_assoc|].
      apply float_point; [exact Hd|discriminate|]. intros [x Hx]; discriminate. }
    destruct ((c2 =? "."%ch) || is_ident_start c2) eqn:E2; [discriminate|].
    apply orb_false_iff in E2 as [E2 E3].
    destruct (is_dec_digit c2) eqn:E4.
    + (* a fraction *)
      destruct (dec_text_split (c2 :: t2) c2 t2 eq_refl E4) as (f & s & E & Hf & Hs). rewrite E in *. clear E E4 E3 E2 c2 t2.
      assert (Hfd : Forall (fun c => dou c = true) f).
      { destruct Hf as (c & t & -> & H1 & H2). constructor; [apply dou_spec; now left|now apply Forall_dou]. }
      rewrite p_mantissa_run, p_mantissa_end_run in H by exact Hfd.
      rewrite p_mantissa_end_stop in H by exact Hs.
      assert (Hfrac : forall r, p_number_tail s = Some r ->
        (forall a u, s = a :: u -> (a =? "e"%ch) || (a =? "E"%ch) = true -> p_exponent u false false = None) ->
        exists t, d ++ "."%ch :: f ++ s = t ++ r /\ float_at t r).
      { intros r0 Ht Hno. apply number_tail_iff in Ht as (x & -> & Hx & Hr); [|exact Hs].
        exists (d ++ tag "." ++ f ++ x). split; [now rewrite <- !app_assoc|]. apply float_fraction; auto.
        intros m y Hm -> Hex. destruct Hm as [-> | ->]; eapply p_exponent_none; try exact Hex; eapply Hno; reflexivity. }
      destruct s as [|a u].
      { cbn [p_mantissa orb negb obind] in H. apply Hfrac; [exact H|]. intros; discriminate. }
      cbn [p_mantissa] in H. pose proof (Hs a u eq_refl) as Ha. unfold dou in Ha. rewrite Ha in H.
      destruct (N.eqb_spec a "."%ch) as [->|Hna].
      { cbn [orb negb obind] in H. apply Hfrac; [exact H|]. intros a' u' [= <- <-]; discriminate. }
      destruct ((a =? "e"%ch) || (a =? "E"%ch)) eqn:Ee.
      * cbn [orb negb] in H. destruct (p_exponent u false false) as [y|] eqn:Ey; cbn [obind] in H.
        -- apply p_exponent_sound in Ey as (e & -> & He & Hy).
           apply number_tail_iff in H as (x & -> & Hx & Hr); [|exact Hy].
           exists (d ++ (tag "." ++ f) ++ [a] ++ e ++ x). split; [repeat (cbn [app]; rewrite <- app_assoc); reflexivity|].
           apply float_exponent; auto; [right; eauto|].
           unfold exponent_letter. apply orb_true_iff in Ee as [Ee|Ee]; apply N.eqb_eq in Ee as ->; auto.
        -- apply Hfrac; [exact H|]. now intros a' u' [= <- <-] _.
      * cbn [orb negb obind] in H. apply Hfrac; [exact H|]. intros a' u' [= <- <-] E; congruence.
    + (* nothing after the point *)
      assert (E5 : c2 =? "_"%ch = false).
      { destruct (N.eqb_spec c2 "_"%ch) as [->|]; [|reflexivity]. discriminate. }
      cbn [p_mantissa] in H. rewrite E4, E5, E2 in H. cbn [orb] in H.
      assert (E6 : (c2 =? "e"%ch) || (c2 =? "E"%ch) = false).
      { destruct (_ || _) eqn:E; [|reflexivity]. exfalso. rewrite (ident_start_ascii UO) in E3 by lia.
        unfold ascii_letter, between in E3. lia. }
      rewrite E6 in H. cbn [orb negb obind] in H.
      unfold p_number_tail in H. rewrite E3 in H. pose proof (word_break_same _ _ H) as <-. apply word_end_break in H.
      exists (d ++ tag "."). split; [now rewrite <- app_assoc|]. apply float_point; [exact Hd|exact H|].
      intros [x Hx]. injection Hx as -> _. discriminate.
  - destruct ((c =? "e"%ch) || (c =? "E"%ch)) eqn:Ee; [|discriminate]. cbn [orb negb] in H.
    destruct (p_exponent t false false) as [y|] eqn:Ey; [|discriminate]. cbn [obind] in H.
    apply p_exponent_sound in Ey as (e & -> & He & Hy).
    apply number_tail_iff in H as (x & -> & Hx & Hr); [|exact Hy].
    exists (d ++ [] ++ [c] ++ e ++ x). split; [repeat (cbn [app]; rewrite <- app_assoc); reflexivity|].
    apply float_exponent; auto.
    unfold exponent_letter. apply orb_true_iff in Ee as [Ee|Ee]; apply N.eqb_eq in Ee as ->; auto.
Qed.

Lemma p_float_iff s r : p_float s = Some r <-> exists t, s = t ++ r /\ float_at t r.
Proof using UO.
  split; [apply p_float_sound|]. intros (t & -> & H). now apply p_float_complete.
Qed.

(** *** Integers *)
Lemma below_digit b c : digit_below b c <-> is_hex_digit c = true /\ hex_value c < b.
Proof using.
  unfold digit_below. split.
  - intros (v & H & Hv). apply hexval_digit in H as [H ->]. auto.
  - intros [H Hv]. exists (hex_value c). split; [now apply is_hexval|exact Hv].
Qed.
(** One step of the loop, by the kind of character. *)
Lemma p_digits_loop_step base c t e : (2 <= base <= 16) ->
  p_digits_loop base (c :: t) e =
  if is_hex_digit c && (hex_value c <? base) then p_digits_loop base t false
  else if is_dec_digit c then None
  else if c =? "_"%ch then if e && (base =? 10) then None else p_digits_loop base t e
  else Some (c :: t, e).
Proof using.
  intro Hb. cbn [p_digits_loop]. unfold is_hex_digit, hex_value, is_dec_digit.
  destruct (between "0"%ch c "9"%ch) eqn:E1.
  { cbn [orb andb]. destruct (base <=? c - "0"%ch) eqn:E; destruct (c - "0"%ch <? base) eqn:E'; try reflexivity; lia. }
  destruct (between "a"%ch c "f"%ch) eqn:E2.
  { cbn [orb andb]. destruct (base <=? 10 + (c - "a"%ch)) eqn:E; destruct (10 + (c - "a"%ch) <? base) eqn:E'; try lia; auto.
    destruct (N.eqb_spec c "_"%ch) as [->|]; [discriminate|reflexivity]. }
  destruct (between "A"%ch c "F"%ch) eqn:E3.
  { cbn [orb andb]. destruct (base <=? 10 + (c - "A"%ch)) eqn:E; destruct (10 + (c - "A"%ch) <? base) eqn:E'; try lia; auto.
    destruct (N.eqb_spec c "_"%ch) as [->|]; [discriminate|reflexivity]. }
  reflexivity.
Qed.

Lemma dec_below c : is_hex_digit c && (hex_value c <? 10) = is_dec_digit c.
Proof using.
  unfold is_hex_digit, hex_value, is_dec_digit.
  destruct (between "0"%ch c "9"%ch) eqn:E1; [unfold between in E1; cbn [orb andb]; lia|].
  destruct (between "a"%ch c "f"%ch) eqn:E2; [cbn [orb andb]; lia|].
  destruct (between "A"%ch c "F"%ch) eqn:E3; [cbn [orb andb]; lia|]. reflexivity.
Qed.
Lemma p_digits_loop_ten c t e : p_digits_loop 10 (c :: t) e =
  if is_dec_digit c then p_digits_loop 10 t false
  else if c =? "_"%ch then if e then None else p_digits_loop 10 t e
  else Some (c :: t, e).
Proof using.
  rewrite p_digits_loop_step by lia. rewrite dec_below. destruct (is_dec_digit c); [reflexivity|].
  destruct (c =? "_"%ch); [|reflexivity]. now destruct e.
Qed.
Lemma p_digits_loop_run m s : Forall (fun c => dou c = true) m ->
  p_digits_loop 10 (m ++ s) false = p_digits_loop 10 s false.
Proof using.
  induction 1 as [|c m Hc Hm IH]; [reflexivity|]. cbn [app]. rewrite p_digits_loop_ten. unfold dou in Hc.
  destruct (is_dec_digit c); [exact IH|]. cbn [orb] in Hc. now rewrite Hc.
Qed.
Lemma p_digits_loop_dec d s : dec_text d -> (forall c t, s = c :: t -> dou c = false) ->
  p_digits_loop 10 (d ++ s) true = Some (s, false).
Proof using.
  intros (c & t & -> & Hc & Ht) Hs. cbn [app]. rewrite p_digits_loop_ten, (proj2 (digit_is c) Hc).
  apply Forall_dou in Ht. rewrite p_digits_loop_run by exact Ht.
  destruct s as [|a u]; [reflexivity|]. specialize (Hs _ _ eq_refl). unfold dou in Hs.
  apply orb_false_iff in Hs as [H1 H2]. now rewrite p_digits_loop_ten, H1, H2.
Qed.

Lemma p_digits_loop_radix b ds s e : radix_base b -> Forall (fun c => digit_below b c \/ c = "_"%ch) ds ->
  (forall c t, s = c :: t -> ~ digit_below b c /\ dou c = false) ->
  p_digits_loop b (ds ++ s) e = Some (s, e && negb (existsb is_hex_digit ds)).
Proof using.
  intros Hb Hds Hs. assert (Hb' : 2 <= b <= 16) by (destruct Hb as [->|[->| ->]]; lia).
  assert (Hb'' : b =? 10 = false) by (destruct Hb as [->|[->| ->]]; reflexivity).
  revert e. induction Hds as [|c ds Hc Hds IH]; intro e; cbn [app existsb].
  - rewrite andb_true_r. destruct s as [|a u]; [reflexivity|]. rewrite p_digits_loop_step by exact Hb'.
    destruct (Hs a u eq_refl) as [H1 H2]. rewrite below_digit in H1.
    destruct (is_hex_digit a && (hex_value a <? b)) eqn:E; [elim H1; lia|].
    unfold dou in H2. apply orb_false_iff in H2 as [-> ->]. reflexivity.
  - rewrite p_digits_loop_step by exact Hb'. destruct Hc as [Hc| ->].
    + apply below_digit in Hc as [H1 H2]. rewrite H1. cbn [andb orb negb]. rewrite (proj2 (N.ltb_lt _ _) H2), IH.
      now rewrite andb_false_r.
    + change (is_hex_digit "_"%ch) with false. change (is_dec_digit "_"%ch) with false.
      change ("_"%ch =? "_"%ch) with true. cbn [andb orb]. rewrite Hb'', andb_false_r. apply IH.
Qed.
Lemma p_digits_loop_radix_sound b s : radix_base b -> forall e r e', p_digits_loop b s e = Some (r, e') ->
  exists ds, s = ds ++ r /\ Forall (fun c => digit_below b c \/ c = "_"%ch) ds /\
    (e = true -> e' = false -> Exists (digit_below b) ds) /\
    (forall c t, r = c :: t -> ~ digit_below b c /\ dou c = false).
Proof using.
  intro Hb. assert (Hb' : 2 <= b <= 16) by (destruct Hb as [->|[->| ->]]; lia).
  assert (Hb'' : b =? 10 = false) by (destruct Hb as [->|[->| ->]]; reflexivity).
  induction s as [|c t IH]; intros e r e' H.
  - cbn in H. injection H as <- <-. exists []. repeat split; try discriminate; [constructor|]. congruence.
  - rewrite p_digits_loop_step in H by exact Hb'.
    destruct (is_hex_digit c && (hex_value c <? b)) eqn:E1.
    { assert (Hd : digit_below b c) by (apply below_digit; lia).
      apply IH in H as (ds & -> & H1 & H2 & H3). exists (c :: ds). repeat split; auto; intros; now apply (H3 c0 t). }
    assert (Hd : ~ digit_below b c) by (rewrite below_digit; lia).
    destruct (is_dec_digit c) eqn:E2; [discriminate|].
    destruct (N.eqb_spec c "_"%ch) as [->|Hu].
    { rewrite Hb'', andb_false_r in H. apply IH in H as (ds & -> & H1 & H2 & H3).
      exists ("_"%ch :: ds). repeat split; auto; intros; now apply (H3 c t). }
    injection H as <- <-. exists []. repeat split; [constructor|congruence| |].
    + now injection H as <- <-.
    + injection H as <- <-. unfold dou. rewrite E2. now apply N.eqb_neq.
Qed.

Lemma p_base_radix p b s : radix p b -> p_base (p ++ s) = (s, b).
Proof using. intros [| |]; reflexivity. Qed.
Lemma p_base_none s : (forall p b, radix p b -> ~ begins s p) -> p_base s = (s, 10).
Proof using.
  intro H. unfold p_base.
  assert (forall p b, radix p b -> starts_with s p = false) as Hf by (intros p b Hp; apply begins_starts_f; eauto).
  now rewrite (Hf _ _ radix_16), (Hf _ _ radix_8), (Hf _ _ radix_2).
Qed.
Lemma p_base_cases s : (exists p b t, radix p b /\ s = p ++ t) \/ (forall p b, radix p b -> ~ begins s p).
Proof using.
  destruct (starts_with s (tag "0x")) eqn:E1; [apply begins_starts in E1 as [t ->]; left; eexists _, _, _; split; [constructor|reflexivity]|].
  destruct (starts_with s (tag "0o")) eqn:E2; [apply begins_starts in E2 as [t ->]; left; eexists _, _, _; split; [constructor|reflexivity]|].
  destruct (starts_with s (tag "0b")) eqn:E3; [apply begins_starts in E3 as [t ->]; left; eexists _, _, _; split; [constructor|reflexivity]|].
  right. intros p b [| |]; now apply begins_starts_f.
Qed.
Lemma radix_is_base p b : radix p b -> radix_base b.
Proof using. unfold radix_base. intros [| |]; auto. Qed.

(** The prefix test sees no further than the number itself. *)
Lemma radix_local d x r : dec_text d -> number_suffix x -> word_end r ->
  (forall p b, radix p b -> ~ begins (d ++ x) p) -> forall p b, radix p b -> ~ begins ((d ++ x) ++ r) p.
Proof using UO.
  intros (c & t & -> & Hc & Ht) Hx Hr H p b Hp [y Hy].
  assert (Hlen : (2 <= length ((c :: t) ++ x))%nat \/ (t = [] /\ x = [])).
  { destruct t as [|c2 t]; [|left; cbn; lia]. destruct x as [|c2 x]; [auto|left; cbn; lia]. }
  assert (Hp2 : exists p2, p = ["0"%ch; p2] /\ (p2 = "x"%ch \/ p2 = "o"%ch \/ p2 = "b"%ch)) by (destruct Hp; eauto 10).
  destruct Hp2 as (p2 & -> & Hp2).
  destruct Hlen as [Hlen|[-> ->]].
  - apply (H _ _ Hp). destruct ((c :: t) ++ x) as [|a [|a2 l]]; cbn in Hlen; try lia. cbn [app] in Hy.
    injection Hy as -> -> Hy. exists l. reflexivity.
  - cbn [app] in Hy. injection Hy as -> Hy. specialize (Hr p2 y Hy).
    rewrite (xid_continue_ascii _ UO) in Hr by (destruct Hp2 as [->|[->| ->]]; lia).
    destruct Hp2 as [->|[->| ->]]; discriminate.
Qed.

Lemma p_int_complete t r : int_at t r -> p_int (t ++ r) = Some r.
Proof using UO.
  intros [d x r' Hd Hx Hr Hno|p b ds x r' Hp Hds Hex Hx Hxd Hr]; clear t r; unfold p_int, p_digits.
  - rewrite p_base_none by (now apply radix_local). rewrite <- app_assoc.
    rewrite p_digits_loop_dec; [|exact Hd|now apply suffix_stops]. cbn [obind].
    apply number_tail_iff; [now apply suffix_stops|eauto].
  - rewrite <- !app_assoc, (p_base_radix _ _ _ Hp).
    assert (Hstop := suffix_stops x r' Hx Hr).
    rewrite (p_digits_loop_radix _ _ _ _ (radix_is_base _ _ Hp) Hds).
    2: { intros c t E. split; [|now apply (Hstop c t)]. intro Hc.
         destruct x as [|a u].
         - cbn [app] in E. specialize (Hr c t E). apply below_digit in Hc as [Hc _].
           rewrite (xid_continue_ascii _ UO) in Hr by (unfold is_hex_digit, between in Hc; lia).
           unfold is_hex_digit, is_dec_digit, ascii_letter, between in *. lia.
         - cbn [app] in E. injection E as -> _. now apply (Hxd c u). }
    assert (existsb is_hex_digit ds = true) as ->.
    { apply existsb_exists. apply Exists_exists in Hex as (c & Hi & Hc). exists c. split; [exact Hi|].
      now apply below_digit in Hc. }
    cbn [negb andb obind]. apply number_tail_iff; [exact Hstop|eauto].
Qed.

Lemma p_int_sound s r : p_int s = Some r -> exists t, s = t ++ r /\ int_at t r.
Proof using UO.
  unfold p_int, p_digits. destruct (p_base_cases s) as [(p & b & t & Hp & ->)|Hno].
  - rewrite (p_base_radix _ _ _ Hp). destruct (p_digits_loop b t true) as [[r' [|]]|] eqn:E; [discriminate| |discriminate].
    cbn [obind]. intro H. apply p_digits_loop_radix_sound in E as (ds & -> & H1 & H2 & H3); [|now apply radix_is_base in Hp].
    apply number_tail_iff in H as (x & -> & Hx & Hr).
    2: { intros c t E. now apply (H3 c t). }
    exists (p ++ ds ++ x). split; [now rewrite <- !app_assoc|]. apply int_radix with (b := b); auto.
    intros c t ->. now apply (H3 c (t ++ r)).
  - rewrite p_base_none by exact Hno. destruct (p_digits_loop 10 s true) as [[r' [|]]|] eqn:E; [discriminate| |discriminate].
    cbn [obind]. intro H.
    assert (Hs : exists c t, s = c :: t /\ is_dec_digit c = true).
    { destruct s as [|c t]; [discriminate|]. rewrite p_digits_loop_ten in E. destruct (is_dec_digit c) eqn:Ec; [eauto|].
      destruct (c =? "_"%ch); discriminate. }
    destruct Hs as (c & t & Es & Hc). destruct (dec_text_split s c t Es Hc) as (d & y & -> & Hd & Hy).
    rewrite p_digits_loop_dec in E by assumption. injection E as <-.
    apply number_tail_iff in H as (x & -> & Hx & Hr); [|exact Hy].
    exists (d ++ x). split; [now rewrite <- app_assoc|]. apply int_decimal; auto.
    intros p b Hp [z Hz]. apply (Hno p b Hp). exists (z ++ r). rewrite app_assoc, Hz. now rewrite <- app_assoc.
Qed.
Lemma p_int_iff s r : p_int s = Some r <-> exists t, s = t ++ r /\ int_at t r.
Proof using UO.
  split; [apply p_int_sound|]. intros (t & -> & H). now apply p_int_complete.
Qed.

End WithUnicode.
