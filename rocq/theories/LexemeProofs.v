(** * The lexer reads exactly the grammar of SpecGrammar.v.  Not a model of code. *)
From Verif Require Import Base BaseFacts Unicode Tokens Lexer PureLexer.
From Verif Require Import LexerEquiv LexerEquiv2 LexerEquiv3 LexerEquiv4 Grammar Stable Trivia.
From Verif Require Import SpecText Comments Fallback SpecTree Spans Balance.
From Verif Require Import LexProofs SpecLit SpecGrammar NumGrammar QuotedGrammar.
Local Open Scope N_scope.

Section WithUnicode.
Context {U : unicode} (UO : unicode_ok U).

(** *** Literals *)
Lemma float_first t r : float_at t r -> exists c u, t = c :: u /\ is_dec_digit c = true.
Proof using.
  intros [d r' Hd|d f s r' Hd|d f m e s r' Hd]; destruct Hd as (c & u & -> & Hc & _); eexists _, _;
    (split; [reflexivity|now apply digit_is]).
Qed.
Lemma int_first t r : int_at t r -> exists c u, t = c :: u /\ is_dec_digit c = true.
Proof using.
  intros [d s r' Hd|p b ds s r' Hp].
  - destruct Hd as (c & u & -> & Hc & _). eexists _, _. split; [reflexivity|now apply digit_is].
  - destruct Hp; eexists _, _; split; reflexivity.
Qed.
Lemma p_literal_iff s r : p_literal s = Some r <-> exists t, s = t ++ r /\ literal_at t r.
Proof using UO.
  unfold p_literal. split.
  - destruct (p_quoted s) as [x|] eqn:Eq; cbn [omap orelse].
    + intros [= H]. apply p_quoted_iff in Eq as (q & -> & Hq).
      apply p_suffix_inv in H as [[-> Hn]|(y & -> & Hy & Hr)].
      * exists q. split; [reflexivity|]. now apply literal_quoted.
      * exists (q ++ y). split; [now rewrite <- app_assoc|]. now apply literal_suffixed.
    + destruct (p_float s) as [x|] eqn:Ef; cbn [orelse].
      * intros [= ->]. apply (p_float_iff UO) in Ef as (t & -> & Ht). exists t. split; [reflexivity|]. now apply literal_float.
      * intro H. apply (p_int_iff UO) in H as (t & -> & Ht). exists t. split; [reflexivity|]. apply literal_int; [exact Ht|].
        intros t' r' E Hf. assert (X := proj2 (p_float_iff UO _ r') (ex_intro _ t' (conj E Hf))). congruence.
  - intros (t & -> & [q r' Hq Hn|q y r' Hq Hy Hr|t' r' Hf|t' r' Hi Hno]).
    + rewrite (proj2 (p_quoted_iff _ r') (ex_intro _ q (conj eq_refl Hq))). cbn [omap orelse]. now rewrite p_suffix_none.
    + rewrite <- app_assoc, (proj2 (p_quoted_iff _ (y ++ r')) (ex_intro _ q (conj eq_refl Hq))). cbn [omap orelse]. now rewrite p_suffix_word.
    + destruct (float_first _ _ Hf) as (c & u & E & Hc). rewrite (proj2 (p_float_iff UO _ r') (ex_intro _ t' (conj eq_refl Hf))).
      rewrite E. cbn [app]. rewrite p_quoted_digit by exact Hc. reflexivity.
    + destruct (int_first _ _ Hi) as (c & u & E & Hc). rewrite (proj2 (p_int_iff UO _ r') (ex_intro _ t' (conj eq_refl Hi))).
      destruct (p_float (t' ++ r')) as [y|] eqn:Ef.
      { exfalso. apply (p_float_iff UO) in Ef as (t2 & E2 & H2). now apply (Hno t2 y). }
      rewrite E. cbn [app]. rewrite p_quoted_digit by exact Hc. reflexivity.
Qed.

(** *** Identifiers *)
Lemma word_prefix w : forall s r c p,
  Forall (fun c => is_xid_continue c = true) s -> word_end r ->
  Forall (fun c => is_xid_continue c = true) w -> is_xid_continue c = false ->
  begins (s ++ r) (w ++ c :: p) <-> s = w /\ begins r (c :: p).
Proof using.
  induction w as [|a w IH]; intros s r c p Hs Hr Hw Hc; split.
  - intros [y Hy]. destruct s as [|b s].
    + split; [reflexivity|]. exists y. exact Hy.
    + cbn in Hy. injection Hy as -> _. inversion Hs; congruence.
  - intros [-> H]. exact H.
  - intros [y Hy]. destruct s as [|b s].
    + cbn in Hy. apply Hr in Hy. inversion Hw; congruence.
    + cbn in Hy. injection Hy as -> Hy. inversion Hs; inversion Hw; subst.
      destruct (proj1 (IH s r c p ltac:(assumption) Hr ltac:(assumption) Hc)) as [-> Hb]; [now exists y|auto].
  - intros [-> [y ->]]. exists y. now rewrite <- app_assoc.
Qed.
Lemma ident_text_all s : ident_text s -> Forall (fun c => is_xid_continue c = true) s.
Proof using UO.
  intros (c & t & -> & Hc & Ht). constructor; [|exact Ht]. apply start_char_spec in Hc.
  now apply (ident_start_continue UO) in Hc.
Qed.
Lemma cont_ascii c : c < 128 -> is_xid_continue c = (ascii_letter c || is_dec_digit c || (c =? "_"%ch)).
Proof using UO. apply (xid_continue_ascii _ UO). Qed.

Ltac cont := repeat constructor; rewrite cont_ascii by lia; reflexivity.
Ltac split_prefix H s r Hs Hr :=
  match type of H with begins _ ?l =>
    first [ apply (word_prefix [_] s r _ _ Hs Hr) in H; [|cont|cont]
          | apply (word_prefix [_; _] s r _ _ Hs Hr) in H; [|cont|cont] ]
  end.
Lemma reject_spec s r : ident_text s -> word_end r ->
  existsb (starts_with (s ++ r)) ident_reject_prefixes || starts_with (s ++ r) (tag "r#") = true <->
  literal_prefix s r.
Proof using UO.
  intros Hi Hr. assert (Hs := ident_text_all s Hi). unfold literal_prefix, ident_reject_prefixes.
  rewrite orb_true_iff, existsb_exists. split.
  - intros [(p & Hp & H)|H].
    + apply begins_starts in H. cbn [In] in Hp |- *.
      decompose [or] Hp; try contradiction; subst p; split_prefix H s r Hs Hr;
        destruct H as [-> [y ->]];
        first [ left; split; [tauto|]; eexists; reflexivity
              | right; left; split; [reflexivity|]; eexists; reflexivity
              | right; right; split; [tauto|]; eexists; reflexivity ].
    + apply begins_starts in H. split_prefix H s r Hs Hr. destruct H as [-> H]. right. right. split; [cbn; tauto|exact H].
  - intros [[H [y ->]]|[[-> [y ->]]|[H [y ->]]]].
    + left. cbn [In] in H. decompose [or] H; try contradiction; subst s.
      * exists (tag "r"""). split; [cbn; tauto|reflexivity].
      * exists (tag "b"""). split; [cbn; tauto|reflexivity].
      * exists (tag "c"""). split; [cbn; tauto|reflexivity].
      * exists (tag "br"""). split; [cbn; tauto|reflexivity].
      * exists (tag "cr"""). split; [cbn; tauto|reflexivity].
    + left. exists (tag "b'"). split; [cbn; tauto|reflexivity].
    + cbn [In] in H. decompose [or] H; try contradiction; subst s.
      * right. reflexivity.
      * left. exists (tag "br#"). split; [cbn; tauto|reflexivity].
      * left. exists (tag "cr#"). split; [cbn; tauto|reflexivity].
Qed.
Lemma cannot_be_raw_spec s : cannot_be_raw s = true <-> In s never_raw.
Proof using.
  unfold cannot_be_raw. rewrite existsb_exists. split.
  - intros (x & Hx & E). destruct (str_eqb_spec s x) as [->|]; [|discriminate].
    unfold never_raw, not_raw_names in *. cbn [In] in *. tauto.
  - intro H. exists s. split; [|apply str_eqb_refl]. unfold never_raw, not_raw_names in *. cbn [In] in *. tauto.
Qed.
Lemma cannot_be_raw_false s : cannot_be_raw s = false <-> ~ In s never_raw.
Proof using. rewrite <- cannot_be_raw_spec. destruct (cannot_be_raw s); intuition congruence. Qed.

Lemma p_ident_any_iff s r sym raw : p_ident_any s = Some (r, (sym, raw)) <->
  ident_text sym /\ word_end r /\
  if raw then s = tag "r#" ++ sym ++ r /\ ~ In sym never_raw
  else s = sym ++ r /\ ~ begins s (tag "r#").
Proof using.
  unfold p_ident_any. split.
  - destruct (starts_with s (tag "r#")) eqn:E.
    + destruct (p_ident_not_raw (skipn 2 s)) as [[r' x]|] eqn:Ei; [|discriminate].
      destruct (cannot_be_raw x) eqn:Ec; [discriminate|]. intros [= -> -> <-].
      apply p_ident_not_raw_iff in Ei as (E1 & H1 & H2). apply starts_with_skipn in E. cbn [length] in E.
      rewrite E1 in E. repeat split; auto. now apply cannot_be_raw_false.
    + destruct (p_ident_not_raw s) as [[r' x]|] eqn:Ei; [|discriminate]. intros [= -> -> <-].
      apply p_ident_not_raw_iff in Ei as (E1 & H1 & H2). repeat split; auto. now apply begins_starts_f.
  - intros (H1 & H2 & H3). destruct raw.
    + destruct H3 as [-> H3]. rewrite starts_with_app. cbn [skipn app].
      rewrite p_ident_not_raw_word by assumption. now rewrite (proj2 (cannot_be_raw_false sym) H3).
    + destruct H3 as [E H3]. rewrite (proj2 (begins_starts_f _ _) H3). rewrite E.
      now rewrite p_ident_not_raw_word.
Qed.

Lemma p_ident_iff s r sym raw : p_ident s = Some (r, (sym, raw)) <->
  exists t, s = t ++ r /\ ident_at t r sym raw.
Proof using UO.
  unfold p_ident. split.
  - destruct (existsb (starts_with s) ident_reject_prefixes) eqn:Ep; [discriminate|]. intro H.
    apply p_ident_any_iff in H as (H1 & H2 & H3). destruct raw.
    + destruct H3 as [-> H3]. exists (tag "r#" ++ sym). split; [now rewrite <- app_assoc|]. now apply ident_raw.
    + destruct H3 as [-> H3]. exists sym. split; [reflexivity|]. apply ident_plain; auto.
      rewrite <- reject_spec by assumption. rewrite Ep. cbn [orb]. rewrite (proj2 (begins_starts_f _ _) H3). discriminate.
  - intros (t & -> & [x r' H1 H2 H3|x r' H1 H2 H3]).
    + rewrite <- (reject_spec x r' H1 H2) in H3. apply not_true_is_false in H3. apply orb_false_iff in H3 as [-> H3].
      apply p_ident_any_iff. repeat split; auto. now apply begins_starts_f.
    + assert (existsb (starts_with ((tag "r#" ++ x) ++ r')) ident_reject_prefixes = false) as ->.
      { destruct H1 as (c & u & -> & Hc & _). apply start_char_spec in Hc.
        assert (c <> DQUOTE /\ c <> "#"%ch) as [Hq Hh].
        { split; intros ->; rewrite (ident_start_ascii UO) in Hc by lia; discriminate. }
        unfold ident_reject_prefixes. cbn [app existsb starts_with].
        rewrite (proj2 (N.eqb_neq DQUOTE c)) by congruence. rewrite (proj2 (N.eqb_neq "#"%ch c)) by congruence. reflexivity. }
      apply p_ident_any_iff. rewrite <- app_assoc. auto.
Qed.

(** *** Punctuation *)
Lemma p_punct_char_iff s r c : p_punct_char s = Some (r, c) <->
  s = c :: r /\ In c punct_chars /\ ~ begins s (tag "//") /\ ~ begins s (tag "/*").
Proof using.
  unfold p_punct_char. rewrite <- !begins_starts_f. split.
  - destruct (starts_with s (tag "//")) eqn:E1; [discriminate|].
    destruct (starts_with s (tag "/*")) eqn:E2; [discriminate|]. cbn [orb].
    destruct s as [|d t]; [discriminate|]. destruct (contains punct_recognized d) eqn:E; [|discriminate].
    intros [= -> ->]. repeat split; auto.
    apply BaseFacts.contains_In in E. unfold punct_recognized, punct_chars in *. cbn [In] in *. tauto.
  - intros (-> & Hi & -> & ->). cbn [orb].
    assert (contains punct_recognized c = true) as ->; [|reflexivity].
    apply BaseFacts.contains_In. unfold punct_recognized, punct_chars in *. cbn [In] in *. tauto.
Qed.
Lemma head_is_iff c s : head_is c s = true <-> begins s [c].
Proof using.
  unfold head_is, begins. destruct s as [|d t]; [split; [discriminate|intros [? ?]; discriminate]|].
  rewrite N.eqb_eq. split; [intros ->; now exists t|]. intros [u E]. cbn in E. congruence.
Qed.
Lemma head_is_false c s : head_is c s = false <-> ~ begins s [c].
Proof using. rewrite <- head_is_iff. destruct (head_is c s); intuition congruence. Qed.

Lemma p_punct_iff s r c sg : p_punct s = Some (r, (c, sg)) <-> s = c :: r /\ punct_at c r sg.
Proof using UO.
  unfold p_punct. split.
  - destruct (p_punct_char s) as [[r' c']|] eqn:E; [|discriminate].
    apply p_punct_char_iff in E as (-> & H1 & H2 & H3).
    destruct (N.eqb_spec c' SQUOTE) as [->|Hn].
    + destruct (p_ident_any r') as [[after [sym raw]]|] eqn:Ei; [|discriminate].
      destruct (head_is SQUOTE after) eqn:Eh; [discriminate|]. cbn [orb].
      apply head_is_false in Eh.
      pose proof Ei as Ei'. apply p_ident_any_iff in Ei' as (H4 & H5 & H6).
      destruct raw.
      * destruct H6 as [-> H6]. rewrite starts_with_app, andb_false_r. intros [= <- <- <-].
        split; [reflexivity|]. now apply punct_raw_lifetime.
      * destruct H6 as [E6 H6]. rewrite (proj2 (begins_starts_f _ _) H6), andb_true_r.
        destruct (head_is "#"%ch after) eqn:Eh2; [discriminate|]. apply head_is_false in Eh2.
        intros [= <- <- <-]. split; [reflexivity|]. rewrite E6. now apply punct_lifetime.
    + intros [= <- <- <-]. split; [reflexivity|].
      destruct (p_punct_char r') as [[a b]|] eqn:Ep.
      * apply punct_joint; auto. apply p_punct_char_spec. eauto.
      * apply punct_alone; auto. rewrite <- p_punct_char_spec. intros (a & b & X). congruence.
  - assert (Hq : forall t, p_punct_char (SQUOTE :: t) = Some (t, SQUOTE)).
    { intro t. apply p_punct_char_iff. rewrite <- !begins_starts_f. repeat split. cbn. tauto. }
    intros [-> [c' r' H1 H2 H3 H4 H5|c' r' H1 H2 H3 H4 H5|x after H1 H2 H3 H4|x after H1 H2 H3 H4]].
    + rewrite (proj2 (p_punct_char_iff (c' :: r') r' c') (conj eq_refl (conj H1 (conj H3 H4)))).
      rewrite (proj2 (N.eqb_neq _ _) H2). apply p_punct_char_spec in H5 as (a & b & ->). reflexivity.
    + rewrite (proj2 (p_punct_char_iff (c' :: r') r' c') (conj eq_refl (conj H1 (conj H3 H4)))).
      rewrite (proj2 (N.eqb_neq _ _) H2). rewrite <- p_punct_char_spec in H5.
      destruct (p_punct_char r') as [[a b]|]; [elim H5; eauto|reflexivity].
    + rewrite Hq. change (SQUOTE =? SQUOTE) with true. cbn iota.
      rewrite (proj2 (p_ident_any_iff (x ++ after) after x false)).
      * now rewrite (proj2 (head_is_false _ _) H3), (proj2 (head_is_false _ _) H4).
      * repeat split; auto. intro Hb.
        apply (word_prefix (tag "r") x after "#"%ch [] (ident_text_all x H1) H2) in Hb as [_ Hb]; [auto|cont|cont].
    + rewrite Hq. change (SQUOTE =? SQUOTE) with true. cbn iota.
      rewrite (proj2 (p_ident_any_iff (tag "r#" ++ x ++ after) after x true)) by auto.
      rewrite (proj2 (head_is_false _ _) H4). now rewrite starts_with_app, andb_false_r.
Qed.

(** *** Leaves *)
Lemma prefix_of_app' (a r : str) : prefix_of (a ++ r) r = a.
Proof using.
  unfold prefix_of. rewrite app_length. replace (length a + length r - length r)%nat with (length a) by lia.
  rewrite firstn_app, firstn_all, Nat.sub_diag, firstn_O. apply app_nil_r.
Qed.
Lemma p_leaf_iff s r k : p_leaf s = Some (r, k) <-> exists t, s = t ++ r /\ lexeme t r k.
Proof using UO.
  rewrite (p_leaf_kind UO). split.
  - intros [r' H|r' c sg H|r' sym raw H|H].
    + apply p_literal_iff in H as (t & -> & H). exists t. split; [reflexivity|]. rewrite prefix_of_app'. now constructor.
    + apply p_punct_iff in H as [-> H]. exists [c]. split; [reflexivity|]. now constructor.
    + apply p_ident_iff in H as (t & -> & H). exists t. split; [reflexivity|]. now constructor.
    + exists error_text. split; [|apply lexeme_error]. apply starts_with_skipn in H. exact H.
  - intros (t & -> & [t' r' H|c r' sg H|t' r' sym raw H|r']).
    + rewrite <- (prefix_of_app' t' r') at 2. constructor. apply p_literal_iff. eauto.
    + constructor. now apply p_punct_iff.
    + constructor. apply p_ident_iff. eauto.
    + assert (E : r' = skipn (length ERROR) (error_text ++ r')) by reflexivity.
      rewrite E at 2. apply LK_error. apply (starts_with_app ERROR r').
Qed.

(** *** Doc comments *)
Lemma p_line_inv u : forall r x, p_line u = (r, x) -> ~ In LF x /\
  ((u = x ++ r /\ (r = [] \/ begins r [LF])) \/ (u = x ++ CR :: r /\ begins r [LF])).
Proof using.
  induction u as [|c t IH]; intros r x; cbn [p_line].
  - intros [= <- <-]. split; [intros []|]. left. auto.
  - destruct (N.eqb_spec c LF) as [->|Hc].
    { intros [= <- <-]. split; [intros []|]. left. split; [reflexivity|]. right. now exists t. }
    destruct ((c =? CR) && starts_with t [LF]) eqn:E.
    { apply andb_prop in E as [E1 E2]. apply N.eqb_eq in E1 as ->. intros [= <- <-]. split; [intros []|].
      right. split; [reflexivity|]. now apply begins_starts. }
    destruct (p_line t) as [r' x'] eqn:Ep. intros [= <- <-]. destruct (IH _ _ eq_refl) as [H1 H2].
    split; [intros [X|X]; [congruence|auto]|]. destruct H2 as [[-> H2]|[-> H2]]; auto.
Qed.
Lemma bare_false x : bare_cr x = false <-> ~ has_bare_cr x.
Proof using. rewrite <- bare_cr_spec. destruct (bare_cr x); intuition congruence. Qed.
Lemma p_doc_iff s r x i : p_skip1 s = None ->
  p_doc s = Some (r, (x, i)) <-> exists d, s = d ++ r /\ doc_at d r i x.
Proof using UO.
  intro Hk. split.
  - intro H. assert (Hline : forall o u y, (forall y, ~ In LF y -> (i = false -> ~ begins y (tag "/")) -> doc_line (o ++ y) i y) ->
      (i = false -> head_is "/"%ch u = false) ->
      p_line u = (r, y) -> ~ has_bare_cr y -> exists d, o ++ u = d ++ r /\ doc_at d r i y).
    { intros o u y Ho Hh Hl Hb. apply p_line_inv in Hl as [H1 H2].
      assert (Hd : doc_line (o ++ y) i y).
      { apply Ho; [exact H1|]. intros Ei [z ->]. specialize (Hh Ei). destruct H2 as [[-> _]|[-> _]]; discriminate. }
      destruct H2 as [[-> H2]|[-> H2]].
      - exists (o ++ y). split; [now rewrite app_assoc|]. now apply doc_at_line.
      - exists ((o ++ y) ++ [CR]). split; [now rewrite <- !app_assoc|]. now apply doc_at_crlf. }
    destruct (starts_with s (tag "//!")) eqn:E1.
    { unfold p_doc, p_doc_contents in H. rewrite E1 in H. apply starts_with_skipn in E1. cbn [length] in E1.
      destruct (p_line (skipn 3 s)) as [r' x'] eqn:El. destruct (bare_cr x') eqn:Eb; [discriminate|].
      injection H as -> -> <-. rewrite E1. apply Hline; [intros; now constructor|discriminate|exact El|now apply bare_false]. }
    destruct (starts_with s (tag "///")) eqn:E2.
    { unfold p_doc, p_doc_contents in H. rewrite E1, E2 in H.
      assert (starts_with s (tag "/*!") = false) as E3.
      { apply starts_with_skipn in E2. rewrite E2. reflexivity. }
      rewrite E3 in H. apply starts_with_skipn in E2. cbn [length] in E2.
      destruct (head_is "/"%ch (skipn 3 s)) eqn:Eh; [discriminate|].
      destruct (p_line (skipn 3 s)) as [r' x'] eqn:El. destruct (bare_cr x') eqn:Eb; [discriminate|].
      injection H as -> -> <-. rewrite E2. apply Hline; [intros; constructor; auto|auto|exact El|now apply bare_false]. }
    destruct (p_doc_text s r x i Hk H) as (d & -> & _ & (i' & x' & [Hd|Hd])).
    { exfalso. inv Hd; discriminate. }
    destruct (p_doc_contents_block d i' x' r Hd) as [_ Hc]. unfold p_doc in H. rewrite Hc in H.
    destruct (bare_cr x') eqn:Eb; [discriminate|]. injection H as -> ->.
    exists d. split; [reflexivity|]. apply doc_at_block; [exact Hd|now apply bare_false].
  - intros (d & -> & [d' r' i' x' H1 H2 H3|d' r' i' x' H1 H2 H3|d' r' i' x' H1 H3]); apply bare_false in H3 as H3'.
    + assert (Hs : stop r' \/ begins r' [CR; LF]).
      { left. destruct H2 as [->|[u ->]]; [exact I|reflexivity]. }
      destruct (doc_line_text _ _ _ r' H1 Hs) as [_ E]. assert (Hl : ~ In LF x') by (inv H1; assumption).
      rewrite p_line_text in E; [|exact Hl| |exact H3]; [|destruct H2 as [->|H2]; [now left|right; now left]].
      unfold p_doc. rewrite E, H3'. destruct H2 as [->|[u ->]]; reflexivity.
    + destruct H2 as [u ->].
      assert (Hs : stop (CR :: LF :: u) \/ begins (CR :: LF :: u) [CR; LF]) by (right; now exists u).
      destruct (doc_line_text _ _ _ (CR :: LF :: u) H1 Hs) as [_ E]. assert (Hl : ~ In LF x') by (inv H1; assumption).
      rewrite p_line_text in E; [|exact Hl| |exact H3]; [|right; right; now exists u].
      unfold p_doc. rewrite <- app_assoc. cbn [app]. rewrite E, H3'. reflexivity.
    + destruct (p_doc_contents_block d' i' x' r' H1) as [_ E]. unfold p_doc. now rewrite E, H3'.
Qed.
Lemma doc_at_skip d r i x : doc_at d r i x -> p_skip1 (d ++ r) = None.
Proof using UO.
  intros [d' r' i' x' H1 H2 H3|d' r' i' x' H1 H2 H3|d' r' i' x' H1 H3].
  - apply (p_doc_line d' i' x' r' H1); [destruct H2 as [->|H2]; [now left|right; now left]|exact H3].
  - rewrite <- app_assoc. apply (p_doc_line d' i' x' _ H1); [|exact H3]. destruct H2 as [u ->]. right. right. now exists u.
  - now apply (p_doc_block d' i' x' r').
Qed.

(** *** Delimiters *)
Lemma open_iff s d r : open_delim s = Some (d, r) <-> opens s d r.
Proof using.
  unfold opens, delims. rewrite <- begins_starts_f. split.
  - unfold open_delim. destruct s as [|c t]; [discriminate|].
    destruct (N.eqb_spec c "("%ch) as [->|H1].
    { destruct (starts_with ("("%ch :: t) ERROR) eqn:E; cbn [andb negb].
      - change ("("%ch =? "["%ch) with false. change ("("%ch =? "{"%ch) with false. discriminate.
      - intros [= <- <-]. repeat split; [cbn; tauto|exact E]. }
    cbn [andb]. destruct (N.eqb_spec c "["%ch) as [->|H2]; [intros [= <- <-]; repeat split; cbn; tauto|].
    destruct (N.eqb_spec c "{"%ch) as [->|H3]; [intros [= <- <-]; repeat split; cbn; tauto|]. discriminate.
  - intros (Hd & -> & E). cbn [In] in Hd. decompose [or] Hd; try contradiction; subst d; try reflexivity.
    cbn [open_char app] in *. unfold open_delim. change (starts_with ("("%ch :: r) ERROR) with (starts_with ("("%ch :: r) error_text).
    rewrite E. reflexivity.
Qed.
Lemma close_iff s d r : close_delim s = Some (d, r) <-> closes s d r.
Proof using.
  unfold closes, delims. split.
  - unfold close_delim. destruct s as [|c t]; [discriminate|].
    destruct (N.eqb_spec c ")"%ch) as [->|H1]; [intros [= <- <-]; repeat split; cbn; tauto|].
    destruct (N.eqb_spec c "]"%ch) as [->|H2]; [intros [= <- <-]; repeat split; cbn; tauto|].
    destruct (N.eqb_spec c "}"%ch) as [->|H3]; [intros [= <- <-]; repeat split; cbn; tauto|]. discriminate.
  - intros (Hd & ->). cbn [In] in Hd. decompose [or] Hd; try contradiction; subst d; reflexivity.
Qed.

(** *** Unreadable places *)
Lemma skip_none_no_trivia s : p_skip1 s = None -> forall w r, s = w ++ r -> trivia w -> w = [].
Proof using.
  intros Hs w r -> Hw. pose proof (p_skip_stay _ Hs) as E. rewrite (trivia_skip w Hw r) in E.
  pose proof (suffix_length _ _ (p_skip_suffix r)) as Hl. rewrite E, app_length in Hl. destruct w; [reflexivity|cbn in Hl; lia].
Qed.
Lemma unreadable_iff s : unreadable s <-> p_skip1 s = None /\ at_token s /\ p_leaf s = None.
Proof using UO.
  unfold unreadable, at_token. split.
  - intros (H1 & H2 & H3 & H4 & H5 & H6).
    assert (Hs : p_skip1 s = None).
    { destruct (p_skip1 s) as [r|] eqn:E; [exfalso|reflexivity]. 
      destruct (skip_trivia s) as (w & Ew & [Hw|[Hw Hb]]).
      - assert (w = []) as -> by now apply (H2 w (p_skip s)). cbn in Ew. pose proof (p_skip_fixed s) as F.
        rewrite <- Ew in F. congruence.
      - rewrite Hw, app_nil_r in Ew. subst w. contradiction. }
    split; [exact Hs|]. split; [repeat split|].
    + destruct (p_doc s) as [[r [x i]]|] eqn:E; [exfalso|reflexivity]. apply p_doc_iff in E as (d & E & Hd); [|exact Hs].
      now apply (H3 d r i x).
    + intros ->. apply H1. constructor. constructor.
    + destruct (open_delim s) as [[d r]|] eqn:E; [exfalso|reflexivity]. apply open_iff in E. now apply (H4 d r).
    + destruct (close_delim s) as [[d r]|] eqn:E; [exfalso|reflexivity]. apply close_iff in E. now apply (H5 d r).
    + destruct (p_leaf s) as [[r k]|] eqn:E; [exfalso|reflexivity]. apply p_leaf_iff in E as (t & E & H). now apply (H6 t r k).
  - intros (Hs & (H1 & H2 & H3 & H4) & H5). repeat split.
    + intro Hb. apply blank_text_skip in Hb. rewrite (p_skip_stay _ Hs) in Hb. contradiction.
    + now apply skip_none_no_trivia.
    + intros d r i x E Hd. assert (E' := proj2 (p_doc_iff s r x i Hs) (ex_intro _ d (conj E Hd))). congruence.
    + intros d r H. apply open_iff in H. congruence.
    + intros d r H. apply close_iff in H. congruence.
    + intros t r k E H. assert (E' := proj2 (p_leaf_iff s r k) (ex_intro _ t (conj E H))). congruence.
Qed.

(** *** Whole texts *)
Lemma scan_functional c ps : scan c ps -> forall ps', scan c ps' -> ps = ps'.
Proof using.
  unfold at_token.
  induction 1 as [c H|c d r ps Hd Ho Hs IH|c d r ps Hc Hs IH|c r x i ps Hd Hs IH|c r k ps Ha Hl Hs IH|c Ha Hl];
    intros ps' H'; destruct H' as [c H'|c d' r' ps' Hd' Ho' Hs'|c d' r' ps' Hc' Hs'|c r' x' i' ps' Hd' Hs'|c r' k' ps' Ha' Hl' Hs'|c Ha' Hl'];
    try (rewrite H in *); try (rewrite H' in *); unfold at_token in *; try tauto; try discriminate;
    try congruence;
    repeat match goal with
    | X : close_delim ?s = Some _, Y : open_delim ?s = Some _ |- _ => apply close_open in X; congruence
    | X : close_delim ?s = Some _, Y : p_doc ?s = Some _ |- _ => apply close_no_doc in X; congruence
    | X : _ /\ _ |- _ => destruct X
    end; try congruence.
  - rewrite Ho in Ho'. injection Ho' as <- <-. f_equal. auto.
  - rewrite Hc in Hc'. injection Hc' as <- <-. f_equal. auto.
  - rewrite Hd in Hd'. injection Hd' as <- <- <-. f_equal. auto.
  - rewrite Hl in Hl'. injection Hl' as <- <-. f_equal. auto.
Qed.

Lemma bom_cases start x : without_bom start x (start + (strlen x - strlen (strip_bom x))) (strip_bom x) /\
  forall a s, without_bom start x a s -> a = start + (strlen x - strlen (strip_bom x)) /\ s = strip_bom x.
Proof using.
  destruct x as [|c t]; cbn [strip_bom].
  - rewrite N.sub_diag, N.add_0_r. split; [constructor; discriminate|]. intros a s H. inversion H; auto.
  - destruct (N.eqb_spec c 0xFEFF) as [->|Hc].
    + replace (strlen (0xFEFF :: t) - strlen t) with 1 by (unfold strlen; cbn [length]; lia).
      split; [constructor|]. intros a s H. inversion H as [|? Hn]; subst; [auto|]. exfalso. now apply (Hn t).
    + rewrite N.sub_diag, N.add_0_r. split; [constructor; intros t' [= E _]; contradiction|].
      intros a s H. inversion H; subst; [contradiction|auto].
Qed.

Section File.
Variable src : str.
Variable start : N.
Hypothesis room : start + strlen src < two32.
Let in_text := in_text src start.

(** Trivia in front of something that cannot be skipped. *)
Lemma skipped_at c w s : in_text c -> rest c = w ++ s -> trivia w -> p_skip1 s = None ->
  rest (skipped c) = s /\ off (skipped c) = off c + strlen w /\ in_text (skipped c).
Proof using room.
  intros Hc E Hw Hs. assert (Er : p_skip (rest c) = s) by (rewrite E, trivia_skip by exact Hw; now apply p_skip_stay).
  unfold skipped. rewrite rest_cur_of, Er. split; [reflexivity|].
  destruct (in_text_cur_of _ _ room c w s Hc E) as [H1 H2]. auto.
Qed.
Lemma skipped_split c : in_text c -> rest (skipped c) <> [] ->
  exists w, rest c = w ++ rest (skipped c) /\ trivia w /\ off (skipped c) = off c + strlen w /\
    in_text (skipped c) /\ p_skip1 (rest (skipped c)) = None.
Proof using room.
  intros Hc Hn. destruct (skip_trivia (rest c)) as (w & Ew & [Hw|[Hw _]]).
  - exists w. unfold skipped in *. rewrite rest_cur_of in *. split; [exact Ew|]. split; [exact Hw|].
    destruct (in_text_cur_of _ _ room c w _ Hc Ew) as [H1 H2]. repeat split; auto. apply p_skip_fixed.
  - unfold skipped in Hn. rewrite rest_cur_of in Hn. contradiction.
Qed.

Lemma scan_reads c ps : scan c ps -> in_text c -> reads (off c) (rest c) ps.
Proof using room UO.
  induction 1 as [c H|c d r ps Hd Ho Hs IH|c d r ps Hc Hs IH|c r x i ps Hd Hs IH|c r k ps Ha Hl Hs IH|c Ha Hl]; intros Ht.
  - apply reads_end. apply blank_text_skip. unfold skipped in H. now rewrite rest_cur_of in H.
  - assert (Hin := open_in_text _ _ room _ _ _ Ht Ho).
    destruct (skipped_split c Ht) as (w & Ew & Hw & Eo & Hk & _); [intro X; rewrite X in Ho; discriminate|].
    apply open_iff in Ho as Ho'. rewrite Ew, Eo. destruct Ho' as (H1 & H2 & H3).
    destruct (in_text_cur_of _ _ room _ _ _ Hk H2) as [_ E2].
    apply reads_open with (r := r); [exact Hw|split; auto|].
    specialize (IH Hin). rewrite rest_cur_of, E2, Eo in IH.
    replace (strlen (open_char d)) with 1 in IH; [exact IH|].
    cbn [In delims] in H1. decompose [or] H1; try contradiction; subst d; reflexivity.
  - destruct (skipped_split c Ht) as (w & Ew & Hw & Eo & Hk & _); [intro X; rewrite X in Hc; discriminate|].
    apply close_iff in Hc as Ho'. rewrite Ew, Eo. destruct Ho' as (H1 & H2).
    destruct (in_text_cur_of _ _ room _ _ _ Hk H2) as [Hin E2].
    apply reads_close with (r := r); [exact Hw|split; auto|].
    specialize (IH Hin). rewrite rest_cur_of, E2, Eo in IH.
    replace (strlen (close_char d)) with 1 in IH; [exact IH|].
    cbn [In delims] in H1. decompose [or] H1; try contradiction; subst d; reflexivity.
  - destruct (skipped_split c Ht) as (w & Ew & Hw & Eo & Hk & Hn); [intro X; rewrite X in Hd; discriminate|].
    apply p_doc_iff in Hd as (d & Ed & Hd); [|exact Hn].
    destruct (in_text_cur_of _ _ room _ _ _ Hk Ed) as [Hin E2].
    rewrite Ew, Ed, E2, Eo, doc_tokens_attribute. apply reads_doc; auto.
    specialize (IH Hin). rewrite rest_cur_of, E2, Eo in IH. exact IH.
  - destruct (skipped_split c Ht) as (w & Ew & Hw & Eo & Hk & Hn); [now apply Ha|].
    apply p_leaf_iff in Hl as (t & Et & Hl).
    destruct (in_text_cur_of _ _ room _ _ _ Hk Et) as [Hin E2].
    rewrite Ew, Et, E2, Eo. apply reads_leaf; auto.
    specialize (IH Hin). rewrite rest_cur_of, E2, Eo in IH. exact IH.
  - destruct (skipped_split c Ht) as (w & Ew & Hw & Eo & Hk & Hn); [now apply Ha|].
    rewrite Ew, Eo. apply reads_bad; [exact Hw|]. now apply unreadable_iff.
Qed.

Lemma reads_scan a s ps : reads a s ps -> forall c, in_text c -> off c = a -> rest c = s -> scan c ps.
Proof using room UO.
  induction 1 as [a s H|a w s d r ps Hw Ho Hs IH|a w s d r ps Hw Hc Hs IH|a w d r i x ps Hw Hd Hs IH|a w t r k ps Hw Hl Hs IH|a w s Hw Hu];
    intros c Ht Ea Es.
  - apply scan_end. unfold skipped. rewrite rest_cur_of, Es. now apply blank_text_skip.
  - apply open_iff in Ho as Ho'. destruct (open_start _ _ _ Ho') as [H1 H2].
    destruct (skipped_at c w s Ht Es Hw H1) as (E1 & E2 & Hk). rewrite <- Ea, <- E2. rewrite <- E1 in Ho'.
    apply scan_open with r; auto; [now rewrite E1|].
    destruct Ho as (D1 & D2 & D3). rewrite <- E1 in D2. destruct (in_text_cur_of _ _ room _ _ _ Hk D2) as [Hin E3].
    apply IH; [exact Hin| |apply rest_cur_of]. rewrite E3, E2, Ea.
    replace (strlen (open_char d)) with 1; [reflexivity|].
    cbn [In delims] in D1. decompose [or] D1; try contradiction; subst d; reflexivity.
  - apply close_iff in Hc as Ho'. pose proof (close_start _ _ _ Ho') as H1.
    destruct (skipped_at c w s Ht Es Hw H1) as (E1 & E2 & Hk). rewrite <- Ea, <- E2. rewrite <- E1 in Ho'.
    apply scan_close with r; auto.
    destruct Hc as (D1 & D2). rewrite <- E1 in D2. destruct (in_text_cur_of _ _ room _ _ _ Hk D2) as [Hin E3].
    apply IH; [exact Hin| |apply rest_cur_of]. rewrite E3, E2, Ea.
    replace (strlen (close_char d)) with 1; [reflexivity|].
    cbn [In delims] in D1. decompose [or] D1; try contradiction; subst d; reflexivity.
  - pose proof (doc_at_skip _ _ _ _ Hd) as H1.
    destruct (skipped_at c w (d ++ r) Ht Es Hw H1) as (E1 & E2 & Hk).
    destruct (in_text_cur_of _ _ room _ _ _ Hk E1) as [Hin E3].
    rewrite <- Ea, <- E2, <- E3, <- doc_tokens_attribute. apply scan_doc.
    + rewrite E1. apply p_doc_iff; [exact H1|]. eauto.
    + apply IH; [exact Hin| |apply rest_cur_of]. now rewrite E3, E2, Ea.
  - assert (Hp := proj2 (p_leaf_iff (t ++ r) r k) (ex_intro _ t (conj eq_refl Hl))).
    destruct (p_leaf_start UO _ _ _ Hp) as [H1 H2].
    destruct (skipped_at c w (t ++ r) Ht Es Hw H1) as (E1 & E2 & Hk).
    destruct (in_text_cur_of _ _ room _ _ _ Hk E1) as [Hin E3].
    rewrite <- Ea, <- E2, <- E3. apply scan_leaf; rewrite ?E1; auto.
    apply IH; [exact Hin| |apply rest_cur_of]. now rewrite E3, E2, Ea.
  - apply unreadable_iff in Hu as (H1 & H2 & H3).
    destruct (skipped_at c w s Ht Es Hw H1) as (E1 & E2 & Hk). rewrite <- Ea, <- E2.
    apply scan_bad; now rewrite E1.
Qed.

Lemma reads_source_pieces ps : reads_source start src ps <-> pieces src start ps.
Proof using room UO.
  assert (Hin := in_text_start _ _ room). unfold pieces, reads_source.
  destruct (bom_cases start src) as [H1 H4]. destruct (in_text_bound _ _ room _ Hin) as [Ha Hb]. rewrite rest_cur_of in Hb.
  assert (H2 : off (cur_of (mkcur src start) (strip_bom src)) = start + (strlen src - strlen (strip_bom src))) by lia.
  assert (H3 := eq_refl (strip_bom src)). revert H1 H2 H4.
  generalize (start + (strlen src - strlen (strip_bom src))) as a. intros a H1 H2 H4. set (s := strip_bom src) in *. split.
  - intros (a' & s' & Hw & Hr). destruct (H4 _ _ Hw) as [-> ->].
    apply (reads_scan a s ps Hr); [exact Hin|exact H2|now rewrite rest_cur_of].
  - intro Hs. exists a, s. split; [exact H1|]. pose proof (scan_reads _ _ Hs Hin) as Hr.
    rewrite rest_cur_of, H2 in Hr. exact Hr.
Qed.

Lemma parse_reads ts : token_stream_from_str start src = Ok (Lexed ts) <->
  exists ps, reads_source start src ps /\ tree ps ts.
Proof using room UO.
  rewrite (parse_tree _ _ room). split; intros (ps & H1 & H2); exists ps; (split; [now apply reads_source_pieces|exact H2]).
Qed.
Lemma parse_reads_error sp : token_stream_from_str start src = Ok (LexError sp) <->
  exists ps, reads_source start src ps /\ wrong_top ps (lo sp) /\ hi sp = lo sp.
Proof using room UO.
  rewrite (parse_wrong _ _ room). split; intros (ps & H1 & H2); exists ps; (split; [now apply reads_source_pieces|exact H2]).
Qed.

Lemma reads_functional ps ps' : reads_source start src ps -> reads_source start src ps' -> ps = ps'.
Proof using room UO. rewrite !reads_source_pieces. unfold pieces. intros H H'. eapply scan_functional; eauto. Qed.
Lemma reads_total : exists ps, reads_source start src ps.
Proof using room UO. destruct (pieces_total src start) as [ps H]. exists ps. now apply reads_source_pieces. Qed.

End File.
Lemma blank_source start s : start < two32 ->
  token_stream_from_str start s = Ok (Lexed []) <-> exists a t, without_bom start s a t /\ blank_text t.
Proof using UO.
  intro H. rewrite (from_str_blank U UO) by exact H. destruct (bom_cases start s) as [H1 H2]. split.
  - intro Hb. eauto.
  - intros (a & t & Hw & Hb). destruct (H2 _ _ Hw) as [_ ->]. exact Hb.
Qed.
End WithUnicode.
