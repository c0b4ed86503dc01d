(** * Literals accepted by the lexer against those of the Rust reference.  Not a model of code. *)
From Verif Require Import Base BaseFacts Unicode Tokens Lexer PureLexer.
From Verif Require Import LexerEquiv LexerEquiv2 LexerEquiv3 LexerEquiv4 Grammar Stable Trivia.
From Verif Require Import SpecText Comments Fallback SpecTree Spans EscaperFacts.
From Verif Require Import SpecLit SpecGrammar NumGrammar QuotedGrammar LexemeProofs SpecReference.
Local Open Scope N_scope.

(** Two maximal runs at the same place are the same. *)
Lemma run_unique (P : char -> bool) a : forall b r s, a ++ r = b ++ s ->
  Forall (fun c => P c = true) a -> Forall (fun c => P c = true) b ->
  (forall c t, r = c :: t -> P c = false) -> (forall c t, s = c :: t -> P c = false) -> a = b /\ r = s.
Proof.
  induction a as [|x a IH]; intros b r s E Ha Hb Hr Hs.
  - destruct b as [|y b]; [auto|]. cbn in E. inversion Hb. rewrite (Hr y (b ++ s)) in H1; [discriminate|exact E].
  - inversion Ha; subst. destruct b as [|y b].
    + cbn in E. rewrite (Hs x (a ++ r)) in H1; [discriminate|now symmetry].
    + cbn in E. injection E as <- E. inversion Hb; subst. destruct (IH b r s E) as [-> ->]; auto.
Qed.

Section WithUnicode.
Context {U : unicode} (UO : unicode_ok U).

Lemma end_nil : word_end [].
Proof using. intros c t; discriminate. Qed.
Lemma dec_run d : dec_text d -> Forall (fun c => dou c = true) d.
Proof using.
  intros (c & t & -> & Hc & Ht). constructor; [apply dou_spec; now left|]. now apply Forall_dou.
Qed.
Lemma suffix_all s : number_suffix s -> Forall (fun c => is_xid_continue c = true) s.
Proof using UO. intros [->|[H _]]; [constructor|now apply (ident_text_all UO)]. Qed.
Lemma suffix_dou s : number_suffix s -> forall c t, s = c :: t -> dou c = false.
Proof using UO. intros H c t E. apply (suffix_stops UO s [] H end_nil c t). now rewrite app_nil_r. Qed.
Lemma dot_not_cont : is_xid_continue "."%ch = false.
Proof using UO. rewrite (xid_continue_ascii _ UO) by lia. reflexivity. Qed.

(** A float that starts like a decimal integer with a suffix. *)
Lemma float_in_word d s t r : dec_text d -> number_suffix s -> float_at t r -> d ++ s = t ++ r ->
  exists m x, exponent_letter m /\ s = m ++ x /\ exponent_tail x /\ r = [].
Proof using UO.
  intros Hd Hs Hf E. pose proof (suffix_all s Hs) as Ha.
  assert (Hdot : forall y, s <> "."%ch :: y).
  { intros y ->. inversion Ha. rewrite dot_not_cont in H1. discriminate. }
  destruct Hf as [d' r' Hd' Hr Hn|d' f s' r' Hd' Hf Hs' Hr Hn|d' f m e s' r' Hd' Hf Hm He Hs' Hr].
  - rewrite <- app_assoc in E.
    apply (run_unique dou) in E as [-> E]; [|now apply dec_run|now apply dec_run|now apply suffix_dou|].
    + exfalso. now apply (Hdot r').
    + cbn [app]. intros c t [= <- _]. reflexivity.
  - rewrite <- app_assoc in E.
    apply (run_unique dou) in E as [-> E]; [|now apply dec_run|now apply dec_run|now apply suffix_dou|].
    + exfalso. eapply Hdot. rewrite E. reflexivity.
    + cbn [app]. intros c t [= <- _]. reflexivity.
  - rewrite <- app_assoc in E.
    apply (run_unique dou) in E as [-> E]; [|now apply dec_run|now apply dec_run|now apply suffix_dou|].
    + destruct Hf as [->|(f' & -> & Hf')].
      2:{ exfalso. eapply Hdot. rewrite E. reflexivity. }
      cbn [app] in E. exists m, (e ++ s'). split; [exact Hm|].
      assert (r' = []) as ->.
      { destruct r' as [|c r']; [reflexivity|]. exfalso. specialize (Hr c r' eq_refl).
        rewrite E in Ha. apply Forall_app in Ha as [_ Ha]. inversion Ha. congruence. }
      rewrite app_nil_r in E. rewrite E. split; [reflexivity|]. split; [|reflexivity]. exists e, s'. auto.
    + intros c t Ec. destruct Hf as [->|(f' & -> & Hf')]; [|cbn in Ec; injection Ec as <- _; reflexivity].
      destruct Hm as [-> | ->]; cbn in Ec; injection Ec as <- _; reflexivity.
Qed.
Lemma no_float_radix p b s t r : radix p b -> p ++ s = t ++ r -> ~ float_at t r.
Proof using.
  intros Hp E Hf.
  assert (Hz : exists x u, p = ["0"%ch; x] /\ (x = "x"%ch \/ x = "o"%ch \/ x = "b"%ch) /\ u = tt).
  { destruct Hp; eexists _, tt; (split; [reflexivity|]); auto. }
  destruct Hz as (x & _ & -> & Hx & _).
  assert (Hd : forall d y, dec_text d -> ["0"%ch; x] ++ s = d ++ y -> d = tag "0" /\ y = x :: s).
  { intros d y Hd E2. destruct Hd as (c & u & -> & Hc & Hu). cbn in E2. injection E2 as <- E2.
    destruct u as [|c2 u]; [auto|]. cbn in E2. injection E2 as <- _. inversion Hu.
    unfold digit_or_underscore, dec_digit in H1. exfalso. destruct Hx as [->|[->| ->]]; lia. }
  destruct Hf as [d' r' Hd' Hr Hn|d' f s' r' Hd' Hf Hs' Hr Hn|d' f m e s' r' Hd' Hf Hm He Hs' Hr];
    rewrite <- app_assoc in E; apply Hd in E as [-> E]; try exact Hd'.
  - cbn in E. injection E as <- _. destruct Hx as [X|[X|X]]; discriminate.
  - cbn in E. injection E as <- _. destruct Hx as [X|[X|X]]; discriminate.
  - destruct Hf as [->|(f' & -> & Hf')].
    + destruct Hm as [-> | ->]; cbn in E; injection E as <- _; destruct Hx as [X|[X|X]]; discriminate.
    + cbn in E. injection E as <- _. destruct Hx as [X|[X|X]]; discriminate.
Qed.

Lemma quoted_split q : quoted q ->
  ref_quoted q \/ exists k c, k <> KC /\ In c [SQUOTE; LF; CR; TAB] /\ q = prefix k ++ [SQUOTE; c; SQUOTE].
Proof using.
  intros [k b v H1 H2|k n b H1 H2 H3 H4|k c H1 H2 H3|k e v H1 H2].
  - left. econstructor; eauto.
  - left. constructor; auto.
  - destruct (in_dec N.eq_dec c [SQUOTE; LF; CR; TAB]) as [H|H].
    + right. exists k, c. auto.
    + left. constructor; auto. unfold char_excluded. cbn [In] in *. intuition congruence.
  - left. econstructor; eauto.
Qed.
Lemma ref_quoted_quoted q : ref_quoted q -> quoted q.
Proof using.
  intros [k b v H1 H2|k n b H1 H2 H3 H4|k c H1 H2 H3|k e v H1 H2]; try (econstructor; eauto; fail).
  apply quoted_char; auto. intros ->. apply H2. cbn. tauto.
Qed.
Lemma quoted_suffix q s : quoted q -> s = [] \/ ident_text s -> literal_at (q ++ s) [].
Proof using.
  intros Hq [->|Hs].
  - rewrite app_nil_r. apply literal_quoted; [exact Hq|]. intros c t; discriminate.
  - apply literal_suffixed; auto. apply end_nil.
Qed.

Lemma begins_e s : no_e s \/ exists m x, exponent_letter m /\ s = m ++ x.
Proof using.
  unfold no_e, exponent_letter. rewrite <- !begins_starts_f.
  destruct (starts_with s (tag "e")) eqn:E1.
  { right. apply starts_with_skipn in E1. eauto. }
  destruct (starts_with s (tag "E")) eqn:E2; [|auto].
  right. apply starts_with_skipn in E2. eauto.
Qed.

Lemma underscore_digits u ds : Forall (fun c => c = "_"%ch) u -> dec_text ds ->
  Forall digit_or_underscore (u ++ ds) /\ Exists dec_digit (u ++ ds).
Proof using.
  intros Hu (c & t & -> & Hc & Ht). split.
  - apply Forall_app. split; [|constructor; [now left|exact Ht]].
    revert Hu. apply Forall_impl. intros x ->. now right.
  - apply Exists_app. right. now constructor.
Qed.
Lemma exponent_split e : exponent_text e -> ref_exponent e \/
  exists u sign v ds, e = u ++ sign ++ v ++ ds /\ u <> [] /\ Forall (fun c => c = "_"%ch) u /\
    (sign = tag "+" \/ sign = tag "-") /\ Forall (fun c => c = "_"%ch) v /\ dec_text ds.
Proof using.
  intros (u & sign & v & ds & -> & Hu & Hs & Hv & Hd). destruct Hs as [->|Hs].
  - left. exists [], (u ++ v ++ ds). split; [reflexivity|]. split; [auto|].
    rewrite app_assoc. apply underscore_digits; [|exact Hd]. now apply Forall_app.
  - destruct u as [|x u].
    + left. exists sign, (v ++ ds). split; [reflexivity|]. split; [tauto|]. now apply underscore_digits.
    + right. exists (x :: u), sign, v, ds. repeat split; auto. discriminate.
Qed.
Lemma ref_exponent_text e : ref_exponent e -> exponent_text e.
Proof using.
  intros (sign & ds & -> & Hs & Hf & He).
  assert (H : exists v ds', ds = v ++ ds' /\ Forall (fun c => c = "_"%ch) v /\ dec_text ds').
  { clear Hs. induction Hf as [|c t Hc Ht IH]; [inversion He|]. destruct Hc as [Hc| ->].
    - exists [], (c :: t). split; [reflexivity|]. split; [constructor|]. exists c, t. auto.
    - inversion He; subst; [unfold dec_digit in *; lia|]. destruct (IH H0) as (v & ds' & -> & Hv & Hd).
      exists ("_"%ch :: v), ds'. split; [reflexivity|]. split; [now constructor|exact Hd]. }
  destruct H as (v & ds' & -> & Hv & Hd). exists [], sign, v, ds'. repeat split; auto.
Qed.

Lemma accepted_split s : literal_at s [] -> ref_literal s \/ lenient s.
Proof using UO.
  intro H. remember [] as r eqn:Er. destruct H as [q r Hq Hn|q x r Hq Hx Hr|t r Hf|t r Hi Hno]; subst.
  - destruct (quoted_split q Hq) as [H|(k & c & Hk & Hc & ->)].
    + left. rewrite <- (app_nil_r q). constructor; [exact H|now left].
    + right. apply (lenient_char k c []); auto.
  - destruct (quoted_split q Hq) as [H|(k & c & Hk & Hc & ->)].
    + destruct (list_eq_dec N.eq_dec x (tag "_")) as [->|Hu].
      * right. now constructor.
      * left. constructor; [exact H|]. right. auto.
    + right. rewrite <- app_assoc. apply lenient_char; auto.
  - remember [] as r eqn:Er.
    destruct Hf as [d' r' Hd' Hr Hn|d' f s' r' Hd' Hf Hs' Hr Hn|d' f m e s' r' Hd' Hf Hm He Hs' Hr]; subst.
    + left. apply ref_literal_number. now constructor.
    + destruct (begins_e s') as [H|(m & x & Hm & ->)].
      * left. apply ref_literal_number. now constructor.
      * right. apply lenient_fraction_e; auto. specialize (Hn m x Hm eq_refl). now rewrite app_nil_r in Hn.
    + destruct (exponent_split e He) as [H|(u & sign & v & ds & -> & H1 & H2 & H3 & H4 & H5)].
      * left. apply ref_literal_number. now constructor.
      * right. now apply lenient_sign.
  - remember [] as r eqn:Er. destruct Hi as [d s r Hd Hs Hr Hp|p b ds s r Hp Hf He Hs Hd Hr]; subst.
    + destruct (begins_e s) as [H|(m & x & Hm & ->)].
      * left. apply ref_literal_number. now constructor.
      * right. apply lenient_int_e; auto. intros (e & s' & -> & He & Hs').
        apply (Hno (d ++ [] ++ m ++ e ++ s') []); [reflexivity|]. apply float_exponent; auto.
    + destruct (begins_e s) as [H|(m & x & Hm & ->)].
      * left. apply ref_literal_number. now apply (ref_radix p b).
      * right. apply (lenient_radix_e p b); auto. intros ->.
        destruct Hm as [-> | ->]; (eapply Hd; [reflexivity|]); exists 14; (split; [|lia]).
        -- apply (hex_lower 14). lia.
        -- apply (hex_upper 14). lia.
Qed.

Lemma suffix_not_digit b s : b <> 16 -> (b = 8 \/ b = 2) -> number_suffix s ->
  forall c t, s = c :: t -> ~ digit_below b c.
Proof using UO.
  intros Hb Hb' Hs c t E (v & Hv & Hlt). pose proof (suffix_dou s Hs c t E) as Hd.
  destruct Hv as [v Hv|v Hv|v Hv]; [|lia|lia]. unfold dou, is_dec_digit, between in Hd. lia.
Qed.
Lemma ref_accepted s : ref_literal s -> literal_at s [].
Proof using UO.
  intros [q x Hq Hx|x Hn].
  - apply quoted_suffix; [now apply ref_quoted_quoted|]. unfold ref_suffix in Hx. tauto.
  - destruct Hn as [d s' Hd Hs He Hp|p b ds s' Hp Hf He Hs Hd Hne|d Hd|d f s' Hd Hf Hs Hne|d f m e s' Hd Hf Hm He Hs].
    + apply literal_int; [now apply int_decimal|]. rewrite app_nil_r. intros t r E Ht.
      destruct (float_in_word d s' t r Hd Hs Ht E) as (m & y & Hm & -> & _).
      destruct He as [H1 H2]. destruct Hm as [-> | ->]; [apply H1|apply H2]; now exists y.
    + apply literal_int; [now apply (int_radix p b)|]. rewrite app_nil_r. intros t r E.
      now apply (no_float_radix p b (ds ++ s')).
    + apply literal_float, float_point; auto; [apply end_nil|]. intros [y Y]; discriminate.
    + apply literal_float, float_fraction; auto; [apply end_nil|]. intros m y Hm ->. exfalso.
      destruct Hne as [H1 H2]. destruct Hm as [-> | ->]; [apply H1|apply H2]; now exists y.
    + apply literal_float, float_exponent; auto; [now apply ref_exponent_text|apply end_nil].
Qed.
Lemma lenient_accepted s : lenient s -> literal_at s [].
Proof using UO.
  intros [k c s' Hk Hc Hs|q Hq|d m x Hd Hm Hs Hx|p b ds m x Hp Hf He Hm Hs Hb|d f m x Hd Hf Hm Hs Hx
         |d f m u sign v ds s' Hd Hf Hm Hu Hu' Hsg Hv Hds Hs].
  - rewrite app_assoc. apply quoted_suffix; [|exact Hs].
    apply quoted_char; [exact Hk|intros ->; cbn in Hc; intuition discriminate|].
    intros _. cbn in Hc. intuition (subst; lia).
  - apply quoted_suffix; [now apply ref_quoted_quoted|]. right. exists "_"%ch, []. split; [reflexivity|].
    split; [|constructor]. now left.
  - apply literal_int.
    + apply int_decimal; auto; [apply end_nil|]. intros p b Hp [y Hy].
      assert (E : exists z, (z = "x"%ch \/ z = "o"%ch \/ z = "b"%ch) /\ d ++ m ++ x = "0"%ch :: z :: y).
      { rewrite Hy. destruct Hp; eexists; (split; [|reflexivity]); auto. }
      destruct E as (z & Hz & E). destruct Hd as (c & t & -> & Hc & Ht). cbn in E. injection E as -> E.
      destruct t as [|c2 t].
      * destruct Hm as [-> | ->]; cbn in E; injection E as <- _; destruct Hz as [X|[X|X]]; discriminate.
      * cbn in E. injection E as -> _. inversion Ht. unfold digit_or_underscore, dec_digit in H1.
        destruct Hz as [->|[->| ->]]; lia.
    + rewrite app_nil_r. intros t r E Ht.
      destruct (float_in_word d (m ++ x) t r Hd Hs Ht E) as (m' & y & Hm' & Ey & Hy & _).
      assert (x = y) as -> by (destruct Hm as [-> | ->], Hm' as [-> | ->]; cbn in Ey; congruence). auto.
  - apply literal_int.
    + apply (int_radix p b); auto; [|apply end_nil]. apply suffix_not_digit; auto. destruct Hp; auto; contradiction.
    + rewrite app_nil_r. intros t r E. now apply (no_float_radix p b (ds ++ m ++ x)).
  - apply literal_float, float_fraction; auto; [apply end_nil|]. intros m' y Hm' Ey. rewrite app_nil_r.
    assert (x = y) as -> by (destruct Hm as [-> | ->], Hm' as [-> | ->]; cbn in Ey; congruence). auto.
  - apply literal_float, float_exponent; auto; [|apply end_nil]. exists u, sign, v, ds. repeat split; auto.
Qed.

Lemma literal_grammar start src repr sp : start + strlen src < two32 ->
  literal_from_str start src = Ok (LitOk repr sp) <->
  repr = src /\ sp = mkspan start (start + strlen src) /\
  (literal_at src [] \/ exists d u, src = "-"%ch :: d :: u /\ dec_digit d /\ literal_at (d :: u) []).
Proof using UO.
  intro Hroom. rewrite literal_from_str_spec by (unfold strlen in Hroom; lia).
  rewrite (wrap32_small (start + N.of_nat (length src))) by exact Hroom. fold (strlen src).
  assert (Hl : forall s, p_literal s = Some [] <-> literal_at s []).
  { intro s. rewrite (p_literal_iff UO). split.
    - intros (t & -> & H). now rewrite app_nil_r.
    - intro H. exists s. now rewrite app_nil_r. }
  assert (Hminus : forall s, ~ literal_at ("-"%ch :: s) []).
  { intros s H. apply Hl in H.
    assert (Hp := proj2 (p_leaf_kind UO ("-"%ch :: s) [] (TLiteral (prefix_of ("-"%ch :: s) []))) (LK_lit _ _ H)).
    destruct (p_leaf_start UO _ _ _ Hp) as [_ _]. revert H. unfold p_literal.
    cbn. discriminate. }
  unfold p_literal_from_str. destruct (head_is "-"%ch src) eqn:Eh; cbn [andb].
  - destruct src as [|c s]; [discriminate|]. cbn [head_is] in Eh. apply N.eqb_eq in Eh as <-. cbn [skipn].
    destruct s as [|d u]; cbn [negb].
    { split; [discriminate|]. intros (_ & _ & [H|(d & u & X & _)]); [now apply Hminus in H|discriminate]. }
    destruct (is_dec_digit d) eqn:Ed; cbn [negb].
    + destruct (p_literal (d :: u)) as [[|x y]|] eqn:El.
      * split; [|intros (-> & -> & _); reflexivity]. intros [= <- <-]. repeat split. right. exists d, u.
        split; [reflexivity|]. split; [now apply digit_is|now apply Hl].
      * split; [discriminate|]. intros (_ & _ & [H|(d' & u' & [= <- <-] & _ & H)]); [now apply Hminus in H|].
        apply Hl in H. congruence.
      * split; [discriminate|]. intros (_ & _ & [H|(d' & u' & [= <- <-] & _ & H)]); [now apply Hminus in H|].
        apply Hl in H. congruence.
    + split; [discriminate|]. intros (_ & _ & [H|(d' & u' & [= <- <-] & H & _)]); [now apply Hminus in H|].
      apply digit_is in H. congruence.
  - assert (Hno : forall d u, src <> "-"%ch :: d :: u) by (intros d u ->; discriminate).
    destruct (p_literal src) as [[|x y]|] eqn:El.
    + split; [|intros (-> & -> & _); reflexivity]. intros [= <- <-]. repeat split. left. now apply Hl.
    + split; [discriminate|]. intros (_ & _ & [H|(d' & u' & X & _)]); [|now apply Hno in X]. apply Hl in H. congruence.
    + split; [discriminate|]. intros (_ & _ & [H|(d' & u' & X & _)]); [|now apply Hno in X]. apply Hl in H. congruence.
Qed.

Lemma literal_reference start src : start + strlen src < two32 ->
  (exists sp, literal_from_str start src = Ok (LitOk src sp)) <->
  ref_literal src \/ lenient src \/
  exists d u, src = "-"%ch :: d :: u /\ dec_digit d /\ (ref_literal (d :: u) \/ lenient (d :: u)).
Proof using UO.
  intro Hroom. split.
  - intros [sp H]. apply literal_grammar in H as (_ & _ & [H|(d & u & -> & Hd & H)]); [| |exact Hroom].
    + apply accepted_split in H. tauto.
    + right. right. exists d, u. split; [reflexivity|]. split; [exact Hd|]. now apply accepted_split.
  - intro H. eexists. apply literal_grammar; [exact Hroom|]. split; [reflexivity|]. split; [reflexivity|].
    destruct H as [H|[H|(d & u & -> & Hd & [H|H])]].
    + left. now apply ref_accepted.
    + left. now apply lenient_accepted.
    + right. exists d, u. split; [reflexivity|]. split; [exact Hd|]. now apply ref_accepted.
    + right. exists d, u. split; [reflexivity|]. split; [exact Hd|]. now apply lenient_accepted.
Qed.

(** Two texts that are accepted and are no literals of the reference. *)
Lemma three_quotes_not_ref : ~ ref_literal (tag "'''").
Proof using.
  intro H. remember (tag "'''") as t eqn:E. destruct H as [q s Hq Hs|t Hn].
  - destruct Hq as [k b v _ _|k n b _ _ _ _|k c Hk Hc _|k e v Hk He].
    + destruct k; discriminate.
    + destruct k; discriminate.
    + destruct k; try discriminate. cbn in E. injection E as -> _. apply Hc. cbn. tauto.
    + destruct k; discriminate.
  - assert (Hd : forall d y, dec_text d -> tag "'''" <> d ++ y).
    { intros d y (c & u & -> & Hc & _) X. injection X as <- _. unfold dec_digit in Hc. lia. }
    destruct Hn as [d s' Hd' Hs He Hp|p b ds s' Hp|d Hd'|d f s' Hd'|d f m e s' Hd']; symmetry in E;
      try (eapply Hd; [exact Hd'|exact E]).
    destruct Hp; discriminate.
Qed.
Lemma bare_exponent_not_ref : ~ ref_literal (tag "1e").
Proof using UO.
  intro H. remember (tag "1e") as t eqn:E. destruct H as [q s Hq Hs|t Hn].
  - destruct Hq as [k b v _ _|k n b _ _ _ _|k c Hk Hc _|k e v Hk He]; destruct k; discriminate.
  - assert (Hd : forall d y, dec_text d -> d ++ y = tag "1e" -> d = tag "1" /\ y = tag "e").
    { intros d y (c & u & -> & Hc & Hu) X. injection X as -> X. destruct u as [|c2 u]; [auto|].
      cbn in X. injection X as -> _. inversion Hu. unfold digit_or_underscore, dec_digit in H1. lia. }
    destruct Hn as [d s' Hd' Hs He Hp|p b ds s' Hp|d Hd'|d f s' Hd'|d f m e s' Hd' Hf Hm He Hs].
    + apply Hd in E as [-> ->]; [|exact Hd']. apply (proj1 He). now exists [].
    + destruct Hp; discriminate.
    + apply Hd in E as [_ X]; [discriminate|exact Hd'].
    + apply Hd in E as [_ X]; [discriminate|exact Hd'].
    + apply Hd in E as [_ X]; [|exact Hd'].
      destruct Hf as [->|(f' & -> & _)]; [|discriminate].
      apply ref_exponent_text in He as (u & sign & v & ds & -> & _ & _ & _ & (c & w & -> & _)).
      destruct Hm as [-> | ->]; [|discriminate]. cbn [app] in X. injection X as X.
      apply (f_equal (@length N)) in X. rewrite !app_length in X. cbn [length] in X. lia.
Qed.

(** *** In the form used by PropGrammar.v *)
Lemma reference_accepted start src : start + strlen src < two32 ->
  ref_literal src -> exists sp, literal_from_str start src = Ok (LitOk src sp).
Proof using UO. intros Hr H. apply literal_reference; auto. Qed.
Lemma error_reads src start : start + strlen src < two32 -> forall sp,
  token_stream_from_str start src = Ok (LexError sp) ->
  exists ps, reads_source start src ps /\ wrong_top ps (lo sp).
Proof using UO.
  intros Hr sp H. apply (parse_reads_error UO) in H as (ps & H1 & H2 & _); eauto.
Qed.
Lemma reads_once src start : start + strlen src < two32 ->
  exists ps, reads_source start src ps /\ forall ps', reads_source start src ps' -> ps' = ps.
Proof using UO.
  intro Hr. destruct (reads_total UO src start Hr) as [ps H]. exists ps. split; [exact H|].
  intros ps' H'. now apply (reads_functional UO src start Hr).
Qed.
Lemma lexeme_once t r k t' r' k' :
  lexeme t r k -> lexeme t' r' k' -> t ++ r = t' ++ r' -> t = t' /\ r = r' /\ k = k'.
Proof using UO.
  intros H H' E.
  assert (X := proj2 (p_leaf_iff UO (t ++ r) r k) (ex_intro _ t (conj eq_refl H))).
  assert (Y := proj2 (p_leaf_iff UO (t ++ r) r' k') (ex_intro _ t' (conj E H'))).
  rewrite X in Y. injection Y as <- <-. apply app_inv_tail in E. auto.
Qed.

Lemma lexeme_compute t r k : p_leaf (t ++ r) = Some (r, k) -> lexeme t r k.
Proof using UO. intro H. apply (p_leaf_iff UO) in H as (t' & E & H). now apply app_inv_tail in E as <-. Qed.
Lemma literal_compute t : p_literal t = Some [] <-> literal_at t [].
Proof using UO.
  rewrite (p_literal_iff UO). split.
  - intros (t' & -> & H). now rewrite app_nil_r.
  - intro H. exists t. now rewrite app_nil_r.
Qed.
Lemma trivia_compute w s : p_skip (w ++ s) = s -> s <> [] -> trivia w.
Proof using.
  intros E Hs. destruct (skip_trivia (w ++ s)) as (w' & Ew & [H|[H _]]); [|congruence].
  rewrite E in Ew. now apply app_inv_tail in Ew as ->.
Qed.

End WithUnicode.

Ltac ident := eexists _, _; split; [reflexivity|]; split; [first [left; reflexivity|right; reflexivity]|repeat constructor].
Lemma unclosed_example :
  @reads_source sample_unicode 5 (tag "( [") [POpen Parenthesis 5; POpen Bracket 7] /\
  wrong_top [POpen Parenthesis 5; POpen Bracket 7] 7 /\
  @token_stream_from_str sample_unicode 5 (tag "( [") = Ok (LexError (mkspan 7 7)).
Proof.
  split; [|split; [|vm_compute; reflexivity]].
  - exists 5, (tag "( ["). split; [constructor; discriminate|].
    apply (reads_open 5 [] (tag "( [") Parenthesis (tag " [")); [constructor| |].
    { split; [cbn; tauto|]. split; [reflexivity|]. intros [y Y]. discriminate. }
    apply (reads_open 6 (tag " ") (tag "[") Bracket []).
    + apply (trivia_compute _ (tag "[")); [vm_compute; reflexivity|discriminate].
    + split; [cbn; tauto|]. split; [reflexivity|]. intros [y Y]. discriminate.
    + apply reads_end. now apply blank_text_skip.
  - apply wrong_within, wrong_inside. apply (wrong_unclosed Bracket 7 [] []). constructor.
Qed.
Lemma lexeme_examples :
  @lexeme sample_unicode (tag "1.5e3") (tag "..2") (TLiteral (tag "1.5e3")) /\
  @lexeme sample_unicode (tag "'") (tag "a b") (TPunct SQUOTE Joint) /\
  @lexeme sample_unicode (tag "'a'") [] (TLiteral (tag "'a'")) /\
  @lexeme sample_unicode (tag "r#fn") (tag "()") (TIdent (tag "fn") true) /\
  @reads_source sample_unicode 0 (tag "a /* ( */ (") [PTok [TIdent (tag "a") false (mkspan 0 1)]; POpen Parenthesis 10].
Proof.
  repeat split; try (apply (lexeme_compute sample_unicode_ok); vm_compute; reflexivity).
  exists 0, (tag "a /* ( */ ("). split; [constructor; discriminate|].
  apply (reads_leaf 0 [] (tag "a") (tag " /* ( */ (") (TIdent (tag "a") false)).
  - constructor.
  - apply (lexeme_compute sample_unicode_ok). vm_compute. reflexivity.
  - apply (reads_open 1 (tag " /* ( */ ") (tag "(") Parenthesis []).
    + apply (trivia_compute _ (tag "(")); [vm_compute; reflexivity|discriminate].
    + split; [cbn; tauto|]. split; [reflexivity|]. intros [y Y]. discriminate.
    + apply reads_end. now apply blank_text_skip.
Qed.
Lemma literal_at_examples :
  @literal_at sample_unicode (tag "0x1Fu8") [] /\ ~ @literal_at sample_unicode (tag "0x_") [] /\
  @literal_at sample_unicode (tag "1.") [] /\ ~ @literal_at sample_unicode (tag "1._0") [].
Proof.
  rewrite <- !(literal_compute sample_unicode_ok). vm_compute. repeat split; discriminate.
Qed.
Lemma ref_examples :
  @ref_literal sample_unicode (tag "1_0.5e+_3f64") /\ @ref_literal sample_unicode (tag "b'\x7F'u8") /\
  @ref_literal sample_unicode (tag "0b1_0usize").
Proof.
  split; [|split].
  - apply ref_literal_number, (ref_float (tag "1_0") (tag ".5") (tag "e") (tag "+_3") (tag "f64")).
    + exists "1"%ch, (tag "_0"). split; [reflexivity|]. split; [unfold dec_digit; lia|].
      constructor; [now right|]. constructor; [left; unfold dec_digit; lia|constructor].
    + right. exists (tag "5"). split; [reflexivity|]. exists "5"%ch, []. split; [reflexivity|].
      split; [unfold dec_digit; lia|constructor].
    + now left.
    + exists (tag "+"), (tag "_3"). split; [reflexivity|]. split; [auto|]. split.
      * constructor; [now right|]. constructor; [left; unfold dec_digit; lia|constructor].
      * apply Exists_cons_tl. constructor. unfold dec_digit. lia.
    + right. split; [ident|]. intros [y Y]. discriminate.
  - apply (ref_literal_quoted (prefix KByte ++ [SQUOTE; BACKSLASH] ++ tag "x7F" ++ [SQUOTE]) (tag "u8")).
    + apply (ref_escape KByte _ [16 * 7 + 15]); [discriminate|]. apply esc_hex; try discriminate.
      * apply (hex_09 7). lia.
      * apply (hex_upper 15). lia.
    + right. split; [ident|discriminate].
  - apply ref_literal_number, (ref_radix (tag "0b") 2 (tag "1_0") (tag "usize")).
    + constructor.
    + constructor; [left; exists 1; split; [apply (hex_09 1); lia|lia]|].
      constructor; [now right|].
      constructor; [left; exists 0; split; [apply (hex_09 0); lia|lia]|constructor].
    + constructor. exists 1. split; [apply (hex_09 1); lia|lia].
    + right. split; [ident|]. intros [y Y]. discriminate.
    + intros c t [= <- <-] (v & Hv & Hl). inversion Hv; lia.
    + split; intros [y Y]; discriminate.
Qed.
Lemma lenient_examples :
  @lenient sample_unicode (tag "'''") /\ @lenient sample_unicode (tag "1e") /\
  @lenient sample_unicode (tag "1e_+5") /\ @lenient sample_unicode (tag "2.0Ex") /\
  @lenient sample_unicode (tag """""_").
Proof.
  assert (D : forall c, dec_digit c -> dec_text [c]) by (intros c Hc; exists c, []; auto).
  split; [|split; [|split; [|split]]].
  - apply (lenient_char KStr SQUOTE []); [discriminate|cbn; tauto|now left].
  - apply (lenient_int_e (tag "1") (tag "e") []).
    + apply D. unfold dec_digit. lia.
    + now left.
    + right. split; [ident|]. intros [y Y]. discriminate.
    + intros (e & s & E & (u & sg & v & ds & -> & _ & _ & _ & (c & w & -> & _)) & _).
      apply (f_equal (@length N)) in E. rewrite !app_length in E. cbn [length] in E. lia.
  - apply (lenient_sign (tag "1") [] (tag "e") (tag "_") (tag "+") [] (tag "5") []);
      try (apply D; unfold dec_digit; lia); try (now left); try discriminate; repeat constructor.
  - apply (lenient_fraction_e (tag "2") (tag "0") (tag "E") (tag "x")).
    + apply D. unfold dec_digit. lia.
    + apply D. unfold dec_digit. lia.
    + now right.
    + right. split; [ident|]. intros [y Y]. discriminate.
    + intros (e & y & E & (u & sg & v & ds & -> & Hu & Hs & Hv & (c & w & -> & Hc & _))).
      destruct Hu as [|? u ->]; [|discriminate]. destruct Hs as [->|[->| ->]]; [|discriminate|discriminate].
      destruct Hv as [|? v ->]; [|discriminate]. injection E as <- _. unfold dec_digit in Hc. lia.
  - apply (lenient_underscore (prefix KStr ++ [DQUOTE] ++ [] ++ [DQUOTE])).
    apply (ref_cooked KStr [] []); [|constructor]. apply cr_only_nil.
Qed.
Lemma only_reference_refuted : exists s t,
  (exists sp, @literal_from_str sample_unicode 0 s = Ok (LitOk s sp)) /\ ~ @ref_literal sample_unicode s /\
  (exists sp, @literal_from_str sample_unicode 0 t = Ok (LitOk t sp)) /\ ~ @ref_literal sample_unicode t.
Proof.
  exists (tag "'''"), (tag "1e"). split; [|split; [|split]].
  - eexists. vm_compute. reflexivity.
  - apply three_quotes_not_ref.
  - eexists. vm_compute. reflexivity.
  - apply (bare_exponent_not_ref sample_unicode_ok).
Qed.
