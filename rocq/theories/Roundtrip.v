(** * Printing then parsing. *)
From Verif Require Import Base Unicode Tokens Lexer BaseFacts PureLexer LexerEquiv LexerEquiv4 Grammar Stable
  Trivia SpecText Comments Fallback SpecTree Spans Local Compose LexProofs SpecLit LitNewFacts SpecPrint.
Import ListNotations.
Local Open Scope N_scope.

Lemma strip_strip t : strip (strip t) = strip t.
Proof.
  induction t as [d ts sp IH| | |] using token_nested_ind; try reflexivity. cbn. f_equal.
  rewrite map_map. apply map_ext_in. rewrite Forall_forall in IH. exact IH.
Qed.

Lemma print_trees_map f g h : forall first joint (ts : list token),
  (forall t, In t ts -> f t = g (h t)) -> (forall t, is_joint (h t) = is_joint t) ->
  print_trees f first joint ts = print_trees g first joint (map h ts).
Proof.
  intros first joint ts. revert first joint. induction ts as [|t ts IH]; intros first joint H Hj; [reflexivity|].
  cbn [print_trees map]. rewrite H by now left. rewrite Hj.
  fold (print_trees f) (print_trees g).
  rewrite IH; auto. intros u Hu. apply H. now right.
Qed.
Lemma is_joint_strip t : is_joint (strip t) = is_joint t.
Proof. now destruct t. Qed.
Lemma print_strip t : tree_to_string t = tree_to_string (strip t).
Proof.
  induction t as [d ts sp IH| | |] using token_nested_ind; try reflexivity. cbn [tree_to_string strip].
  rewrite Forall_forall in IH. rewrite (print_trees_map _ tree_to_string strip true false ts IH is_joint_strip).
  do 2 f_equal. destruct d, ts; reflexivity.
Qed.
Lemma stream_print_strip ts : stream_to_string (map strip ts) = stream_to_string ts.
Proof.
  unfold stream_to_string. symmetry. apply print_trees_map; [|apply is_joint_strip]. intros t _. apply print_strip.
Qed.

(** [text ts] without the separator in front. *)
Notation text := (print_trees tree_to_string true false).
Lemma text_cons t ts : text (t :: ts) = tree_to_string t ++ print_trees tree_to_string false (is_joint t) ts.
Proof. reflexivity. Qed.
Lemma print_sep t ts joint :
  print_trees tree_to_string false joint (t :: ts) = (if joint then [] else [SPACE]) ++ text (t :: ts).
Proof. destruct joint; reflexivity. Qed.
Lemma print_first joint ts : print_trees tree_to_string true joint ts = text ts.
Proof. destruct ts; reflexivity. Qed.

Section WithUnicode.
Context {U : unicode} (UO : unicode_ok U).

Definition token_literal (repr : str) : Prop := p_literal repr = Some [] \/ repr = ERROR.

(** *** Single tokens *)

Lemma ident_text_start s : ident_text s -> exists c t, s = c :: t /\ is_ident_start c = true /\
  Forall (fun c => is_ident_continue c = true) t.
Proof using.
  intros (c & t & -> & Hc & Ht). exists c, t. split; [reflexivity|]. split; [|exact Ht].
  unfold is_ident_start. destruct Hc as [->|Hc]; [reflexivity|]. now rewrite Hc, orb_true_r.
Qed.
Lemma p_continue_full t f : Forall (fun c => is_ident_continue c = true) t -> stop f ->
  p_continue (t ++ f) = (f, t).
Proof.
  intros Ht Hf. induction Ht as [|c t Hc Ht IH]; cbn [app].
  - now apply (p_continue_stop UO).
  - cbn [p_continue]. now rewrite Hc, IH.
Qed.
Lemma p_ident_any_valid sym raw f : ident_valid sym raw -> stop f ->
  p_ident_any (ident_to_string sym raw ++ f) = Some (f, (sym, raw)).
Proof.
  intros [H1 H2] Hf. destruct (ident_text_start _ H1) as (c & t & -> & Hc & Ht).
  assert (Hn : p_ident_not_raw ((c :: t) ++ f) = Some (f, c :: t)).
  { cbn [app p_ident_not_raw]. now rewrite Hc, p_continue_full. }
  unfold p_ident_any, ident_to_string. destruct raw.
  - change ((tag "r#" ++ c :: t) ++ f) with (tag "r#" ++ ((c :: t) ++ f)). rewrite starts_with_app.
    change (skipn 2 (tag "r#" ++ ((c :: t) ++ f))) with ((c :: t) ++ f). rewrite Hn.
    assert (cannot_be_raw (c :: t) = false) as ->; [|reflexivity].
    destruct (cannot_be_raw (c :: t)) eqn:E; [|reflexivity]. exfalso. apply (H2 eq_refl).
    unfold cannot_be_raw in E. apply existsb_exists in E as (x & Hx & E). destruct (str_eqb_spec (c :: t) x) as [Ex|]; [|discriminate]. subst x.
    unfold never_raw, not_raw_names in *. cbn [In] in *. tauto.
  - cbn [app]. change ([] ++ (c :: t)) with (c :: t) in *. cbn [app] in *.
    assert (starts_with (c :: t ++ f) (tag "r#") = false) as ->; [|now rewrite Hn].
    cbn [starts_with]. destruct ("r"%ch =? c); [|reflexivity]. cbn [andb].
    destruct t as [|d t]; cbn [app].
    + destruct f as [|d f]; [reflexivity|]. cbn in Hf. destruct (N.eqb_spec "#"%ch d) as [E|]; [|reflexivity].
      subst d. discriminate.
    + destruct (N.eqb_spec "#"%ch d) as [E|]; [|reflexivity]. subst d. inversion Ht as [|? ? Hd]; subst.
      rewrite (ident_continue_ascii UO) in Hd by lia. discriminate.
Qed.
Lemma reject_prefixes_ok sym raw f : ident_valid sym raw -> stop f ->
  existsb (starts_with (ident_to_string sym raw ++ f)) ident_reject_prefixes = false.
Proof.
  intros [H1 H2] Hf. destruct (ident_text_start _ H1) as (c & t & -> & Hc & Ht).
  destruct (existsb _ _) eqn:E; [|reflexivity]. exfalso.
  apply existsb_exists in E as (x & Hx & E). apply starts_with_spec in E as [u E].
  assert (Hq : forall d, d = DQUOTE \/ d = SQUOTE \/ d = "#"%ch -> is_ident_continue d = false).
  { intros d [->|[->| ->]]; rewrite (ident_continue_ascii UO) by lia; reflexivity. }
  assert (Hs : forall d, d = DQUOTE \/ d = SQUOTE \/ d = "#"%ch -> is_ident_start d = false).
  { intros d Hd. destruct (is_ident_start d) eqn:Ed; [|reflexivity].
    apply (ident_start_continue UO) in Ed. now rewrite Hq in Ed. }
  assert (Hb : forall y d v, t ++ f = y ++ d :: v -> (d = DQUOTE \/ d = SQUOTE \/ d = "#"%ch) ->
               Forall (fun c => is_ident_continue c = true) y -> False).
  { intros y d v Ey Hd Hy. apply app_eq_app in Ey as (l & [[E1 E2]|[E1 E2]]).
    - destruct l as [|e l]; cbn in E2.
      + subst f. cbn in Hf. decompose [or] Hd; subst; discriminate.
      + injection E2 as <- _. subst t. apply Forall_app in Ht as [_ Ht]. inversion Ht as [|? ? He]; subst.
        now rewrite Hq in He.
    - subst f. destruct l as [|e l].
      + cbn in Hf. decompose [or] Hd; subst; discriminate.
      + cbn in Hf. subst y. apply Forall_app in Hy as [_ Hy]. inversion Hy as [|? ? He]; subst.
        apply (stop_not_continue UO) in Hf. congruence. }
  assert (Hr : is_ident_continue "r"%ch = true) by (rewrite (ident_continue_ascii UO) by lia; reflexivity).
  unfold ident_to_string in E. destruct raw.
  - cbn [app] in E. cbn in Hx.
    decompose [or] Hx; try contradiction; subst x; try discriminate;
      cbn [app] in E; try (injection E as E1 E2; discriminate);
      injection E as E1; subst c; rewrite Hs in Hc by tauto; discriminate.
  - cbn [app] in E. cbn in Hx.
    decompose [or] Hx; try contradiction; subst x; cbn [app] in E; injection E as _ E;
      ((apply (Hb [] _ _ E); [tauto|constructor]) ||
       (apply (Hb ["r"%ch] _ _ E); [tauto|constructor; [exact Hr|constructor]]) ||
       idtac).
Qed.
Lemma ident_leaf sym raw f : ident_valid sym raw -> stop f ->
  p_leaf (ident_to_string sym raw ++ f) = Some (f, TIdent sym raw).
Proof.
  intros H Hf. apply (p_leaf_kind UO). apply LK_ident. unfold p_ident.
  rewrite reject_prefixes_ok by assumption. now apply p_ident_any_valid.
Qed.
Lemma literal_leaf repr f : token_literal repr -> stop f -> p_leaf (repr ++ f) = Some (f, TLiteral repr).
Proof.
  intros H Hf. change f with ([] ++ f) at 2. apply (p_leaf_app UO); [exact Hf|]. apply (p_leaf_kind UO).
  destruct H as [H| ->].
  - pose proof (LK_lit repr _ H) as Hk. pose proof (prefix_of_app repr []) as E.
    rewrite app_nil_r in E. now rewrite E in Hk.
  - apply (LK_error ERROR). reflexivity.
Qed.
Lemma alone_leaf c f : In c punct_chars -> c <> SQUOTE -> stop f ->
  p_leaf (c :: f) = Some (f, TPunct c Alone).
Proof.
  intros H Hc Hf. change (c :: f) with ([c] ++ f). change f with ([] ++ f) at 2.
  apply (p_leaf_app UO); [exact Hf|]. apply (p_leaf_kind UO), LK_punct.
  unfold p_punct.
  assert (p_punct_char [c] = Some ([], c)) as ->.
  { unfold punct_chars in H. cbn in H. decompose [or] H; subst; reflexivity || contradiction. }
  destruct (N.eqb_spec c SQUOTE); [contradiction|]. reflexivity.
Qed.

Lemma p_punct_char_intro c u : In c punct_chars ->
  ~ (c = "/"%ch /\ exists d v, u = d :: v /\ (d = "/"%ch \/ d = "*"%ch)) ->
  p_punct_char (c :: u) = Some (u, c).
Proof using.
  intros Hc H. unfold p_punct_char. cbn [starts_with].
  assert (contains punct_recognized c = true) as ->.
  { unfold punct_chars in Hc. cbn in Hc. decompose [or] Hc; subst; reflexivity || contradiction. }
  destruct (N.eqb_spec "/"%ch c) as [E|E]; [|reflexivity]. cbn [andb].
  destruct u as [|d v]; [reflexivity|].
  destruct (N.eqb_spec "/"%ch d) as [E1|E1]; [exfalso; apply H; eauto 6|].
  destruct (N.eqb_spec "*"%ch d) as [E2|E2]; [exfalso; apply H; eauto 6|]. reflexivity.
Qed.

(** *** Printed text lexes back *)

(** What is printed after a tree that is not joint begins with a separator. *)
Lemma sep_stop ts f : stop f -> stop (print_trees tree_to_string false false ts ++ f).
Proof using. intro H. destruct ts; [exact H|reflexivity]. Qed.

Lemma literal_first_char repr : token_literal repr -> exists c t, repr = c :: t /\ c <> "/"%ch /\ c <> "*"%ch.
Proof using.
  intros [H| ->].
  - apply p_literal_first in H as (c & t & -> & H). exists c, t. split; [reflexivity|].
    destruct H as [H|H]; [|decompose [or] H; subst; split; discriminate].
    split; intros ->; discriminate.
  - exists "("%ch, (tl ERROR). repeat split; discriminate.
Qed.
Lemma ident_first_char sym raw : ident_valid sym raw ->
  exists c t, ident_to_string sym raw = c :: t /\ c <> "/"%ch /\ c <> "*"%ch.
Proof.
  intros [H _]. destruct (ident_text_start _ H) as (c & t & -> & Hc & _). unfold ident_to_string.
  destruct raw; [exists "r"%ch, (tag "#" ++ c :: t); repeat split; discriminate|].
  exists c, t. split; [reflexivity|].
  split; intros ->; rewrite (ident_start_ascii UO) in Hc by lia; discriminate.
Qed.

(** Printed text opens no comment. *)
Lemma no_comment_opener ts f : printable token_literal ts -> stop f ->
  forall d v, text ts ++ f = "/"%ch :: d :: v -> d <> "/"%ch /\ d <> "*"%ch.
Proof.
  intros Hp Hf d v E. destruct Hp as [|dl inner sp ts Hd Hi Hp|sym raw sp ts Hv Hp|repr sp ts Hv Hp
    |c sp ts Hc Hn Hp|c sp t ts Hc Hn Hg Hp|sp t ts Hl Hp].
  - cbn in E. subst f. discriminate.
  - rewrite text_cons in E. cbn [tree_to_string] in E. destruct dl; discriminate || contradiction.
  - rewrite text_cons in E. cbn [tree_to_string] in E. apply ident_first_char in Hv as (c & t & Ec & H1 & _).
    rewrite Ec in E. injection E as E _. contradiction.
  - rewrite text_cons in E. cbn [tree_to_string] in E. apply literal_first_char in Hv as (c & t & Ec & H1 & _).
    rewrite Ec in E. injection E as E _. contradiction.
  - rewrite text_cons in E. cbn [tree_to_string is_joint] in E. injection E as E1 E2.
    assert (Hs := sep_stop ts f Hf). rewrite E2 in Hs. cbn in Hs.
    split; intros ->; discriminate.
  - rewrite text_cons in E. cbn [tree_to_string is_joint] in E. rewrite print_sep in E.
    rewrite text_cons in E. injection E as E1 E2. subst c.
    destruct t as [|sym raw sp'|c2 s2 sp'|repr sp']; cbn [glues] in Hg; try contradiction.
    + cbn in E2. injection E2 as -> _. split; intros ->; apply Hg; auto.
    + destruct Hg as [u ->]. cbn in E2. injection E2 as <- _. split; discriminate.
  - rewrite text_cons in E. cbn in E. discriminate.
Qed.

Lemma printed_lexes ts : printable token_literal ts -> forall f T e, stop f -> Lex f T e ->
  Lex (text ts ++ f) (map strip ts ++ T) e.
Proof.
  intro Hp. induction Hp as [|dl inner sp ts Hd Hi IHi Hp IH|sym raw sp ts Hv Hp IH|repr sp ts Hv Hp IH
    |c sp ts Hc Hn Hp IH|c sp t ts Hc Hn Hg Hp IH|sp t ts Hl Hp IH]; intros f T e Hf HL.
  - exact HL.
  - (* group *)
    rewrite text_cons. cbn [tree_to_string is_joint]. rewrite <- !app_assoc.
    assert (Hrest : Lex (print_trees tree_to_string false false ts ++ f) (map strip ts ++ T) e).
    { specialize (IH f T e Hf HL). destruct ts as [|t ts]; [exact IH|].
      rewrite print_sep. cbn [app]. now apply Lex_space. }
    remember (print_trees tree_to_string false false ts ++ f) as after eqn:Ea. clear Ea.
    cbn [map strip app].
    destruct dl; try contradiction; cbn [open_text close_text].
    + apply (Lex_group' _ Parenthesis (text inner ++ tag ")" ++ after) _ (tag ")" ++ after) after).
      * cbn [app open_delim]. change ("("%ch =? "("%ch) with true. cbn [andb].
        assert (starts_with ("("%ch :: text inner ++ ")"%ch :: after) ERROR = false) as ->; [|reflexivity].
        destruct (starts_with _ ERROR) eqn:E; [|reflexivity]. exfalso.
        apply starts_with_spec in E as [u E]. cbn [ERROR app] in E. injection E as E.
        apply no_comment_opener in E as [_ E]; [contradiction|exact Hi|reflexivity].
      * assert (H := IHi (tag ")" ++ after) [] (tag ")" ++ after) eq_refl). rewrite app_nil_r in H. apply H.
        eapply Lex_close'. reflexivity.
      * reflexivity.
      * exact Hrest.
    + apply (Lex_group' _ Brace (tag " " ++ text inner ++ match inner with [] => [] | _ => [SPACE] end
                                 ++ tag "}" ++ after) _ (tag "}" ++ after) after).
      * cbn [app open_delim]. destruct inner; reflexivity.
      * cbn [app]. apply Lex_space.
        assert (Hcl : Lex (tag "}" ++ after) [] (tag "}" ++ after)) by (eapply Lex_close'; reflexivity).
        destruct inner as [|t inner].
        -- exact Hcl.
        -- assert (H := IHi (SPACE :: tag "}" ++ after) [] (tag "}" ++ after) eq_refl).
           rewrite app_nil_r in H. apply H. now apply Lex_space.
      * reflexivity.
      * exact Hrest.
    + apply (Lex_group' _ Bracket (text inner ++ tag "]" ++ after) _ (tag "]" ++ after) after).
      * reflexivity.
      * assert (H := IHi (tag "]" ++ after) [] (tag "]" ++ after) eq_refl). rewrite app_nil_r in H. apply H.
        eapply Lex_close'. reflexivity.
      * reflexivity.
      * exact Hrest.
  - rewrite text_cons. cbn [tree_to_string is_joint]. rewrite <- app_assoc. cbn [map strip app].
    eapply (Lex_leaf' UO); [apply ident_leaf; [exact Hv|now apply sep_stop]|].
    specialize (IH f T e Hf HL). destruct ts as [|t ts]; [exact IH|].
    rewrite print_sep. cbn [app]. now apply Lex_space.
  - rewrite text_cons. cbn [tree_to_string is_joint]. rewrite <- app_assoc. cbn [map strip app].
    eapply (Lex_leaf' UO _ _ (TLiteral repr)); [apply literal_leaf; [exact Hv|now apply sep_stop]|].
    specialize (IH f T e Hf HL). destruct ts as [|t ts]; [exact IH|].
    rewrite print_sep. cbn [app]. now apply Lex_space.
  - rewrite text_cons. cbn [tree_to_string is_joint app map strip].
    eapply (Lex_leaf' UO); [apply alone_leaf; [exact Hc|exact Hn|now apply sep_stop]|].
    specialize (IH f T e Hf HL). destruct ts as [|t ts]; [exact IH|].
    rewrite print_sep. cbn [app]. now apply Lex_space.
  - rewrite text_cons. cbn [tree_to_string is_joint]. rewrite print_sep. cbn [app map strip].
    specialize (IH f T e Hf HL). cbn [map app] in IH.
    refine (Lex_leaf' UO _ _ (TPunct c Joint) _ _ _ IH). apply (p_leaf_kind UO), LK_punct.
    assert (Hop := no_comment_opener (t :: ts) f Hp Hf).
    assert (E1 : p_punct_char (c :: text (t :: ts) ++ f) = Some (text (t :: ts) ++ f, c)).
    { apply p_punct_char_intro; [exact Hc|]. intros (E & d & v & Ed & Hd).
      rewrite text_cons in Ed. destruct t as [|sym raw sp'|c2 s2 sp'|repr sp']; cbn [glues] in Hg; try contradiction.
      - cbn in Ed. injection Ed as -> _. apply Hg. auto.
      - destruct Hg as [u ->]. cbn in Ed. injection Ed as <- _. destruct Hd; discriminate. }
    unfold p_punct. rewrite E1. destruct (N.eqb_spec c SQUOTE); [contradiction|].
    assert (E2 : exists x, p_punct_char (text (t :: ts) ++ f) = Some x).
    { destruct t as [|sym raw sp'|c2 s2 sp'|repr sp']; cbn [glues] in Hg; try contradiction.
      - rewrite text_cons in Hop |- *. cbn [tree_to_string] in Hop |- *. cbn [app] in Hop |- *. eexists.
        apply p_punct_char_intro.
        + inversion Hp; subst; auto. unfold punct_chars. cbn. tauto.
        + intros (-> & d & v & Ed & Hd). rewrite Ed in Hop. specialize (Hop d v eq_refl). tauto.
      - destruct Hg as [u ->]. rewrite text_cons. cbn [tree_to_string app]. eexists.
        apply p_punct_char_intro; [unfold punct_chars; cbn; tauto|]. intros (E & _). discriminate. }
    destruct E2 as [x ->]. reflexivity.
  - rewrite text_cons. cbn [tree_to_string is_joint]. rewrite print_sep. cbn [app map strip].
    specialize (IH f T e Hf HL). cbn [map app] in IH.
    refine (Lex_leaf' UO _ _ (TPunct SQUOTE Joint) _ _ _ IH). apply (p_leaf_kind UO), LK_punct.
    unfold p_punct. rewrite p_punct_char_intro; [|unfold punct_chars; cbn; tauto|intros (E & _); discriminate].
    change (SQUOTE =? SQUOTE) with true. cbn iota.
    destruct t as [|sym raw sp'|c2 s2 sp'|repr sp']; cbn [lifetime_name] in Hl; try contradiction.
    + rewrite text_cons. cbn [tree_to_string is_joint]. rewrite <- app_assoc.
      assert (Hs := sep_stop ts f Hf).
      rewrite p_ident_any_valid; [|inversion Hp; subst; assumption|exact Hs].
      assert (head_is SQUOTE (print_trees tree_to_string false false ts ++ f) = false) as ->.
      { destruct (print_trees _ false false ts ++ f) as [|d v]; [reflexivity|]. cbn in Hs |- *.
        destruct (N.eqb_spec SQUOTE d) as [Ed|]; [subst d; discriminate|reflexivity]. }
      assert (head_is "#"%ch (print_trees tree_to_string false false ts ++ f) = false) as ->.
      { destruct (print_trees _ false false ts ++ f) as [|d v]; [reflexivity|]. cbn in Hs |- *.
        destruct (N.eqb_spec "#"%ch d) as [Ed|]; [subst d; discriminate|reflexivity]. }
      reflexivity.
    + destruct Hl as (p & u & Hin & ->). rewrite text_cons. cbn [tree_to_string is_joint].
      rewrite <- !app_assoc. cbn [app].
      remember (u ++ print_trees tree_to_string false false ts ++ f) as w eqn:Ew. clear Ew.
      assert (Hq : is_ident_continue DQUOTE = false) by (rewrite (ident_continue_ascii UO) by lia; reflexivity).
      assert (Hr : is_ident_continue "r"%ch = true) by (rewrite (ident_continue_ascii UO) by lia; reflexivity).
      assert (Hs : is_ident_start "r"%ch = true /\ is_ident_start "b"%ch = true /\ is_ident_start "c"%ch = true).
      { repeat split; rewrite (ident_start_ascii UO) by lia; reflexivity. }
      destruct Hs as (Hs1 & Hs2 & Hs3).
      cbn in Hin. decompose [or] Hin; try contradiction; subst p; unfold p_ident_any; cbn [app starts_with];
        try (change ("r"%ch =? "r"%ch) with true; cbn [andb]);
        try change ("#"%ch =? DQUOTE) with false;
        try change ("r"%ch =? "b"%ch) with false; try change ("r"%ch =? "c"%ch) with false;
        cbn [andb p_ident_not_raw p_continue]; rewrite ?Hs1, ?Hs2, ?Hs3, ?Hr, ?Hq; reflexivity.
Qed.

(** *** Parsed streams are printable *)

Lemma valid_suffix r s : suffix r s -> valid_str s -> valid_str r.
Proof using. intros [p ->] H. now apply Forall_app in H. Qed.

Lemma Lex_suffix s ts e : Lex s ts e -> suffix e s.
Proof using.
  induction 1 as [s H|s d r H|s r x inner ts e H HL IH|s d r inner m r' ts e Hd Ho Hi IHi Hc HL IH|s r k ts e Ha Hl HL IH].
  - exists s. now rewrite app_nil_r.
  - apply p_skip_suffix.
  - eapply suffix_trans; [exact IH|]. eapply suffix_trans; [|apply p_skip_suffix]. now apply p_doc_shorter in H.
  - eapply suffix_trans; [exact IH|]. apply close_next in Hc as [Hc _]. eapply suffix_trans; [exact Hc|].
    eapply suffix_trans; [exact IHi|]. eapply suffix_trans; [|apply p_skip_suffix].
    apply open_delim_spec in Ho as [y ->]. auto.
  - eapply suffix_trans; [exact IH|]. eapply suffix_trans; [|apply p_skip_suffix]. now apply p_leaf_shorter in Hl.
Qed.

Lemma p_line_incl s r x : p_line s = (r, x) -> incl x s.
Proof using.
  revert r x. induction s as [|c t IH]; intros r x H; cbn [p_line] in H.
  - injection H as _ <-. apply incl_nil_l.
  - destruct (c =? LF); [injection H as _ <-; apply incl_nil_l|].
    destruct (_ && _); [injection H as _ <-; apply incl_nil_l|].
    destruct (p_line t) as [r' x']. injection H as _ <-. intros y [->|Hy]; [now left|]. right. eapply IH; eauto.
Qed.
Lemma firstn_incl {A} n (l : list A) : incl (firstn n l) l.
Proof using. intros x Hx. rewrite <- (firstn_skipn n l). apply in_or_app. now left. Qed.
Lemma skipn_incl {A} n (l : list A) : incl (skipn n l) l.
Proof using. intros x Hx. rewrite <- (firstn_skipn n l). apply in_or_app. now right. Qed.
Lemma p_doc_incl s r x i : p_doc s = Some (r, (x, i)) -> incl x s.
Proof using.
  unfold p_doc. destruct (p_doc_contents s) as [[r' [x' i']]|] eqn:E; [|discriminate].
  destruct (bare_cr x'); [discriminate|]. intros [= -> -> ->]. revert E. unfold p_doc_contents.
  assert (Hb : forall r n, incl (firstn n (skipn 3 (prefix_of s r))) s).
  { intros r' n. eapply incl_tran; [apply firstn_incl|]. eapply incl_tran; [apply skipn_incl|]. apply firstn_incl. }
  assert (Hl : forall r x, p_line (skipn 3 s) = (r, x) -> incl x s).
  { intros r' x' H. eapply incl_tran; [eapply p_line_incl; eauto|]. apply skipn_incl. }
  destruct (starts_with s (tag "//!")).
  { destruct (p_line (skipn 3 s)) eqn:E. intros [= -> -> <-]. eauto. }
  destruct (starts_with s (tag "/*!")).
  { destruct (p_block 0 s); [|discriminate]. cbn zeta. intro H. injection H as _ <- _. apply Hb. }
  destruct (starts_with s (tag "///")).
  { destruct (head_is _ _); [discriminate|].
    destruct (p_line (skipn 3 s)) eqn:E. intros [= -> -> <-]. eauto. }
  destruct (_ && _); [|discriminate].
  destruct (p_block 0 s); [|discriminate]. cbn zeta. intro H. injection H as _ <- _. apply Hb.
Qed.
Lemma p_doc_valid s r x i : p_doc s = Some (r, (x, i)) -> valid_str s -> valid_str x.
Proof using.
  intros H Hv. apply p_doc_incl in H. unfold valid_str in *. rewrite Forall_forall in *. auto.
Qed.

Lemma literal_prefix s r : p_literal s = Some r -> exists a, s = a ++ r /\ prefix_of s r = a /\ p_literal a = Some [].
Proof.
  intro H. destruct (p_literal_suffix _ _ H) as [a Ea]. exists a. subst s. split; [reflexivity|].
  split; [apply prefix_of_app|]. now apply (p_literal_local UO a r).
Qed.

(** The first tree of what starts with a punctuation character. *)
Lemma punct_start c t : contains punct_recognized c = true ->
  starts_with (c :: t) (tag "//") = false -> starts_with (c :: t) (tag "/*") = false ->
  p_skip1 (c :: t) = None /\ p_doc (c :: t) = None /\ open_delim (c :: t) = None /\ close_delim (c :: t) = None.
Proof using.
  intros Hc H1 H2.
  assert (Hn : c <> "("%ch /\ c <> "["%ch /\ c <> "{"%ch /\ c <> ")"%ch /\ c <> "]"%ch /\ c <> "}"%ch).
  { repeat split; intros ->; discriminate. }
  destruct Hn as (N1 & N2 & N3 & N4 & N5 & N6).
  rewrite open_delim_none, close_delim_none by auto.
  destruct (N.eq_dec c "/"%ch) as [E|E].
  - subst c. split; [|split; [now apply p_doc_none_slash|auto]].
    destruct t as [|d t]; [reflexivity|]. apply p_skip1_slash; intros ->; discriminate.
  - split; [|split; [now apply p_doc_none_other|auto]]. apply p_skip1_other; [|exact E]. now apply punct_not_ws.
Qed.

Lemma joint_next s c r ts e : p_punct s = Some (r, (c, Joint)) -> c <> SQUOTE -> Lex r ts e ->
  exists t ts', ts = t :: ts' /\ glues c t.
Proof.
  unfold p_punct. destruct (p_punct_char s) as [[r0 c0]|] eqn:E; [|discriminate].
  destruct (N.eqb_spec c0 SQUOTE) as [E0|E0].
  { destruct (p_ident_any r0) as [[after x]|]; [|discriminate]. destruct (_ || _); [discriminate|].
    intros H Hc. injection H as -> H. congruence. }
  intros H Hc HL. destruct (p_punct_char r0) as [[r2 c2]|] eqn:E2; [|discriminate].
  injection H as -> ->. pose proof (p_punct_char_inv _ _ _ E2) as [Er Hc2].
  assert (Hslash : ~ (c = "/"%ch /\ (c2 = "/"%ch \/ c2 = "*"%ch))).
  { intros (-> & H2). pose proof (p_punct_char_inv _ _ _ E) as [Es _]. subst s r.
    unfold p_punct_char in E. cbn [starts_with] in E. destruct H2 as [-> | ->]; discriminate. }
  assert (Hst : starts_with r (tag "//") = false /\ starts_with r (tag "/*") = false).
  { unfold p_punct_char in E2. destruct (starts_with r (tag "//")); [discriminate|].
    destruct (starts_with r (tag "/*")); [discriminate|]. auto. }
  subst r. destruct Hst as [H1 H2].
  destruct (punct_start c2 r2 Hc2 H1 H2) as (P1 & P2 & P3 & P4).
  assert (Hsk := p_skip_stay _ P1).
  inversion HL as [s0 Hs|s0 d r' Hs|s0 r' x inner ts0 e0 Hs|s0 d r' inner m r'' ts0 e0 Hd Hs|s0 r' k ts0 e0 Ha Hs HL']; subst;
    rewrite Hsk in *; try congruence.
  apply (p_leaf_kind UO) in Hs. eexists _, _. split; [reflexivity|].
  destruct Hs as [r' H|r' c' sg H|r' sym raw H|H].
  - destruct (literal_prefix _ _ H) as (a & Ea & -> & Ha'). cbn [glues].
    destruct (p_literal_first _ _ Ha') as (c' & t' & -> & Hf). cbn in Ea. injection Ea as <- _.
    destruct Hf as [Hf|Hf].
    { exfalso. revert Hf Hc2. clear. intros Hf Hc. apply contains_In in Hc. unfold punct_recognized in Hc. cbn in Hc.
      unfold is_dec_digit, between in Hf. lia. }
    destruct Hf as [->|[->|[->|[->| ->]]]]; try discriminate. eauto.
  - assert (c' = c2).
    { unfold p_punct in H. rewrite E2 in H. destruct (N.eqb_spec c2 SQUOTE) as [Eq|].
      - destruct (p_ident_any r2) as [[? ?]|]; [|discriminate]. destruct (_ || _); [discriminate|]. congruence.
      - congruence. }
    subst c'. exact Hslash.
  - exfalso. unfold p_ident in H. destruct (existsb _ _); [discriminate|].
    apply (p_ident_any_start UO) in H as (c' & t' & Ec & Hs'). injection Ec as <- _.
    apply (punct_not_start UO) in Hc2. congruence.
  - exfalso. apply starts_with_spec in H as [u Hu]. injection Hu as -> _. discriminate.
Qed.

Lemma lifetime_literal a r after x : p_literal a = Some [] -> p_ident_any (a ++ r) = Some (after, x) ->
  head_is SQUOTE after || (head_is "#"%ch after && negb (starts_with (a ++ r) (tag "r#"))) = false ->
  exists p u, In p [tag "r"; tag "b"; tag "c"; tag "br"; tag "cr"] /\ a = p ++ DQUOTE :: u.
Proof.
  intros Ha Hi Hno.
  assert (Hs1 : is_ident_start "r"%ch = true) by (rewrite (ident_start_ascii UO) by lia; reflexivity).
  assert (Hs2 : is_ident_start "b"%ch = true) by (rewrite (ident_start_ascii UO) by lia; reflexivity).
  assert (Hs3 : is_ident_start "c"%ch = true) by (rewrite (ident_start_ascii UO) by lia; reflexivity).
  assert (Hr : is_ident_continue "r"%ch = true) by (rewrite (ident_continue_ascii UO) by lia; reflexivity).
  assert (Hx : is_ident_continue "#"%ch = false) by (rewrite (ident_continue_ascii UO) by lia; reflexivity).
  assert (Hq : is_ident_continue SQUOTE = false) by (rewrite (ident_continue_ascii UO) by lia; reflexivity).
  assert (Hdq : is_ident_start DQUOTE = false) by (rewrite (ident_start_ascii UO) by lia; reflexivity).
  assert (Hxs : is_ident_start "#"%ch = false) by (rewrite (ident_start_ascii UO) by lia; reflexivity).
  assert (Hsq : is_ident_start SQUOTE = false) by (rewrite (ident_start_ascii UO) by lia; reflexivity).
  destruct (p_quoted a) as [z|] eqn:Eq.
  2:{ exfalso. destruct (p_literal_first _ _ Ha) as (c & t & -> & _).
      destruct (is_dec_digit c) eqn:Ed.
      - apply (p_ident_any_start UO) in Hi as (c' & t' & E & Hs). injection E as <- _.
        unfold is_dec_digit, between in Ed. rewrite (ident_start_ascii UO) in Hs by lia.
        unfold ascii_letter, between in Hs. lia.
      - now rewrite p_literal_quoted_none in Ha. }
  assert (Hraw : forall ok s y, p_raw_with ok s = Some y ->
            (exists u, s = DQUOTE :: u) \/ exists d u, s = "#"%ch :: d :: u /\ (d = "#"%ch \/ d = DQUOTE)).
  { intros ok s y. unfold p_raw_with. destruct (p_delim 0 s) as [[m t]|] eqn:E; [|discriminate]. intros _.
    destruct s as [|c s]; [discriminate|]. cbn [p_delim] in E.
    destruct (N.eqb_spec c DQUOTE) as [->|]; [left; eauto|].
    destruct (N.eqb_spec c "#"%ch) as [->|]; [|discriminate]. right.
    destruct s as [|d s]; [discriminate|]. cbn [p_delim] in E.
    destruct (N.eqb_spec d DQUOTE) as [->|]; [eauto 6|].
    destruct (N.eqb_spec d "#"%ch) as [->|]; [eauto 6|discriminate]. }
  apply p_quoted_cases in Eq as [H|[H|[H|[H|H]]]].
  - unfold q_string in H. destruct (starts_with a (tag """")) eqn:E1.
    { exfalso. apply starts_with_cons in E1 as (u & -> & _).
      apply (p_ident_any_start UO) in Hi as (c' & t' & E & Hs). cbn in E. injection E as <- _. congruence. }
    destruct (starts_with a (tag "r")) eqn:E2; [|discriminate].
    apply starts_with_cons in E2 as (u & -> & _). cbn [skipn] in H.
    apply Hraw in H as [[v ->]|(d & v & -> & Hd)].
    { exists (tag "r"), v. cbn. tauto. }
    exfalso. unfold p_ident_any in Hi. cbn [app starts_with skipn] in Hi.
    change ("r"%ch =? "r"%ch) with true in Hi. change ("#"%ch =? "#"%ch) with true in Hi. cbn [andb] in Hi.
    cbn [p_ident_not_raw] in Hi. destruct Hd as [-> | ->]; [rewrite Hxs in Hi|rewrite Hdq in Hi]; discriminate.
  - unfold q_byte_string in H. destruct (starts_with a (tag "b""")) eqn:E1.
    { apply starts_with_cons in E1 as (u & -> & E1). apply starts_with_cons in E1 as (v & -> & _).
      exists (tag "b"), v. cbn. tauto. }
    destruct (starts_with a (tag "br")) eqn:E2; [|discriminate].
    apply starts_with_cons in E2 as (u & -> & E2). apply starts_with_cons in E2 as (v & -> & _).
    cbn [skipn] in H. apply Hraw in H as [[w ->]|(d & w & -> & Hd)].
    { exists (tag "br"), w. cbn. tauto. }
    exfalso. unfold p_ident_any in Hi. cbn [app starts_with] in Hi.
    change ("r"%ch =? "b"%ch) with false in Hi. cbn [andb p_ident_not_raw p_continue] in Hi.
    rewrite Hs2, Hr, Hx in Hi. injection Hi as <- _. discriminate.
  - unfold q_c_string in H. destruct (starts_with a (tag "c""")) eqn:E1.
    { apply starts_with_cons in E1 as (u & -> & E1). apply starts_with_cons in E1 as (v & -> & _).
      exists (tag "c"), v. cbn. tauto. }
    destruct (starts_with a (tag "cr")) eqn:E2; [|discriminate].
    apply starts_with_cons in E2 as (u & -> & E2). apply starts_with_cons in E2 as (v & -> & _).
    cbn [skipn] in H. apply Hraw in H as [[w ->]|(d & w & -> & Hd)].
    { exists (tag "cr"), w. cbn. tauto. }
    exfalso. unfold p_ident_any in Hi. cbn [app starts_with] in Hi.
    change ("r"%ch =? "c"%ch) with false in Hi. cbn [andb p_ident_not_raw p_continue] in Hi.
    rewrite Hs3, Hr, Hx in Hi. injection Hi as <- _. discriminate.
  - exfalso. apply q_byte_first in H as (u & ->). unfold p_ident_any in Hi. cbn [app starts_with] in Hi.
    change ("r"%ch =? "b"%ch) with false in Hi. cbn [andb p_ident_not_raw p_continue] in Hi.
    rewrite Hs2, Hq in Hi. injection Hi as <- _. discriminate.
  - exfalso. apply q_char_first in H as (u & ->).
    apply (p_ident_any_start UO) in Hi as (c' & t' & E & Hs). cbn in E. injection E as <- _. congruence.
Qed.

Lemma lifetime_next s r sg ts e : p_punct s = Some (r, (SQUOTE, sg)) -> Lex r ts e ->
  sg = Joint /\ exists t ts', ts = t :: ts' /\ lifetime_name t.
Proof.
  unfold p_punct. destruct (p_punct_char s) as [[r0 c0]|] eqn:E; [|discriminate].
  destruct (N.eqb_spec c0 SQUOTE) as [E0|E0]; [|intros H; injection H as _ H _; contradiction].
  destruct (p_ident_any r0) as [[after x]|] eqn:Ei; [|discriminate].
  destruct (_ || _) eqn:Eo; [discriminate|]. intro H. injection H as -> <-. intro HL. split; [reflexivity|].
  destruct (p_ident_any_start UO _ _ _ Ei) as (c & u & Er & Hc).
  pose proof (ident_start_not UO c Hc) as (N1 & N2 & N3 & N4 & N5 & N6 & N7).
  assert (P1 : p_skip1 r = None) by (rewrite Er; apply p_skip1_other; [now apply (ident_not_ws UO)|exact N1]).
  assert (P2 : p_doc r = None) by (rewrite Er; now apply p_doc_none_other).
  assert (P3 : open_delim r = None) by (rewrite Er; apply open_delim_none; auto).
  assert (P4 : close_delim r = None) by (rewrite Er; apply close_delim_none; auto).
  assert (Hsk := p_skip_stay _ P1).
  inversion HL as [s0 Hs|s0 d r' Hs|s0 r' y inner ts0 e0 Hs|s0 d r' inner m r'' ts0 e0 Hd Hs|s0 r' k ts0 e0 Ha Hs HL']; subst ts;
    clear H; rewrite ?Hsk in *; try congruence.
  apply (p_leaf_kind UO) in Hs. eexists _, _. split; [reflexivity|].
  destruct Hs as [r' H|r' c' sg H|r' sym raw H|H].
  - destruct (literal_prefix _ _ H) as (a & Ea & -> & Ha'). cbn [lifetime_name].
    rewrite Ea in Ei, Eo. eapply lifetime_literal; eauto.
  - exfalso. unfold p_punct in H. destruct (p_punct_char r) as [[r2 c2]|] eqn:E2; [|discriminate].
    apply p_punct_char_inv in E2 as [Er2 Hc2]. rewrite Er in Er2. injection Er2 as -> _.
    apply (punct_not_start UO) in Hc2. congruence.
  - exact I.
  - exfalso. apply starts_with_spec in H as [v Hv]. rewrite Er in Hv. injection Hv as -> _. contradiction.
Qed.

Lemma lexed_printable s ts e : Lex s ts e -> valid_str s -> printable token_literal ts.
Proof.
  induction 1 as [s H|s d r H|s r x inner ts e H HL IH|s d r inner m r' ts e Hd Ho Hi IHi Hc HL IH|s r k ts e Ha Hl HL IH];
    intro Hv.
  - apply pr_nil.
  - apply pr_nil.
  - (* doc *)
    assert (Hs := valid_suffix _ _ (p_skip_suffix s) Hv).
    assert (Hx := p_doc_valid _ _ _ _ H Hs).
    assert (Ht : printable token_literal ts).
    { apply IH. eapply valid_suffix; [|exact Hs]. now apply p_doc_shorter in H. }
    assert (Hg : printable token_literal
              (TGroup Bracket [TIdent (tag "doc") false call_site; TPunct "="%ch Alone call_site;
                               TLiteral (literal_string x) call_site] call_site :: ts)).
    { apply pr_group; [discriminate| |exact Ht]. apply pr_ident.
      - split; [|discriminate]. exists "d"%ch, (tag "oc"). split; [reflexivity|].
        split; [right; rewrite (xid_start_ascii U UO) by lia; reflexivity|].
        repeat constructor; rewrite (xid_continue_ascii U UO) by lia; reflexivity.
      - apply pr_alone; [unfold punct_chars; cbn; tauto|discriminate|].
        apply pr_literal; [|constructor]. left. now apply literal_string_token. }
    unfold doc_tokens. destruct inner; cbn [app].
    + apply pr_alone; [unfold punct_chars; cbn; tauto|discriminate|].
      apply pr_alone; [unfold punct_chars; cbn; tauto|discriminate|]. exact Hg.
    + apply pr_alone; [unfold punct_chars; cbn; tauto|discriminate|]. exact Hg.
  - apply pr_group.
    { unfold open_delim in Ho. destruct (p_skip s) as [|c t]; [discriminate|].
    destruct (_ && _); [injection Ho as <- _; discriminate|].
    destruct (_ =? _); [injection Ho as <- _; discriminate|].
    destruct (_ =? _); [injection Ho as <- _; discriminate|discriminate]. }
    { apply IHi. eapply valid_suffix; [|exact Hv]. eapply suffix_trans; [|apply p_skip_suffix].
    apply open_delim_spec in Ho as [y ->]. auto. }
    apply IH. eapply valid_suffix; [|exact Hv].
    apply close_next in Hc as [Hc _]. eapply suffix_trans; [exact Hc|].
    eapply suffix_trans; [eapply Lex_suffix; eauto|]. eapply suffix_trans; [|apply p_skip_suffix].
    apply open_delim_spec in Ho as [y ->]. auto.
  - assert (Ht : printable token_literal ts).
    { apply IH. eapply valid_suffix; [|exact Hv]. eapply suffix_trans; [|apply p_skip_suffix].
      now apply p_leaf_shorter in Hl. }
    apply (p_leaf_kind UO) in Hl. destruct Hl as [r H|r c sg H|r sym raw H|H].
    + destruct (literal_prefix _ _ H) as (a & _ & -> & Ha'). apply pr_literal; [now left|exact Ht].
    + assert (Hcp : In c punct_chars).
      { assert (Hc : contains punct_recognized c = true).
        { unfold p_punct in H. destruct (p_punct_char _) as [[r0 c0]|] eqn:E; [|discriminate].
          apply p_punct_char_inv in E as [_ Hc]. destruct (N.eqb_spec c0 SQUOTE).
          - destruct (p_ident_any _) as [[? ?]|]; [|discriminate]. destruct (_ || _); [discriminate|].
            injection H as _ <- _. reflexivity.
          - injection H as _ <- _. exact Hc. }
        apply contains_In in Hc. unfold punct_recognized, punct_chars in *. cbn in Hc |- *. tauto. }
      destruct (N.eq_dec c SQUOTE) as [->|Hn].
      * destruct (lifetime_next _ _ _ _ _ H HL) as (-> & t & ts' & -> & Hlt). now apply pr_lifetime.
      * destruct sg; [now apply pr_alone|].
        destruct (joint_next _ _ _ _ _ H Hn HL) as (t & ts' & -> & Hg). now apply pr_joint.
    + apply pr_ident; [|exact Ht]. unfold p_ident in H. destruct (existsb _ _); [discriminate|].
      apply p_ident_any_shape in H as (H1 & _ & H2). split; assumption.
    + apply pr_literal; [now right|exact Ht].
Qed.

End WithUnicode.
