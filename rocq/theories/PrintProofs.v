(** * Round trips, well formed streams, identifiers and puncts. *)
From Verif Require Import Base Unicode Tokens Lexer BaseFacts PureLexer Grammar Stable Trivia SpecText Fallback
  SpecTree LexerEquiv4 Compose LexProofs SpecLit Utf8 NumFacts LitProofs SpecPrint Roundtrip SpecOrder.
From Verif Require Import SpecLex.
Import ListNotations.
Local Open Scope N_scope.

Lemma printable_ext (U : unicode) (P Q : str -> Prop) ts : (forall r, P r -> Q r) -> printable P ts -> printable Q ts.
Proof.
  intros H Hp. induction Hp as [|dl inner sp ts Hd Hi IHi Hp IH|sym raw sp ts Hv Hp IH|repr sp ts Hv Hp IH
    |c sp ts Hc Hn Hp IH|c sp t ts Hc Hn Hg Hp IH|sp t ts Hl Hp IH].
  - apply pr_nil.
  - now apply pr_group.
  - now apply pr_ident.
  - apply pr_literal; auto.
  - now apply pr_alone.
  - now apply pr_joint.
  - now apply pr_lifetime.
Qed.

(** Spans do not matter. *)
Lemma glues_strip c t : glues c (strip t) <-> glues c t.
Proof. destruct t; reflexivity. Qed.
Lemma lifetime_strip t : lifetime_name (strip t) <-> lifetime_name t.
Proof. destruct t; reflexivity. Qed.
Lemma printable_strip (U : unicode) (P : str -> Prop) ts : printable P (map strip ts) <-> printable P ts.
Proof.
  split.
  - intro H. remember (map strip ts) as T eqn:E. revert ts E.
    induction H as [|dl inner sp T Hd Hi IHi Hp IH|sym raw sp T Hv Hp IH|repr sp T Hv Hp IH
      |c sp T Hc Hn Hp IH|c sp t T Hc Hn Hg Hp IH|sp t T Hl Hp IH]; intros ts E.
    + destruct ts; [apply pr_nil|discriminate].
    + destruct ts as [|u ts]; [discriminate|]. destruct u; try discriminate. cbn in E. injection E as -> -> _ ->.
      apply pr_group; auto.
    + destruct ts as [|u ts]; [discriminate|]. destruct u; try discriminate. cbn in E. injection E as -> -> _ ->.
      apply pr_ident; auto.
    + destruct ts as [|u ts]; [discriminate|]. destruct u; try discriminate. cbn in E. injection E as -> _ ->.
      apply pr_literal; auto.
    + destruct ts as [|u ts]; [discriminate|]. destruct u; try discriminate. cbn in E. injection E as -> <- _ ->.
      apply pr_alone; auto.
    + destruct ts as [|u ts]; [discriminate|]. destruct u; try discriminate. cbn in E. injection E as -> <- _ E.
      destruct ts as [|v ts]; [discriminate|]. specialize (IH _ E). cbn [map] in E. injection E as E _. subst t.
      apply pr_joint; auto. now apply glues_strip.
    + destruct ts as [|u ts]; [discriminate|]. destruct u; try discriminate. cbn in E. injection E as <- <- _ E.
      destruct ts as [|v ts]; [discriminate|]. specialize (IH _ E). cbn [map] in E. injection E as E _. subst t.
      apply pr_lifetime; auto. now apply lifetime_strip.
  - intro H. induction H as [|dl inner sp ts Hd Hi IHi Hp IH|sym raw sp ts Hv Hp IH|repr sp ts Hv Hp IH
      |c sp ts Hc Hn Hp IH|c sp t ts Hc Hn Hg Hp IH|sp t ts Hl Hp IH]; cbn [map strip].
    + apply pr_nil.
    + now apply pr_group.
    + now apply pr_ident.
    + now apply pr_literal.
    + now apply pr_alone.
    + apply pr_joint; auto. now apply glues_strip.
    + apply pr_lifetime; auto. now apply lifetime_strip.
Qed.

Section WithUnicode.
Context {U : unicode} (UO : unicode_ok U).

Lemma token_literal_iff start repr : start < two32 ->
  token_literal repr <-> accepted start repr \/ repr = ERROR.
Proof. intro Hs. unfold token_literal. now rewrite (accepted_iff UO start) by exact Hs. Qed.

Lemma printed_lexes_all ts : printable token_literal ts -> lexes (stream_to_string ts) (map strip ts).
Proof.
  intro H. assert (HL := printed_lexes UO ts H [] [] [] I Lex_nil). rewrite !app_nil_r in HL.
  unfold lexes. change (stream_to_string ts) with (text ts). unfold strip_bom.
  destruct (text ts) as [|c t] eqn:E; [exact HL|].
  destruct (N.eqb_spec c 0xFEFF) as [Ec|]; [|exact HL].
  subst c. exfalso. now apply (Lex_bom UO) in HL.
Qed.

Lemma from_str_printable start src ts : start < two32 -> valid_str src ->
  token_stream_from_str start src = Ok (Lexed ts) -> printable token_literal ts.
Proof.
  intros Hs Hv H. apply from_str_lexes in H; [|exact Hs]. unfold lexes in H.
  apply (lexed_printable UO) in H.
  - exact (proj1 (printable_strip U _ ts) H).
  - unfold strip_bom. destruct src as [|c t]; [exact Hv|]. destruct (c =? _); [|exact Hv]. now inversion Hv.
Qed.

(** C03 *)
Lemma parsed_roundtrip a b src ts : a < two32 -> b < two32 -> valid_str src ->
  token_stream_from_str a src = Ok (Lexed ts) ->
  exists ts', token_stream_from_str b (stream_to_string ts) = Ok (Lexed ts') /\ map strip ts' = map strip ts.
Proof.
  intros Ha Hb Hv H. apply from_str_printable in H; [|exact Ha|exact Hv].
  apply (lexes_iff U b); [exact Hb|]. now apply printed_lexes_all.
Qed.

(** C04 *)
Lemma built_roundtrip start ts : start < two32 ->
  printable (fun r => accepted start r \/ r = ERROR) ts ->
  exists ts', token_stream_from_str start (stream_to_string ts) = Ok (Lexed ts') /\
    map strip ts' = map strip ts /\ stream_to_string ts' = stream_to_string ts.
Proof.
  intros Hs H. apply (printable_ext U _ token_literal) in H; [|intros r Hr; now apply (token_literal_iff start)].
  apply printed_lexes_all in H. apply (lexes_iff U start) in H as (ts' & H1 & H2); [|exact Hs].
  exists ts'. split; [exact H1|]. split; [exact H2|].
  now rewrite <- (stream_print_strip ts'), H2, stream_print_strip.
Qed.
Lemma built_roundtrip_iff start ts : start < two32 -> valid_str (stream_to_string ts) ->
  (exists ts', token_stream_from_str start (stream_to_string ts) = Ok (Lexed ts') /\ map strip ts' = map strip ts)
  <-> printable (fun r => accepted start r \/ r = ERROR) ts.
Proof.
  intros Hs Hv. split.
  - intros (ts' & H1 & H2). apply from_str_printable in H1; [|exact Hs|exact Hv].
    apply printable_strip. rewrite <- H2. apply printable_strip.
    eapply printable_ext; [|exact H1]. intros r Hr. now apply (token_literal_iff start).
  - intro H. destruct (built_roundtrip start ts Hs H) as (ts' & H1 & H2 & _). eauto.
Qed.

(** *** Identifiers *)
Lemma str_digit_bytes s : forallb is_dec_digit (str_bytes s) = forallb is_dec_digit s.
Proof using.
  unfold str_bytes. induction s as [|c s IH]; [reflexivity|]. cbn [flat_map forallb]. rewrite forallb_app, IH. f_equal.
  unfold encode_utf8. destruct (c <? 0x80) eqn:E1; [cbn; apply andb_true_r|].
  assert (Hn : forall k l, 128 <= k -> forallb is_dec_digit (k :: l) = false).
  { intros k l Hk. cbn. unfold is_dec_digit, between. destruct (_ && _) eqn:E; [lia|reflexivity]. }
  assert (is_dec_digit c = false) as -> by (unfold is_dec_digit, between; lia).
  destruct (c <? 0x800); [apply Hn; lia|]. destruct (c <? 0x10000); apply Hn; lia.
Qed.

Lemma ident_ok_spec s : ident_ok s = true <-> ident_text s.
Proof using.
  destruct s as [|c t]; cbn [ident_ok].
  - split; [discriminate|]. intros (c & t & E & _). discriminate.
  - rewrite andb_true_iff, forallb_forall. split.
    + intros [H1 H2]. exists c, t. split; [reflexivity|]. split; [|now apply Forall_forall].
      unfold is_ident_start in H1. apply orb_prop in H1 as [H1|H1]; [left; lia|now right].
    + intros (c' & t' & E & H1 & H2). injection E as <- <-. split; [|now apply Forall_forall].
      unfold is_ident_start. destruct H1 as [->|H1]; [reflexivity|]. now rewrite H1, orb_true_r.
Qed.
Lemma validate_ident_spec s : validate_ident s = true <-> ident_text s.
Proof.
  unfold validate_ident. rewrite str_digit_bytes,  !andb_true_iff, ident_ok_spec. split.
  - tauto.
  - intro H. split; [|exact H]. destruct (ident_text_start _ H) as (c & t & -> & Hc & _). split; [reflexivity|].
    cbn [forallb]. destruct (is_dec_digit c) eqn:E; [|reflexivity]. exfalso.
    unfold is_dec_digit, between in E. rewrite (ident_start_ascii UO) in Hc by lia.
    unfold ascii_letter, between in Hc. lia.
Qed.
Lemma validate_raw_spec s : validate_ident_raw s = true <-> ident_text s /\ ~ In s never_raw.
Proof.
  unfold validate_ident_raw. rewrite andb_true_iff, validate_ident_spec.
  assert (negb (existsb (str_eqb s) [tag "_"; tag "super"; tag "self"; tag "Self"; tag "crate"]) = true
          <-> ~ In s never_raw); [|tauto].
  rewrite negb_true_iff, <- not_true_iff_false. unfold never_raw. rewrite existsb_exists.
  split; intros H Hi; apply H.
  - exists s. split; [exact Hi|]. now destruct (str_eqb_spec s s).
  - destruct Hi as (x & Hx & E). destruct (str_eqb_spec s x); [|discriminate]. now subst.
Qed.
Lemma ident_new_spec s sp :
  (ident_text s -> ident_new s sp = Ok (TIdent s false sp)) /\
  (~ ident_text s -> ident_new s sp = Panic).
Proof.
  unfold ident_new. pose proof (validate_ident_spec s) as H.
  destruct (validate_ident s); split; intro Hi; try reflexivity; exfalso; intuition discriminate.
Qed.
Lemma ident_new_raw_spec s sp :
  (ident_text s /\ ~ In s never_raw -> ident_new_raw s sp = Ok (TIdent s true sp)) /\
  (~ (ident_text s /\ ~ In s never_raw) -> ident_new_raw s sp = Panic).
Proof.
  unfold ident_new_raw. pose proof (validate_raw_spec s) as H.
  destruct (validate_ident_raw s); split; intro Hi; try reflexivity; exfalso; intuition discriminate.
Qed.
Lemma ident_ctors s sp :
  (ident_text s -> ident_new s sp = Ok (TIdent s false sp) /\ tree_to_string (TIdent s false sp) = s) /\
  (~ ident_text s -> ident_new s sp = Panic) /\
  (ident_text s /\ ~ In s never_raw ->
     ident_new_raw s sp = Ok (TIdent s true sp) /\ tree_to_string (TIdent s true sp) = tag "r#" ++ s) /\
  (~ (ident_text s /\ ~ In s never_raw) -> ident_new_raw s sp = Panic).
Proof.
  destruct (ident_new_spec s sp), (ident_new_raw_spec s sp). repeat split; auto.
Qed.

Lemma single_ident start sym raw : start < two32 -> ident_valid sym raw ->
  exists sp, token_stream_from_str start (ident_to_string sym raw) = Ok (Lexed [TIdent sym raw sp]).
Proof.
  intros Hs H.
  assert (Hl : lexes (stream_to_string [TIdent sym raw call_site]) [TIdent sym raw call_site]).
  { apply (printed_lexes_all [TIdent sym raw call_site]). apply pr_ident; [exact H|apply pr_nil]. }
  unfold stream_to_string in Hl. cbn [print_trees negb andb app tree_to_string] in Hl.
  rewrite app_nil_r in Hl. apply (lexes_iff U start) in Hl as (ts & H1 & H2); [|exact Hs].
  destruct ts as [|t [|? ?]]; try discriminate. destruct t; try discriminate. cbn in H2. injection H2 as -> ->.
  eauto.
Qed.
Lemma ident_new_inv s sp t : ident_new s sp = Ok t -> t = TIdent s false sp /\ validate_ident s = true.
Proof using. unfold ident_new. destruct (validate_ident s); [|discriminate]. intros [= <-]. auto. Qed.
Lemma ident_new_raw_inv s sp t : ident_new_raw s sp = Ok t -> t = TIdent s true sp /\ validate_ident_raw s = true.
Proof using. unfold ident_new_raw. destruct (validate_ident_raw s); [|discriminate]. intros [= <-]. auto. Qed.
Lemma ident_roundtrip start s sp t : start < two32 ->
  ident_new s sp = Ok t \/ ident_new_raw s sp = Ok t ->
  exists sp', token_stream_from_str start (tree_to_string t) = Ok (Lexed [set_span t sp']).
Proof.
  intros Hs [H|H].
  - apply ident_new_inv in H as [-> H]. cbn [tree_to_string set_span]. apply single_ident; [exact Hs|].
    split; [now apply validate_ident_spec|discriminate].
  - apply ident_new_raw_inv in H as [-> H]. apply validate_raw_spec in H.
    cbn [tree_to_string set_span]. apply single_ident; [exact Hs|]. split; intuition.
Qed.

(** *** Well formed streams *)
Lemma printable_in (P : str -> Prop) ts : printable P ts -> forall t, In t ts ->
  tree_valid P t /\ (forall d inner sp, t = TGroup d inner sp -> printable P inner).
Proof using.
  assert (Hnp : forall u d inner sp, ~ is_group u -> u = TGroup d inner sp -> printable P inner).
  { intros u d inner sp Hu ->. exfalso. apply Hu. exact I. }
  intro H. induction H as [|dl inner sp ts Hd Hi IHi Hp IH|sym raw sp ts Hv Hp IH|repr sp ts Hv Hp IH
      |c sp ts Hc Hn Hp IH|c sp t ts Hc Hn Hg Hp IH|sp t ts Hl Hp IH]; intros u Hu;
    [destruct Hu|..]; (destruct Hu as [<-|Hu]; [|now apply IH]).
  - split; [destruct dl; cbn; tauto|]. intros ? ? ? E. injection E as _ <- _. exact Hi.
  - split; [exact Hv|]. intros ? ? ?. apply Hnp. auto.
  - split; [exact Hv|]. intros ? ? ?. apply Hnp. auto.
  - split; [split; [exact Hc|contradiction]|]. intros ? ? ?. apply Hnp. auto.
  - split; [split; [exact Hc|contradiction]|]. intros ? ? ?. apply Hnp. auto.
  - split; [split; [unfold punct_chars; cbn; tauto|reflexivity]|]. intros ? ? ?. apply Hnp. auto.
Qed.
Lemma printable_occurs (P : str -> Prop) t ts : occurs t ts -> printable P ts -> tree_valid P t.
Proof using.
  induction 1 as [ts Hi|d inner sp ts Hi Ho IH]; intro Hp.
  - now apply (printable_in P ts Hp).
  - apply IH. destruct (printable_in P ts Hp _ Hi) as [_ H]. eauto.
Qed.
Lemma punct_new_spec c s : (In c punct_chars -> punct_new c s = Ok (TPunct c s call_site)) /\
  (~ In c punct_chars -> punct_new c s = Panic).
Proof using.
  unfold punct_new. change punct_new_chars with punct_chars.
  pose proof (contains_In punct_chars c) as H.
  destruct (contains punct_chars c); split; intro Hi; try reflexivity; exfalso; intuition discriminate.
Qed.

(** C15: every tree is what the constructors build. *)
Lemma token_literal_not_negative repr : p_literal repr = Some [] -> ~ begins repr (tag "-").
Proof using.
  intros H [r E]. apply p_literal_first in H as (c & t & Ec & H). rewrite Ec in E. injection E as -> _.
  destruct H as [H|H]; [discriminate|]. decompose [or] H; discriminate.
Qed.
Lemma valid_text_occurs src ts start : start < two32 -> valid_str src ->
  token_stream_from_str start src = Ok (Lexed ts) ->
  forall t, occurs t ts -> tree_valid token_literal t.
Proof.
  intros Hs Hv H t Ho. eapply printable_occurs; [exact Ho|]. eapply from_str_printable; eauto.
Qed.
Lemma parsed_constructible start src ts : start < two32 -> valid_str src ->
  token_stream_from_str start src = Ok (Lexed ts) ->
  forall t, occurs t ts -> constructible start t.
Proof.
  intros Hs Hv H t Ho. assert (Ht := valid_text_occurs _ _ _ Hs Hv H t Ho).
  destruct t as [d inner sp|sym raw sp|c s sp|repr sp]; cbn [tree_valid constructible] in *.
  - exact Ht.
  - destruct Ht as [H1 H2]. destruct raw.
    + apply ident_new_raw_spec. auto.
    + apply ident_new_spec. auto.
  - destruct Ht as [H1 H2]. split; [|exact H2]. now apply punct_new_spec.
  - destruct Ht as [Ht|Ht]; [|now left]. right. assert (Ha := Ht). apply (accepted_iff UO start) in Ha as [A1 A2]; [|exact Hs].
    split; [exact A1|]. split; [exact A2|]. now apply token_literal_not_negative.
Qed.

Lemma parsed_printable start src ts : start < two32 -> valid_str src ->
  token_stream_from_str start src = Ok (Lexed ts) -> printable (fun r => accepted start r \/ r = ERROR) ts.
Proof.
  intros Hs Hv H. eapply printable_ext; [|exact (from_str_printable _ _ _ Hs Hv H)].
  intros r. now apply token_literal_iff.
Qed.

(** C31: the lexer's puncts. *)
Lemma punct_alone_parses start c : start < two32 -> In c punct_chars -> c <> SQUOTE ->
  exists sp, token_stream_from_str start [c] = Ok (Lexed [TPunct c Alone sp]).
Proof.
  intros Hs Hc Hn.
  assert (Hl : lexes (stream_to_string [TPunct c Alone call_site]) [TPunct c Alone call_site]).
  { apply (printed_lexes_all [TPunct c Alone call_site]). apply pr_alone; [exact Hc|exact Hn|apply pr_nil]. }
  unfold stream_to_string in Hl. cbn [print_trees negb andb app tree_to_string] in Hl.
  apply (lexes_iff U start) in Hl as (ts & H1 & H2); [|exact Hs].
  destruct ts as [|t [|? ?]]; try discriminate. destruct t; try discriminate. cbn in H2. injection H2 as -> ->.
  eauto.
Qed.
Lemma quote_parses start sym raw : start < two32 -> ident_valid sym raw ->
  exists sp sp', token_stream_from_str start (SQUOTE :: ident_to_string sym raw)
    = Ok (Lexed [TPunct SQUOTE Joint sp; TIdent sym raw sp']).
Proof.
  intros Hs Hi. set (ts := [TPunct SQUOTE Joint call_site; TIdent sym raw call_site]).
  assert (Hl : lexes (stream_to_string ts) (map strip ts)).
  { apply printed_lexes_all. apply pr_lifetime; [exact I|]. apply pr_ident; [exact Hi|apply pr_nil]. }
  unfold stream_to_string, ts in Hl. cbn [print_trees negb andb app tree_to_string is_joint] in Hl.
  rewrite app_nil_r in Hl. apply (lexes_iff U start) in Hl as (us & H1 & H2); [|exact Hs].
  destruct us as [|t [|u [|? ?]]]; try discriminate. destruct t, u; try discriminate. cbn in H2.
  injection H2 as -> -> -> ->. eauto.
Qed.
Lemma punct_chars_agree start c : start < two32 ->
  (In c punct_chars <-> exists s, punct_new c s <> Panic) /\
  (In c punct_chars <-> exists src ts sp s, valid_str src /\ token_stream_from_str start src = Ok (Lexed ts) /\
     occurs (TPunct c s sp) ts).
Proof.
  intro Hs. split.
  - split.
    + intro H. exists Alone. destruct (punct_new_spec c Alone) as [H1 _]. rewrite H1 by exact H. discriminate.
    + intros [s H]. destruct (in_dec N.eq_dec c punct_chars) as [Hi|Hi]; [exact Hi|].
      destruct (punct_new_spec c s) as [_ H2]. now rewrite H2 in H.
  - split.
    + intro H. assert (Hc : is_scalar c = true).
      { unfold punct_chars in H. cbn in H. decompose [or] H; subst; try reflexivity; contradiction. }
      destruct (N.eq_dec c SQUOTE) as [E|E].
      * subst c. assert (Hi : ident_valid (tag "a") false).
        { split; [|discriminate]. exists "a"%ch, []. split; [reflexivity|]. split; [|constructor].
          right. rewrite (xid_start_ascii U UO) by lia. reflexivity. }
        destruct (quote_parses start _ _ Hs Hi) as (sp & sp' & H1).
        eexists _, _, sp, Joint. split; [|split; [exact H1|]].
        -- apply Forall_forall, forallb_forall. reflexivity.
        -- apply occurs_here. now left.
      * destruct (punct_alone_parses start c Hs H E) as [sp H1].
        exists [c], [TPunct c Alone sp], sp, Alone. split; [now constructor|]. split; [exact H1|].
        apply occurs_here. now left.
    + intros (src & ts & sp & s & Hv & H1 & Ho). exact (proj1 (valid_text_occurs _ _ _ Hs Hv H1 _ Ho)).
Qed.

(** *** Comparison of identifiers *)
Lemma ident_print_inj s1 r1 s2 r2 : ident_text s1 -> ident_text s2 ->
  ident_to_string s1 r1 = ident_to_string s2 r2 <-> s1 = s2 /\ r1 = r2.
Proof.
  intros H1 H2. split; [|intros [-> ->]; reflexivity].
  assert (Hno : forall s t, ident_text s -> s <> tag "r#" ++ t).
  { intros s t (c & u & -> & _ & Hu) E. cbn in E. injection E as _ ->. inversion Hu as [|? ? Hx]; subst.
    rewrite (xid_continue_ascii U UO) in Hx by lia. discriminate. }
  unfold ident_to_string. destruct r1, r2; cbn [app]; intro E.
  - injection E as E. auto.
  - symmetry in E. now apply (Hno s2 s1) in E.
  - now apply (Hno s1 s2) in E.
  - auto.
Qed.
Lemma ident_eqb_spec s1 r1 s2 r2 : ident_text s1 -> ident_text s2 ->
  ident_eqb s1 r1 s2 r2 = true <-> ident_to_string s1 r1 = ident_to_string s2 r2.
Proof.
  intros H1 H2. rewrite ident_print_inj by assumption. unfold ident_eqb. rewrite andb_true_iff, Bool.eqb_true_iff.
  destruct (str_eqb_spec s1 s2); intuition; discriminate.
Qed.
End WithUnicode.

Lemma ident_eq_str_spec sym raw other :
  ident_eq_str sym raw other = Ok true /\ other = ident_to_string sym raw \/
  ident_eq_str sym raw other = Ok false /\ other <> ident_to_string sym raw.
Proof.
  unfold ident_eq_str, ident_to_string. destruct raw.
  - destruct (starts_with other (tag "r#")) eqn:E.
    + apply starts_with_spec in E as [r ->].
      assert (slice_from (tag "r#" ++ r) 2 = Ok r) as ->.
      { eapply slice_from_eq; reflexivity. }
      cbn [bind]. destruct (str_eqb_spec sym r) as [->|Hn]; [left; auto|right].
      split; [reflexivity|]. intro E. apply app_inv_head in E. congruence.
    + right. split; [reflexivity|]. intros ->. now rewrite starts_with_app in E.
  - cbn [app]. destruct (str_eqb_spec sym other) as [->|Hn]; [left; auto|right]. split; [reflexivity|congruence].
Qed.

Lemma ident_cmp_spec s1 r1 s2 r2 : valid_str s1 -> valid_str s2 ->
  match ident_cmp s1 r1 s2 r2 with
  | Eq => ident_to_string s1 r1 = ident_to_string s2 r2
  | Lt => str_lt (ident_to_string s1 r1) (ident_to_string s2 r2)
  | Gt => str_lt (ident_to_string s2 r2) (ident_to_string s1 r1)
  end.
Proof.
  intros H1 H2. unfold ident_cmp. apply bytes_cmp_spec.
  - unfold ident_to_string. destruct r1; [|exact H1]. repeat (constructor; [reflexivity|]). exact H1.
  - unfold ident_to_string. destruct r2; [|exact H2]. repeat (constructor; [reflexivity|]). exact H2.
Qed.
Lemma encode_not_ff c : is_scalar c = true -> Forall (fun b => b <> 0xFF) (encode_utf8 c).
Proof.
  intro Hs. unfold is_scalar in Hs. unfold encode_utf8.
  assert (Hm := N.mod_lt c 64 ltac:(lia)). assert (Hm2 := N.mod_lt (c / 64) 64 ltac:(lia)).
  assert (Hm3 := N.mod_lt (c / 4096) 64 ltac:(lia)).
  assert (H1 : c < 0x800 -> c / 64 < 32) by (intro; apply N.div_lt_upper_bound; lia).
  assert (H2 : c < 0x10000 -> c / 4096 < 16) by (intro; apply N.div_lt_upper_bound; lia).
  assert (H3 : c / 262144 < 8) by (apply N.div_lt_upper_bound; lia).
  repeat match goal with |- context [if (?a <? ?b) then _ else _] => destruct (N.ltb_spec a b) end;
    repeat constructor; lia.
Qed.
Lemma str_bytes_not_ff s : valid_str s -> ~ In 0xFF (str_bytes s).
Proof.
  induction 1 as [|c s Hc Hs IH]; [intros []|]. rewrite str_bytes_cons, in_app_iff. intros [H|H]; [|auto].
  apply encode_not_ff in Hc. rewrite Forall_forall in Hc. now apply Hc in H.
Qed.
Lemma ident_hash_spec s1 r1 s2 r2 x y : valid_str s1 -> valid_str s2 ->
  ident_hash_input s1 r1 ++ x = ident_hash_input s2 r2 ++ y <->
  ident_to_string s1 r1 = ident_to_string s2 r2 /\ x = y.
Proof.
  intros H1 H2. unfold ident_hash_input. split; [|intros [-> ->]; reflexivity]. intro E.
  assert (V1 : valid_str (ident_to_string s1 r1)).
  { unfold ident_to_string. destruct r1; [|exact H1]. repeat (constructor; [reflexivity|]). exact H1. }
  assert (V2 : valid_str (ident_to_string s2 r2)).
  { unfold ident_to_string. destruct r2; [|exact H2]. repeat (constructor; [reflexivity|]). exact H2. }
  rewrite <- !app_assoc in E.
  assert (Hu : forall a b x y : list N, ~ In 0xFF a -> ~ In 0xFF b -> a ++ [0xFF] ++ x = b ++ [0xFF] ++ y -> a = b /\ x = y).
  { clear. induction a as [|c a IH]; intros [|d b] x y Ha Hb E.
    - injection E as ->. auto.
    - injection E as <- E. exfalso. apply Hb. now left.
    - injection E as -> E. exfalso. apply Ha. now left.
    - injection E as <- E. destruct (IH b x y) as [-> ->]; auto.
      + intro. apply Ha. now right.
      + intro. apply Hb. now right. }
  apply Hu in E as [E ->]; try now apply str_bytes_not_ff. split; [|reflexivity].
  now apply str_bytes_inj in E.
Qed.

(** ** The printed text *)

Lemma print_sep' t ts : print_trees tree_to_string true false (t :: ts)
  = match ts with
    | [] => tree_to_string t
    | _ => tree_to_string t ++ (if is_joint t then [] else [SPACE]) ++ print_trees tree_to_string true false ts
    end.
Proof.
  destruct ts as [|u ts]; cbn [print_trees negb andb app]; [now rewrite app_nil_r|].
  now destruct (is_joint t).
Qed.
Lemma trees_text_list ts :
  Forall (fun t => tree_text t (tree_to_string t)) ts -> trees_text ts (stream_to_string ts).
Proof.
  unfold stream_to_string. induction 1 as [|t ts Ht Hts IH]; [constructor|]. rewrite print_sep'.
  destruct ts as [|u ts]; [now apply ts_one|].
  destruct (is_joint t) eqn:E.
  - destruct t as [| |c [|] sp|]; try discriminate. cbn [tree_to_string app]. now apply ts_joint.
  - apply ts_space; auto. intros c sp ->. discriminate.
Qed.
Lemma tree_text_total t : tree_text t (tree_to_string t).
Proof.
  induction t as [d ts sp IH|sym raw sp|c s sp|repr sp] using token_nested_ind.
  - apply trees_text_list in IH. unfold stream_to_string in IH. cbn [tree_to_string].
    destruct d; cbn [open_text close_text app].
    + now apply tt_parenthesis.
    + destruct ts as [|t ts]; [apply tt_no_brace|].
      change (["{"%ch; SPACE]) with (tag "{ "). 
      apply (tt_brace (t :: ts)); [discriminate|exact IH].
    + now apply tt_bracket.
    + rewrite app_nil_r. now apply tt_none.
  - destruct raw; constructor.
  - constructor.
  - constructor.
Qed.
Lemma trees_text_total ts : trees_text ts (stream_to_string ts).
Proof. apply trees_text_list, Forall_forall. intros t _. apply tree_text_total. Qed.
Lemma trees_text_fun_list ts :
  Forall (fun t => forall x, tree_text t x -> x = tree_to_string t) ts ->
  forall x, trees_text ts x -> x = stream_to_string ts.
Proof.
  unfold stream_to_string. induction 1 as [|t ts Ht Hts IH]; intros x Hx; [now inversion Hx|].
  rewrite print_sep'. inversion Hx; subst; auto.
  - cbn [tree_to_string is_joint app]. f_equal. now apply IH.
  - destruct (is_joint t) eqn:E.
    + exfalso. destruct t as [| |c [|] sp|]; try discriminate. now apply (H1 c sp).
    + f_equal; [now apply Ht|]. f_equal. now apply IH.
Qed.
Lemma tree_text_fun t : forall x, tree_text t x -> x = tree_to_string t.
Proof.
  induction t as [d ts sp IH|sym raw sp|c s sp|repr sp] using token_nested_ind; intros x Hx;
    try (inversion Hx; subst; reflexivity).
  assert (H := trees_text_fun_list ts IH). unfold stream_to_string in H. cbn [tree_to_string].
  inversion Hx; subst; cbn [open_text close_text app];
    try match goal with K : trees_text _ _ |- _ => apply H in K; subst end; try reflexivity.
  - now rewrite app_nil_r.
  - destruct ts as [|t ts]; [contradiction|reflexivity].
Qed.
Lemma trees_text_spec ts x : trees_text ts x <-> stream_to_string ts = x.
Proof.
  split; [|intros <-; apply trees_text_total]. intro H. symmetry. revert x H. apply trees_text_fun_list.
  apply Forall_forall. intros t _. apply tree_text_fun.
Qed.
Lemma tree_text_spec t x : tree_text t x <-> tree_to_string t = x.
Proof. split; [|intros <-; apply tree_text_total]. intro H. symmetry. now apply tree_text_fun. Qed.
