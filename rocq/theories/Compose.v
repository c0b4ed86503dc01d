(** * Deterministic decomposition of parses: inversion of [Lex] step by step. *)
From Verif Require Import Base BaseFacts Unicode Tokens Lexer PureLexer.
From Verif Require Import LexerEquiv LexerEquiv2 LexerEquiv3 LexerEquiv4 Grammar Stable Trivia.
From Verif Require Import SpecText Comments.
From Verif Require Import SpecLex.

Section WithUnicode.
Context {U : unicode}.
Context (UO : unicode_ok U).

Lemma Lex_leaf_inv s r k T e : p_leaf s = Some (r, k) -> Lex s T e ->
  exists ts, T = k call_site :: ts /\ Lex r ts e.
Proof using UO.
  intros Hl H. destruct (p_leaf_start UO _ _ _ Hl) as [Hs Ha]. pose proof (p_skip_stay _ Hs) as E.
  destruct Ha as (H1 & H2 & H3 & H4).
  inversion H as [? X|? ? ? X|? ? ? ? ? ? X|? ? ? ? ? ? ? ? X Y|? ? ? ? ? X Y]; subst; rewrite E in *; try congruence.
  rewrite Hl in Y. inv Y. eauto.
Qed.
Lemma Lex_doc_inv s r x i T e : p_skip1 s = None -> p_doc s = Some (r, (x, i)) -> Lex s T e ->
  exists ts, T = doc_tokens x i call_site ++ ts /\ Lex r ts e.
Proof.
  intros Hs Hd H. pose proof (p_skip_stay _ Hs) as E.
  inversion H as [? X|? ? ? X|? ? ? ? ? ? X|? ? ? ? ? ? ? ? X Y|? ? ? ? ? X Y]; subst; rewrite E in *; try congruence.
  - rewrite X in Hd. discriminate.
  - rewrite (close_no_doc _ _ _ X) in Hd. discriminate.
  - rewrite Hd in X. inv X. eauto.
  - destruct X as (X & _). congruence.
Qed.
Lemma Lex_group_inv s d r inner r' m T e : open_delim s = Some (d, r) -> Lex r inner m ->
  close_delim m = Some (d, r') -> Lex s T e ->
  exists ts, T = TGroup d inner call_site :: ts /\ Lex r' ts e.
Proof.
  intros Ho Hi Hc H. destruct (open_start _ _ _ Ho) as [Hs Hd]. pose proof (p_skip_stay _ Hs) as E.
  inversion H as [? X|? ? ? X|? ? ? ? ? ? X|? ? ? ? ? ? ? ? X Y Z W|? ? ? ? ? X Y]; subst; rewrite E in *; try congruence.
  - rewrite X in Ho. discriminate.
  - rewrite (close_open _ _ _ X) in Ho. discriminate.
  - rewrite Ho in Y. inv Y. destruct (Lex_det _ _ _ _ _ Hi Z) as [-> ->].
    rewrite Hc in W. inv W. eauto.
  - destruct X as (_ & _ & X & _). congruence.
Qed.

Lemma Lex_lf_inv s ts e b : Lex s ts e -> e = [] -> forall T e2, Lex (s ++ LF :: b) T e2 ->
  exists ts2, T = ts ++ ts2 /\ Lex b ts2 e2.
Proof using UO.
  induction 1 as [s H|s d r H|s r x inner ts e H HL IH|s d r inner m r' ts e Hd Ho Hi IHi Hc HL IH|s r k ts e Ha Hl HL IH];
    intros He T e2 HT.
  - exists T. split; [reflexivity|]. apply Lex_skip. rewrite <- (p_skip_lf s b H). now apply Lex_unskip.
  - rewrite He in H. discriminate.
  - assert (Hs1 : p_skip1 (p_skip s ++ LF :: b) = None) by (eapply doc_not_skip; [apply p_skip_fixed|eauto]).
    apply Lex_unskip in HT. rewrite (p_skip_lf' _ _ Hs1) in HT.
    apply (Lex_doc_inv _ _ _ _ _ _ Hs1 (p_doc_lf _ b _ _ _ H)) in HT as (t2 & -> & HT).
    destruct (IH He _ _ HT) as (ts2 & -> & H2). exists ts2. now rewrite app_assoc.
  - assert (Hs : open_delim (p_skip s ++ LF :: b) = Some (d, r ++ LF :: b)).
    { revert Ho. unfold open_delim. destruct (p_skip s) as [|c t] eqn:E; [discriminate|]. cbn [app].
      change (c :: t ++ LF :: b) with ((c :: t) ++ LF :: b). rewrite starts_with_lf by reflexivity.
      destruct (_ && _); [intros X; inv X; reflexivity|].
      repeat destruct (_ =? _)%N; intros X; inv X; reflexivity. }
    destruct (open_start _ _ _ Hs) as [Hs1 _].
    apply Lex_unskip in HT. rewrite (p_skip_lf' _ _ Hs1) in HT.
    assert (Hm : m <> []) by (intros ->; discriminate).
    assert (Hcm : close_delim (m ++ LF :: b) = Some (d, r' ++ LF :: b)).
    { revert Hc. unfold close_delim. destruct m as [|c t]; [discriminate|]. cbn [app].
      repeat destruct (_ =? _)%N; intros X; inv X; reflexivity. }
    pose proof (proj1 (Lex_lf UO _ _ _ b Hi) Hm) as Hi'.
    destruct (Lex_group_inv _ _ _ _ _ _ _ _ Hs Hi' Hcm HT) as (t2 & -> & HT2).
    destruct (IH He _ _ HT2) as (ts2 & -> & H2). exists ts2. auto.
  - pose proof (p_leaf_app UO _ (LF :: b) _ _ eq_refl Hl) as Hl'.
    destruct (p_leaf_start UO _ _ _ Hl') as [Hs1 _].
    apply Lex_unskip in HT. rewrite (p_skip_lf' _ _ Hs1) in HT.
    apply (Lex_leaf_inv _ _ _ _ _ Hl') in HT as (t2 & -> & HT).
    destruct (IH He _ _ HT) as (ts2 & -> & H2). exists ts2. auto.
Qed.

(** Once [a] parses, [a] newline [b] parses exactly as [b] does. *)
Lemma lexes_lines_iff a b ts1 T : starts_with b BYTE_ORDER_MARK = false -> lexes a ts1 ->
  lexes (a ++ LF :: b) T <-> exists ts2, T = ts1 ++ ts2 /\ lexes b ts2.
Proof using UO.
  intros Hb H1. split.
  - unfold lexes in *. rewrite strip_bom_lf. intros H. rewrite (strip_bom_none _ Hb).
    eapply Lex_lf_inv; eauto.
  - intros (ts2 & -> & H2). now apply lexes_lines.
Qed.

(** A byte order mark where a token could start. *)
Lemma p_leaf_bom s : p_leaf (0xFEFF%N :: s) = None.
Proof using UO.
  destruct (p_leaf (0xFEFF%N :: s)) as [[r k]|] eqn:Y; [|reflexivity]. exfalso.
  apply (p_leaf_kind UO) in Y. destruct Y as [r L|r c sp P|r sym raw I|R].
  - apply p_literal_first in L as (c & t & E & L). injection E as <- _.
    destruct L as [L|L]; [discriminate|]. decompose [or] L; discriminate.
  - unfold p_punct in P. cbn in P. discriminate.
  - unfold p_ident in I. destruct (existsb _ _); [discriminate|]. unfold p_ident_any in I.
    change (starts_with (0xFEFF%N :: s) (tag "r#")) with false in I. cbn iota in I. cbn [p_ident_not_raw] in I.
    destruct (is_ident_start 0xFEFF%N) eqn:E; [|discriminate].
    apply (ident_start_continue UO) in E. destruct (xid_not_marks U UO) as (_ & _ & H).
    unfold is_ident_continue in E. congruence.
  - discriminate R.
Qed.
Lemma Lex_bom s T e : ~ Lex (0xFEFF%N :: s) T e.
Proof using UO.
  intros H. assert (Hs : p_skip1 (0xFEFF%N :: s) = None) by (apply p_skip1_other; [reflexivity|discriminate]).
  pose proof (p_skip_stay _ Hs) as E. pose proof (p_leaf_bom s) as Hl. remember (0xFEFF%N :: s) as u eqn:Eu.
  inversion H as [? X|? ? ? X|? ? ? ? ? ? X|? ? ? ? ? ? ? ? X Y|? ? k ? ? X Y]; subst T e; subst s0; rewrite E in *.
  - congruence.
  - rewrite Eu in X. discriminate.
  - rewrite Eu, (p_doc_none_other 0xFEFF%N) in X by discriminate. discriminate.
  - rewrite Eu in Y. discriminate.
  - congruence.
Qed.
Lemma lexes_bom s T : lexes (0xFEFF%N :: s) T <-> Lex s T [].
Proof. reflexivity. Qed.
(** A byte order mark is accepted nowhere but at the very beginning: on a later
    line it is an error whatever follows. *)
Lemma bom_line a s ts T : lexes a ts -> ~ lexes (a ++ LF :: 0xFEFF%N :: s) T.
Proof using UO.
  intros Ha H. unfold lexes in *. rewrite strip_bom_lf in H.
  destruct (Lex_lf_inv _ _ _ _ Ha eq_refl _ _ H) as (ts2 & _ & H2). now apply Lex_bom in H2.
Qed.
(** Two of them at the beginning are an error too. *)
Lemma bom_twice s T : ~ lexes (0xFEFF%N :: 0xFEFF%N :: s) T.
Proof using UO. rewrite lexes_bom. apply Lex_bom. Qed.

(** [Literal::from_str] accepts exactly what lexes to that one literal. *)
Lemma p_literal_lexes s : p_literal s = Some [] <-> s <> ERROR /\ lexes s [TLiteral s call_site].
Proof using UO.
  split.
  - intros H. assert (Hk : p_leaf s = Some ([], TLiteral s)).
    { apply (p_leaf_kind UO). pose proof (LK_lit s _ H) as Hk. pose proof (prefix_of_app s []) as E.
      rewrite app_nil_r in E. now rewrite E in Hk. }
    split.
    { intros ->. apply p_literal_first in H as (c & t & E & H). injection E as <- _.
      destruct H as [H|H]; [discriminate|]. decompose [or] H; discriminate. }
    unfold lexes. assert (Hb : strip_bom s = s).
    { destruct s as [|c t]; [reflexivity|]. cbn. destruct (N.eqb_spec c 0xFEFF) as [->|]; [|reflexivity].
      now rewrite p_leaf_bom in Hk. }
    rewrite Hb. exact (Lex_leaf' UO _ _ _ _ _ Hk Lex_nil).
  - intros [He H]. unfold lexes in H. pose proof (p_skip_suffix (strip_bom s)) as Hs.
    assert (Hs' : suffix (p_skip (strip_bom s)) s).
    { eapply suffix_trans; [exact Hs|]. unfold strip_bom. destruct s as [|c t]; [apply suffix_refl|].
      destruct (_ =? _)%N; [apply suffix_cons, suffix_refl|apply suffix_refl]. }
    remember (p_skip (strip_bom s)) as u eqn:Eu.
    remember [TLiteral s call_site] as ts eqn:Et.
    inversion H as [? X|? ? ? X|? ? ? ? ? ? X|? ? ? ? ? ? ? ? X Y|? r k ? ? X Y Z]; subst; rewrite <- ?Eu in *.
    + discriminate.
    + discriminate.
    + destruct inner; discriminate.
    + discriminate.
    + match goal with E : k call_site :: _ = _ |- _ => injection E as Ek -> end.
      apply (p_leaf_kind UO) in Y. inversion Y as [? L|? ? ? P|? ? ? I|R]; subst k; try discriminate.
      * subst r0. injection Ek as Ek. pose proof (p_literal_suffix _ _ L) as [q Eq]. rewrite Eq, prefix_of_app in Ek. subst q.
        apply suffix_length in Hs'. rewrite Eq, app_length in Hs'.
        destruct r as [|c r]; [|cbn in Hs'; lia]. rewrite app_nil_r in Eq. now rewrite <- Eq.
      * congruence.
Qed.
End WithUnicode.
