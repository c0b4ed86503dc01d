(** * Parsing texts with CRLF read as LF. *)
From Verif Require Import Base BaseFacts Unicode Tokens Lexer PureLexer.
From Verif Require Import LexerEquiv LexerEquiv2 LexerEquiv3 LexerEquiv4 Grammar Stable Local.
From Verif Require Import SpecText SpecTree SpecLit SpecGrammar SpecEnding SpecMap Comments Fallback Spans Balance LexemeProofs Trivia Compose LexProofs Places EndingLexer.
Import ListNotations.
Local Open Scope N_scope.

Definition above (a : N) (p : piece) : Prop :=
  match p with
  | POpen _ q => a <= q
  | PTok k => Forall (fun t => a <= lo (token_span t)) k
  | _ => True
  end.
Lemma tree_above a ps ts : tree ps ts -> Forall (above a) ps -> Forall (fun t => a <= lo (token_span t)) ts.
Proof.
  induction 1 as [|k ps ts T IH|d b e ps1 inner ps2 ts T1 IH1 T2 IH2]; intros F.
  - constructor.
  - inv F. apply Forall_app. auto.
  - inv F. apply Forall_app in H2 as [_ H2]. inv H2. constructor; auto.
Qed.

Lemma unix_length (s : str) : (length (unix s) <= length s)%nat.
Proof. unfold unix. induction s as [|c s IH]; [reflexivity|]. cbn [filter]. destruct (negb _); cbn [length]; lia. Qed.

Section WithUnicode.
Context {U : unicode}.
Hypothesis UO : unicode_ok U.

Section File.
Variable src : str.
Variable start : N.
Hypothesis room : start + strlen src < two32.
Let in_text := in_text src start.
Let in_text' := Spans.in_text (unix src) start.
Let moved := moved start src.
Let moved_span := moved_span start src.

Lemma room' : start + strlen (unix src) < two32.
Proof using room. pose proof (unix_length src). unfold strlen in *. lia. Qed.

Lemma moved_at p s : src = p ++ s -> moved (start + strlen p) = start + strlen (unix p).
Proof using room.
  intros E. unfold moved, SpecEnding.moved. replace (start + strlen p - start) with (strlen p) by lia. unfold strlen at 2. rewrite Nnat.Nat2N.id, E.
  rewrite firstn_app, firstn_all, Nat.sub_diag, firstn_O, app_nil_r. reflexivity.
Qed.
Lemma moved_off c c' : in_text c -> in_text' c' -> rest c' = unix (rest c) -> off c' = moved (off c).
Proof using room.
  intros (p & E & O) (p' & E' & O') R. rewrite O, (moved_at p _ E), O'. rewrite R in E'. rewrite E, unix_app in E' at 1.
  apply app_inv_tail in E'. now rewrite E'.
Qed.

Inductive rel : list piece -> list piece -> Prop :=
| rel_nil : rel [] []
| rel_open d p ps ps' : Forall (above (p + 1)) ps -> rel ps ps' -> rel (POpen d p :: ps) (POpen d (moved p) :: ps')
| rel_close d p ps ps' : moved (p + 1) = moved p + 1 -> rel ps ps' -> rel (PClose d p :: ps) (PClose d (moved p) :: ps')
| rel_tok t t' ps ps' : same_tree start src t t' -> rel ps ps' -> rel (PTok [t] :: ps) (PTok [t'] :: ps')
| rel_doc inner x sp ps ps' : rel ps ps' ->
    rel (PTok (doc_attribute inner (literal_string x) sp) :: ps) (PTok (doc_attribute inner (literal_string (unix x)) (moved_span sp)) :: ps')
| rel_bad p : rel [PBad p] [PBad (moved p)]
| rel_newline p l sp ps' : holds src quoted_crlf -> newline_literal l -> rel [PBad p] (PTok [TLiteral l sp] :: ps').

Lemma rel_app a b qs : rel (a ++ b) qs -> exists a' b', qs = a' ++ b' /\ rel a a' /\ rel b b'.
Proof using room.
  revert qs. induction a as [|x a IH]; intros qs H; [exists [], qs; split; [reflexivity|]; split; [constructor|exact H]|].
  cbn [app] in H. inversion H; subst.
  - apply Forall_app in H2 as [H2 _]. destruct (IH _ H4) as (a' & b' & -> & A & B). eexists (_ :: a'), b'. split; [reflexivity|]. split; [now apply rel_open|exact B].
  - destruct (IH _ H4) as (a' & b' & -> & A & B). eexists (_ :: a'), b'. split; [reflexivity|]. split; [now apply rel_close|exact B].
  - destruct (IH _ H4) as (a' & b' & -> & A & B). eexists (_ :: a'), b'. split; [reflexivity|]. split; [now apply rel_tok|exact B].
  - destruct (IH _ H3) as (a' & b' & -> & A & B). eexists (_ :: a'), b'. split; [reflexivity|]. split; [now apply rel_doc|exact B].
  - symmetry in H2. apply app_eq_nil in H2 as [-> ->]. exists [PBad (moved p)], []. split; [reflexivity|]. split; [apply rel_bad|constructor].
  - symmetry in H1. apply app_eq_nil in H1 as [-> ->]. eexists (_ :: ps'), []. split; [symmetry; apply app_nil_r|]. split; [now apply rel_newline|constructor].
Qed.

Lemma tree_rel ps ts : tree ps ts -> forall qs, rel ps qs -> exists ts', tree qs ts' /\ same_trees start src ts ts'.
Proof using room.
  induction 1 as [|k ps ts T IH|d a b ps1 inner ps2 ts T1 IH1 T2 IH2]; intros qs H.
  - inv H. exists []. split; constructor.
  - inv H.
    + destruct (IH _ H4) as (ts' & T' & S). exists ([t'] ++ ts'). split; [now constructor|]. now apply same_cons.
    + destruct (IH _ H3) as (ts' & T' & S). eexists (_ ++ ts'). split; [constructor; exact T'|]. now apply same_doc.
  - inversion H as [|d0 p0 ps0 ps' A R| | | | |]; subst. clear H. apply Forall_app in A as [A _].
    apply rel_app in R as (q1 & q2 & -> & R1 & R2). inversion R2 as [| |d0 p0 ps0 ps' M R| | | |]; subst.
    destruct (IH1 _ R1) as (i' & I1 & I2). destruct (IH2 _ R) as (ts' & J1 & J2). eexists. split; [apply tree_group; eassumption|].
    rewrite <- M. apply same_cons; [|exact J2]. apply (same_group start src d inner i' (mkspan a (b + 1))); [|exact I2].
    cbn [lo]. apply Forall_impl with (2 := tree_above _ _ _ T1 A). intros t L. lia.
Qed.

(** What a quoted CRLF that is an error becomes. *)
Definition exception (qs : list piece) : Prop := exists l sp, In (PTok [TLiteral l sp]) qs /\ newline_literal l /\ holds src quoted_crlf.

Lemma wrong_rel ps b : wrong ps b -> forall qs, rel ps qs -> wrong qs (moved b) \/ exception qs.
Proof using room.
  induction 1 as [a ps|d a ps ts T|d a ps1 ts d' b ps2 T D|d a ps b W IH|ps1 ts ps2 b T W IH]; intros qs H.
  - inv H; [left; constructor|]. right. exists l, sp. split; [now left|auto].
  - inv H. destruct (tree_rel _ _ T _ H5) as (ts' & T' & _). left. eapply wrong_unclosed; eassumption.
  - inv H. apply rel_app in H5 as (q1 & q2 & -> & R1 & R2). inv R2. destruct (tree_rel _ _ T _ R1) as (ts' & T' & _). left.
    eapply wrong_mismatch; eassumption.
  - inv H. destruct (IH _ H5) as [X|(l & sp & X & Y)]; [left; now constructor|]. right. exists l, sp. split; [now right|exact Y].
  - apply rel_app in H as (q1 & q2 & -> & R1 & R2). destruct (tree_rel _ _ T _ R1) as (ts' & T' & _).
    destruct (IH _ R2) as [X|(l & sp & X & Y)]; [left; eapply wrong_after; eassumption|]. right. exists l, sp. split; [apply in_or_app; now right|exact Y].
Qed.
Lemma wrong_top_rel ps b : wrong_top ps b -> forall qs, rel ps qs -> wrong_top qs (moved b) \/ exception qs.
Proof using room.
  intros [ps' b' W|ps1 ts d b' ps2 T] qs H.
  - destruct (wrong_rel _ _ W _ H) as [X|X]; [left; now constructor|now right].
  - apply rel_app in H as (q1 & q2 & -> & R1 & R2). inv R2. destruct (tree_rel _ _ T _ R1) as (ts' & T' & _). left. eapply wrong_stray; eassumption.
Qed.

Lemma in_tree qs ts k : tree qs ts -> In (PTok k) qs -> forall t, In t k -> occurs t ts.
Proof using room.
  induction 1 as [|k' ps ts T IH|d a b ps1 inner ps2 ts T1 IH1 T2 IH2]; intros I t J.
  - destruct I.
  - destruct I as [I|I]; [injection I as ->; apply occurs_here, in_or_app; now left|]. apply occurs_app. right. now apply IH.
  - destruct I as [I|I]; [discriminate|]. apply in_app_or in I as [I|[I|I]]; [|discriminate|].
    + eapply occurs_inside; [now left|]. now apply IH1.
    + apply (occurs_app t [_] ts). right. now apply IH2.
Qed.

Lemma scan_above c ps : scan c ps -> in_text c -> Forall (above (off c)) ps.
Proof using room.
  induction 1 as [c H|c d r ps Hd Ho Hs IH|c d r ps Hc Hs IH|c r x i ps Hd Hs IH|c r k ps Ha Hl Hs IH|c Ha Hl]; intros Ht.
  all: assert (Hk : off c <= off (skipped c)) by (destruct (p_skip_suffix (rest c)) as [q Q]; destruct (in_text_cur_of _ _ room c q _ Ht Q) as [_ O]; unfold skipped; lia).
  all: assert (W : forall r qs, suffix r (rest (skipped c)) -> (in_text (cur_of (skipped c) r) -> Forall (above (off (cur_of (skipped c) r))) qs) -> Forall (above (off c)) qs)
    by (intros r0 qs [q Q] F; destruct (in_text_cur_of _ _ room (skipped c) q _ (in_text_skipped _ _ room _ Ht) Q) as [I O];
        apply Forall_impl with (2 := F I); intros [d0 p0|d0 p0|k0|p0] L; cbn [above] in *; auto; [lia|apply Forall_impl with (2 := L); intros t0 L0; lia]).
  - constructor.
  - constructor; [exact Hk|]. apply (W r); [now apply open_next in Ho as [? _]|exact IH].
  - constructor; [exact I|]. apply (W r); [|exact IH]. apply close_delim_spec in Hc as [x X]. exists [x]. exact X.
  - constructor; [|apply (W r); [now apply doc_next in Hd as [? _]|exact IH]]. cbn [above].
    destruct i; repeat constructor; exact Hk.
  - constructor; [|apply (W r); [now apply leaf_next in Hl as [? _]|exact IH]]. constructor; [|constructor].
    destruct (p_leaf_not_group _ _ _ (mkspan (off (skipped c)) (off (cur_of (skipped c) r))) Hl) as [_ ->]. exact Hk.
  - repeat constructor.
Qed.

Lemma good_nonempty s : good s -> s <> [] -> unix s <> [].
Proof using room. intros [|t G|c t N G] E; [contradiction| |]; [rewrite unix_crlf|rewrite unix_char by exact N]; discriminate. Qed.

Lemma scan_unix c ps : scan c ps -> in_text c -> good (rest c) -> forall c', in_text' c' -> rest c' = unix (rest c) ->
  exists ps', scan c' ps' /\ rel ps ps'.
Proof using room UO.
  induction 1 as [c H|c d r ps Hd Ho Hs IH|c d r ps Hc Hs IH|c r x i ps Hd Hs IH|c r k ps Ha Hl Hs IH|c Ha Hl]; intros Ht G c' Ht' R.
  all: assert (R1 : rest (skipped c') = unix (rest (skipped c))) by (unfold skipped; rewrite !rest_cur_of, R; now apply skip_unix).
  all: assert (G1 : good (rest (skipped c))) by (apply good_suffix with (rest c); [apply p_skip_suffix|exact G]).
  all: assert (T1 : in_text (skipped c)) by now apply in_text_skipped.
  all: assert (T1' : in_text' (skipped c')) by (apply in_text_skipped; [exact room'|exact Ht']).
  all: assert (M1 : off (skipped c') = moved (off (skipped c))) by now apply moved_off.
  all: assert (K1 : p_skip1 (rest (skipped c)) = None) by (unfold skipped; rewrite rest_cur_of; apply p_skip_fixed).
  all: assert (W : forall r, suffix r (rest (skipped c)) -> good r /\ in_text (cur_of (skipped c) r) /\ in_text' (cur_of (skipped c') (unix r)) /\
         off (cur_of (skipped c') (unix r)) = moved (off (cur_of (skipped c) r)))
    by (intros r0 S0; assert (I0 : in_text (cur_of (skipped c) r0)) by (now apply in_text_suffix);
        assert (I1 : in_text' (cur_of (skipped c') (unix r0))) by
          (apply in_text_suffix; [exact room'|exact T1'|]; destruct S0 as [q Q]; exists (unix q); now rewrite R1, Q, unix_app);
        split; [now apply good_suffix with (rest (skipped c))|]; split; [exact I0|]; split; [exact I1|]; now apply moved_off).
  all: assert (D1 : p_doc (rest (skipped c')) = omap doc_unix_of (p_doc (rest (skipped c)))) by (rewrite R1; now apply doc_unix).
  all: assert (O1 : open_delim (rest (skipped c')) = omap (fun p => (fst p, unix (snd p))) (open_delim (rest (skipped c)))) by (rewrite R1; now apply open_unix).
  all: assert (C1 : close_delim (rest (skipped c')) = omap (fun p => (fst p, unix (snd p))) (close_delim (rest (skipped c)))) by (rewrite R1; now apply close_unix).
  all: assert (A1 : at_token (rest (skipped c)) -> at_token (rest (skipped c')))
    by (intros (A & B & C & D); unfold at_token; rewrite D1, O1, C1, A, C, D; split; [reflexivity|]; split; [rewrite R1; now apply good_nonempty|auto]).
  - exists []. split; [apply scan_end; now rewrite R1, H|constructor].
  - assert (S : suffix r (rest (skipped c))) by now apply open_next in Ho as [? _]. destruct (W r S) as (W1 & W2 & W3 & W4).
    destruct (IH W2 W1 _ W3 eq_refl) as (ps' & P1 & P2). exists (POpen d (moved (off (skipped c))) :: ps'). rewrite Hd in D1. rewrite Ho in O1. cbn [omap fst snd] in D1, O1. split.
    + rewrite <- M1. eapply scan_open; eassumption.
    + apply rel_open; [|exact P2]. apply scan_above in Hs; [|exact W2].
      destruct (open_delim_spec _ _ _ Ho) as (x & Q). destruct (in_text_cur_of _ _ room (skipped c) [x] r T1 Q) as [_ Q2]. rewrite Q2 in Hs. exact Hs.
  - destruct (close_delim_spec _ _ _ Hc) as (x & Q). assert (S : suffix r (rest (skipped c))) by (exists [x]; exact Q). destruct (W r S) as (W1 & W2 & W3 & W4).
    destruct (IH W2 W1 _ W3 eq_refl) as (ps' & P1 & P2). exists (PClose d (moved (off (skipped c))) :: ps'). rewrite Hc in C1. cbn [omap fst snd] in C1. split.
    + rewrite <- M1. eapply scan_close; eassumption.
    + apply rel_close; [|exact P2]. destruct (in_text_cur_of _ _ room (skipped c) [x] r T1 Q) as [_ Q2].
      destruct (close_delim_spec _ _ _ C1) as (x' & Q'). destruct (in_text_cur_of _ _ room' (skipped c') [x'] (unix r) T1' Q') as [_ Q2'].
      change (strlen [x]) with 1 in Q2. change (strlen [x']) with 1 in Q2'. rewrite <- Q2, <- W4, Q2', M1. reflexivity.
  - assert (S : suffix r (rest (skipped c))) by now apply doc_next in Hd as [? _]. destruct (W r S) as (W1 & W2 & W3 & W4).
    destruct (IH W2 W1 _ W3 eq_refl) as (ps' & P1 & P2). rewrite Hd in D1. unfold doc_unix_of in D1. cbn [omap fst snd] in D1. eexists. split; [eapply scan_doc; eassumption|].
    rewrite !doc_tokens_attribute, M1, W4. apply (rel_doc i x (mkspan (off (skipped c)) (off (cur_of (skipped c) r)))). exact P2.
  - assert (S : suffix r (rest (skipped c))) by now apply leaf_next in Hl as [? _]. destruct (W r S) as (W1 & W2 & W3 & W4).
    assert (N : ~ crlf_quoted (rest (skipped c))) by (intros X; apply (leaf_crlf UO) in X as [X _]; rewrite X in Hl; discriminate).
    pose proof (leaf_unix UO _ G1 N) as L. rewrite Hl in L. destruct L as (k' & L1 & L2). rewrite <- R1 in L1.
    destruct (IH W2 W1 _ W3 eq_refl) as (ps' & P1 & P2). eexists. split; [eapply scan_leaf; [now apply A1|exact L1|exact P1]|].
    rewrite M1, W4. apply rel_tok; [|exact P2]. apply (L2 start src (mkspan _ _)).
  - destruct (starts_with (rest (skipped c)) quoted_crlf || starts_with (rest (skipped c)) ("b"%ch :: quoted_crlf)) eqn:E.
    + assert (X : crlf_quoted (rest (skipped c))).
      { apply Bool.orb_true_iff in E as [E|E]; apply begins_starts in E; [now left|now right]. }
      destruct (leaf_crlf UO _ X) as (_ & l & r & L1 & L2). rewrite <- R1 in L1. destruct (scan_total (cur_of (skipped c') r)) as [ps' P].
      eexists. split; [eapply scan_leaf; [now apply A1|exact L1|exact P]|]. apply rel_newline; [|exact L2].
      destruct T1 as (p & -> & _). destruct X as [[t ->]|[t ->]]; [now exists p, t|]. exists (p ++ ["b"%ch]), t. rewrite <- !app_assoc. reflexivity.
    + assert (N : ~ crlf_quoted (rest (skipped c))).
      { apply Bool.orb_false_iff in E as [E1 E2]. apply begins_starts_f in E1, E2. intros [X|X]; contradiction. }
      pose proof (leaf_unix UO _ G1 N) as L. rewrite Hl in L. rewrite <- R1 in L. eexists. split; [apply scan_bad; [now apply A1|exact L]|].
      rewrite M1. apply rel_bad.
Qed.

Lemma bom_unix s : good s -> strip_bom (unix s) = unix (strip_bom s).
Proof using room. intros [|t G|c t N G]; [reflexivity|reflexivity|]. rewrite unix_char by exact N. cbn [strip_bom]. now destruct (c =? 0xFEFF); [|rewrite unix_char by exact N]. Qed.

Lemma pieces_unix ps : cr_only_before_lf src -> pieces src start ps -> exists ps', pieces (unix src) start ps' /\ rel ps ps'.
Proof using room UO.
  intros G P. apply good_iff in G. unfold pieces in *. eapply scan_unix; [exact P|now apply in_text_start| | |].
  - rewrite rest_cur_of. apply good_suffix with src; [apply strip_bom_suffix|exact G].
  - apply in_text_start. exact room'.
  - rewrite !rest_cur_of. now apply bom_unix.
Qed.

Lemma parse_unix ts : cr_only_before_lf src -> token_stream_from_str start src = Ok (Lexed ts) ->
  exists ts', token_stream_from_str start (unix src) = Ok (Lexed ts') /\ same_trees start src ts ts'.
Proof using room UO.
  intros G P. apply (parse_tree _ _ room) in P as (ps & P & T). destruct (pieces_unix ps G P) as (ps' & P' & R).
  destruct (tree_rel _ _ T _ R) as (ts' & T' & S). exists ts'. split; [|exact S]. apply (parse_tree _ _ room'). now exists ps'.
Qed.
Lemma error_unix sp : cr_only_before_lf src -> token_stream_from_str start src = Ok (LexError sp) ->
  token_stream_from_str start (unix src) = Ok (LexError (moved_span sp)) \/
  (holds src quoted_crlf /\ forall ts', token_stream_from_str start (unix src) = Ok (Lexed ts') ->
    exists l sp', occurs (TLiteral l sp') ts' /\ newline_literal l).
Proof using room UO.
  intros G P. apply (parse_wrong _ _ room) in P as (ps & P & W & E). destruct (pieces_unix ps G P) as (ps' & P' & R).
  destruct (wrong_top_rel _ _ W _ R) as [X|(l & sp' & X & Y & Z)].
  - left. apply (parse_wrong _ _ room'). exists ps'. unfold moved_span, SpecEnding.moved_span. cbn [lo hi]. rewrite E. auto.
  - right. split; [exact Z|]. intros ts' Q. apply (parse_tree _ _ room') in Q as (qs & Q & T).
    assert (qs = ps') as -> by (eapply scan_functional; eassumption). exists l, sp'. split; [|exact Y]. eapply in_tree; [exact T|exact X|now left].
Qed.

(** ** Lines and columns *)
Definition clear (a : N) : Prop := forall y, firstn (N.to_nat (a - start)) src <> y ++ [CR].

Lemma newlines_unix s : newlines (unix s) = newlines s.
Proof using.
  clear. induction s as [|c s IH]; [reflexivity|]. unfold unix, newlines in *. cbn [filter count_occ]. destruct (N.eqb_spec c CR) as [->|N]; cbn [negb].
  - rewrite IH. now destruct (N.eq_dec CR LF).
  - cbn [count_occ]. now rewrite IH.
Qed.
Lemma since_unix s : good s -> forall n, since_newline n (unix s) = since_newline n s.
Proof using.
  clear. induction 1 as [|s G IH|c s N G IH]; intros n; [reflexivity|rewrite unix_crlf; cbn; apply IH|].
  rewrite unix_char by exact N. cbn [since_newline]. rewrite !IH. reflexivity.
Qed.
Lemma good_prefix a b : good (a ++ b) -> (forall y, a <> y ++ [CR]) -> good a.
Proof using.
  clear. intros G N. apply good_iff. apply good_iff in G. intros x y E. subst a. rewrite <- app_assoc in G. destruct (G x (y ++ b) eq_refl) as (z & Z).
  destruct y as [|c y]; [now destruct (N x)|]. injection Z as -> _. now exists y.
Qed.
Lemma lines_unix a : good src -> clear a ->
  line_column_at (unix src) (N.to_nat (moved a - start)) = line_column_at src (N.to_nat (a - start)).
Proof using room.
  intros G C. unfold clear in C. unfold moved, SpecEnding.moved. set (n := N.to_nat (a - start)) in *.
  replace (N.to_nat (start + strlen (unix (firstn n src)) - start)) with (length (unix (firstn n src))) by (unfold strlen; lia).
  unfold line_column_at. assert (E : firstn (length (unix (firstn n src))) (unix src) = unix (firstn n src)).
  { rewrite <- (firstn_skipn n src) at 2. rewrite unix_app, firstn_app, firstn_all, Nat.sub_diag, firstn_O. apply app_nil_r. }
  rewrite E, newlines_unix, since_unix; [reflexivity|]. rewrite <- (firstn_skipn n src) in G. now apply good_prefix in G.
Qed.

Definition clear_piece (p : piece) : Prop :=
  match p with
  | POpen _ a | PClose _ a | PBad a => clear a
  | PTok k => forall t, occurs t k -> clear (lo (token_span t))
  end.
Lemma clear_tree ps ts : tree ps ts -> Forall clear_piece ps -> forall t, occurs t ts -> clear (lo (token_span t)).
Proof using.
  induction 1 as [|k ps ts T IH|d a b ps1 inner ps2 ts T1 IH1 T2 IH2]; intros F t O.
  - now apply occurs_nil in O.
  - inv F. apply occurs_app in O as [O|O]; auto.
  - inv F. apply Forall_app in H2 as [F1 F2]. inv F2. apply (occurs_app t [_] ts) in O as [O|O]; [|now apply IH2].
    inversion O as [ts0 I|d0 i0 sp0 ts0 I O']; subst; (destruct I as [I|[]]).
    + subst t. exact H1.
    + injection I as <- <- <-. now apply IH1.
Qed.
Lemma clear_wrong ps b : wrong ps b -> Forall clear_piece ps -> clear b.
Proof using.
  induction 1 as [a ps|d a ps ts T|d a ps1 ts d' b ps2 T D|d a ps b W IH|ps1 ts ps2 b T W IH]; intros F.
  - now inv F.
  - now inv F.
  - inv F. apply Forall_app in H2 as [_ F]. now inv F.
  - inv F. auto.
  - apply Forall_app in F as [_ F]. auto.
Qed.
Lemma clear_wrong_top ps b : wrong_top ps b -> Forall clear_piece ps -> clear b.
Proof using.
  intros [ps' b' W|ps1 ts d b' ps2 T] F; [now apply clear_wrong with ps'|]. apply Forall_app in F as [_ F]. now inv F.
Qed.
Lemma clear_scan c ps : good src -> scan c ps -> in_text c -> Forall clear_piece ps.
Proof using room UO.
  intros G. induction 1 as [c H|c d r ps Hd Ho Hs IH|c d r ps Hc Hs IH|c r x i ps Hd Hs IH|c r k ps Ha Hl Hs IH|c Ha Hl]; intros Ht.
  all: assert (T1 : in_text (skipped c)) by now apply in_text_skipped.
  all: assert (C1 : rest (skipped c) <> [] -> clear (off (skipped c))).
  1,3,5,7,9,11: intros NE y E; destruct T1 as (p & P & O); rewrite O in E; replace (N.to_nat (start + strlen p - start)) with (length p) in E by (unfold strlen; lia);
    rewrite P, firstn_app, firstn_all, Nat.sub_diag, firstn_O, app_nil_r in E; subst p; rewrite <- app_assoc in P;
    apply good_iff in G; destruct (G y (rest (skipped c)) P) as (z & Z);
    assert (K : p_skip1 (rest (skipped c)) = None) by (unfold skipped; rewrite rest_cur_of; apply p_skip_fixed); rewrite Z in K; discriminate K.
  - constructor.
  - constructor; [apply C1; intros E; rewrite E in Ho; discriminate|]. apply IH. eapply open_in_text; eassumption.
  - constructor; [apply C1; intros E; rewrite E in Hc; discriminate|]. apply IH. apply close_delim_spec in Hc as [x X]. apply in_text_suffix; [exact room|exact T1|now exists [x]].
  - constructor; [|apply IH; eapply doc_in_text; eassumption]. cbn [clear_piece]. intros t O. rewrite doc_tokens_attribute in O. rewrite (attribute_span _ _ _ _ O). cbn [lo].
    apply C1. intros E. rewrite E in Hd. discriminate.
  - constructor; [|apply IH; eapply leaf_in_text; eassumption]. cbn [clear_piece]. intros t O.
    destruct (p_leaf_not_group _ _ _ (mkspan (off (skipped c)) (off (cur_of (skipped c) r))) Hl) as [NG S].
    inversion O as [ts0 I|d0 i0 sp0 ts0 I O']; subst; (destruct I as [I|[]]); [subst t; rewrite S; apply C1; apply Ha|]. rewrite I in NG. now destruct NG.
  - constructor; [|constructor]. apply C1. apply Ha.
Qed.

Lemma token_line ts t : cr_only_before_lf src -> token_stream_from_str start src = Ok (Lexed ts) -> occurs t ts ->
  line_column_at (unix src) (N.to_nat (moved (lo (token_span t)) - start)) = line_column_at src (N.to_nat (lo (token_span t) - start)).
Proof using room UO.
  intros G P O. apply good_iff in G. apply lines_unix; [exact G|]. apply (parse_tree _ _ room) in P as (ps & P & T).
  eapply clear_tree; [exact T| |exact O]. eapply clear_scan; [exact G|exact P|now apply in_text_start].
Qed.
Lemma error_line sp : cr_only_before_lf src -> token_stream_from_str start src = Ok (LexError sp) ->
  line_column_at (unix src) (N.to_nat (moved (lo sp) - start)) = line_column_at src (N.to_nat (lo sp - start)).
Proof using room UO.
  intros G P. apply good_iff in G. apply lines_unix; [exact G|]. apply (parse_wrong _ _ room) in P as (ps & P & W & _).
  eapply clear_wrong_top; [exact W|]. eapply clear_scan; [exact G|exact P|now apply in_text_start].
Qed.
End File.

(** ** A quoted CRLF *)
Lemma Lex_crlf b T e : crlf_quoted b -> ~ Lex b T e.
Proof using UO.
  intros C H. assert (Hl : p_leaf b = None) by now apply (leaf_crlf UO).
  assert (K : p_skip1 b = None /\ p_doc b = None /\ open_delim b = None /\ close_delim b = None /\ b <> []).
  { destruct C as [[t ->]|[t ->]]; repeat split; discriminate || reflexivity. }
  destruct K as (K1 & K2 & K3 & K4 & K5). pose proof (p_skip_stay _ K1) as E.
  inversion H as [? X|? ? ? X|? ? ? ? ? ? X|? ? ? ? ? ? ? ? X Y|? ? k ? ? X Y]; subst; rewrite E in *; congruence.
Qed.
Lemma quoted_error start a b ts : start < two32 -> token_stream_from_str start a = Ok (Lexed ts) ->
  (exists sp, token_stream_from_str start (a ++ LF :: quoted_crlf ++ b) = Ok (LexError sp)) /\
  (exists sp, token_stream_from_str start (a ++ LF :: ("b"%ch :: quoted_crlf) ++ b) = Ok (LexError sp)).
Proof using UO.
  intros Hs Ha. apply (from_str_lexes _ _ _ Hs) in Ha.
  split; (apply not_lexes; [exact Hs|]); intros T H; unfold lexes in *; rewrite strip_bom_lf in H;
    destruct (Lex_lf_inv UO _ _ _ _ Ha eq_refl _ _ H) as (ts2 & _ & H2); apply Lex_crlf in H2; [exact H2|left|exact H2|right]; now exists b.
Qed.
End WithUnicode.
