(** * Putting other text in the place of an identifier (C102) *)
From Verif Require Import Base BaseFacts Unicode Tokens Lexer PureLexer.
From Verif Require Import LexerEquiv LexerEquiv2 LexerEquiv3 LexerEquiv4 Grammar Stable Local NumGrammar.
From Verif Require Import SpecText SpecTree SpecLit SpecGrammar SpecFinal SpecRename SpecSubst Comments Spans Balance LexemeProofs SpacingProofs AppendProofs FinalProofs ForeignProofs GraftProofs ViableProofs.
From Verif Require Import Places RenameProofs.
Import ListNotations.
Local Open Scope N_scope.

(** ** Trees *)
Lemma splice_after t new e pre ts ts' : spliced t new e ts ts' -> spliced t new e (pre ++ ts) (pre ++ ts').
Proof. intros [before after|before d inner inner' l n after H]; rewrite !(app_assoc pre); now constructor. Qed.
Lemma tree_splice t new e mid ps ts : tree mid new -> tree ps ts -> forall pre qs, ps = pre ++ PTok [t] :: map (shiftp (hi (token_span t))) qs ->
  exists ts', tree (pre ++ mid ++ map (shiftp e) qs) ts' /\ spliced t new e ts ts'.
Proof.
  intros TM. induction 1 as [|j ps ts T IH|d0 a b ps1 in0 ps2 ts T1 IH1 T2 IH2]; intros pre qs E.
  - destruct pre; discriminate E.
  - destruct pre as [|z pre].
    + injection E as -> ->. destruct (tree_unshift _ _ _ T _ eq_refl) as (us & TU & ->). eexists. split; [cbn [app]; apply tree_app; [exact TM|apply tree_shift; exact TU]|].
      exact (splice_here t new e [] us).
    + injection E as <- E. destruct (IH _ _ E) as (ts' & T' & G). exists (j ++ ts'). split; [cbn [app]; now constructor|]. now apply splice_after.
  - destruct pre as [|z pre]; [discriminate E|]. injection E as <- E. destruct (app_cases _ _ _ _ E) as [(m & -> & M)|(m & -> & M)].
    + destruct m as [|z m]; [discriminate M|]. injection M as <- M.
      apply map_eq_app in M as (q1 & q2 & -> & <- & M2). destruct q2 as [|z q2]; [discriminate M2|]. injection M2 as Mz M2.
      destruct z as [|d'' b'| |]; try discriminate Mz. injection Mz as -> <-. subst ps2.
      destruct (IH1 _ _ eq_refl) as (ts' & T' & G). destruct (tree_unshift _ _ _ T2 _ eq_refl) as (us & TU & ->).
      exists (TGroup d0 ts' (mkspan a (b' + e + 1)) :: map (shift e) us). split.
      * cbn [app]. rewrite map_app. cbn [map shiftp].
        replace (pre ++ mid ++ map (shiftp e) q1 ++ PClose d0 (b' + e) :: map (shiftp e) q2)
          with ((pre ++ mid ++ map (shiftp e) q1) ++ PClose d0 (b' + e) :: map (shiftp e) q2) by (now rewrite <- !app_assoc).
        constructor; [exact T'|now apply tree_shift].
      * pose proof (splice_inside t new e [] d0 in0 ts' a (b' + 1) us G) as X. cbn [app] in X.
        replace (b' + hi (token_span t) + 1) with (b' + 1 + hi (token_span t)) by lia. replace (b' + e + 1) with (b' + 1 + e) by lia. exact X.
    + destruct m as [|z m]; [discriminate M|]. injection M as <- M. destruct (IH2 _ _ M) as (ts' & T' & G).
      exists (TGroup d0 in0 (mkspan a (b + 1)) :: ts'). split; [cbn [app]; rewrite <- app_assoc; cbn [app]; now constructor|].
      now apply (splice_after _ _ _ [TGroup d0 in0 (mkspan a (b + 1))]).
Qed.

Lemma apart_tail x y : apart_from (x ++ y) -> apart_from y.
Proof. intros A y0 c ->. apply (A (x ++ y0) c). now rewrite app_assoc. Qed.

Section WithUnicode.
Context {U : unicode} (UO : unicode_ok U).

(** ** A token and what comes after it, up to a blank instead of a name *)
Lemma last_cont (P Q A : str) s : cont Q -> Q <> [] -> P ++ Q = A ++ [s] -> is_xid_continue s = true.
Proof using.
  intros C N E. destruct (exists_last N) as (Q0 & c & ->). rewrite app_assoc in E. apply app_inj_tail in E as [_ <-]. apply Forall_app in C as [_ C]. now inversion C.
Qed.
Lemma float_stop t r A s : float_at t r -> t = A ++ [s] -> is_xid_continue s = true \/ s = "."%ch.
Proof using UO.
  assert (NE : forall d k, dec_text d -> d ++ k <> []) by (intros d k (c & y & -> & _); discriminate).
  intros H E. destruct H as [d x D W _|d f k x D F K W M|d f n e k x D F M EX K W].
  - right. apply app_inj_tail in E as [_ <-]. reflexivity.
  - left. rewrite app_assoc in E. apply last_cont with (3 := E); [|now apply NE]. apply Forall_app. split; [now apply (dec_cont UO)|now apply (suffix_cont UO)].
  - left. destruct EX as (u0 & sg & u1 & ds & -> & U0 & SG & U1 & DS). rewrite <- !app_assoc in E. rewrite !app_assoc in E. rewrite <- (app_assoc _ ds k) in E.
    apply last_cont with (3 := E); [|now apply NE]. apply Forall_app. split; [now apply (dec_cont UO)|now apply (suffix_cont UO)].
Qed.
Section Blank.
Variables z u : str.
Hypothesis (S1 : starts z).
Notation z' := (" "%ch :: u).
Lemma blank_calm : calm z'.
Proof using.
  intros v c t E V D. destruct v as [|f v]; cbn [app] in E; injection E as <- _; [unfold dec_digit in D; cbn in D; lia|]. inversion V. discriminate.
Qed.
Lemma blank_one m c : c <> " "%ch -> begins (m ++ z') [c] -> begins (m ++ z) [c].
Proof using.
  intros N (q & Q). destruct m as [|g v]; [|injection Q as -> _; now exists (v ++ z)]. injection Q as <- _. now elim N.
Qed.
Lemma blank_two m c d : c <> " "%ch -> d <> " "%ch -> begins (m ++ z') [c; d] -> begins (m ++ z) [c; d].
Proof using.
  intros N1 N2 (q & Q). destruct m as [|g [|h v]].
  - injection Q as <- _. now elim N1.
  - injection Q as _ <- _. now elim N2.
  - injection Q as -> -> _. now exists (v ++ z).
Qed.
Lemma literal_blank t m : calm z -> ends_ok m -> apart_from m -> literal_at t (m ++ z) -> literal_at t (m ++ z').
Proof using UO S1.
  intros C1 EM AM H. remember (m ++ z) as x eqn:X. destruct H as [q x Q N|q k x Q S W|t x H|t x H N]; subst x.
  - apply literal_quoted; auto. destruct m as [|g v]; [|intros c y [= <- _]; exact (N g _ eq_refl)]. destruct S1 as (c & y & -> & S). now elim (N c y eq_refl).
  - apply literal_suffixed; auto. exact (end_swap UO z z' S1 m W).
  - apply literal_float. apply (float_swap UO) with z; [|exact blank_calm|exact H]. exact (end_nonempty UO z S1 m (float_end t _ H)).
  - assert (NM : word_end (m ++ z)) by (destruct H; assumption). apply literal_int.
    + remember (m ++ z) as x eqn:X. destruct H as [d k x D S W R|p b ds k x R D E S K W]; subst x.
      * apply int_decimal; auto. exact (end_swap UO z z' S1 m W).
      * apply int_radix with b; auto. exact (end_swap UO z z' S1 m W).
    + destruct (exists_last (end_nonempty UO z S1 m NM)) as (m0 & s & EQ).
      intros t' r' E F. rewrite app_assoc in E. destruct (app_cases _ _ _ _ E) as [(q & Q & ->)|(q & -> & EZ)].
      * destruct q as [|g v].
        -- rewrite app_nil_r in Q. subst m. rewrite app_assoc in Q. symmetry in Q. destruct (float_stop _ _ _ _ F Q) as [K|K]; [rewrite (EM m0 s eq_refl) in K; discriminate|].
           exact (proj1 (AM m0 s eq_refl) K).
        -- apply (N t' ((g :: v) ++ z)); [now rewrite app_assoc, Q, <- app_assoc|]. apply (float_swap UO) with z'; [discriminate|exact C1|exact F].
      * subst m. destruct q as [|g v].
        -- destruct (float_stop _ _ (t ++ m0) s F) as [K|K]; [now rewrite app_nil_r, app_assoc|rewrite (EM m0 s eq_refl) in K; discriminate|]. exact (proj1 (AM m0 s eq_refl) K).
        -- destruct (float_after UO _ _ (t ++ m0) s (g :: v) F) as (w & c & y & EU & V & D); [now rewrite <- !app_assoc|exact (EM m0 s eq_refl)|discriminate|].
           apply (blank_calm w c (y ++ r')); auto. rewrite EZ, EU, <- app_assoc. reflexivity.
Qed.
Lemma ident_blank t m n raw : ident_at t (m ++ z) n raw -> ident_at t (m ++ z') n raw.
Proof using UO S1.
  intros H. remember (m ++ z) as x eqn:X. destruct H as [n x I W N|n x I N W]; subst x.
  - constructor; [exact I|exact (end_swap UO z z' S1 m W)|]. intros L. apply N.
    destruct L as [[A B]|[[A B]|[A B]]]; [left|right; left|right; right]; (split; [exact A|apply blank_one; [discriminate|exact B]]).
  - constructor; auto. exact (end_swap UO z z' S1 m W).
Qed.
Lemma starts_blank m : starts_punct (m ++ z) <-> starts_punct (m ++ z').
Proof using UO S1.
  split; intros (c & t & E & P & N1 & N2); (destruct m as [|g v]; [exfalso|]).
  - destruct S1 as (f & y & -> & F). injection E as -> _. exact (punct_not_start UO c P F).
  - injection E as -> <-. exists c, (v ++ z'). split; [reflexivity|]. split; [exact P|]. split; intros B; [apply N1|apply N2]; apply (blank_two (c :: v)); auto; discriminate.
  - injection E as <- _. cbn in P. decompose [or] P; try discriminate; contradiction.
  - injection E as -> <-. exists c, (v ++ z). split; [reflexivity|]. split; [exact P|].
    split; intros B; [apply N1|apply N2]; apply (begins_two z' z S1 (c :: v)); auto; apply (no_start UO); try reflexivity; discriminate.
Qed.
Lemma lexeme_blank t m k : calm z -> ends_ok m -> apart_from (t ++ m) ->
  (forall i after, m ++ z = tag "r#" ++ i ++ after -> ident_text i -> ~ In i never_raw -> word_end after -> m = [] \/ exists q, m = tag "r#" ++ i ++ q) ->
  lexeme t (m ++ z) k -> lexeme t (m ++ z') k.
Proof using UO S1.
  intros C1 EM AM RW H. remember (m ++ z) as x eqn:X. destruct H as [t x H|p x sg H|t x s w H|x]; subst.
  - apply lexeme_literal. apply literal_blank; auto. exact (apart_tail _ _ AM).
  - apply lexeme_punct. assert (Q0 : p = SQUOTE -> m <> []) by (intros -> ->; exact (proj2 (AM [] SQUOTE eq_refl) eq_refl)). remember (m ++ z) as x eqn:X.
    assert (BT : forall p c d, x = m ++ z -> c <> " "%ch -> d <> " "%ch -> ~ begins (p :: x) [c; d] -> ~ begins (p :: m ++ z') [c; d]).
    { intros p' c d -> A B N Z. apply N. exact (blank_two (p' :: m) c d A B Z). }
    destruct H as [p x P Q N1 N2 S|p x P Q N1 N2 S|i after I W A1 A2|i after I N W A1].
    + apply punct_joint; auto; [apply BT; auto; discriminate..|]. subst x. now apply starts_blank.
    + apply punct_alone; auto; [apply BT; auto; discriminate..|]. subst x. intros Z. apply S. now apply starts_blank.
    + clear BT. symmetry in X. assert (CI := ident_continue UO i I). destruct (app_cases _ _ _ _ X) as [(q & -> & ->)|(q & EI & EQ)].
      * rewrite <- app_assoc. apply punct_lifetime; auto.
        -- exact (end_swap UO z z' S1 q W).
        -- intros Z. apply A1. revert Z. apply blank_one. discriminate.
        -- intros Z. apply A2. revert Z. apply blank_one. discriminate.
      * exfalso. apply (Q0 eq_refl). exact (ends_cont m q i EM CI EI).
    + clear BT. symmetry in X. destruct (RW i after eq_refl I N W) as [->|(q & ->)]; [now elim (Q0 eq_refl)|].
      rewrite <- !app_assoc in X. do 2 apply app_inv_head in X. subst after.
      rewrite <- !app_assoc. apply punct_raw_lifetime; auto; [exact (end_swap UO z z' S1 q W)|].
      intros Z. apply A1. revert Z. apply blank_one. discriminate.
  - apply lexeme_ident. now apply ident_blank.
  - apply lexeme_error.
Qed.
Lemma doc_blank d m inner x : doc_at d (m ++ z) inner x -> doc_at d (m ++ z') inner x.
Proof using UO S1.
  intros H. assert (LB : begins (m ++ z) [LF] -> begins (m ++ z') [LF]).
  { apply (begins_one z' z S1). apply (no_start UO); try reflexivity; discriminate. }
  remember (m ++ z) as y eqn:Y. destruct H as [d y inner x L E N|d y inner x L E N|d y inner x L N]; subst y.
  - apply doc_at_line; auto. destruct E as [E|E]; [|auto]. apply app_eq_nil in E as [_ E]. destruct S1 as (? & ? & -> & _). discriminate E.
  - apply doc_at_crlf; auto.
  - now apply doc_at_block.
Qed.
Lemma error_blank m : ~ begins ("("%ch :: m ++ z) error_text -> ~ begins ("("%ch :: m ++ z') error_text.
Proof using.
  intros N (q & Q). change error_text with ("("%ch :: tag "/*ERROR*/)") in *. cbn [app] in Q. injection Q as Q.
  change (m ++ z' = tag "/*ERROR*/)" ++ q) in Q. destruct (app_cases _ _ _ _ Q) as [(v & -> & _)|(v & E & EZ)].
  { apply N. exists (v ++ z). cbn [app]. reflexivity. }
  destruct v as [|c v].
  { rewrite app_nil_r in E. subst m. apply N. exists z. reflexivity. }
  injection EZ as <- _. assert (I : In " "%ch (tag "/*ERROR*/)")) by (rewrite E; apply in_app_iff; right; now left).
  cbn in I. decompose [or] I; try discriminate; contradiction.
Qed.
End Blank.

(** ** Up to a blank *)
Lemma reads_blank a x ps : reads a x ps -> a + strlen x < two32 -> forall pre n raw sp post, ps = pre ++ PTok [TIdent n raw sp] :: post -> (raw = false -> ~ numberish n) ->
  exists y r, x = y ++ written raw n ++ r /\ sp = mkspan (a + strlen y) (a + strlen y + strlen (written raw n)) /\ ident_at (written raw n) r n raw /\
    reads (hi sp) r post /\ ends_ok y /\
    forall u qs, apart_from y -> reads (lo sp) (" "%ch :: u) qs -> reads a (y ++ " "%ch :: u) (pre ++ qs).
Proof using UO.
  induction 1 as [a s B|a w s d r ps Hw Hd H IH|a w s d r ps Hw Hd H IH|a w d r inner x ps Hw Hd H IH
                 |a w t r k ps Hw Hl H IH|a w s Hw Hs]; intros BD pre n raw sp post E NN; (destruct pre as [|z' pre]; [|]); try discriminate E; cbn [app] in E.
  - injection E as <- E. pose proof Hd as (D & -> & NE). assert (L1 : strlen (open_char d) = 1) by (cbn in D; decompose [or] D; subst; try reflexivity; contradiction).
    destruct (IH ltac:(rewrite !strlen_app' in BD; lia) _ _ _ _ _ E NN) as (y & r' & -> & -> & IA & RP & EO & R). cbn [lo hi] in *.
    destruct (ident_end _ _ _ _ IA) as (_ & IN & _). pose proof (name_starts UO raw n r' IN) as S1.
    exists (w ++ open_char d ++ y), r'. split; [now rewrite <- !app_assoc|]. split; [rewrite !strlen_app', L1; f_equal; lia|]. split; [exact IA|]. split; [exact RP|]. split.
    { destruct y as [|f y]; [|rewrite app_assoc; apply ends_app; [discriminate|exact EO]]. rewrite app_nil_r. cbn in D. destruct D as [<-|[<-|[<-|[]]]]; apply ends_last; now rewrite (xid_continue_ascii U UO). }
    intros u qs F Q. rewrite <- !app_assoc. cbn [app]. apply reads_open with (y ++ " "%ch :: u); [exact Hw| |apply R; [exact (apart_tail _ _ (apart_tail _ _ F))|exact Q]].
    split; [exact D|]. split; [reflexivity|]. cbn in D. destruct D as [<-|[<-|[<-|[]]]]; try (intros (v & V); discriminate V).
    exact (error_blank _ u y NE).
  - injection E as <- E. pose proof Hd as (D & ->). assert (L1 : strlen (close_char d) = 1) by (cbn in D; decompose [or] D; subst; try reflexivity; contradiction).
    destruct (IH ltac:(rewrite !strlen_app' in BD; lia) _ _ _ _ _ E NN) as (y & r' & -> & -> & IA & RP & EO & R). cbn [lo hi] in *.
    exists (w ++ close_char d ++ y), r'. split; [now rewrite <- !app_assoc|]. split; [rewrite !strlen_app', L1; f_equal; lia|]. split; [exact IA|]. split; [exact RP|]. split.
    { destruct y as [|f y]; [|rewrite app_assoc; apply ends_app; [discriminate|exact EO]]. rewrite app_nil_r. cbn in D. destruct D as [<-|[<-|[<-|[]]]]; apply ends_last; now rewrite (xid_continue_ascii U UO). }
    intros u qs F Q. rewrite <- !app_assoc. cbn [app]. apply reads_close with (y ++ " "%ch :: u); [exact Hw|now split|apply R; [exact (apart_tail _ _ (apart_tail _ _ F))|exact Q]].
  - injection E as <- E.
    destruct (IH ltac:(rewrite !strlen_app' in BD; lia) _ _ _ _ _ E NN) as (y & r' & -> & -> & IA & RP & EO & R). cbn [lo hi] in *.
    destruct (ident_end _ _ _ _ IA) as (_ & IN & _). pose proof (name_starts UO raw n r' IN) as S1.
    exists (w ++ d ++ y), r'. split; [now rewrite <- !app_assoc|]. split; [rewrite !strlen_app'; f_equal; lia|]. split; [exact IA|]. split; [exact RP|].
    assert (DN : d <> []) by (intros DE; exact (doc_nonempty _ _ _ _ Hd DE)). split.
    { destruct y as [|f y]; [|rewrite app_assoc; apply ends_app; [discriminate|exact EO]]. rewrite app_nil_r. apply ends_app; [exact DN|]. cbn [app] in Hd. exact (doc_last UO _ _ _ _ S1 Hd). }
    intros u qs F Q. rewrite <- !app_assoc. cbn [app]. apply reads_doc; [exact Hw| |apply R; [exact (apart_tail _ _ (apart_tail _ _ F))|exact Q]].
    now apply doc_blank with (written raw n ++ r').
  - injection E as EK <-. destruct (lexeme_span _ _ _ (mkspan (a + strlen w) (a + strlen w + strlen t)) Hl) as [ES _]. rewrite EK in ES. cbn [token_span] in ES. subst sp. cbn [lo hi].
    destruct Hl as [t r Hl|p r sg Hl|t r s raw' Hl|r]; try discriminate EK. injection EK as -> ->. destruct (ident_end _ _ _ _ Hl) as (-> & IN & WR).
    exists w, r. split; [reflexivity|]. split; [reflexivity|]. split; [exact Hl|]. split; [exact H|]. split; [now apply (trivia_last UO)|].
    intros u qs F Q. cbn [app]. now apply reads_before.
  - injection E as <- E.
    assert (BD' : a + strlen w + strlen t + strlen r < two32) by (rewrite !strlen_app' in BD; lia).
    destruct (IH BD' _ _ _ _ _ E NN) as (y & r' & -> & -> & IA & RP & EO & R). cbn [lo hi] in *.
    destruct (ident_end _ _ _ _ IA) as (_ & IN & _). pose proof (name_starts UO raw n r' IN) as S1.
    exists (w ++ t ++ y), r'. split; [now rewrite <- !app_assoc|]. split; [rewrite !strlen_app'; f_equal; lia|]. split; [exact IA|]. split; [exact RP|]. split.
    { destruct y as [|f y]; [|rewrite app_assoc; apply ends_app; [discriminate|exact EO]]. rewrite app_nil_r. apply ends_app; [exact (lexeme_nonempty _ _ _ Hl)|].
      cbn [app] in Hl. exact (lexeme_last UO _ _ _ S1 Hl). }
    intros u qs F Q. rewrite <- !app_assoc. cbn [app]. apply reads_leaf; [exact Hw| |apply R; [exact (apart_tail _ _ (apart_tail _ _ F))|exact Q]].
    apply lexeme_blank with (written raw n ++ r'); auto; [apply (name_calm UO); [now destruct (ident_end _ _ _ _ IA)|exact NN]|exact (apart_tail _ _ F)|]. intros i after X I N W.
    destruct (reads_any UO (a + strlen w + strlen t + strlen (tag "r#" ++ i)) after) as (qs' & Q').
    { rewrite X, app_assoc, strlen_app' in BD'. lia. }
    assert (LX : lexeme (tag "r#" ++ i) after (TIdent i true)) by (now constructor; constructor).
    assert (R2 := leaf_reads _ _ _ _ _ LX Q'). rewrite <- app_assoc, <- X in R2.
    pose proof (reads_fun UO _ _ _ _ BD' H R2) as EQ. rewrite E in EQ. destruct pre as [|z1 pre].
    + left. injection EQ as _ _ EL _. destruct y as [|f y]; [reflexivity|]. unfold strlen in EL. cbn [length] in EL. lia.
    + right. injection EQ as _ EQ. assert (IQ : In (PTok [TIdent n raw (mkspan (a + strlen w + strlen t + strlen y) (a + strlen w + strlen t + strlen y + strlen (written raw n)))]) qs')
        by (rewrite <- EQ; apply in_app_iff; right; now left).
      apply (reads_lo _ _ _ Q') in IQ. cbn [lo] in IQ. rewrite (app_assoc (tag "r#")) in X.
      destruct (app_cases _ _ _ _ X) as [(q & -> & _)|(q & EY & _)]; [exists q; now rewrite <- app_assoc|].
      assert (q = []) as -> by (rewrite EY, strlen_app' in IQ; destruct q; [reflexivity|unfold strlen in IQ; cbn [length] in IQ; lia]). rewrite app_nil_r in EY. exists []. now rewrite app_nil_r.
  - injection E as _ E. destruct pre; discriminate E.
Qed.

Lemma substitute : forall start x raw n y ts, start + strlen (x ++ written raw n ++ y) < two32 ->
  token_stream_from_str start (x ++ written raw n ++ y) = Ok (Lexed ts) -> (raw = false -> ~ numberish n) -> apart_from x ->
  occurs (TIdent n raw (mkspan (start + strlen x) (start + strlen x + strlen (written raw n)))) ts ->
  forall m new, (forall t, m <> 0xFEFF :: t) -> token_stream_from_str (start + strlen x + 1) m = Ok (Lexed new) ->
  start + strlen (x ++ " "%ch :: m ++ LF :: y) < two32 ->
  exists ts', token_stream_from_str start (x ++ " "%ch :: m ++ LF :: y) = Ok (Lexed ts') /\
    spliced (TIdent n raw (mkspan (start + strlen x) (start + strlen x + strlen (written raw n)))) new (start + strlen x + strlen m + 2) ts ts'.
Proof using UO.
  intros start x raw n y ts B P NN AX O m new NM P' B'.
  apply (parse_reads UO _ start B) in P as (ps & (a & s0 & WB & R) & T).
  assert (BS : a + strlen s0 < two32) by (destruct WB; unfold strlen in *; cbn [length] in *; lia).
  set (p := start + strlen x) in *.
  destruct (tree_leaf _ _ T (TIdent n raw (mkspan p (p + strlen (written raw n)))) (fun G => G) O) as (k & IK & OK).
  assert (FB : forall W, (exists c t, W = c :: t /\ start_char c) -> forall u, without_bom start (x ++ W ++ u) a s0 -> exists x0, s0 = x0 ++ W ++ u /\ p = a + strlen x0 /\
    apart_from x0 /\ forall u', without_bom start (x ++ " "%ch :: u') a (x0 ++ " "%ch :: u')).
  { assert (NF : forall c, start_char c -> c <> 0xFEFF).
    { intros c S ->. pose proof (start_continue UO _ S) as C. destruct (xid_not_marks U UO) as (_ & _ & X). congruence. }
    clear - NF UO AX. subst p. intros W (c & t & -> & S) u WB. remember (x ++ (c :: t) ++ u) as src eqn:E. destruct WB as [s|s NB].
    - destruct x as [|f x]; [cbn [app] in E; injection E as E _; now elim (NF c S)|]. cbn [app] in E. injection E as <- ->. exists x. split; [reflexivity|]. split; [unfold strlen; cbn [length]; lia|].
      split; [exact (apart_tail [0xFEFF] _ AX)|]. intros u'. constructor.
    - exists x. split; [exact E|]. split; [reflexivity|]. split; [exact AX|]. intros u'. constructor. intros v V. destruct x as [|f x].
      + discriminate V.
      + injection V as -> _. apply (NB (x ++ (c :: t) ++ u)). exact E. }
  assert (WS : forall m0, ident_text m0 -> exists c t, written raw m0 = c :: t /\ start_char c).
  { intros m0 I. destruct (name_starts UO raw m0 [] I) as (c & t & E & S). rewrite app_nil_r in E. eauto. }
  destruct (reads_leaves _ _ _ R _ IK) as [(u & -> & GU)|(y1 & r1 & E1 & L1 & M)].
  2: { exfalso. specialize (L1 _ OK). specialize (M _ _ _ OK). subst n. cbn [token_span lo] in L1.
    assert (ID : ident_text (tag "doc")).
    { exists "d"%ch, (tag "oc"). split; [reflexivity|]. split; [right; now rewrite (xid_start_ascii U UO)|]. repeat constructor; now rewrite (xid_continue_ascii U UO). }
    destruct (FB _ (WS _ ID) y WB) as (x0 & -> & L0 & _ & _). destruct (same_place a x0 y1 _ _ E1 ltac:(lia)) as [_ E2]. destruct raw; discriminate E2. }
  assert (u = TIdent n raw (mkspan p (p + strlen (written raw n)))) as ->.
  { inversion OK as [ts' H E|d i g ts' H _ E]; subst; destruct H as [H|[]]; [exact H|]. subst u. now elim GU. }
  apply in_split in IK as (pre & post & ->).
  destruct (reads_blank _ _ _ R BS _ _ _ _ _ eq_refl NN) as (y1 & r1 & E1 & SP & IA & RP & _ & RG). injection SP as L1 _. cbn [lo hi] in *.
  destruct (ident_end _ _ _ _ IA) as (_ & IN & _).
  destruct (FB (written raw n) (WS n IN) y WB) as (x0 & -> & L0 & A0 & WB').
  destruct (same_place a x0 y1 _ _ E1 ltac:(lia)) as [<- E2]. apply app_inv_head in E2. subst r1. clear E1 L1.
  rewrite !strlen_app' in BS.
  destruct (reads_any UO 0 y) as (qs & QS); [lia|].
  assert (BM : p + 1 + strlen m < two32).
  { subst p. rewrite strlen_app' in B'. unfold strlen in B' |- *. cbn [length] in B'. rewrite app_length in B'. lia. }
  apply (parse_reads UO _ _ BM) in P' as (mid & (a1 & s1 & WB1 & R1) & T1).
  assert (E1 : a1 = p + 1 /\ s1 = m) by (destruct WB1 as [s1|s1 _]; [now elim (NM s1)|auto]). destruct E1 as [-> ->].
  set (q := p + strlen (written raw n)) in *. set (e := p + strlen m + 2).
  assert (EQ : post = map (shiftp q) qs).
  { apply (reads_fun UO q y); [unfold q; lia|exact RP|]. apply (reads_shift q) in QS. rewrite N.add_0_l in QS. exact QS. }
  subst post.
  destruct (tree_splice _ new e mid _ _ T1 T _ _ eq_refl) as (ts' & T' & G). cbn [token_span hi] in T'.
  exists ts'. split; [|exact G]. apply (parse_reads UO _ start B'). eexists. split; [|exact T'].
  exists a, (x0 ++ " "%ch :: m ++ LF :: y). split; [apply WB'|]. apply RG; [exact A0|].
  apply (reads_before p [" "%ch]); [apply trivia_blank; [left; reflexivity|constructor]|]. change (strlen [" "%ch]) with 1.
  apply (reads_lf UO); [exact R1|exact (tree_no_bad _ _ T1)|]. replace (p + 1 + strlen m + 1) with e by (unfold e; lia).
  apply (reads_shift e) in QS. rewrite N.add_0_l in QS. exact QS.
Qed.

End WithUnicode.
