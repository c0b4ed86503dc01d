(** * Renaming an identifier (C101) *)
From Verif Require Import Base BaseFacts Unicode Tokens Lexer PureLexer.
From Verif Require Import LexerEquiv LexerEquiv2 LexerEquiv3 LexerEquiv4 Grammar Stable Local NumGrammar.
From Verif Require Import SpecText SpecTree SpecLit SpecGrammar SpecFinal SpecRename Comments Spans Balance LexemeProofs SpacingProofs AppendProofs FinalProofs ForeignProofs GraftProofs ViableProofs.
From Verif Require Import Places.
Import ListNotations.
Local Open Scope N_scope.

(** ** Trees *)
Lemma replace_after t t' pre ts ts' : replaced t t' ts ts' -> replaced t t' (pre ++ ts) (pre ++ ts').
Proof. intros [before after|before d inner inner' l n after H]; rewrite !(app_assoc pre); now constructor. Qed.
Lemma tree_replace t t' ps ts : tree ps ts -> forall pre qs, ps = pre ++ PTok [t] :: map (shiftp (hi (token_span t))) qs ->
  exists ts', tree (pre ++ PTok [t'] :: map (shiftp (hi (token_span t'))) qs) ts' /\ replaced t t' ts ts'.
Proof.
  induction 1 as [|j ps ts T IH|d0 a b ps1 in0 ps2 ts T1 IH1 T2 IH2]; intros pre qs E.
  - destruct pre; discriminate E.
  - destruct pre as [|z pre].
    + injection E as -> ->. destruct (tree_unshift _ _ _ T _ eq_refl) as (us & TU & ->). eexists. split; [cbn [app]; constructor; apply tree_shift; exact TU|].
      exact (replace_here t t' [] us).
    + injection E as <- E. destruct (IH _ _ E) as (ts' & T' & G). exists (j ++ ts'). split; [cbn [app]; now constructor|]. now apply replace_after.
  - destruct pre as [|z pre]; [discriminate E|]. injection E as <- E. destruct (app_cases _ _ _ _ E) as [(m & -> & M)|(m & -> & M)].
    + destruct m as [|z m]; [discriminate M|]. injection M as <- M.
      apply map_eq_app in M as (q1 & q2 & -> & <- & M2). destruct q2 as [|z q2]; [discriminate M2|]. injection M2 as Mz M2.
      destruct z as [|d'' b'| |]; try discriminate Mz. injection Mz as -> <-. subst ps2.
      destruct (IH1 _ _ eq_refl) as (ts' & T' & G). destruct (tree_unshift _ _ _ T2 _ eq_refl) as (us & TU & ->).
      exists (TGroup d0 ts' (mkspan a (b' + hi (token_span t') + 1)) :: map (shift (hi (token_span t'))) us). split.
      * cbn [app]. rewrite map_app. cbn [map shiftp]. 
        replace (pre ++ PTok [t'] :: map (shiftp (hi (token_span t'))) q1 ++ PClose d0 (b' + hi (token_span t')) :: map (shiftp (hi (token_span t'))) q2)
          with ((pre ++ PTok [t'] :: map (shiftp (hi (token_span t'))) q1) ++ PClose d0 (b' + hi (token_span t')) :: map (shiftp (hi (token_span t'))) q2) by (now rewrite <- app_assoc).
        constructor; [exact T'|now apply tree_shift].
      * pose proof (replace_inside t t' [] d0 in0 ts' a (b' + 1) us G) as X. cbn [app] in X.
        replace (b' + hi (token_span t) + 1) with (b' + 1 + hi (token_span t)) by lia. replace (b' + hi (token_span t') + 1) with (b' + 1 + hi (token_span t')) by lia. exact X.
    + destruct m as [|z m]; [discriminate M|]. injection M as <- M. destruct (IH2 _ _ M) as (ts' & T' & G).
      exists (TGroup d0 in0 (mkspan a (b + 1)) :: ts'). split; [cbn [app]; rewrite <- app_assoc; cbn [app]; now constructor|].
      now apply (replace_after _ _ [TGroup d0 in0 (mkspan a (b + 1))]).
Qed.
Lemma tree_leaf ps ts : tree ps ts -> forall t, ~ is_group t -> occurs t ts -> exists k, In (PTok k) ps /\ occurs t k.
Proof.
  induction 1 as [|j ps ts T IH|d0 a b ps1 in0 ps2 ts T1 IH1 T2 IH2]; intros t G O.
  - exfalso. inversion O as [ts H|? ? ? ts H]; destruct H.
  - apply occurs_app in O as [O|O]; [exists j; split; [now left|exact O]|]. destruct (IH _ G O) as (k & I & K). exists k. split; [now right|exact K].
  - change (TGroup d0 in0 (mkspan a (b + 1)) :: ts) with ([TGroup d0 in0 (mkspan a (b + 1))] ++ ts) in O. apply occurs_app in O as [O|O].
    + inversion O as [ts' H E|d' i' sp' ts' H O' E]; subst ts'.
      * destruct H as [<-|[]]. now elim G.
      * destruct H as [H|[]]. injection H as <- <- <-. destruct (IH1 _ G O') as (k & I & K). exists k. split; [right; apply in_app_iff; now left|exact K].
    + destruct (IH2 _ G O) as (k & I & K). exists k. split; [right; apply in_app_iff; right; now right|exact K].
Qed.

Lemma doc_span inner l sp t : occurs t (doc_attribute inner l sp) -> token_span t = sp.
Proof.
  unfold doc_attribute. intros O. destruct inner; cbn [app] in O; inversion O as [ts H|d' i' sp' ts H O']; subst; cbn [In] in H;
    decompose [or] H; try contradiction; try discriminate; subst; try reflexivity;
    match goal with X : TGroup _ _ _ = TGroup _ _ _ |- _ => injection X; intros; subst end;
    inversion O' as [ts2 H2|d2 i2 sp2 ts2 H2 O'']; subst; cbn [In] in H2; decompose [or] H2; try contradiction; try discriminate; subst; reflexivity.
Qed.

Lemma doc_idents inner l sp n raw sp' : occurs (TIdent n raw sp') (doc_attribute inner l sp) -> n = tag "doc".
Proof.
  unfold doc_attribute. intros O. destruct inner; cbn [app] in O; inversion O as [ts H|d' i' sp2 ts H O']; subst; cbn [In] in H;
    decompose [or] H; try contradiction; try discriminate;
    match goal with X : TGroup _ _ _ = TGroup _ _ _ |- _ => injection X; intros; subst end;
    inversion O' as [ts2 H2|d2 i2 sp3 ts2 H2 O'']; subst; cbn [In] in H2; decompose [or] H2; try contradiction; try discriminate;
    match goal with X : TIdent _ _ _ = TIdent _ _ _ |- _ => injection X; intros; subst end; reflexivity.
Qed.

Section WithUnicode.
Context {U : unicode} (UO : unicode_ok U).
Lemma reads_leaves a x ps : reads a x ps -> forall k, In (PTok k) ps ->
  (exists u, k = [u] /\ ~ is_group u) \/
  exists y r, x = y ++ "/"%ch :: r /\ (forall t, occurs t k -> lo (token_span t) = a + strlen y) /\ forall n raw sp, occurs (TIdent n raw sp) k -> n = tag "doc".
Proof using.
  induction 1 as [a s B|a w s d r ps Hw Hd H IH|a w s d r ps Hw Hd H IH|a w d r inner x ps Hw Hd H IH
                 |a w t r f ps Hw Hl H IH|a w s Hw Hs]; intros k I; [destruct I|..]; (destruct I as [I|I]; [try discriminate I|]).
  - destruct (IH _ I) as [K|(y & r' & -> & L & M)]; [now left|]. right. destruct Hd as (D & -> & _).
    assert (L1 : strlen (open_char d) = 1) by (cbn in D; decompose [or] D; subst; try reflexivity; contradiction).
    exists (w ++ open_char d ++ y), r'. split; [now rewrite <- !app_assoc|]. split; [|exact M]. intros t O. rewrite (L t O), !strlen_app'; lia.
  - destruct (IH _ I) as [K|(y & r' & -> & L & M)]; [now left|]. right. destruct Hd as (D & ->).
    assert (L1 : strlen (close_char d) = 1) by (cbn in D; decompose [or] D; subst; try reflexivity; contradiction).
    exists (w ++ close_char d ++ y), r'. split; [now rewrite <- !app_assoc|]. split; [|exact M]. intros t O. rewrite (L t O), !strlen_app'; lia.
  - injection I as <-. right. assert (exists z, d = "/"%ch :: z) as (z & ->).
    { destruct Hd as [d r inner x [|] _ _|d r inner x [|] _ _|d r inner x [|] _]; eexists; reflexivity. }
    exists w, (z ++ r). split; [reflexivity|]. split; [intros t O; now rewrite (doc_span _ _ _ _ O)|intros n raw sp O; exact (doc_idents _ _ _ _ _ _ O)].
  - destruct (IH _ I) as [K|(y & r' & -> & L & M)]; [now left|]. right.
    exists (w ++ d ++ y), r'. split; [now rewrite <- !app_assoc|]. split; [|exact M]. intros t O. rewrite (L t O), !strlen_app'; lia.
  - injection I as <-. left. eexists. split; [reflexivity|]. exact (proj2 (lexeme_span _ _ _ _ Hl)).
  - destruct (IH _ I) as [K|(y & r' & -> & L & M)]; [now left|]. right.
    exists (w ++ t ++ y), r'. split; [now rewrite <- !app_assoc|]. split; [|exact M]. intros t' O. rewrite (L t' O), !strlen_app'; lia.
  - destruct I.
Qed.

(** ** Numbers before a name *)
Definition under (s : str) : Prop := Forall (fun c => c = "_"%ch) s.
(** No underscores and digit here. *)
Definition calm (z : str) : Prop := forall u c t, z = u ++ c :: t -> under u -> ~ dec_digit c.
Definition starts (z : str) : Prop := exists c t, z = c :: t /\ start_char c.
Definition ends_ok (m : str) : Prop := forall m0 c, m = m0 ++ [c] -> is_xid_continue c = false.

Lemma exponent_sign u0 sg u1 ds x g q : under u0 -> (sg = [] \/ sg = tag "+" \/ sg = tag "-") -> under u1 -> dec_text ds -> In g (tag "+-") ->
  u0 ++ sg ++ u1 ++ ds = x ++ g :: q -> x = u0 /\ sg = [g] /\ u1 ++ ds = q.
Proof using.
  intros U0 SG U1 D G E1.
  assert (P : Forall (fun c => c = "_"%ch \/ dec_digit c) (u1 ++ ds)) by (apply Forall_app; split; [now apply under_plain|now apply dec_plain]).
  destruct (app_cases _ _ _ _ E1) as [(n & EN & E2)|(n & EN & E2)]; subst; destruct n as [|f n]; cbn [app] in E2.
  1: symmetry in E2.
  1,3: rewrite ?app_nil_r in *; split; [reflexivity|]; destruct SG as [->|[->| ->]]; cbn [app] in E2;
    [exfalso; apply (sign_free _ g G P); rewrite E2; now left|now injection E2 as <- E2..].
  - exfalso. injection E2 as <- E2. apply (sign_free _ g G (under_plain _ U0)). apply in_app_iff. right. now left.
  - exfalso. apply (sign_free _ g G P). destruct SG as [->|[->| ->]]; cbn [app] in E2; [rewrite E2; right|injection E2 as _ E2; rewrite E2..]; apply in_app_iff; right; now left.
Qed.
Lemma exponent_reach e y x g v z : In g (tag "+-") -> exponent_text e -> e ++ y = (x ++ g :: v) ++ z ->
  (exists e' q, x ++ g :: v = e' ++ q /\ exponent_text e') \/ exists u c t, z = u ++ c :: t /\ under u /\ dec_digit c.
Proof using.
  intros G EX E. destruct (under_split v) as (v0 & w & -> & V & W). destruct w as [|h w].
  - rewrite app_nil_r in *. destruct (app_cases _ _ _ _ E) as [(q & EQ & EZ)|(q & EQ & _)]; [|left; exists e, q; now split].
    right. destruct EX as (u0 & sg & u1 & ds & -> & U0 & SG & U1 & D). rewrite <- app_assoc in EQ. cbn [app] in EQ.
    destruct (exponent_sign _ _ _ _ _ _ _ U0 SG U1 D G EQ) as (-> & -> & K). destruct D as (f & t & -> & F & T). subst z.
    destruct (app_cases _ _ _ _ K) as [(n & -> & EN)|(n & -> & EN)].
    + exists n, f, (t ++ y). apply Forall_app in U1 as [_ U1]. subst q. rewrite <- app_assoc. auto.
    + destruct n as [|f' n].
      * cbn [app] in EN. subst q. exists [], f, (t ++ y). split; [reflexivity|]. split; [constructor|exact F].
      * exfalso. injection EN as <- _. apply Forall_app in V as [_ V]. inversion V as [|? ? X _]. now apply digit_no_under in F.
  - left. assert (E' : e ++ y = (x ++ g :: v0 ++ [h]) ++ w ++ z) by (rewrite E, <- !app_assoc; cbn [app]; rewrite <- !app_assoc; reflexivity).
    destruct (exponent_cross e y x g v0 h _ G V (W h w eq_refl) EX E') as (e' & y' & E2 & EX'). exists e', (y' ++ w). split; [|exact EX'].
    rewrite app_assoc, <- E2, <- app_assoc. cbn [app]. now rewrite <- app_assoc.
Qed.
Lemma exponent_kept x g v z e y : is_xid_continue g = false -> calm z -> exponent_text e -> x ++ (g :: v) ++ z = e ++ y ->
  exists e' q, x ++ g :: v = e' ++ q /\ exponent_text e'.
Proof using UO.
  intros G C EX E. destruct (in_dec N.eq_dec g (tag "+-")) as [S|S].
  - destruct (exponent_reach e y x g v z S EX) as [K|(u & c & t & EZ & V & D)]; [now rewrite <- E, <- app_assoc|exact K|]. exfalso. exact (C u c t EZ V D).
  - destruct (app_cases _ _ _ _ E) as [(q & -> & _)|(q & -> & E')]; [exists e, (q ++ g :: v); now rewrite <- app_assoc|].
    destruct q as [|f q]; [exists x, (g :: v); rewrite app_nil_r in EX; now split|]. exfalso. injection E' as <- _.
    apply (exponent_inside UO) in EX. apply Forall_app in EX as [_ EX]. inversion EX as [|? ? [X|X] _]; [congruence|contradiction].
Qed.
Lemma float_end t r : float_at t r -> word_end r.
Proof using. now intros [? ? ? ? ?|? ? ? ? ? ? ? ? ?|? ? ? ? ? ? ? ? ? ? ? ?]. Qed.
Lemma word_end_swap g v z z' : word_end ((g :: v) ++ z) -> word_end ((g :: v) ++ z').
Proof using. intros W c t [= <- _]. exact (W g _ eq_refl). Qed.
Lemma float_swap t m z z' : m <> [] -> calm z' -> float_at t (m ++ z) -> float_at t (m ++ z').
Proof using UO.
  intros NM C H. destruct m as [|g v]; [now elim NM|]. remember ((g :: v) ++ z) as r eqn:R.
  destruct H as [d x D W B|d f k x D F K W M|d f n e k x D F M E K W]; subst x.
  - constructor; [exact D|now apply word_end_swap with z|]. intros (q & [= -> _]). apply B. now exists (v ++ z).
  - apply float_fraction; auto; [now apply word_end_swap with z|]. intros n x L EK (e & y & E & EX).
    destruct (exponent_kept x g v z' e y (W g _ eq_refl) C EX E) as (e' & q & E2 & EX'). apply (M n x L EK). exists e', (q ++ z). split; [|exact EX'].
    now rewrite app_assoc, E2, <- app_assoc.
  - apply float_exponent; auto. now apply word_end_swap with z.
Qed.

Definition cont (P : str) : Prop := Forall (fun c => is_xid_continue c = true) P.
Lemma first_split P x Q A s B : cont P -> is_xid_continue s = false -> P ++ x :: Q = A ++ s :: B ->
  (A = P /\ s = x /\ Q = B) \/ exists A', A = P ++ x :: A' /\ Q = A' ++ s :: B.
Proof using.
  intros C S. revert A. induction C as [|c P CC C IH]; intros A E; cbn [app] in E.
  - destruct A as [|f A]; injection E as -> E; [now left|]. right. exists A. now split.
  - destruct A as [|f A]; injection E as -> E; [congruence|]. destruct (IH _ E) as [(-> & -> & ->)|(A' & -> & ->)]; [now left|right]. now exists A'.
Qed.
Lemma none_split P A s B : cont P -> is_xid_continue s = false -> P = A ++ s :: B -> False.
Proof using. intros C S ->. apply Forall_app in C as [_ C]. inversion C. congruence. Qed.
Lemma under_cont s : under s -> cont s.
Proof using UO. apply Forall_impl. intros c ->. now rewrite (xid_continue_ascii U UO). Qed.
Lemma dec_cont s : dec_text s -> cont s.
Proof using UO.
  intros (c & t & -> & C & T). constructor; [now apply (digit_continue UO)|]. eapply Forall_impl; [|exact T]. intros y [Y| ->]; [now apply (digit_continue UO)|now rewrite (xid_continue_ascii U UO)].
Qed.
Lemma suffix_cont s : number_suffix s -> cont s.
Proof using UO. intros [->|[I _]]; [constructor|]. now apply (ident_continue UO). Qed.
Ltac conts := repeat (apply Forall_app; split); first [assumption|now apply under_cont|now apply dec_cont|now apply suffix_cont|now constructor].
Lemma float_after t r A s B : float_at t r -> t = A ++ s :: B -> is_xid_continue s = false -> B <> [] -> exists u c z, B = u ++ c :: z /\ under u /\ dec_digit c.
Proof using UO.
  assert (DD : forall f z, dec_text f -> exists u c t, f ++ z = u ++ c :: t /\ under u /\ dec_digit c).
  { intros f z (c & t0 & -> & D & _). exists [], c, (t0 ++ z). split; [reflexivity|]. split; [constructor|exact D]. }
  intros H E S NB. destruct H as [d x D W _|d f k x D F K W M|d f n e k x D F M EX K W].
  - destruct (first_split d "."%ch [] A s B (dec_cont _ D) S E) as [(_ & _ & <-)|(A' & _ & E')]; [now elim NB|]. destruct A'; discriminate E'.
  - destruct (first_split d "."%ch (f ++ k) A s B (dec_cont _ D) S E) as [(_ & _ & <-)|(A' & _ & E')]; [now apply DD|].
    exfalso. apply (none_split (f ++ k) A' s B); auto. apply Forall_app. split; [now apply dec_cont|now apply suffix_cont].
  - assert (CN : cont n) by (destruct M as [->| ->]; (constructor; [now rewrite (xid_continue_ascii U UO)|constructor])).
    assert (KE : forall A P, cont P -> P ++ n ++ e ++ k = A ++ s :: B -> exists u c z, B = u ++ c :: z /\ under u /\ dec_digit c).
    { clear E. intros A0 P CP E. destruct EX as (u0 & sg & u1 & ds & -> & U0 & SG & U1 & DS).
      destruct SG as [->|SG].
      - exfalso. apply (none_split _ A0 s B) with (3 := E); auto. conts.
      - assert (exists g, sg = [g]) as (g & ->) by (destruct SG as [->| ->]; eauto). rewrite <- !app_assoc in E. cbn [app] in E. rewrite !app_assoc in E. rewrite <- app_assoc in E.
        destruct (first_split ((P ++ n) ++ u0) g (u1 ++ ds ++ k) A0 s B) as [(_ & _ & <-)|(A' & _ & E')]; auto.
        + conts.
        + rewrite <- !app_assoc in E. rewrite <- !app_assoc. exact E.
        + destruct DS as (c & y & -> & DC & _). now exists u1, c, (y ++ k).
        + exfalso. apply (none_split _ A' s B) with (3 := E'); auto. conts. }
    destruct F as [->|(f' & -> & F)]; [apply (KE A d (dec_cont _ D) E)|]. rewrite <- !app_assoc in E. cbn [app] in E.
    destruct (first_split d "."%ch (f' ++ n ++ e ++ k) A s B (dec_cont _ D) S E) as [(_ & _ & <-)|(A' & _ & E')]; [now apply DD|].
    exact (KE A' f' (dec_cont _ F) E').
Qed.

(** ** A token and what comes after it, up to a name *)
Section Swap.
Variables z z' : str.
Hypothesis (S1 : starts z) (S2 : starts z').
Lemma starts_word_end y : starts y -> ~ word_end y.
Proof using UO. intros (c & t & -> & S) W. specialize (W c t eq_refl). rewrite (start_continue UO c S) in W. discriminate. Qed.
Lemma end_nonempty m : word_end (m ++ z) -> m <> [].
Proof using UO S1. intros W ->. exact (starts_word_end z S1 W). Qed.
Lemma end_swap m : word_end (m ++ z) -> word_end (m ++ z').
Proof using UO S1. intros W. pose proof (end_nonempty m W) as N. destruct m as [|g v]; [now elim N|]. now apply word_end_swap with z. Qed.
Lemma begins_one m c : ~ start_char c -> begins (m ++ z') [c] -> begins (m ++ z) [c].
Proof using S2.
  intros N (q & Q). destruct m as [|g v]; [|injection Q as -> _; now exists (v ++ z)]. destruct S2 as (f & t & -> & F). injection Q as -> _. contradiction.
Qed.
Lemma begins_two m c d : ~ start_char c -> ~ start_char d -> begins (m ++ z') [c; d] -> begins (m ++ z) [c; d].
Proof using S2.
  intros N1 N2 (q & Q). destruct m as [|g [|h v]].
  - destruct S2 as (f & t & -> & F). injection Q as -> _. contradiction.
  - destruct S2 as (f & t & -> & F). injection Q as _ -> _. contradiction.
  - injection Q as -> -> _. now exists (v ++ z).
Qed.
Lemma literal_swap t m : calm z -> calm z' -> ends_ok m -> literal_at t (m ++ z) -> literal_at t (m ++ z').
Proof using UO S1 S2.
  intros C1 C2 EM H. remember (m ++ z) as x eqn:X. destruct H as [q x Q N|q k x Q S W|t x H|t x H N]; subst x.
  - apply literal_quoted; auto. destruct m as [|g v]; [|intros c y [= <- _]; exact (N g _ eq_refl)]. destruct S1 as (c & y & -> & S). now elim (N c y eq_refl).
  - apply literal_suffixed; auto. now apply end_swap.
  - apply literal_float. apply float_swap with z; auto. now apply end_nonempty, (float_end t).
  - assert (NM : word_end (m ++ z)) by (destruct H; assumption). apply literal_int.
    + remember (m ++ z) as x eqn:X. destruct H as [d k x D S W R|p b ds k x R D E S K W]; subst x.
      * apply int_decimal; auto. now apply end_swap.
      * apply int_radix with b; auto. now apply end_swap.
    + intros t' r' E F. rewrite app_assoc in E. destruct (app_cases _ _ _ _ E) as [(q & Q & ->)|(q & -> & EZ)].
      * destruct q as [|g v]; [exact (starts_word_end z' S2 (float_end _ _ F))|]. apply (N t' ((g :: v) ++ z)); [now rewrite app_assoc, Q, <- app_assoc|].
        apply float_swap with z'; [discriminate|exact C1|exact F].
      * destruct q as [|g v]; [cbn [app] in EZ; subst r'; exact (starts_word_end z' S2 (float_end _ _ F))|].
        destruct (exists_last (end_nonempty m NM)) as (m0 & s & ->).
        destruct (float_after _ _ (t ++ m0) s (g :: v) F) as (u & c & y & EU & V & D); [now rewrite <- !app_assoc|exact (EM m0 s eq_refl)|discriminate|].
        apply (C2 u c (y ++ r')); auto. rewrite EZ, EU, <- app_assoc. reflexivity.
Qed.
Lemma no_start c : c < 128 -> c <> "_"%ch -> ascii_letter c = false -> ~ start_char c.
Proof using UO. intros L N A [H|H]; [contradiction|]. rewrite (xid_start_ascii U UO) in H by lia. congruence. Qed.
Lemma ident_swap t m n raw : ident_at t (m ++ z) n raw -> ident_at t (m ++ z') n raw.
Proof using UO S1 S2.
  intros H. remember (m ++ z) as x eqn:X. destruct H as [n x I W N|n x I N W]; subst x.
  - constructor; [exact I|now apply end_swap|]. intros L. apply N.
    destruct L as [[A B]|[[A B]|[A B]]]; [left|right; left|right; right]; (split; [exact A|apply begins_one; [|exact B]]); apply no_start; try reflexivity; discriminate.
  - constructor; auto. now apply end_swap.
Qed.
End Swap.
Lemma punct_swap z z' m : starts z -> starts z' -> starts_punct (m ++ z) -> starts_punct (m ++ z').
Proof using UO.
  intros S1 S2 (c & t & E & P & N1 & N2). destruct m as [|g v].
  - exfalso. destruct S1 as (f & y & -> & F). injection E as -> _. exact (punct_not_start UO c P F).
  - injection E as -> <-. exists c, (v ++ z'). split; [reflexivity|]. split; [exact P|]. split; intros B; [apply N1|apply N2];
      apply (begins_two z z' S2 (c :: v)); auto; apply no_start; try reflexivity; discriminate.
Qed.

(** ** Names *)
Lemma name_starts raw n y : ident_text n -> starts (written raw n ++ y).
Proof using UO.
  intros (c & t & -> & S & _). destruct raw; cbn [written app]; [|now exists c, (t ++ y)]. eexists _, _. split; [reflexivity|].
  right. now rewrite (xid_start_ascii U UO).
Qed.
Lemma name_calm raw n y : word_end y -> (raw = false -> ~ numberish n) -> calm (written raw n ++ y).
Proof using UO.
  intros W N u c t E V D. assert (CU : is_xid_continue "_"%ch = true) by (now rewrite (xid_continue_ascii U UO)). destruct raw; cbn [written] in E.
  - destruct u as [|f u]; cbn [app] in E; [injection E as <- _|injection E as <- _; inversion V; discriminate]. unfold dec_digit in D. cbn in D. lia.
  - destruct (app_cases _ _ _ _ E) as [(q & -> & EQ)|(q & -> & EQ)]; (destruct q as [|f q]; [|cbn [app] in EQ]).
    + cbn [app] in EQ. subst y. specialize (W c t eq_refl). rewrite (digit_continue UO c D) in W. discriminate.
    + injection EQ as <- _. apply (N eq_refl). exists u, c, q. auto.
    + cbn [app] in EQ. subst y. specialize (W c t eq_refl). rewrite (digit_continue UO c D) in W. discriminate.
    + subst y. apply Forall_app in V as [_ V]. inversion V as [|? ? -> _]. specialize (W _ _ eq_refl). congruence.
Qed.
Lemma ident_end t r n raw : ident_at t r n raw -> t = written raw n /\ ident_text n /\ word_end r.
Proof using. intros [s x I W _|s x I _ W]; auto. Qed.
Lemma fits_ident raw n r : fits raw n -> word_end r -> ident_at (written raw n) r n raw.
Proof using.
  intros [I F] W. destruct raw; [now constructor|]. destruct F as [_ P]. constructor; auto. unfold prefixes in P. cbn in P.
  intros [[A _]|[[-> _]|[A _]]]; apply P; try (cbn in A; tauto); tauto.
Qed.
Lemma fits_calm raw n : fits raw n -> raw = false -> ~ numberish n.
Proof using. intros [_ F] ->. apply F. Qed.
Lemma word_once i n after r : cont i -> cont n -> word_end after -> word_end r -> n ++ r = i ++ after -> n = i /\ r = after.
Proof using.
  intros CI CN WA WR E. destruct (app_cases _ _ _ _ E) as [(q & -> & EQ)|(q & -> & EQ)].
  - destruct q as [|f q]; [now rewrite app_nil_r|]. exfalso. apply Forall_app in CN as [_ CN]. inversion CN as [|? ? X _]; subst. rewrite (WA f _ eq_refl) in X. discriminate.
  - destruct q as [|f q]; [now rewrite app_nil_r|]. exfalso. apply Forall_app in CI as [_ CI]. inversion CI as [|? ? X _]; subst. rewrite (WR f _ eq_refl) in X. discriminate.
Qed.
Lemma ends_cont m q i : ends_ok m -> cont i -> i = m ++ q -> m = [].
Proof using.
  intros E C ->. destruct m as [|f m]; [reflexivity|]. exfalso. destruct (exists_last (l := f :: m)) as (m0 & c & X); [discriminate|]. rewrite X in *.
  apply Forall_app in C as [C _]. apply Forall_app in C as [_ C]. inversion C as [|? ? Y _]. rewrite (E m0 c eq_refl) in Y. discriminate.
Qed.

Lemma lexeme_rename raw n n' r t m k : ident_at (written raw n) r n raw -> (raw = false -> ~ numberish n) -> fits raw n' -> ends_ok m ->
  (forall i after, m ++ written raw n ++ r = tag "r#" ++ i ++ after -> ident_text i -> ~ In i never_raw -> word_end after -> m = [] \/ exists q, m = tag "r#" ++ i ++ q) ->
  lexeme t (m ++ written raw n ++ r) k -> lexeme t (m ++ written raw n' ++ r) k.
Proof using UO.
  intros IA NN FT EM RW H. destruct (ident_end _ _ _ _ IA) as (_ & IN & WR). assert (IN' := proj1 FT).
  assert (S1 := name_starts raw n r IN). assert (S2 := name_starts raw n' r IN').
  assert (C1 := name_calm raw n r WR NN). assert (C2 := name_calm raw n' r WR (fits_calm _ _ FT)).
  remember (m ++ written raw n ++ r) as x eqn:X. destruct H as [t x H|p x sg H|t x s w H|x]; subst.
  - apply lexeme_literal. now apply literal_swap with (written raw n ++ r).
  - apply lexeme_punct. remember (m ++ written raw n ++ r) as x eqn:X.
    assert (BT : forall p c d, x = m ++ written raw n ++ r -> ~ start_char c -> ~ start_char d -> ~ begins (p :: x) [c; d] -> ~ begins (p :: m ++ written raw n' ++ r) [c; d]).
    { intros p' c d -> A B N Z. apply N. exact (begins_two _ _ S2 (p' :: m) c d A B Z). }
    destruct H as [p x P Q N1 N2 S|p x P Q N1 N2 S|i after I W A1 A2|i after I N W A1].
    + apply punct_joint; auto; [apply BT; auto; apply no_start; auto; try reflexivity; discriminate..|]. subst x. now apply punct_swap with (written raw n ++ r).
    + apply punct_alone; auto; [apply BT; auto; apply no_start; auto; try reflexivity; discriminate..|]. subst x. intros Z. apply S. now apply punct_swap with (written raw n' ++ r).
    + clear BT. symmetry in X. assert (CI := ident_continue UO i I). destruct (app_cases _ _ _ _ X) as [(q & -> & ->)|(q & EI & EQ)].
      * assert (Q : q <> []) by (intros ->; apply (end_nonempty _ S1 [] W); reflexivity). rewrite <- app_assoc. apply punct_lifetime; auto.
        -- apply (end_swap _ _ S1); exact W.
        -- intros Z. apply A1. revert Z. apply (begins_one _ _ S2). apply no_start; try reflexivity; discriminate.
        -- intros Z. apply A2. revert Z. apply (begins_one _ _ S2). apply no_start; try reflexivity; discriminate.
      * assert (m = []) as -> by exact (ends_cont m q i EM CI EI). cbn [app] in *. clear EI EQ. destruct raw; cbn [written] in *.
        -- exfalso. destruct i as [|f i]; [destruct I as (? & ? & ? & _); discriminate|]. cbn [app] in X. injection X as <- X. destruct i as [|f i]; cbn [app] in X.
           ++ apply A2. rewrite <- X. eexists. reflexivity.
           ++ injection X as <- _. inversion CI as [|? ? _ CI2]; inversion CI2 as [|? ? X _]. now rewrite (xid_continue_ascii U UO) in X.
        -- destruct (word_once i n after r CI (ident_continue UO n IN) W WR X) as [-> ->]. now apply punct_lifetime.
    + clear BT. symmetry in X. destruct (RW i after eq_refl I N W) as [->|(q & ->)].
      * cbn [app] in X. destruct raw; cbn [written] in *.
        -- rewrite <- app_assoc in X. cbn [app] in X. injection X as X. destruct (word_once i n after r (ident_continue UO i I) (ident_continue UO n IN) W WR X) as [-> ->].
           cbn [app]. apply punct_raw_lifetime; auto. apply FT.
        -- exfalso. assert (n = tag "r" /\ begins r (tag "#")) as [-> BR].
           { destruct (app_cases n r (tag "r") (tag "#" ++ i ++ after) X) as [(q & EN & EQ)|(q & EN & EQ)].
             - destruct q as [|f q]; [rewrite app_nil_r in EN; split; [exact EN|]; exists (i ++ after); symmetry; exact EQ|]. injection EQ as <- _. assert (CN := ident_continue UO n IN). rewrite EN in CN.
               inversion CN as [|? ? _ CN2]; inversion CN2 as [|? ? Y _]. now rewrite (xid_continue_ascii U UO) in Y.
             - destruct n as [|f n]; [destruct IN as (? & ? & ? & _); discriminate|]. injection EN as <- EN. symmetry in EN. apply app_eq_nil in EN as [-> ->]. split; [reflexivity|]. exists (i ++ after). exact EQ. }
           inversion IA as [? ? _ _ NP|]; subst. apply NP. right. right. split; [cbn; tauto|exact BR].
      * rewrite <- !app_assoc in X. do 2 apply app_inv_head in X. subst after.
        assert (Q : q <> []) by (intros ->; apply (end_nonempty _ S1 [] W); reflexivity).
        rewrite <- !app_assoc. apply punct_raw_lifetime; auto; [apply (end_swap _ _ S1); exact W|].
        intros Z. apply A1. revert Z. apply (begins_one _ _ S2). apply no_start; try reflexivity; discriminate.
  - apply lexeme_ident. now apply ident_swap with (written raw n ++ r).
  - apply lexeme_error.
Qed.
Lemma doc_rename d z z' m inner x : starts z -> starts z' -> doc_at d (m ++ z) inner x -> doc_at d (m ++ z') inner x.
Proof using UO.
  intros S1 S2 H. assert (LB : begins (m ++ z) [LF] -> begins (m ++ z') [LF]).
  { apply (begins_one z' z S1). apply no_start; try reflexivity; discriminate. }
  remember (m ++ z) as y eqn:Y. destruct H as [d y inner x L E N|d y inner x L E N|d y inner x L N]; subst y.
  - apply doc_at_line; auto. destruct E as [E|E]; [|auto]. apply app_eq_nil in E as [_ E]. destruct S1 as (? & ? & -> & _). discriminate E.
  - apply doc_at_crlf; auto.
  - now apply doc_at_block.
Qed.

(** ** What comes right before a name *)
Lemma blank_end c : blank c -> is_xid_continue c = false.
Proof using UO. intros [H|[->| ->]]; [now apply (xid_not_space U UO)|apply (xid_not_marks U UO)..]. Qed.
Lemma ends_last (m0 : str) c : is_xid_continue c = false -> ends_ok (m0 ++ [c]).
Proof using. intros H m1 d E. apply app_inj_tail in E as [_ <-]. exact H. Qed.
Lemma ends_nil : ends_ok [].
Proof using. intros m0 c E. destruct m0; discriminate E. Qed.
Lemma ends_app x y : y <> [] -> ends_ok y -> ends_ok (x ++ y).
Proof using. intros N E m0 c M. destruct (exists_last N) as (y0 & d & ->). rewrite app_assoc in M. apply app_inj_tail in M as [_ <-]. exact (E y0 d eq_refl). Qed.
Lemma nested_last w : nested w -> exists w0, w = w0 ++ ["/"%ch].
Proof using.
  induction 1 as [|c w H (w0 & ->) _ _|w1 w2 H1 _ H2 (w0 & ->)]; [exists (tag "*"); reflexivity|now exists (c :: w0)|].
  exists (tag "/*" ++ w1 ++ w0). now rewrite <- !app_assoc.
Qed.
Lemma slash_end : is_xid_continue "/"%ch = false.
Proof using UO. now rewrite (xid_continue_ascii U UO). Qed.
Lemma trivia_last w : trivia w -> ends_ok w.
Proof using UO.
  induction 1 as [|c w B T IH|x w P T IH|b w P T IH].
  - exact ends_nil.
  - destruct w as [|f w]; [apply (ends_last []), (blank_end _ B)|]. apply (ends_app [c]); [discriminate|exact IH].
  - destruct w as [|f w]; [|apply (ends_app (tag "//" ++ x ++ [LF]) (f :: w)) in IH; [|discriminate]; rewrite <- !app_assoc in IH; exact IH].
    rewrite app_assoc. apply ends_last. now rewrite (xid_continue_ascii U UO).
  - destruct w as [|f w]; [|now apply ends_app]. destruct P as [(v & -> & V) _]. destruct (nested_last v V) as (v0 & ->). rewrite app_nil_r, app_assoc. apply ends_last. exact slash_end.
Qed.
Lemma doc_last d z inner x : starts z -> doc_at d z inner x -> ends_ok d.
Proof using UO.
  intros S H. assert (NL : ~ begins z [LF]).
  { intros (q & Q). destruct S as (c & t & -> & S). injection Q as -> _. revert S. apply no_start; try reflexivity; discriminate. }
  destruct H as [d y inner x L [->|E] N|d y inner x L E N|d y inner x L N]; try contradiction.
  - destruct S as (? & ? & ? & _). discriminate.
  - destruct L as [x _ _ _|x _]; rewrite app_assoc; change (tag "*/") with (tag "*" ++ ["/"%ch]); rewrite app_assoc; apply ends_last; exact slash_end.
Qed.
Lemma lexeme_last t z k : starts z -> lexeme t z k -> ends_ok t.
Proof using UO.
  intros S H. pose proof (starts_word_end z S) as NW. destruct H as [t x H|p x sg H|t x s w H|x].
  - exfalso. destruct H as [q x Q N|q k x Q SS W|t x H|t x H N].
    + destruct S as (c & y & -> & S). exact (N c y eq_refl S).
    + contradiction.
    + now apply NW, (float_end t).
    + destruct H; contradiction.
  - apply (ends_last []). assert (P : In p punct_chars) by (destruct H; auto; cbn; tauto). destruct (is_xid_continue p) eqn:C; [|reflexivity].
    exfalso. cbn in P. decompose [or] P; subst; try contradiction; now rewrite (xid_continue_ascii U UO) in C.
  - exfalso. destruct H; contradiction.
  - apply (ends_last (tag "(/*ERROR*/")). now rewrite (xid_continue_ascii U UO).
Qed.

(** ** Up to a name, and after it *)
Lemma doc_nonempty d r inner x : doc_at d r inner x -> d = [] -> False.
Proof using. intros [d' r' i x' [|] _ _|d' r' i x' [|] _ _|d' r' i x' [|] _]; discriminate. Qed.
Lemma reads_lo a x ps : reads a x ps -> forall n raw sp, In (PTok [TIdent n raw sp]) ps -> a <= lo sp.
Proof using.
  induction 1 as [a s B|a w s d r ps Hw Hd H IH|a w s d r ps Hw Hd H IH|a w d r inner x ps Hw Hd H IH
                 |a w t r f ps Hw Hl H IH|a w s Hw Hs]; intros n raw sp I; [destruct I|..]; (destruct I as [I|I]; [try discriminate I|]); try (apply IH in I; lia); try contradiction.
  injection I as I. destruct (lexeme_span _ _ _ (mkspan (a + strlen w) (a + strlen w + strlen t)) Hl) as [E _]. rewrite I in E. cbn [token_span] in E. subst sp. cbn [lo]. lia.
Qed.
Lemma comment_not_leaf z t r f : lexeme t r f -> tag "/*" ++ z = t ++ r -> False.
Proof using UO.
  intros H E. destruct H as [t r H|p r sg H|t r s w H|r].
  - assert (L := proj2 (p_literal_iff UO (t ++ r) r) (ex_intro _ t (conj eq_refl H))). rewrite <- E in L. cbn [app] in L.
    rewrite punct_not_lit in L by (reflexivity || discriminate). discriminate L.
  - destruct H as [p r P Q N1 N2 S|p r P Q N1 N2 S|i after I W A1 A2|i after I N W A1]; try discriminate E; apply N2; exists z; now rewrite E.
  - destruct H as [s r (c & u & -> & S & _) _ _|s r _ _ _]; [|discriminate E]. injection E as <- _. revert S. apply no_start; try reflexivity; discriminate.
  - discriminate E.
Qed.
Lemma comment_length w : trivia w -> forall z s, w <> [] -> tag "/*" ++ z = w ++ s -> 4 <= strlen w.
Proof using.
  intros T z s NE E. destruct T as [|c w B T|x w P T|b w P T].
  - now elim NE.
  - exfalso. injection E as <- _. destruct B as [B|[B|B]]; discriminate B.
  - discriminate E.
  - destruct P as [(v & -> & V) _]. rewrite !strlen_app'. change (strlen (tag "/*")) with 2.
    enough (2 <= strlen v) by lia. clear -V. induction V as [|c w V IH _ _|w1 w2 V1 IH1 V2 IH2]; [unfold strlen; cbn [length]; lia|unfold strlen in *; cbn [length]; lia|rewrite !strlen_app'; lia].
Qed.
Lemma comment_name b z ps n raw sp : starts z -> reads b (tag "/*" ++ z) ps -> In (PTok [TIdent n raw sp]) ps -> lo sp = b + 2 -> False.
Proof using UO.
  intros S R I L. remember (tag "/*" ++ z) as x eqn:X.
  assert (WN : forall w s, trivia w -> tag "/*" ++ z = w ++ s -> strlen w <= 2 -> w = []).
  { intros w s T E LW. destruct w as [|c w]; [reflexivity|]. pose proof (comment_length _ T z s ltac:(discriminate) E). lia. }
  destruct R as [a s B|a w s d r ps Hw Hd H|a w s d r ps Hw Hd H|a w d r inner x ps Hw Hd H|a w t r f ps Hw Hl H|a w s Hw Hs].
  - destruct I.
  - destruct I as [I|I]; [discriminate I|]. pose proof (reads_lo _ _ _ H _ _ _ I). symmetry in X. rewrite (WN _ _ Hw X ltac:(lia)) in X.
    destruct Hd as (D & -> & _). cbn in D. destruct D as [<-|[<-|[<-|[]]]]; discriminate X.
  - destruct I as [I|I]; [discriminate I|]. pose proof (reads_lo _ _ _ H _ _ _ I). symmetry in X. rewrite (WN _ _ Hw X ltac:(lia)) in X.
    destruct Hd as (D & ->). cbn in D. destruct D as [<-|[<-|[<-|[]]]]; discriminate X.
  - destruct I as [I|I]; [unfold doc_attribute in I; destruct inner; discriminate I|]. pose proof (reads_lo _ _ _ H _ _ _ I). symmetry in X.
    rewrite (WN _ _ Hw X ltac:(lia)) in X. destruct S as (c & y & -> & S).
    destruct Hd as [d r inner x [|] _ _|d r inner x [|] _ _|d r inner x [|] _]; try discriminate X; injection X as -> _; revert S; apply no_start; try reflexivity; discriminate.
  - symmetry in X. destruct I as [I|I].
    + injection I as I. destruct (lexeme_span _ _ _ (mkspan (a + strlen w) (a + strlen w + strlen t)) Hl) as [E _]. rewrite I in E. cbn [token_span] in E. subst sp. cbn [lo] in L.
      rewrite (WN _ _ Hw X ltac:(lia)) in L. unfold strlen in L. cbn [length] in L. lia.
    + pose proof (reads_lo _ _ _ H _ _ _ I). rewrite (WN _ _ Hw X ltac:(lia)) in X. cbn [app] in X.
      exact (comment_not_leaf _ _ _ _ Hl X).
  - destruct I as [I|[]]. discriminate I.
Qed.
Lemma error_rename b m z z' ps n raw sp : starts z -> starts z' -> ends_ok m -> reads b (m ++ z) ps -> In (PTok [TIdent n raw sp]) ps -> lo sp = b + strlen m ->
  ~ begins ("("%ch :: m ++ z) error_text -> ~ begins ("("%ch :: m ++ z') error_text.
Proof using UO.
  intros S S' EM R I L N (q & Q). change error_text with ("("%ch :: tag "/*ERROR*/)") in *. cbn [app] in Q. injection Q as Q.
  change (m ++ z' = tag "/*ERROR*/)" ++ q) in Q. destruct (app_cases _ _ _ _ Q) as [(v & -> & _)|(v & E & EZ)].
  { apply N. exists (v ++ z). cbn [app]. reflexivity. }
  destruct v as [|c v].
  { rewrite app_nil_r in E. subst m. apply N. exists z. reflexivity. }
  destruct S' as (c' & t & -> & S'). injection EZ as -> _.
  assert (K : m = tag "/*").
  { assert (A : forall c, In c (tag "/*)") -> ~ start_char c) by (intros x X; cbn in X; decompose [or] X; subst; try contradiction; apply no_start; try reflexivity; discriminate).
    assert (F : forall m0 c, m = m0 ++ [c] -> ascii_letter c = true -> c < 128 -> False).
    { intros m0 x -> AL LT. specialize (EM m0 x eq_refl). rewrite (xid_continue_ascii U UO) in EM by lia. rewrite AL in EM. discriminate. }
    clear R L N I Q. destruct m as [|? m]; cbn [app] in E; [exfalso; injection E as <- _; revert S'; apply A; cbn; tauto|injection E as <- E].
    destruct m as [|? m]; cbn [app] in E; [exfalso; injection E as <- _; revert S'; apply A; cbn; tauto|injection E as <- E].
    destruct m as [|? m]; cbn [app] in E; [reflexivity|injection E as <- E]. exfalso.
    destruct m as [|? m]; cbn [app] in E; [exact (F (tag "/*") "E"%ch eq_refl eq_refl ltac:(lia))|injection E as <- E].
    destruct m as [|? m]; cbn [app] in E; [exact (F (tag "/*E") "R"%ch eq_refl eq_refl ltac:(lia))|injection E as <- E].
    destruct m as [|? m]; cbn [app] in E; [exact (F (tag "/*ER") "R"%ch eq_refl eq_refl ltac:(lia))|injection E as <- E].
    destruct m as [|? m]; cbn [app] in E; [exact (F (tag "/*ERR") "O"%ch eq_refl eq_refl ltac:(lia))|injection E as <- E].
    destruct m as [|? m]; cbn [app] in E; [exact (F (tag "/*ERRO") "R"%ch eq_refl eq_refl ltac:(lia))|injection E as <- E].
    destruct m as [|? m]; cbn [app] in E; [injection E as <- _; revert S'; apply A; cbn; tauto|injection E as <- E].
    destruct m as [|? m]; cbn [app] in E; [injection E as <- _; revert S'; apply A; cbn; tauto|injection E as <- E].
    destruct m as [|? m]; discriminate E. }
  subst m. exact (comment_name b z ps n raw sp S R I L).
Qed.
Lemma reads_name a x ps : reads a x ps -> a + strlen x < two32 -> forall pre n raw sp post, ps = pre ++ PTok [TIdent n raw sp] :: post -> (raw = false -> ~ numberish n) ->
  exists y r, x = y ++ written raw n ++ r /\ sp = mkspan (a + strlen y) (a + strlen y + strlen (written raw n)) /\ ident_at (written raw n) r n raw /\
    reads (hi sp) r post /\ ends_ok y /\
    forall n' qs, fits raw n' -> reads (lo sp + strlen (written raw n')) r qs ->
      reads a (y ++ written raw n' ++ r) (pre ++ PTok [TIdent n' raw (mkspan (lo sp) (lo sp + strlen (written raw n')))] :: qs).
Proof using UO.
  induction 1 as [a s B|a w s d r ps Hw Hd H IH|a w s d r ps Hw Hd H IH|a w d r inner x ps Hw Hd H IH
                 |a w t r k ps Hw Hl H IH|a w s Hw Hs]; intros BD pre n raw sp post E NN; (destruct pre as [|z' pre]; [|]); try discriminate E; cbn [app] in E.
  - injection E as <- E. pose proof Hd as (D & -> & NE). assert (L1 : strlen (open_char d) = 1) by (cbn in D; decompose [or] D; subst; try reflexivity; contradiction).
    destruct (IH ltac:(rewrite !strlen_app' in BD; lia) _ _ _ _ _ E NN) as (y & r' & -> & -> & IA & RP & EO & R). cbn [lo hi] in *.
    destruct (ident_end _ _ _ _ IA) as (_ & IN & _). pose proof (name_starts raw n r' IN) as S1.
    exists (w ++ open_char d ++ y), r'. split; [now rewrite <- !app_assoc|]. split; [rewrite !strlen_app', L1; f_equal; lia|]. split; [exact IA|]. split; [exact RP|]. split.
    { destruct y as [|f y]; [|rewrite app_assoc; apply ends_app; [discriminate|exact EO]]. rewrite app_nil_r. cbn in D. destruct D as [<-|[<-|[<-|[]]]]; apply ends_last; now rewrite (xid_continue_ascii U UO). }
    intros n' qs F Q. pose proof (name_starts raw n' r' (proj1 F)) as S2. rewrite <- !app_assoc. cbn [app]. apply reads_open with (y ++ written raw n' ++ r'); [exact Hw| |now apply R].
    split; [exact D|]. split; [reflexivity|]. cbn in D. destruct D as [<-|[<-|[<-|[]]]]; try (intros (v & V); discriminate V).
    refine (error_rename (a + strlen w + 1) y (written raw n ++ r') (written raw n' ++ r') ps n raw _ S1 S2 EO H _ _ NE); [rewrite E; apply in_app_iff; right; now left|reflexivity].
  - injection E as <- E. pose proof Hd as (D & ->). assert (L1 : strlen (close_char d) = 1) by (cbn in D; decompose [or] D; subst; try reflexivity; contradiction).
    destruct (IH ltac:(rewrite !strlen_app' in BD; lia) _ _ _ _ _ E NN) as (y & r' & -> & -> & IA & RP & EO & R). cbn [lo hi] in *.
    exists (w ++ close_char d ++ y), r'. split; [now rewrite <- !app_assoc|]. split; [rewrite !strlen_app', L1; f_equal; lia|]. split; [exact IA|]. split; [exact RP|]. split.
    { destruct y as [|f y]; [|rewrite app_assoc; apply ends_app; [discriminate|exact EO]]. rewrite app_nil_r. cbn in D. destruct D as [<-|[<-|[<-|[]]]]; apply ends_last; now rewrite (xid_continue_ascii U UO). }
    intros n' qs F Q. rewrite <- !app_assoc. cbn [app]. apply reads_close with (y ++ written raw n' ++ r'); [exact Hw|now split|now apply R].
  - injection E as <- E.
    destruct (IH ltac:(rewrite !strlen_app' in BD; lia) _ _ _ _ _ E NN) as (y & r' & -> & -> & IA & RP & EO & R). cbn [lo hi] in *.
    destruct (ident_end _ _ _ _ IA) as (_ & IN & _). pose proof (name_starts raw n r' IN) as S1.
    exists (w ++ d ++ y), r'. split; [now rewrite <- !app_assoc|]. split; [rewrite !strlen_app'; f_equal; lia|]. split; [exact IA|]. split; [exact RP|].
    assert (DN : d <> []) by (intros DE; exact (doc_nonempty _ _ _ _ Hd DE)). split.
    { destruct y as [|f y]; [|rewrite app_assoc; apply ends_app; [discriminate|exact EO]]. rewrite app_nil_r. apply ends_app; [exact DN|]. cbn [app] in Hd. exact (doc_last _ _ _ _ S1 Hd). }
    intros n' qs F Q. pose proof (name_starts raw n' r' (proj1 F)) as S2. rewrite <- !app_assoc. cbn [app]. apply reads_doc; [exact Hw| |now apply R].
    now apply doc_rename with (written raw n ++ r').
  - injection E as EK <-. destruct (lexeme_span _ _ _ (mkspan (a + strlen w) (a + strlen w + strlen t)) Hl) as [ES _]. rewrite EK in ES. cbn [token_span] in ES. subst sp. cbn [lo hi].
    destruct Hl as [t r Hl|p r sg Hl|t r s raw' Hl|r]; try discriminate EK. injection EK as -> ->. destruct (ident_end _ _ _ _ Hl) as (-> & IN & WR).
    exists w, r. split; [reflexivity|]. split; [reflexivity|]. split; [exact Hl|]. split; [exact H|]. split; [now apply trivia_last|].
    intros n' qs F Q. cbn [app]. apply (reads_leaf a w (written raw n') r (TIdent n' raw)); [exact Hw|constructor; now apply fits_ident|exact Q].
  - injection E as <- E.
    assert (BD' : a + strlen w + strlen t + strlen r < two32) by (rewrite !strlen_app' in BD; lia).
    destruct (IH BD' _ _ _ _ _ E NN) as (y & r' & -> & -> & IA & RP & EO & R). cbn [lo hi] in *.
    destruct (ident_end _ _ _ _ IA) as (_ & IN & _). pose proof (name_starts raw n r' IN) as S1.
    exists (w ++ t ++ y), r'. split; [now rewrite <- !app_assoc|]. split; [rewrite !strlen_app'; f_equal; lia|]. split; [exact IA|]. split; [exact RP|]. split.
    { destruct y as [|f y]; [|rewrite app_assoc; apply ends_app; [discriminate|exact EO]]. rewrite app_nil_r. apply ends_app; [exact (lexeme_nonempty _ _ _ Hl)|].
      cbn [app] in Hl. exact (lexeme_last _ _ _ S1 Hl). }
    intros n' qs F Q. rewrite <- !app_assoc. cbn [app]. apply reads_leaf; [exact Hw| |now apply R].
    apply lexeme_rename with n; auto. intros i after X I N W.
    destruct (reads_any UO (a + strlen w + strlen t + strlen (tag "r#" ++ i)) after) as (qs' & Q').
    { rewrite X, app_assoc, strlen_app' in BD'. lia. }
    assert (LX : lexeme (tag "r#" ++ i) after (TIdent i true)) by (now constructor; constructor).
    assert (R2 := leaf_reads _ _ _ _ _ LX Q'). rewrite <- app_assoc, <- X in R2.
    pose proof (reads_fun UO _ _ _ _ BD' H R2) as EQ. rewrite E in EQ. destruct pre as [|z1 pre].
    + left. injection EQ as _ _ EL _. destruct y as [|f y]; [reflexivity|]. unfold strlen in EL. cbn [length] in EL. lia.
    + right. injection EQ as _ EQ. assert (IQ : In (PTok [TIdent n raw (mkspan (a + strlen w + strlen t + strlen y) (a + strlen w + strlen t + strlen y + strlen (written raw n)))]) qs')
        by (rewrite <- EQ; apply in_app_iff; right; now left).
      apply (reads_lo _ _ _ Q') in IQ. cbn [lo] in IQ. rewrite (app_assoc (tag "r#")) in X.
      destruct (app_cases _ _ _ _ X) as [(q & -> & _)|(q & EY & _)]; [exists q; now rewrite <- app_assoc|].
      assert (q = []) as -> by (rewrite EY, strlen_app' in IQ; destruct q; [reflexivity|unfold strlen in IQ; cbn [length] in IQ; lia]). rewrite app_nil_r in EY. exists []. now rewrite app_nil_r.
  - injection E as _ E. destruct pre; discriminate E.
Qed.

Lemma rename : forall start x raw n y ts, start + strlen (x ++ written raw n ++ y) < two32 ->
  token_stream_from_str start (x ++ written raw n ++ y) = Ok (Lexed ts) -> (raw = false -> ~ numberish n) ->
  occurs (TIdent n raw (mkspan (start + strlen x) (start + strlen x + strlen (written raw n)))) ts ->
  forall n', fits raw n' -> start + strlen (x ++ written raw n' ++ y) < two32 ->
  exists ts', token_stream_from_str start (x ++ written raw n' ++ y) = Ok (Lexed ts') /\
    replaced (TIdent n raw (mkspan (start + strlen x) (start + strlen x + strlen (written raw n))))
             (TIdent n' raw (mkspan (start + strlen x) (start + strlen x + strlen (written raw n')))) ts ts'.
Proof using UO.
  intros start x raw n y ts B P NN O n' F B'.
  apply (parse_reads UO _ start B) in P as (ps & (a & s0 & WB & R) & T).
  assert (BS : a + strlen s0 < two32) by (destruct WB; unfold strlen in *; cbn [length] in *; lia).
  set (p := start + strlen x) in *.
  destruct (tree_leaf _ _ T (TIdent n raw (mkspan p (p + strlen (written raw n)))) (fun G => G) O) as (k & IK & OK).
  assert (FB : forall W, (exists c t, W = c :: t /\ start_char c) -> forall u, without_bom start (x ++ W ++ u) a s0 -> exists x0, s0 = x0 ++ W ++ u /\ p = a + strlen x0 /\
    forall W' u', (exists c t, W' = c :: t /\ start_char c) -> without_bom start (x ++ W' ++ u') a (x0 ++ W' ++ u')).
  { assert (NF : forall c, start_char c -> c <> 0xFEFF).
    { intros c S ->. pose proof (start_continue UO _ S) as C. destruct (xid_not_marks U UO) as (_ & _ & X). congruence. }
    clear - NF UO. subst p. intros W (c & t & -> & S) u WB. remember (x ++ (c :: t) ++ u) as src eqn:E. destruct WB as [s|s NB].
    - destruct x as [|f x]; [cbn [app] in E; injection E as E _; now elim (NF c S)|]. cbn [app] in E. injection E as <- ->. exists x. split; [reflexivity|]. split; [unfold strlen; cbn [length]; lia|].
      intros W' u' _. constructor.
    - exists x. split; [exact E|]. split; [reflexivity|]. intros W' u' (c' & t' & -> & S'). constructor. intros v V. destruct x as [|f x].
      + injection V as -> _. now elim (NF _ S').
      + injection V as -> _. apply (NB (x ++ (c :: t) ++ u)). exact E. }
  assert (WS : forall m, ident_text m -> exists c t, written raw m = c :: t /\ start_char c).
  { intros m I. destruct (name_starts raw m [] I) as (c & t & E & S). rewrite app_nil_r in E. eauto. }
  destruct (reads_leaves _ _ _ R _ IK) as [(u & -> & GU)|(y1 & r1 & E1 & L1 & M)].
  2: { exfalso. specialize (L1 _ OK). specialize (M _ _ _ OK). subst n. cbn [token_span lo] in L1.
    assert (ID : ident_text (tag "doc")).
    { exists "d"%ch, (tag "oc"). split; [reflexivity|]. split; [right; now rewrite (xid_start_ascii U UO)|]. repeat constructor; now rewrite (xid_continue_ascii U UO). }
    destruct (FB _ (WS _ ID) y WB) as (x0 & -> & L0 & _). destruct (same_place a x0 y1 _ _ E1 ltac:(lia)) as [_ E2]. destruct raw; discriminate E2. }
  assert (u = TIdent n raw (mkspan p (p + strlen (written raw n)))) as ->.
  { inversion OK as [ts' H E|d i g ts' H _ E]; subst; destruct H as [H|[]]; [exact H|]. subst u. now elim GU. }
  apply in_split in IK as (pre & post & ->).
  destruct (reads_name _ _ _ R BS _ _ _ _ _ eq_refl NN) as (y1 & r1 & E1 & SP & IA & RP & _ & RG). injection SP as L1 _. cbn [lo hi] in *.
  destruct (ident_end _ _ _ _ IA) as (_ & IN & _).
  destruct (FB (written raw n) (WS n IN) y WB) as (x0 & -> & L0 & WB').
  destruct (same_place a x0 y1 _ _ E1 ltac:(lia)) as [<- E2]. apply app_inv_head in E2. subst r1. clear E1 L1.
  rewrite !strlen_app' in BS.
  destruct (reads_any UO 0 y) as (qs & QS); [lia|].
  set (q := p + strlen (written raw n)) in *. set (q' := p + strlen (written raw n')) in *.
  assert (EQ : post = map (shiftp q) qs).
  { apply (reads_fun UO q y); [unfold q; lia|exact RP|]. apply (reads_shift q) in QS. rewrite N.add_0_l in QS. exact QS. }
  subst post.
  destruct (tree_replace _ (TIdent n' raw (mkspan p q')) _ _ T _ _ eq_refl) as (ts' & T' & G). cbn [token_span hi] in T'.
  exists ts'. split; [|exact G]. apply (parse_reads UO _ start B'). eexists. split; [|exact T'].
  exists a, (x0 ++ written raw n' ++ y). split; [apply WB'; apply WS; apply F|]. apply RG; [exact F|].
  apply (reads_shift q') in QS. rewrite N.add_0_l in QS. exact QS.
Qed.

End WithUnicode.
