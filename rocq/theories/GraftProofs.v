(** * Exchanging the contents of a group (C100) *)
From Verif Require Import Base BaseFacts Unicode Tokens Lexer PureLexer.
From Verif Require Import LexerEquiv LexerEquiv2 LexerEquiv3 LexerEquiv4 Grammar Stable Local.
From Verif Require Import SpecText SpecTree SpecLit SpecGrammar SpecFinal SpecGraft Comments Spans Balance LexemeProofs SpacingProofs AppendProofs FinalProofs ForeignProofs.
Import ListNotations.
Local Open Scope N_scope.

(** ** Pieces further on *)
Definition shiftp (k : N) (z : piece) : piece :=
  match z with POpen d p => POpen d (p + k) | PClose d p => PClose d (p + k) | PTok ts => PTok (map (shift k) ts) | PBad p => PBad (p + k) end.
Lemma tree_shift k ps ts : tree ps ts -> tree (map (shiftp k) ps) (map (shift k) ts).
Proof.
  induction 1 as [|j ps ts T IH|d a b ps1 inner ps2 ts T1 IH1 T2 IH2]; cbn [map]; [constructor|rewrite map_app; now constructor|].
  rewrite map_app. cbn [map shiftp shift]. unfold shift_span. cbn [lo hi]. replace (b + 1 + k) with (b + k + 1) by lia. now constructor.
Qed.
Lemma tree_unshift k ps ts : tree ps ts -> forall qs, ps = map (shiftp k) qs -> exists us, tree qs us /\ ts = map (shift k) us.
Proof.
  induction 1 as [|j ps ts T IH|d a b ps1 inner ps2 ts T1 IH1 T2 IH2]; intros qs E.
  - destruct qs; [|discriminate E]. exists []. split; [constructor|reflexivity].
  - destruct qs as [|z qs]; [discriminate E|]. injection E as Ez E. destruct z as [| |j'|]; try discriminate Ez. injection Ez as ->.
    destruct (IH _ E) as (us & T' & ->). exists (j' ++ us). split; [now constructor|]. now rewrite map_app.
  - destruct qs as [|z qs]; [discriminate E|]. injection E as Ez E. destruct z as [d' a'| | |]; try discriminate Ez. injection Ez as <- ->.
    symmetry in E. apply map_eq_app in E as (q1 & q2 & -> & E1 & E2). destruct q2 as [|z q2]; [discriminate E2|]. injection E2 as Ez E2.
    destruct z as [|d'' b'| |]; try discriminate Ez. injection Ez as -> <-.
    destruct (IH1 _ (eq_sym E1)) as (us1 & T1' & ->). destruct (IH2 _ (eq_sym E2)) as (us2 & T2' & ->).
    exists (TGroup d us1 (mkspan a' (b' + 1)) :: us2). split; [now constructor|]. cbn [map shift]. unfold shift_span. cbn [lo hi].
    do 3 f_equal. lia.
Qed.

(** ** Nesting *)
Fixpoint excess (ps : list piece) : Z :=
  match ps with [] => 0 | POpen _ _ :: ps => 1 + excess ps | PClose _ _ :: ps => excess ps - 1 | _ :: ps => excess ps end%Z.
Lemma excess_app a b : (excess (a ++ b) = excess a + excess b)%Z.
Proof. induction a as [|[d p|d p|k|p] a IH]; cbn [app excess]; try rewrite IH; lia. Qed.
Lemma tree_excess ps ts : tree ps ts -> excess ps = 0%Z /\ forall a b, ps = a ++ b -> (0 <= excess a)%Z.
Proof.
  induction 1 as [|j ps ts T [E IH]|d a b ps1 inner ps2 ts T1 [E1 IH1] T2 [E2 IH2]].
  - split; [reflexivity|]. intros a b E. symmetry in E. apply app_eq_nil in E as [-> _]. cbn. lia.
  - split; [exact E|]. intros a b X. destruct a as [|z a]; [cbn; lia|]. injection X as <- X. cbn [excess]. now apply (IH a b).
  - split; [cbn [excess]; rewrite excess_app; cbn [excess]; lia|]. intros x y X. destruct x as [|z x]; [cbn; lia|]. injection X as <- X.
    cbn [excess]. destruct (app_cases _ _ _ _ X) as [(m & -> & M)|(m & -> & M)].
    + specialize (IH1 x m eq_refl). lia.
    + rewrite excess_app. destruct m as [|z m]; [cbn [excess]; lia|]. injection M as <- M. cbn [excess]. specialize (IH2 m y M). lia.
Qed.

Lemma graft_after g g' new pre ts ts' : grafted g g' new ts ts' -> grafted g g' new (pre ++ ts) (pre ++ ts').
Proof.
  intros [before d inner after|before d inner inner' l n after H]; rewrite !(app_assoc pre); now constructor.
Qed.
Lemma tree_graft ps ts : tree ps ts -> forall pre d p mid q qs inner,
  ps = pre ++ POpen d p :: mid ++ PClose d q :: map (shiftp (q + 1)) qs -> tree mid inner ->
  forall mid' inner' q', tree mid' inner' ->
  exists ts', tree (pre ++ POpen d p :: mid' ++ PClose d q' :: map (shiftp (q' + 1)) qs) ts' /\
    grafted (mkspan p (q + 1)) (mkspan p (q' + 1)) inner' ts ts'.
Proof.
  induction 1 as [|j ps ts T IH|d0 a b ps1 in0 ps2 ts T1 IH1 T2 IH2]; intros pre d p mid q qs inner E TM mid' inner' q' TM'.
  - destruct pre; discriminate E.
  - destruct pre as [|z pre]; [discriminate E|]. injection E as <- E. destruct (IH _ _ _ _ _ _ _ E TM mid' inner' q' TM') as (ts' & T' & G).
    exists (j ++ ts'). split; [cbn [app]; now constructor|]. now apply graft_after.
  - destruct (tree_excess _ _ TM) as [XM PM]. destruct (tree_excess _ _ T1) as [X1 P1].
    destruct pre as [|z pre].
    + injection E as <- <- E. assert (Q : ps1 = mid).
      { destruct (app_cases _ _ _ _ E) as [(m & -> & M)|(m & -> & M)].
        - destruct m as [|z m]; [now rewrite app_nil_r|]. injection M as <- M. exfalso. specialize (P1 (mid ++ [PClose d0 q]) m).
          rewrite <- app_assoc in P1. specialize (P1 eq_refl). rewrite excess_app in P1. cbn [excess] in P1. lia.
        - destruct m as [|z m]; [now rewrite app_nil_r|]. injection M as <- M. exfalso. specialize (PM (ps1 ++ [PClose d0 b]) m).
          rewrite <- app_assoc in PM. specialize (PM eq_refl). rewrite excess_app in PM. cbn [excess] in PM. lia. }
      subst ps1. apply app_inv_head in E. injection E as <- ->. destruct (tree_unshift _ _ _ T2 _ eq_refl) as (us & TU & ->).
      exists (TGroup d0 inner' (mkspan a (q' + 1)) :: map (shift (q' + 1)) us). split.
      * cbn [app]. constructor; [exact TM'|now apply tree_shift].
      * exact (graft_here (mkspan a (b + 1)) (mkspan a (q' + 1)) inner' [] d0 in0 us).
    + injection E as <- E. destruct (app_cases _ _ _ _ E) as [(m & -> & M)|(m & -> & M)].
      * destruct m as [|z m]; [discriminate M|]. injection M as <- M.
        assert (C : exists n, m = mid ++ PClose d q :: n /\ map (shiftp (q + 1)) qs = n ++ PClose d0 b :: ps2).
        { destruct (app_cases _ _ _ _ M) as [(n & -> & N)|(n & -> & N)].
          - exfalso. destruct n as [|z n].
            + rewrite app_nil_r in *. rewrite excess_app in X1. cbn [excess] in X1. pose proof (P1 pre _ eq_refl). lia.
            + injection N as <- N. rewrite excess_app in X1. cbn [excess] in X1. pose proof (P1 pre _ eq_refl).
              specialize (PM (m ++ [PClose d0 b]) n). rewrite <- app_assoc in PM. specialize (PM eq_refl). rewrite excess_app in PM. cbn [excess] in PM. lia.
          - destruct n as [|z n].
            + exfalso. rewrite app_nil_r in *. rewrite excess_app in X1. cbn [excess] in X1. pose proof (P1 pre _ eq_refl). lia.
            + injection N as <- N. exists n. auto. }
        destruct C as (n & -> & N). apply map_eq_app in N as (q1 & q2 & -> & N1 & N2). destruct q2 as [|z q2]; [discriminate N2|]. injection N2 as Nz N2.
        destruct z as [|d'' b'| |]; try discriminate Nz. injection Nz as -> <-. subst n ps2.
        destruct (IH1 _ _ _ _ _ _ _ eq_refl TM mid' inner' q' TM') as (ts' & T' & G). destruct (tree_unshift _ _ _ T2 _ eq_refl) as (us & TU & ->).
        exists (TGroup d0 ts' (mkspan a (b' + (q' + 1) + 1)) :: map (shift (q' + 1)) us). split.
        -- cbn [app]. rewrite map_app. cbn [map shiftp].
           replace (pre ++ POpen d p :: mid' ++ PClose d q' :: map (shiftp (q' + 1)) q1 ++ PClose d0 (b' + (q' + 1)) :: map (shiftp (q' + 1)) q2)
             with ((pre ++ POpen d p :: mid' ++ PClose d q' :: map (shiftp (q' + 1)) q1) ++ PClose d0 (b' + (q' + 1)) :: map (shiftp (q' + 1)) q2)
             by (rewrite <- app_assoc; cbn [app]; rewrite <- app_assoc; reflexivity).
           constructor; [exact T'|now apply tree_shift].
        -- pose proof (graft_inside (mkspan p (q + 1)) (mkspan p (q' + 1)) inner' [] d0 in0 ts' a (b' + 1) us G) as X. cbn [hi app] in X.
           replace (b' + (q + 1) + 1) with (b' + 1 + (q + 1)) by lia. replace (b' + (q' + 1) + 1) with (b' + 1 + (q' + 1)) by lia. exact X.
      * destruct m as [|z m]; [discriminate M|]. injection M as <- M.
        destruct (IH2 _ _ _ _ _ _ _ M TM mid' inner' q' TM') as (ts' & T' & G).
        exists (TGroup d0 in0 (mkspan a (b + 1)) :: ts'). split; [cbn [app]; rewrite <- app_assoc; cbn [app]; now constructor|].
        now apply (graft_after _ _ _ [TGroup d0 in0 (mkspan a (b + 1))]).
Qed.

(** ** Where a group comes from *)
Definition comes (ps : list piece) (d : delimiter) (inner : list token) (g : span) : Prop :=
  (exists k, In (PTok k) ps /\ occurs (TGroup d inner g) k) \/
  (exists pre mid q post, ps = pre ++ POpen d (lo g) :: mid ++ PClose d q :: post /\ tree mid inner /\ hi g = q + 1).
Lemma occurs_app t a b : occurs t (a ++ b) -> occurs t a \/ occurs t b.
Proof.
  intros H. remember (a ++ b) as x eqn:X. destruct H as [ts H|d inner sp ts H O]; subst ts; apply in_app_iff in H as [H|H]; [left|right|left|right]; try (now constructor); now apply occurs_inside with d inner sp.
Qed.
Lemma tree_comes ps ts : tree ps ts -> forall d inner g, occurs (TGroup d inner g) ts -> comes ps d inner g.
Proof.
  induction 1 as [|j ps ts T IH|d0 a b ps1 in0 ps2 ts T1 IH1 T2 IH2]; intros d inner g O.
  - exfalso. inversion O as [ts H|? ? ? ts H]; destruct H.
  - apply occurs_app in O as [O|O]; [left; exists j; split; [now left|exact O]|].
    destruct (IH _ _ _ O) as [(k & I & K)|(pre & mid & q & post & -> & TM & Q)]; [left; exists k; split; [now right|exact K]|].
    right. now exists (PTok j :: pre), mid, q, post.
  - change (TGroup d0 in0 (mkspan a (b + 1)) :: ts) with ([TGroup d0 in0 (mkspan a (b + 1))] ++ ts) in O. apply occurs_app in O as [O|O].
    + inversion O as [ts' H E|d' i' sp' ts' H O' E]; subst ts'.
      * destruct H as [H|[]]. injection H as <- <- <-. right. exists [], ps1, b, ps2. cbn [lo hi app]. auto.
      * destruct H as [H|[]]. injection H as <- <- <-. destruct (IH1 _ _ _ O') as [(k & I & K)|(pre & mid & q & post & -> & TM & Q)].
        -- left. exists k. split; [right; apply in_app_iff; now left|exact K].
        -- right. exists (POpen d0 a :: pre), mid, q, (post ++ PClose d0 b :: ps2). split; [|auto]. cbn [app]. rewrite <- app_assoc. cbn [app]. now rewrite <- app_assoc.
    + destruct (IH2 _ _ _ O) as [(k & I & K)|(pre & mid & q & post & -> & TM & Q)].
      * left. exists k. split; [right; apply in_app_iff; right; now right|exact K].
      * right. exists (POpen d0 a :: ps1 ++ PClose d0 b :: pre), mid, q, post. split; [|auto]. cbn [app]. now rewrite <- app_assoc.
Qed.

Section WithUnicode.
Context {U : unicode} (UO : unicode_ok U).

Lemma lexeme_shift t r f : lexeme t r f -> forall sp k, shift k (f sp) = f (shift_span k sp).
Proof using. intros [?|?|?|?]; reflexivity. Qed.
Lemma reads_shift k a s ps : reads a s ps -> reads (a + k) s (map (shiftp k) ps).
Proof using.
  induction 1 as [a s B|a w s d r ps Hw Hd H IH|a w s d r ps Hw Hd H IH|a w d r inner x ps Hw Hd H IH
                 |a w t r f ps Hw Hl H IH|a w s Hw Hs]; cbn [map shiftp].
  - now constructor.
  - replace (a + strlen w + k) with (a + k + strlen w) by lia. apply reads_open with r; auto.
    replace (a + k + strlen w + 1) with (a + strlen w + 1 + k) by lia. exact IH.
  - replace (a + strlen w + k) with (a + k + strlen w) by lia. apply reads_close with r; auto.
    replace (a + k + strlen w + 1) with (a + strlen w + 1 + k) by lia. exact IH.
  - replace (map (shift k) (doc_attribute inner (literal_string x) (mkspan (a + strlen w) (a + strlen w + strlen d))))
      with (doc_attribute inner (literal_string x) (mkspan (a + k + strlen w) (a + k + strlen w + strlen d))).
    + apply reads_doc; auto. replace (a + k + strlen w + strlen d) with (a + strlen w + strlen d + k) by lia. exact IH.
    + replace (mkspan (a + k + strlen w) (a + k + strlen w + strlen d)) with (shift_span k (mkspan (a + strlen w) (a + strlen w + strlen d))) by (unfold shift_span; cbn [lo hi]; f_equal; lia).
      unfold doc_attribute. rewrite map_app. destruct inner; reflexivity.
  - rewrite (lexeme_shift _ _ _ Hl). replace (shift_span k (mkspan (a + strlen w) (a + strlen w + strlen t))) with (mkspan (a + k + strlen w) (a + k + strlen w + strlen t)) by (unfold shift_span; cbn [lo hi]; f_equal; lia).
    apply reads_leaf; auto. replace (a + k + strlen w + strlen t) with (a + strlen w + strlen t + k) by lia. exact IH.
  - replace (a + strlen w + k) with (a + k + strlen w) by lia. now apply reads_bad.
Qed.
Lemma reads_one a s ps ps' : a + strlen s < two32 -> (forall t, s <> 0xFEFF :: t) -> reads a s ps -> reads a s ps' -> ps = ps'.
Proof using UO.
  intros B NB R R'. apply (reads_functional UO s a B); (exists a, s; split; [now constructor|assumption]).
Qed.

(** The groups of doc comments begin at a slash. *)
Lemma leaf_no_group t r f : lexeme t r f -> forall sp d inner g, ~ occurs (TGroup d inner g) [f sp].
Proof using.
  intros L sp d inner g O. assert (X : ~ is_group (f sp)) by (destruct L; exact (fun x => x)).
  inversion O as [ts H E|d' i' sp' ts H _ E]; subst ts; destruct H as [H|[]]; apply X; rewrite H; exact I.
Qed.
Lemma doc_group_span inner l sp d i g : occurs (TGroup d i g) (doc_attribute inner l sp) -> g = sp.
Proof using.
  unfold doc_attribute. intros O. destruct inner; cbn [app] in O;
    inversion O as [ts H|d' i' sp' ts H O']; subst; cbn [In] in H; decompose [or] H; try discriminate; try contradiction;
    match goal with X : TGroup _ _ _ = TGroup _ _ _ |- _ => injection X; intros; subst end; try reflexivity;
    exfalso; clear - O'; inversion O' as [ts2 H|d2 i2 sp2 ts2 H O'']; subst; cbn [In] in H; decompose [or] H; try discriminate; contradiction.
Qed.
Lemma reads_tok a x ps : reads a x ps -> forall k d i g, In (PTok k) ps -> occurs (TGroup d i g) k ->
  exists y r, x = y ++ "/"%ch :: r /\ lo g = a + strlen y.
Proof using.
  induction 1 as [a s B|a w s d r ps Hw Hd H IH|a w s d r ps Hw Hd H IH|a w d r inner x ps Hw Hd H IH
                 |a w t r f ps Hw Hl H IH|a w s Hw Hs]; intros k d' i' g I O; [destruct I|..]; (destruct I as [I|I]; [try discriminate I|]).
  - destruct (IH _ _ _ _ I O) as (y & r' & -> & ->). destruct Hd as (D & -> & _).
    assert (L1 : strlen (open_char d) = 1) by (cbn in D; decompose [or] D; subst; try reflexivity; contradiction).
    exists (w ++ open_char d ++ y), r'. split; [now rewrite <- !app_assoc|rewrite !strlen_app'; lia].
  - destruct (IH _ _ _ _ I O) as (y & r' & -> & ->). destruct Hd as (D & ->).
    assert (L1 : strlen (close_char d) = 1) by (cbn in D; decompose [or] D; subst; try reflexivity; contradiction).
    exists (w ++ close_char d ++ y), r'. split; [now rewrite <- !app_assoc|rewrite !strlen_app'; lia].
  - injection I as <-. apply doc_group_span in O as ->. cbn [lo]. assert (exists z, d = "/"%ch :: z) as (z & ->).
    { destruct Hd as [d r inner x [|] _ _|d r inner x [|] _ _|d r inner x [|] _]; eexists; reflexivity. }
    exists w, (z ++ r). split; reflexivity.
  - destruct (IH _ _ _ _ I O) as (y & r' & -> & ->).
    exists (w ++ d ++ y), r'. split; [now rewrite <- !app_assoc|rewrite !strlen_app'; lia].
  - injection I as <-. exfalso. exact (leaf_no_group _ _ _ Hl _ _ _ _ O).
  - destruct (IH _ _ _ _ I O) as (y & r' & -> & ->).
    exists (w ++ t ++ y), r'. split; [now rewrite <- !app_assoc|rewrite !strlen_app'; lia].
  - destruct I.
Qed.

(** ** Up to and after an opening delimiter *)
Lemma begins_last p l c : ~ In c p -> forall x u r : str, begins (x ++ c :: u) (p ++ [l]) -> begins (x ++ c :: r) (p ++ [l]).
Proof using.
  intros N x u r. revert p N. induction x as [|f x IH]; intros p N (z & Z); destruct p as [|e p]; cbn [app] in *.
  - injection Z as -> _. now exists r.
  - injection Z as -> _. exfalso. apply N. now left.
  - injection Z as -> _. now exists (x ++ c :: r).
  - injection Z as -> Z. destruct (IH p) as (v & V); [intros I; apply N; now right|now exists z|]. exists v. cbn [app]. now rewrite V.
Qed.
Definition delim_char (c : char) : Prop := In c (tag "()[]{}").
Lemma delim_apart c : delim_char c -> apart c.
Proof using UO.
  intros H. cbn in H. decompose [or] H; subst; try contradiction; (repeat split; [now rewrite (xid_continue_ascii U UO)| |discriminate..]);
    intros X; cbn in X; decompose [or] X; try discriminate; assumption.
Qed.
Lemma error_last f x c u r : delim_char c -> begins (f :: x ++ c :: u) error_text -> begins (f :: x ++ c :: r) error_text.
Proof using.
  intros D (z & Z). change error_text with ("("%ch :: tag "/*ERROR*/" ++ [")"%ch]) in Z. cbn [app] in Z. injection Z as -> Z.
  destruct (begins_last (tag "/*ERROR*/") ")"%ch c) with (x := x) (u := u) (r := r) as (v & V); [|exists z; exact Z|exists v; cbn [app] in *; now rewrite V].
  intros I. cbn in D, I. decompose [or] D; decompose [or] I; subst; try contradiction; discriminate.
Qed.
Definition side (z : piece) : option (str * N) :=
  match z with POpen d p => Some (open_char d, p) | PClose d p => Some (close_char d, p) | _ => None end.
Lemma side_char d : In d delims -> (exists c, open_char d = [c] /\ delim_char c) /\ (exists c, close_char d = [c] /\ delim_char c).
Proof using. intros D. cbn in D. destruct D as [<-|[<-|[<-|[]]]]; (split; eexists; (split; [reflexivity|cbn; tauto])). Qed.
Lemma reads_parts a x ps : reads a x ps -> forall pre z c p post, ps = pre ++ z :: post -> side z = Some (c, p) ->
  exists y r, x = y ++ c ++ r /\ p = a + strlen y /\ reads (p + 1) r post /\ (exists f, c = [f] /\ delim_char f) /\
    forall u qs, (forall d, z = POpen d p -> opens (c ++ u) d u) -> reads (p + 1) u qs -> reads a (y ++ c ++ u) (pre ++ z :: qs).
Proof using UO.
  induction 1 as [a s B|a w s d r ps Hw Hd H IH|a w s d r ps Hw Hd H IH|a w d r inner x ps Hw Hd H IH
                 |a w t r k ps Hw Hl H IH|a w s Hw Hs]; intros pre z c p post E S; (destruct pre as [|z' pre]; [|]); try discriminate E; cbn [app] in E.
  - injection E as <- <-. injection S as <- <-. pose proof Hd as (D & -> & N). exists w, r. split; [reflexivity|]. split; [reflexivity|]. split; [exact H|].
    split; [apply side_char; exact D|]. intros u qs O Q. cbn [app]. apply reads_open with u; [exact Hw|now apply O|exact Q].
  - injection E as <- ->. destruct (IH _ _ _ _ _ eq_refl S) as (y & r' & -> & -> & RP & (f & -> & DF) & R). destruct Hd as (D & -> & N).
    destruct (side_char d D) as [(o & EO & _) _]. rewrite EO in *.
    exists (w ++ [o] ++ y), r'. split; [now rewrite <- !app_assoc|]. split; [rewrite !strlen_app'; change (strlen [o]) with 1; lia|]. split; [exact RP|]. split; [eauto|].
    intros u qs O Q. rewrite <- !app_assoc. cbn [app]. apply reads_open with (y ++ f :: u); [exact Hw| |exact (R u qs O Q)].
    split; [exact D|]. split; [now rewrite EO|]. intros X. apply N. cbn [app] in *. now apply error_last with u.
  - injection E as <- <-. injection S as <- <-. pose proof Hd as (D & ->). exists w, r. split; [reflexivity|]. split; [reflexivity|]. split; [exact H|].
    split; [apply side_char; exact D|]. intros u qs O Q. cbn [app]. apply reads_close with u; [exact Hw|now split|exact Q].
  - injection E as <- ->. destruct (IH _ _ _ _ _ eq_refl S) as (y & r' & -> & -> & RP & (f & -> & DF) & R). destruct Hd as (D & ->).
    destruct (side_char d D) as [_ (o & EO & _)]. rewrite EO in *.
    exists (w ++ [o] ++ y), r'. split; [now rewrite <- !app_assoc|]. split; [rewrite !strlen_app'; change (strlen [o]) with 1; lia|]. split; [exact RP|]. split; [eauto|].
    intros u qs O Q. rewrite <- !app_assoc. cbn [app]. apply reads_close with (y ++ f :: u); [exact Hw|split; [exact D|now rewrite EO]|exact (R u qs O Q)].
  - injection E as <- _. discriminate S.
  - injection E as <- ->. destruct (IH _ _ _ _ _ eq_refl S) as (y & r' & -> & -> & RP & (f & -> & DF) & R).
    exists (w ++ d ++ y), r'. split; [now rewrite <- !app_assoc|]. split; [rewrite !strlen_app'; lia|]. split; [exact RP|]. split; [eauto|].
    intros u qs O Q. rewrite <- !app_assoc. cbn [app]. apply reads_doc; [exact Hw| |exact (R u qs O Q)].
    apply doc_swap with r'; [now apply delim_apart|exact Hd].
  - injection E as <- _. discriminate S.
  - injection E as <- ->. destruct (IH _ _ _ _ _ eq_refl S) as (y & r' & -> & -> & RP & (f & -> & DF) & R).
    exists (w ++ t ++ y), r'. split; [now rewrite <- !app_assoc|]. split; [rewrite !strlen_app'; lia|]. split; [exact RP|]. split; [eauto|].
    intros u qs O Q. rewrite <- !app_assoc. cbn [app]. apply reads_leaf; [exact Hw| |exact (R u qs O Q)].
    apply (foreign_swap UO) with r'; [now apply delim_apart|exact Hl].
  - injection E as <- <-. discriminate S.
  - injection E as _ E. destruct pre; discriminate E.
Qed.

Lemma error_block : plain_block (tag "/*ERROR*/").
Proof using.
  split; [|right; split; [left|]; intros (z & Z); discriminate Z]. exists (tag "ERROR*/"). split; [reflexivity|].
  repeat (apply nested_char; [|intros (z & Z); discriminate Z|intros (z & Z); discriminate Z]). apply nested_close.
Qed.
Lemma no_error_inside b m u mid ts : b + strlen m < two32 -> reads b m mid -> tree mid ts -> ~ begins ("("%ch :: m ++ LF :: u) error_text.
Proof using UO.
  intros B R T (z & Z). change error_text with ("("%ch :: tag "/*ERROR*/" ++ [")"%ch]) in Z. cbn [app] in Z. injection Z as Z.
  assert (M : exists v, m = tag "/*ERROR*/" ++ close_char Parenthesis ++ v).
  { change (m ++ LF :: u = (tag "/*ERROR*/" ++ close_char Parenthesis) ++ z) in Z. destruct (app_cases _ _ _ _ Z) as [(v & -> & _)|(v & E & F)]; [exists v; now rewrite <- app_assoc|].
    destruct v as [|c v]; [exists []; rewrite app_nil_r in E; now rewrite <- E|]. injection F as <- F. exfalso.
    assert (I : In LF (tag "/*ERROR*/" ++ close_char Parenthesis)) by (rewrite E; apply in_app_iff; right; now left).
    cbn in I. decompose [or] I; try discriminate; assumption. }
  destruct M as (v & ->). clear Z. destruct (reads_any UO (b + strlen (tag "/*ERROR*/") + 1) v) as (qs & Q).
  { rewrite !strlen_app' in B. change (strlen (close_char Parenthesis)) with 1 in B. lia. }
  assert (R' : reads b (tag "/*ERROR*/" ++ close_char Parenthesis ++ v) (PClose Parenthesis (b + strlen (tag "/*ERROR*/")) :: qs)).
  { apply reads_close with v; [|split; [cbn; tauto|reflexivity]|exact Q].
    apply (trivia_block (tag "/*ERROR*/") []); [|constructor]. exact error_block. }
  rewrite (reads_one _ _ _ _ B ltac:(discriminate) R R') in T. inversion T.
Qed.

Lemma graft : forall start x d m y ts inner, d <> DNone -> start + strlen (x ++ open_char d ++ m ++ close_char d ++ y) < two32 ->
  token_stream_from_str start (x ++ open_char d ++ m ++ close_char d ++ y) = Ok (Lexed ts) ->
  occurs (TGroup d inner (mkspan (start + strlen x) (start + strlen x + strlen m + 2))) ts ->
  forall m' new, (forall t, m' <> 0xFEFF :: t) -> token_stream_from_str (start + strlen x + 1) m' = Ok (Lexed new) ->
  start + strlen (x ++ open_char d ++ m' ++ LF :: close_char d ++ y) < two32 ->
  exists ts', token_stream_from_str start (x ++ open_char d ++ m' ++ LF :: close_char d ++ y) = Ok (Lexed ts') /\
    grafted (mkspan (start + strlen x) (start + strlen x + strlen m + 2)) (mkspan (start + strlen x) (start + strlen x + strlen m' + 3)) new ts ts'.
Proof using UO.
  intros start x d m y ts inner ND B P O m' new NM P' B'.
  apply (parse_reads UO _ start B) in P as (ps & (a & s0 & WB & R) & T).
  assert (BM : start + strlen x + 1 + strlen m' < two32).
  { rewrite !strlen_app' in B'. unfold strlen in *. cbn [length] in B'. lia. }
  apply (parse_reads UO _ _ BM) in P' as (mid' & (a1 & s1 & WB1 & R1) & T1).
  assert (E1 : a1 = start + strlen x + 1 /\ s1 = m') by (destruct WB1 as [s1|s1 _]; [now elim (NM s1)|auto]). destruct E1 as [-> ->].
  assert (D : In d delims) by (destruct d; cbn; tauto).
  destruct (side_char d D) as [(o & EO & DO) (cl & EC & DC)].
  assert (FB : exists x0, s0 = x0 ++ open_char d ++ m ++ close_char d ++ y /\ start + strlen x = a + strlen x0 /\
    forall u, without_bom start (x ++ open_char d ++ u) a (x0 ++ open_char d ++ u)).
  { rewrite EO in WB |- *. cbn [app] in *.
    assert (NF : o <> 0xFEFF) by (intros ->; cbn in DO; decompose [or] DO; try discriminate; assumption).
    destruct (bom_swap _ _ _ _ [] _ _ WB NF) as (x0 & E0 & L0 & _). exists x0. split; [exact E0|]. split; [exact L0|].
    intros u. destruct (bom_swap _ _ _ _ u _ _ WB NF) as (x1 & E1 & L1 & W1). rewrite E0 in E1.
    destruct (same_place a x0 x1 _ _ E1 ltac:(lia)) as [<- _]. exact W1. }
  destruct FB as (x0 & -> & EP & WB').
  destruct (tree_comes _ _ T _ _ _ O) as [(k & I & OK)|(pre & mid & q & post & -> & TM & Q)].
  { exfalso. destruct (reads_tok _ _ _ R _ _ _ _ I OK) as (y1 & r1 & E1 & L1). cbn [lo] in L1. rewrite EP in L1.
    destruct (same_place a x0 y1 _ _ E1 L1) as [_ E2]. destruct d; try discriminate E2. now elim ND. }
  cbn [lo hi] in *.
  destruct (reads_parts _ _ _ R _ _ _ _ _ eq_refl eq_refl) as (y1 & r1 & E1 & L1 & RP & _ & RG). rewrite EP in L1.
  destruct (same_place a x0 y1 _ _ E1 L1) as [<- E2]. apply app_inv_head in E2. subst r1. clear E1 L1.
  destruct (reads_parts _ _ _ RP _ _ _ _ _ eq_refl eq_refl) as (y2 & r2 & E2 & L2 & RP2 & _ & _).
  destruct (same_place 0 m y2 _ _ E2 ltac:(lia)) as [<- E3]. apply app_inv_head in E3. subst r2. clear E2.
  assert (LO : strlen (open_char d) = 1) by (now rewrite EO). assert (LC : strlen (close_char d) = 1) by (now rewrite EC).
  assert (BY : q + 1 + strlen y < two32) by (rewrite !strlen_app' in B; lia).
  destruct (reads_any UO 0 y) as (qs & QS); [lia|].
  assert (EQ : post = map (shiftp (q + 1)) qs).
  { assert (TL : trivia [LF]) by (apply trivia_blank; [left; reflexivity|constructor]).
    apply (reads_one q (LF :: y)); [unfold strlen in *; cbn [length]; lia|discriminate| |].
    - apply (reads_before q [LF] y post TL). exact RP2.
    - apply (reads_before q [LF] y _ TL). apply (reads_shift (q + 1)) in QS. rewrite N.add_0_l in QS. exact QS. }
  subst post. set (p := start + strlen x) in *. set (q' := p + strlen m' + 2).
  destruct (tree_graft _ _ T _ _ _ _ _ _ _ eq_refl TM mid' new q' T1) as (ts' & T' & G).
  exists ts'. replace (p + strlen m + 2) with (q + 1) by lia. replace (p + strlen m' + 3) with (q' + 1) by (unfold q'; lia). split; [|exact G].
  apply (parse_reads UO _ start B'). eexists. split; [|exact T'].
  exists a, (x0 ++ open_char d ++ m' ++ LF :: close_char d ++ y). split; [apply WB'|].
  apply RG.
  - intros d' ED. injection ED as <-. split; [exact D|]. split; [reflexivity|].
    destruct d; try (intros (z & Z); discriminate Z); [|now elim ND]. exact (no_error_inside _ _ _ _ _ BM R1 T1).
  - apply (reads_lf UO); [exact R1|exact (tree_no_bad _ _ T1)|].
    replace (p + 1 + strlen m' + 1) with q' by (unfold q'; lia).
    pose proof (reads_close q' [] (close_char d ++ y) d y (map (shiftp (q' + 1)) qs)) as RC. change (strlen []) with 0 in RC. rewrite N.add_0_r in RC.
    apply RC; [constructor|now split|]. apply (reads_shift (q' + 1)) in QS. rewrite N.add_0_l in QS. exact QS.
Qed.
End WithUnicode.
