(** * Where the characters of a parsed text went (C78, C16) *)
From Verif Require Import Base BaseFacts Unicode Tokens Lexer SpecText SpecTree SpecLit SpecGrammar SpecPlaces.
From Verif Require Import PureLexer Comments Spans LexemeProofs.
From Verif Require Import SpecLex.
From Coq Require Import Lia.
Local Open Scope N_scope.

(** ** Pieces and the tree *)
Lemma tree_leaf ps ts t : tree ps ts -> ~ is_group t ->
  occurs t ts <-> exists k, In (PTok k) ps /\ occurs t k.
Proof.
  intros H L. induction H as [|k ps ts H IH|d a b ps1 inner ps2 ts H1 IH1 H2 IH2].
  - split; [intros H; now apply occurs_nil in H|now intros (k & [] & _)].
  - rewrite occurs_app, IH. split.
    + intros [H'|(k' & I & O)]; [exists k; split; [now left|exact H']|exists k'; split; [now right|exact O]].
    + intros (k' & [[= ->]|I] & O); [now left|right; eauto].
  - rewrite occurs_cons, IH2. split.
    + intros [->|[(d' & inner' & sp & [= <- <- <-] & O)|(k & I & O)]]; [now destruct L| |].
      * apply IH1 in O as (k & I & O). exists k. split; [right; apply in_app_iff; now left|exact O].
      * exists k. split; [right; apply in_app_iff; right; now right|exact O].
    + intros (k & [[=]|I] & O). apply in_app_iff in I as [I|[[=]|I]]; [right; left|right; right; eauto].
      eexists _, _, _. split; [reflexivity|]. apply IH1. eauto.
Qed.
Lemma tree_open ps ts d a : tree ps ts -> In (POpen d a) ps ->
  exists inner b, occurs (TGroup d inner (mkspan a b)) ts.
Proof.
  intros H. induction H as [|k ps ts H IH|d' a' b' ps1 inner ps2 ts H1 IH1 H2 IH2]; [easy| |].
  - intros [[=]|I]. destruct (IH I) as (inner & b & O). exists inner, b. apply occurs_app. now right.
  - intros [[= <- <-]|I]; [exists inner, (b' + 1); apply occurs_cons; now left|].
    apply in_app_iff in I as [I|[[=]|I]].
    + destruct (IH1 I) as (i & b & O). exists i, b. apply occurs_cons. right. left. eauto.
    + destruct (IH2 I) as (i & b & O). exists i, b. apply occurs_cons. auto.
Qed.
Lemma tree_close ps ts d b : tree ps ts -> In (PClose d b) ps ->
  exists inner a, occurs (TGroup d inner (mkspan a (b + 1))) ts.
Proof.
  intros H. induction H as [|k ps ts H IH|d' a' b' ps1 inner ps2 ts H1 IH1 H2 IH2]; [easy| |].
  - intros [[=]|I]. destruct (IH I) as (inner & a & O). exists inner, a. apply occurs_app. now right.
  - intros [[=]|I]. apply in_app_iff in I as [I|[[= <- <-]|I]].
    + destruct (IH1 I) as (i & a & O). exists i, a. apply occurs_cons. right. left. eauto.
    + exists inner, a'. apply occurs_cons. now left.
    + destruct (IH2 I) as (i & a & O). exists i, a. apply occurs_cons. auto.
Qed.
Lemma tree_good ps ts p : tree ps ts -> ~ In (PBad p) ps.
Proof.
  intros H. induction H as [|k ps ts H IH|d' a' b' ps1 inner ps2 ts H1 IH1 H2 IH2]; [easy| |].
  - intros [[=]|I]. auto.
  - intros [[=]|I]. apply in_app_iff in I as [I|[[=]|I]]; auto.
Qed.

Section Places.
Context {U : unicode} (UO : unicode_ok U).

Lemma lexeme_span t r k sp : lexeme t r k -> token_span (k sp) = sp /\ ~ is_group (k sp).
Proof using. now intros []. Qed.
Lemma attribute_span t inner l sp : occurs t (doc_attribute inner l sp) -> token_span t = sp.
Proof using.
  unfold doc_attribute. rewrite !occurs_app, !occurs_cons.
  intros [[->|[(d & i & s & [=] & _)|H]]|[H|[->|[(d & i & s & [= <- <- <-] & H)|H]]]];
    try reflexivity; try (now apply occurs_nil in H).
  - destruct inner; [|now apply occurs_nil in H]. apply occurs_cons in H as [->|[(d & i & s & [=] & _)|H]]; [reflexivity|].
    now apply occurs_nil in H.
  - rewrite !occurs_cons in H. destruct H as [->|[(d & i & s & [=] & _)|[->|[(d & i & s & [=] & _)|[->|[(d & i & s & [=] & _)|H]]]]]];
      try reflexivity. now apply occurs_nil in H.
Qed.

(** Every token of a reading lies at or after where it starts. *)
Definition within (ps : list piece) (a : N) : Prop :=
  forall k t, In (PTok k) ps -> occurs t k -> a <= lo (token_span t).
Lemma reads_within a s ps : reads a s ps -> within ps a.
Proof using.
  induction 1 as [a s B|a w s d r ps Hw Hd H IH|a w s d r ps Hw Hd H IH|a w d r inner x ps Hw Hd H IH
                 |a w t r k ps Hw Hl H IH|a w s Hw Hs]; intros k' t' I O; [destruct I|..]; destruct I as [E|I];
    try discriminate; try (specialize (IH _ _ I O); lia).
  - injection E as <-. rewrite (attribute_span _ _ _ _ O). cbn. lia.
  - injection E as <-. destruct (lexeme_span _ _ _ (mkspan (a + strlen w) (a + strlen w + strlen t)) Hl) as (E & L).
    apply occurs_cons in O as [->|[(d & inner & sp & Eg & _)|O]]; [|rewrite Eg in L; now destruct L|now apply occurs_nil in O].
    rewrite E. cbn. lia.
  - destruct I.
Qed.

Definition clear_of (ps : list piece) (a b : N) : Prop :=
  forall k t, In (PTok k) ps -> occurs t k -> hi (token_span t) <= a \/ b <= lo (token_span t).

Lemma nth_split_app {A} (x y : list A) i c : nth_error (x ++ y) i = Some c ->
  (nth_error x i = Some c /\ (i < length x)%nat) \/ (exists j, i = (length x + j)%nat /\ nth_error y j = Some c).
Proof using.
  intros H. destruct (Nat.lt_ge_cases i (length x)) as [L|L].
  - left. now rewrite nth_error_app1 in H.
  - right. exists (i - length x)%nat. rewrite nth_error_app2 in H by exact L. split; [lia|exact H].
Qed.

(** A character of trivia is blank or in a comment. *)
Definition spot (w r : str) (i : nat) (c : char) : Prop :=
  exists w1 mid w2, w = w1 ++ mid ++ w2 /\ trivia w1 /\
    (length w1 <= i < length w1 + length mid)%nat /\ (mid = [c] /\ blank c \/ plain_comment mid (w2 ++ r)).
Lemma spot_after h w r i c : (forall w1, trivia w1 -> trivia (h ++ w1)) -> spot w r i c -> spot (h ++ w) r (length h + i) c.
Proof using.
  intros Hh (w1 & mid & w2 & -> & H & L & P). exists (h ++ w1), mid, w2.
  rewrite <- app_assoc, app_length. split; [reflexivity|]. split; [auto|]. split; [lia|exact P].
Qed.
Lemma spot_here mid w r i c : (i < length mid)%nat -> (mid = [c] /\ blank c \/ plain_comment mid (w ++ r)) ->
  spot (mid ++ w) r i c.
Proof using. intros L P. exists [], mid, w. repeat split; auto; [constructor|cbn; lia]. Qed.
Lemma trivia_place w : trivia w -> forall i c r, nth_error w i = Some c -> spot w r i c.
Proof using.
  induction 1 as [|b w B H IH|x w P H IH|b w P H IH]; intros i c r E.
  - now destruct i.
  - destruct i as [|i]; cbn in E; [injection E as ->; apply (spot_here [c]); cbn; auto|].
    apply (spot_after [b] w r i); [now constructor|now apply IH].
  - assert (Es : tag "//" ++ x ++ LF :: w = (tag "//" ++ x ++ [LF]) ++ w) by now rewrite <- !app_assoc.
    rewrite Es in *. apply nth_split_app in E as [[_ L]|(j & -> & E)].
    + apply spot_here; [exact L|]. right. right. exists x. auto.
    + apply spot_after; [|now apply IH]. intros w1 H1. rewrite <- !app_assoc. now apply trivia_line.
  - apply nth_split_app in E as [[_ L]|(j & -> & E)].
    + apply spot_here; [exact L|]. right. now left.
    + apply spot_after; [now constructor|now apply IH].
Qed.
Lemma blank_text_place s i c : blank_text s -> nth_error s i = Some c -> spot s [] i c.
Proof using.
  intros [w H|w x H P] E; [now apply trivia_place|].
  apply nth_split_app in E as [[E _]|(j & -> & E)].
  - destruct (trivia_place w H i c (tag "//" ++ x) E) as (w1 & mid & w2 & -> & H1 & L & Q).
    exists w1, mid, (w2 ++ tag "//" ++ x). rewrite app_nil_r. split; [now rewrite <- !app_assoc|]. auto.
  - apply spot_after; [intros w1 H1; now apply trivia_app|].
    assert (j < length (tag "//" ++ x))%nat by (apply nth_error_Some; congruence).
    rewrite <- (app_nil_r (tag "//" ++ x)). apply spot_here; [exact H0|]. right. right. exists x. auto.
Qed.

(** Positions after a piece. *)
Definition after (a : N) (ps : list piece) (p : N) : Prop :=
  p = a \/ (exists k t, In (PTok k) ps /\ occurs t k /\ ~ is_group t /\ hi (token_span t) = p) \/
  exists d q, (In (POpen d q) ps \/ In (PClose d q) ps) /\ q + 1 = p.
Definition gap (a : N) (s : str) (ps : list piece) (pre w mid post : str) : Prop :=
  s = pre ++ w ++ mid ++ post /\ after a ps (a + strlen pre) /\ trivia w /\
  clear_of ps (a + strlen pre) (a + strlen pre + strlen w + strlen mid).
Inductive placed (a : N) (s : str) (ps : list piece) (i : nat) (c : char) : Prop :=
| pl_tok k t : In (PTok k) ps -> occurs t k -> ~ is_group t -> covers t (a + N.of_nat i) -> placed a s ps i c
| pl_open d : In (POpen d (a + N.of_nat i)) ps -> [c] = open_char d -> placed a s ps i c
| pl_close d : In (PClose d (a + N.of_nat i)) ps -> [c] = close_char d -> placed a s ps i c
| pl_gap pre w mid post :
    gap a s ps pre w mid post -> (length pre + length w <= i < length pre + length w + length mid)%nat ->
    (mid = [c] /\ blank c \/ plain_comment mid post) -> placed a s ps i c.

Lemma placed_spot a w r ps i c : spot w r i c -> within ps (a + strlen w) -> placed a (w ++ r) ps i c.
Proof using.
  intros (w1 & mid & w2 & -> & H & L & P) W.
  apply (pl_gap _ _ _ _ _ [] w1 mid (w2 ++ r)); [|cbn; lia|exact P].
  split; [now rewrite <- !app_assoc|]. split; [left; unfold strlen; cbn; lia|]. split; [exact H|].
  intros k t I O. specialize (W k t I O). unfold strlen in *. rewrite !app_length in W. cbn. lia.
Qed.
(** Trivia before a reading. *)
Lemma placed_trivia a w r ps i c : trivia w -> within ps (a + strlen w) -> nth_error w i = Some c ->
  placed a (w ++ r) ps i c.
Proof using. intros H W E. apply placed_spot; [now apply trivia_place|exact W]. Qed.
(** What was placed stays placed when more text and one more piece come before. *)
Lemma placed_after a h s p ps i c : placed (a + strlen h) s ps i c ->
  (forall k t, p = PTok k -> occurs t k -> hi (token_span t) <= a + strlen h) ->
  after a [p] (a + strlen h) ->
  placed a (h ++ s) (p :: ps) (length h + i) c.
Proof using.
  intros H Hp Ha. assert (E : a + N.of_nat (length h + i) = a + strlen h + N.of_nat i) by (unfold strlen; lia).
  destruct H as [k t I O L K|d I C|d I C|pre w mid post (-> & A & T & C) L Q].
  - apply (pl_tok _ _ _ _ _ k t); auto; [now right|]. now rewrite E.
  - apply (pl_open _ _ _ _ _ d); [right; now rewrite E|exact C].
  - apply (pl_close _ _ _ _ _ d); [right; now rewrite E|exact C].
  - apply (pl_gap _ _ _ _ _ (h ++ pre) w mid post); [|rewrite app_length; lia|exact Q].
    assert (E' : a + strlen (h ++ pre) = a + strlen h + strlen pre) by (unfold strlen; rewrite app_length; lia).
    unfold gap. rewrite E', <- app_assoc. split; [reflexivity|]. split; [|split; [exact T|]].
    + destruct A as [A|[(k & t & I & R)|(d & q & I & R)]].
      * rewrite A. destruct Ha as [Ha|[(k & t & [I|[]] & R)|(d & q & I & R)]]; [now left| |].
        -- right. left. exists k, t. split; [now left|exact R].
        -- right. right. exists d, q. split; [|exact R]. destruct I as [[I|[]]|[I|[]]]; [left|right]; now left.
      * right. left. exists k, t. split; [now right|exact R].
      * right. right. exists d, q. split; [|exact R]. destruct I; [left|right]; now right.
    + intros k t [->|I] O; [left|now apply C with k]. specialize (Hp k t eq_refl O). lia.
Qed.

Theorem reads_placed a s ps : reads a s ps -> (forall p, ~ In (PBad p) ps) ->
  forall i c, nth_error s i = Some c -> placed a s ps i c.
Proof using UO.
  induction 1 as [a s B|a w s d r ps Hw (Hd & -> & _) H IH|a w s d r ps Hw (Hd & ->) H IH|a w d r inner x ps Hw Hd H IH
                 |a w t r k ps Hw Hl H IH|a w s Hw Hs]; intros G i c E.
  - rewrite <- (app_nil_r s). apply placed_spot; [now apply blank_text_place|]. now intros k t [].
  - assert (W : within (POpen d (a + strlen w) :: ps) (a + strlen w)).
    { intros k t [[=]|I] O. pose proof (reads_within _ _ _ H k t I O). lia. }
    apply nth_split_app in E as [[E _]|(j & -> & E)]; [now apply placed_trivia|].
    assert (exists o, open_char d = [o]) as [o Eo] by (destruct Hd as [<-|[<-|[<-|[]]]]; eexists; reflexivity).
    rewrite Eo in E |- *. destruct j as [|j].
    + injection E as <-. apply (pl_open _ _ _ _ _ d); [left|now rewrite Eo]. unfold strlen. now rewrite Nat.add_0_r.
    + cbn in E. replace (length w + S j)%nat with (length (w ++ [o]) + j)%nat by (rewrite app_length; cbn; lia).
      rewrite app_assoc. assert (El : a + strlen (w ++ [o]) = a + strlen w + 1) by (unfold strlen; rewrite app_length; cbn; lia).
      apply placed_after; [|now intros k t [=]|]; rewrite El.
      * apply IH; [|exact E]. intros p I. apply (G p). now right.
      * right. right. exists d, (a + strlen w). split; [|reflexivity]. left; now left.
  - assert (W : within (PClose d (a + strlen w) :: ps) (a + strlen w)).
    { intros k t [[=]|I] O. pose proof (reads_within _ _ _ H k t I O). lia. }
    apply nth_split_app in E as [[E _]|(j & -> & E)]; [now apply placed_trivia|].
    assert (exists o, close_char d = [o]) as [o Eo] by (destruct Hd as [<-|[<-|[<-|[]]]]; eexists; reflexivity).
    rewrite Eo in E |- *. destruct j as [|j].
    + injection E as <-. apply (pl_close _ _ _ _ _ d); [left|now rewrite Eo]. unfold strlen. now rewrite Nat.add_0_r.
    + cbn in E. replace (length w + S j)%nat with (length (w ++ [o]) + j)%nat by (rewrite app_length; cbn; lia).
      rewrite app_assoc. assert (El : a + strlen (w ++ [o]) = a + strlen w + 1) by (unfold strlen; rewrite app_length; cbn; lia).
      apply placed_after; [|now intros k t [=]|]; rewrite El.
      * apply IH; [|exact E]. intros p I. apply (G p). now right.
      * right. right. exists d, (a + strlen w). split; [|reflexivity]. right; now left.
  - set (sp := mkspan (a + strlen w) (a + strlen w + strlen d)) in *.
    set (k0 := doc_attribute inner (literal_string x) sp) in *.
    assert (S : forall t, occurs t k0 -> token_span t = sp) by (intros t; apply attribute_span).
    assert (W : within (PTok k0 :: ps) (a + strlen w)).
    { intros k t [[= <-]|I] O; [rewrite (S t O); cbn; lia|]. pose proof (reads_within _ _ _ H k t I O). lia. }
    apply nth_split_app in E as [[E _]|(j & -> & E)]; [now apply placed_trivia|].
    apply nth_split_app in E as [[_ L]|(j' & -> & E)].
    + apply (pl_tok _ _ _ _ _ k0 (TPunct "#"%ch Alone sp)); [now left|apply occurs_cons; now left|easy|].
      unfold covers, sp, strlen. cbn. lia.
    + rewrite app_assoc. replace (length w + (length d + j'))%nat with (length (w ++ d) + j')%nat by (rewrite app_length; lia).
      assert (Es : a + strlen (w ++ d) = a + strlen w + strlen d) by (unfold strlen; rewrite app_length; lia).
      apply placed_after; rewrite Es.
      * apply IH; [|exact E]. intros p I. apply (G p). now right.
      * intros k t [= <-] O. rewrite (S t O). cbn. lia.
      * right. left. exists k0, (TPunct "#"%ch Alone sp). split; [now left|]. split; [apply occurs_cons; now left|]. now split.
  - set (sp := mkspan (a + strlen w) (a + strlen w + strlen t)) in *.
    destruct (lexeme_span _ _ _ sp Hl) as (S & Lf).
    assert (S' : forall u, occurs u [k sp] -> u = k sp).
    { intros u O. apply occurs_cons in O as [O|[(d & i' & s' & O & _)|O]]; [exact O|rewrite O in Lf; now destruct Lf|now apply occurs_nil in O]. }
    assert (W : within (PTok [k sp] :: ps) (a + strlen w)).
    { intros k' u [[= <-]|I] O; [rewrite (S' u O), S; cbn; lia|]. pose proof (reads_within _ _ _ H k' u I O). lia. }
    apply nth_split_app in E as [[E _]|(j & -> & E)]; [now apply placed_trivia|].
    apply nth_split_app in E as [[_ L]|(j' & -> & E)].
    + apply (pl_tok _ _ _ _ _ [k sp] (k sp)); [now left|apply occurs_cons; now left|exact Lf|].
      unfold covers. rewrite S. unfold sp, strlen. cbn. lia.
    + rewrite app_assoc. replace (length w + (length t + j'))%nat with (length (w ++ t) + j')%nat by (rewrite app_length; lia).
      assert (Es : a + strlen (w ++ t) = a + strlen w + strlen t) by (unfold strlen; rewrite app_length; lia).
      apply placed_after; rewrite Es.
      * apply IH; [|exact E]. intros p I. apply (G p). now right.
      * intros k' u [= <-] O. rewrite (S' u O), S. cbn. lia.
      * right. left. exists [k sp], (k sp). split; [now left|]. split; [apply occurs_cons; now left|]. split; [exact Lf|now rewrite S].
  - exfalso. apply (G (a + strlen w)). now left.
Qed.

Lemma clear_apart ps ts a b : tree ps ts -> clear_of ps a b -> apart ts a b.
Proof using. intros T C t O L. apply (tree_leaf _ _ _ T L) in O as (k & I & O). eauto. Qed.
Lemma after_boundary start src ps ts a p : tree ps ts -> boundary start src ts a -> after a ps p -> boundary start src ts p.
Proof using.
  intros T B [->|[(k & t & I & O & L & E)|(d & q & [I|I] & E)]]; [exact B| | |].
  - apply (after_token _ _ _ _ t); [|exact L|exact E]. apply (tree_leaf _ _ _ T L). eauto.
  - destruct (tree_open _ _ _ _ T I) as (inner & b & O). now apply (after_open _ _ _ _ d inner (mkspan q b)).
  - destruct (tree_close _ _ _ _ T I) as (inner & b & O). now apply (after_close _ _ _ _ d inner (mkspan b (q + 1))).
Qed.
Lemma placed_place start h s ps ts i c : tree ps ts -> boundary start (h ++ s) ts (start + strlen h) ->
  placed (start + strlen h) s ps i c -> place start (h ++ s) ts (length h + i) c.
Proof using.
  intros T B H. assert (E : start + N.of_nat (length h + i) = start + strlen h + N.of_nat i) by (unfold strlen; lia).
  destruct H as [k t I O L K|d I C|d I C|pre w mid post (-> & A & W & C) L Q].
  - apply (in_token _ _ _ _ _ t); [|exact L|now rewrite E]. apply (tree_leaf _ _ _ T L). eauto.
  - destruct (tree_open _ _ _ _ T I) as (inner & b & O). rewrite <- E in O. now apply (at_open _ _ _ _ _ d inner (mkspan (start + N.of_nat (length h + i)) b)).
  - destruct (tree_close _ _ _ _ T I) as (inner & b & O). rewrite <- E in O. now apply (at_close _ _ _ _ _ d inner (mkspan b (start + N.of_nat (length h + i) + 1))).
  - assert (G : between_tokens start (h ++ pre ++ w ++ mid ++ post) ts (h ++ pre) w mid post).
    { assert (E' : start + strlen (h ++ pre) = start + strlen h + strlen pre) by (unfold strlen; rewrite app_length; lia).
      unfold between_tokens. rewrite E'. split; [now rewrite <- !app_assoc|].
      split; [now apply after_boundary with ps (start + strlen h)|]. split; [exact W|]. now apply clear_apart with ps. }
    destruct Q as [[-> Q]|Q].
    + apply (at_blank _ _ _ _ _ (h ++ pre) w post); [exact G|exact Q|]. rewrite app_length. cbn in L. lia.
    + apply at_comment. apply (comment_at _ _ _ _ (h ++ pre) w mid post); [exact G|exact Q|]. rewrite app_length. lia.
Qed.
Theorem accounted start src ts : start + strlen src < two32 -> token_stream_from_str start src = Ok (Lexed ts) ->
  forall i c, nth_error src i = Some c -> place start src ts i c.
Proof using UO.
  intros B P i c E. apply (parse_reads UO src start B) in P as (ps & (a & s & N & R) & T).
  assert (G : forall p, ~ In (PBad p) ps) by (intros p; now apply tree_good with ts).
  destruct N as [s|s Hs].
  - destruct i as [|i]; [injection E as <-; now apply at_bom|].
    apply (placed_place start [0xFEFF] s ps ts i c T); [apply after_bom; [now exists s|reflexivity]|].
    apply (reads_placed _ _ _ R G i c E).
  - assert (E0 : start + strlen [] = start) by (unfold strlen; cbn; lia).
    apply (placed_place start [] s ps ts i c T); rewrite E0; [now apply at_start|]. now apply reads_placed.
Qed.

(** ** Foreign characters *)
Lemma reads_pieces a s ps k : reads a s ps -> In (PTok k) ps ->
  (exists inner l sp, k = doc_attribute inner l sp) \/ (exists t r f sp, k = [f sp] /\ lexeme t r f).
Proof using.
  induction 1 as [a s B|a w s d r ps Hw Hd H IH|a w s d r ps Hw Hd H IH|a w d r inner x ps Hw Hd H IH
                 |a w t r f ps Hw Hl H IH|a w s Hw Hs]; intros I; [destruct I|..]; destruct I as [E|I];
    try discriminate; auto.
  - injection E as <-. left. eauto.
  - injection E as <-. right. eexists t, r, f, _. eauto.
  - destruct I.
Qed.
Lemma word_foreign s c : ident_text s -> foreign c -> ~ In c s.
Proof using UO.
  intros (h & t & -> & Hh & Ht) (_ & Hx & _) [->|I].
  - destruct Hh as [->|Hh].
    + rewrite (xid_continue_ascii U UO) in Hx by reflexivity. discriminate.
    + rewrite (xid_start_continue U UO _ Hh) in Hx. discriminate.
  - rewrite Forall_forall in Ht. specialize (Ht _ I). cbn in Ht. congruence.
Qed.
Lemma covered_in src start sp i c : nth_error src i = Some c -> start <= lo sp ->
  lo sp <= start + N.of_nat i -> start + N.of_nat i < hi sp -> In c (text_under src start sp).
Proof using.
  intros E S L H. unfold text_under. apply nth_error_In with (i - N.to_nat (lo sp - start))%nat.
  assert (F : forall n (l : str) j, (j < n)%nat -> nth_error (firstn n l) j = nth_error l j).
  { induction n as [|n IHn]; [lia|]. intros [|h l] j Hj; [reflexivity|]. destruct j; [reflexivity|]. cbn. apply IHn. lia. }
  assert (K : forall n (l : str) j, nth_error (skipn n l) j = nth_error l (n + j)).
  { induction n as [|n IHn]; [reflexivity|]. intros [|h l] j; [now destruct j|]. apply IHn. }
  rewrite F by lia. rewrite K. rewrite <- E. f_equal. lia.
Qed.
Lemma leaf_foreign t r f sp c : lexeme t r f -> foreign c -> In c (Fallback.tree_to_string (f sp)) ->
  exists s, f sp = TLiteral s sp.
Proof using UO.
  intros H F I. destruct H as [t r H|p r sg H|t r s raw H|r]; [now eexists| | |now eexists]; exfalso.
  - assert (P : In p punct_chars) by (destruct H; auto; cbn; tauto).
    destruct I as [->|[]]. now apply F.
  - destruct H as [s r H _ _|s r H _ _]; cbn in I.
    + now apply (word_foreign s c H F).
    + destruct I as [<-|[<-|I]].
      * destruct F as (_ & Hx & _). rewrite (xid_continue_ascii U UO) in Hx by reflexivity. discriminate.
      * destruct F as (_ & _ & Hp & _). apply Hp. cbn. tauto.
      * now apply (word_foreign s c H F).
Qed.
Lemma attribute_foreign inner l sp c t : foreign c -> ~ is_group t -> occurs t (doc_attribute inner l sp) ->
  In c (Fallback.tree_to_string t) -> t = TLiteral l sp.
Proof using UO.
  intros F L O I.
  assert (P : forall p, In p punct_chars -> ~ In c [p]) by (intros p Hp [->|[]]; now apply F).
  unfold doc_attribute in O. rewrite !occurs_app, !occurs_cons in O.
  destruct O as [[->|[(d & i & s & [=] & _)|H]]|[H|[->|[(d & i & s & [= <- <- <-] & H)|H]]]];
    try (now apply occurs_nil in H); try (now destruct L).
  - exfalso. revert I. apply P. cbn. tauto.
  - exfalso. destruct inner; [|now apply occurs_nil in H].
    apply occurs_cons in H as [->|[(d & i & s & [=] & _)|H]]; [|now apply occurs_nil in H].
    revert I. apply P. cbn. tauto.
  - rewrite !occurs_cons in H.
    destruct H as [->|[(d & i & s & [=] & _)|[->|[(d & i & s & [=] & _)|[->|[(d & i & s & [=] & _)|H]]]]]];
      [| |reflexivity|now apply occurs_nil in H]; exfalso.
    + apply (word_foreign (tag "doc") c); [|exact F|exact I]. exists "d"%ch, (tag "oc"). split; [reflexivity|].
      split; [right; now rewrite (xid_start_ascii U UO)|].
      repeat constructor; now rewrite (xid_continue_ascii U UO).
    + revert I. apply P. cbn. tauto.
Qed.
Theorem foreign_enclosed start src ts : start + strlen src < two32 -> token_stream_from_str start src = Ok (Lexed ts) ->
  forall i c, nth_error src i = Some c -> foreign c -> (i = 0%nat /\ c = 0xFEFF) \/ enclosed start src ts i.
Proof using UO.
  intros B P i c E F.
  destruct (accounted start src ts B P i c E) as [t O L K|d inner sp O L C|d inner sp O L C|pre w post C Bl Ei|C|Ei Ec].
  - right. destruct (leaf_source UO src start B ts t P O L) as [T|T]; [|now apply (by_doc _ _ _ _ t)].
    pose proof (proj1 (parse_reads UO src start B ts) P) as (ps & (a & s & N & R) & Tr).
    pose proof (proj1 (tree_leaf _ _ _ Tr L) O) as (k & I & O').
    assert (Hlo : start <= lo (token_span t)).
    { pose proof (reads_within _ _ _ R k t I O'). destruct N; lia. }
    pose proof (covered_in _ _ _ _ _ E Hlo (proj1 K) (proj2 K)) as Ic. rewrite T in Ic.
    destruct (reads_pieces _ _ _ _ R I) as [(inner & l & sp & ->)|(u & r & f & sp & -> & Hl)].
    + rewrite (attribute_foreign _ _ _ _ _ F L O' Ic) in *. now apply (by_literal _ _ _ _ l sp).
    + apply occurs_cons in O' as [->|[(d & i' & sp' & Eg & _)|O']]; [| |now apply occurs_nil in O'].
      * destruct (leaf_foreign _ _ _ _ _ Hl F Ic) as (s' & Ef). rewrite Ef in *. now apply (by_literal _ _ _ _ s' sp).
      * destruct (lexeme_span _ _ _ sp Hl) as [_ G]. rewrite Eg in G. now destruct G.
  - destruct F as (_ & _ & _ & F). now destruct (F d).
  - destruct F as (_ & _ & _ & F). now destruct (F d).
  - destruct F as (F & _). now destruct F.
  - right. now apply by_comment.
  - left. auto.
Qed.
Lemma bom_foreign : foreign 0xFEFF.
Proof using UO.
  split; [intros [H|[H|H]]; discriminate|]. split; [apply (xid_not_marks U UO)|].
  split; [cbn; intuition discriminate|]. intros []; split; discriminate.
Qed.
Theorem bom_enclosed start src ts : start + strlen src < two32 -> token_stream_from_str start src = Ok (Lexed ts) ->
  forall i, nth_error src i = Some 0xFEFF -> i = 0%nat \/ enclosed start src ts i.
Proof using UO.
  intros B P i E. destruct (foreign_enclosed start src ts B P i _ E bom_foreign) as [[-> _]|H]; auto.
Qed.
End Places.

(** ** A concrete text *)
Section Sample.
Let text : str := tag "(a /*`*/ ""`"")".
Let one := TIdent (tag "a") false (mkspan 6 7).
Let two := TLiteral (tag """`""") (mkspan 14 17).
Let ts := [TGroup Parenthesis [one; two] (mkspan 5 18)].
Lemma sample_leaf t : occurs t ts -> ~ is_group t -> t = one \/ t = two.
Proof.
  intros O L. apply occurs_cons in O as [->|[(d & i & s & [= <- <- <-] & O)|O]]; [now destruct L| |now apply occurs_nil in O].
  rewrite !occurs_cons in O. destruct O as [->|[(d & i & s & [=] & _)|[->|[(d & i & s & [=] & _)|O]]]]; auto.
  now apply occurs_nil in O.
Qed.
Lemma sample_one : occurs one ts.
Proof. apply occurs_cons. right. left. eexists _, _, _. split; [reflexivity|]. apply occurs_cons. now left. Qed.
Lemma sample_two : occurs two ts.
Proof.
  apply occurs_cons. right. left. eexists _, _, _. split; [reflexivity|]. apply occurs_cons. right. right.
  apply occurs_cons. now left.
Qed.
Lemma places_example :
  @token_stream_from_str sample_unicode 5 text = Ok (Lexed ts) /\
  nth_error text 5 = Some "`"%ch /\ @foreign sample_unicode "`"%ch /\ enclosed 5 text ts 5 /\
  enclosed 5 text ts 10 /\
  apart ts 7 8 /\ ~ apart ts 7 15 /\ ~ enclosed 5 text ts 1.
Proof.
  split; [vm_compute; reflexivity|]. split; [reflexivity|]. split.
  { split; [intros [H|[H|H]]; discriminate|]. split; [reflexivity|]. split; [cbn; intuition discriminate|].
    intros []; split; discriminate. }
  assert (P : plain_block (tag "/*`*/")).
  { split; [exists (tag "`*/"); split; [reflexivity|]|right; split; [left|]; intros [x [=]]].
    apply (nested_char "`"%ch); [apply nested_close|now intros [x [=]]..]. }
  split; [|split; [|split; [|split]]].
  - apply by_comment. apply (comment_at _ _ _ _ (tag "(a") (tag " ") (tag "/*`*/") (tag " ""`"")")); [|now left|cbn; lia].
    split; [reflexivity|]. split; [apply (after_token _ _ _ _ one); [exact sample_one|easy|reflexivity]|].
    split; [apply trivia_blank; [now left|constructor]|]. intros t O L. destruct (sample_leaf t O L) as [->| ->]; unfold strlen; cbn; lia.
  - apply (by_literal _ _ _ _ (tag """`""") (mkspan 14 17)); [exact sample_two|]. split; cbn; lia.
  - intros t O L. destruct (sample_leaf t O L) as [->| ->]; unfold strlen; cbn; lia.
  - intros H. destruct (H two sample_two) as [K|K]; [easy|cbn in K; lia|cbn in K; lia].
  - intros [[pre w mid post (_ & _ & _ & A) Q L]|s sp O K|t O L K D].
    + destruct (A one sample_one) as [K|K]; [easy| |]; unfold strlen in K; cbn in K; lia.
    + destruct (sample_leaf _ O) as [H|H]; [easy|discriminate|]. injection H as -> ->. destruct K as [K _]. cbn in K. lia.
    + destruct (sample_leaf t O L) as [->| ->]; [|destruct K as [K _]; cbn in K; lia].
      destruct D as (inner & x & [H|H]); inversion H.
Qed.
End Sample.
