(** * Proofs about the spacing of parsed puncts *)
From Verif Require Import Base BaseFacts Unicode Tokens Lexer.
From Verif Require Import SpecText SpecTree SpecLit SpecGrammar SpecSpacing LexemeProofs.
Local Open Scope N_scope.

Section Spacing.
Context {U : unicode} (HU : unicode_ok U).

Lemma blank_not_punct c : blank c -> ~ In c punct_chars.
Proof using.
  intros B I. cbn in I. repeat (destruct I as [<-|I]; [destruct B as [B|[B|B]]; discriminate B|]). exact I.
Qed.
Lemma trivia_head w s : trivia w -> w <> [] -> starts_punct (w ++ s) -> False.
Proof using.
  intros T N (c & t & E & I & N1 & N2). destruct T as [|b w B T|x w X T|b w X T].
  - now apply N.
  - cbn [app] in E. injection E as <- _. exact (blank_not_punct _ B I).
  - apply N1. exists (x ++ LF :: w ++ s). rewrite <- !app_assoc. reflexivity.
  - destruct X as [(v & -> & _) _]. apply N2. exists (v ++ w ++ s). now rewrite <- !app_assoc.
Qed.
Lemma punct_not_delim c : In c punct_chars -> forall d, In d delims -> open_char d <> [c] /\ close_char d <> [c].
Proof using.
  intros I d D. cbn in I, D.
  repeat (destruct I as [<-|I]; [repeat (destruct D as [<-|D]; [split; discriminate|]); contradiction|]). contradiction.
Qed.
Lemma punct_not_digit c : In c punct_chars -> is_dec_digit c = false.
Proof using. intros I. cbn in I. repeat (destruct I as [<-|I]; [reflexivity|]). contradiction. Qed.
Lemma punct_not_start c : In c punct_chars -> ~ start_char c.
Proof using HU.
  intros I [E|E].
  - subst c. cbn in I. repeat (destruct I as [I|I]; [discriminate I|]). exact I.
  - assert (L : c < 128) by (cbn in I; repeat (destruct I as [<-|I]; [reflexivity|]); contradiction).
    rewrite (xid_start_ascii U HU c L) in E. cbn in I. repeat (destruct I as [<-|I]; [discriminate E|]). exact I.
Qed.
(** The first character of quoted literals. *)
Lemma prefix_cases k : prefix k = [] \/ prefix k = tag "b" \/ prefix k = tag "c".
Proof using. destruct k; cbn; auto. Qed.
Lemma quoted_punct t c u : quoted t -> t = c :: u -> In c punct_chars -> c = SQUOTE.
Proof using.
  intros Q E I.
  assert (X : forall k (y : str), c :: u = prefix k ++ y -> prefix k <> [] -> False).
  { intros k y E' N. destruct (prefix_cases k) as [P|[P|P]]; [contradiction|..]; rewrite P in E'; injection E' as -> _;
      cbn in I; repeat (destruct I as [I|I]; [discriminate I|]); exact I. }
  assert (Y : c = DQUOTE -> False) by (intros ->; cbn in I; repeat (destruct I as [I|I]; [discriminate I|]); exact I).
  rewrite E in Q. inversion Q as [k b v C1 C2 EQ|k n b L C1 F NO EQ|k c' K N B EQ|k e v K S EQ].
  - destruct (prefix k) eqn:P; [|exfalso; eapply (X k); [symmetry; rewrite P; exact EQ|rewrite P; discriminate]].
    cbn in EQ. injection EQ as <- _. now destruct Y.
  - exfalso. destruct k; cbn in EQ; injection EQ as <- _; cbn in I; repeat (destruct I as [I|I]; [discriminate I|]); exact I.
  - destruct (prefix k) eqn:P; [|exfalso; eapply (X k); [symmetry; rewrite P; exact EQ|rewrite P; discriminate]].
    cbn in EQ. congruence.
  - destruct (prefix k) eqn:P; [|exfalso; eapply (X k); [symmetry; rewrite P; exact EQ|rewrite P; discriminate]].
    cbn in EQ. congruence.
Qed.
Lemma quoted_nonempty t : quoted t -> t <> [].
Proof using. intros [k b v ? ?|k n b ? ? ? ?|k c ? ? ?|k e v ? ?]; destruct k; discriminate. Qed.
Lemma literal_punct t r c u : literal_at t r -> t = c :: u -> In c punct_chars -> c = SQUOTE.
Proof using.
  intros L E I. destruct L as [q r Q N|q s r Q S W|t r F|t r F N].
  - eapply quoted_punct; eassumption.
  - destruct q as [|c' q]; [now destruct (quoted_nonempty _ Q)|]. cbn in E. injection E as -> _. eapply quoted_punct; [exact Q|reflexivity|exact I].
  - destruct (float_first _ _ F) as (c' & u' & E' & D). rewrite E in E'. injection E' as <- _. rewrite punct_not_digit in D by exact I. discriminate D.
  - destruct (int_first _ _ F) as (c' & u' & E' & D). rewrite E in E'. injection E' as <- _. rewrite punct_not_digit in D by exact I. discriminate D.
Qed.
Lemma literal_nonempty t r : literal_at t r -> t <> [].
Proof using.
  intros [q r' Q N|q s r' Q S W|t' r' F|t' r' F N].
  - exact (quoted_nonempty _ Q).
  - intros E. apply app_eq_nil in E. exact (quoted_nonempty _ Q (proj1 E)).
  - destruct (float_first _ _ F) as (c' & u' & -> & _). discriminate.
  - destruct (int_first _ _ F) as (c' & u' & -> & _). discriminate.
Qed.
Lemma lexeme_nonempty t r k : lexeme t r k -> t <> [].
Proof using.
  intros [t' r' L|c r' sg P|t' r' s raw I|r']; try discriminate.
  - exact (literal_nonempty _ _ L).
  - destruct I as [s r' (c & u & -> & _) _ _|s r' _ _ _]; discriminate.
Qed.

Definition no_bad (ps : list piece) : Prop := forall p, ~ In (PBad p) ps.
Lemma no_bad_tail p ps : no_bad (p :: ps) -> no_bad ps.
Proof using. intros N q I. apply (N q). now right. Qed.

(** ** After a joint punct *)
Lemma reads_punct a s ps : reads a s ps -> no_bad ps -> starts_punct s ->
  exists u y, ps = PTok [u] :: y /\ lo (token_span u) = a /\ (is_punct u \/ char_like u).
Proof using HU.
  intros R NB P. pose proof P as (c & t0 & E0 & I & N1 & N2).
  destruct R as [a s B|a w s d r ps T O R|a w s d r ps T O R|a w d r inner x ps T O R|a w t r k ps T L R|a w s T UN].
  - exfalso. destruct B as [w T|w x T X].
    + destruct w as [|c0 w]; [discriminate E0|]. apply (trivia_head (c0 :: w) [] T); [discriminate|rewrite app_nil_r; exact P].
    + destruct w as [|c0 w]; [|eapply (trivia_head (c0 :: w)); [exact T|discriminate|exact P]].
      apply N1. now exists x.
  - exfalso. destruct w as [|c0 w]; [|eapply (trivia_head (c0 :: w)); [exact T|discriminate|exact P]].
    destruct O as (D & O & _). destruct (punct_not_delim c I d D) as [X _]. cbn [app] in E0. rewrite O in E0.
    destruct d; cbn in D, E0, X; try (injection E0 as E0 _; subst c; now apply X); intuition discriminate.
  - exfalso. destruct w as [|c0 w]; [|eapply (trivia_head (c0 :: w)); [exact T|discriminate|exact P]].
    destruct O as (D & O). destruct (punct_not_delim c I d D) as [_ X]. cbn [app] in E0. rewrite O in E0.
    destruct d; cbn in D, E0, X; try (injection E0 as E0 _; subst c; now apply X); intuition discriminate.
  - exfalso. destruct w as [|c0 w]; [|eapply (trivia_head (c0 :: w)); [exact T|discriminate|exact P]].
    cbn [app] in N1, N2.
    destruct O as [d r i x DL _ _|d r i x DL _ _|d r i x DB _].
    + apply N1. destruct DL; eexists; cbn; reflexivity.
    + apply N1. destruct DL; eexists; cbn; reflexivity.
    + apply N2. destruct DB; eexists; cbn; reflexivity.
  - destruct w as [|c0 w]; [|exfalso; eapply (trivia_head (c0 :: w)); [exact T|discriminate|exact P]].
    cbn [app] in *. eexists _, _. split; [reflexivity|].
    change (strlen []) with 0 in *. rewrite N.add_0_r in *.
    destruct t as [|c' t']; [now destruct (lexeme_nonempty _ _ _ L)|]. cbn [app] in E0. injection E0 as -> <-.
    split; [destruct L; reflexivity|].
    inversion L as [t r' LA E1 E2 E3|c1 r' sg PA E1 E2 E3|t r' s raw IA E1 E2 E3|r' E1 E2 E3]; subst.
    + right. rewrite (literal_punct _ _ _ _ LA eq_refl I). eexists _, _. reflexivity.
    + left. eexists _, _, _. reflexivity.
    + exfalso. apply (punct_not_start _ I).
      inversion IA as [s' r'' (c1 & u & F & SC & _) W NP F1 F2|s' r'' IT NR W F1 F2]; subst; [injection F as -> _; exact SC|].
      right. rewrite (xid_start_ascii U HU) by reflexivity. reflexivity.
    + exfalso. cbn in I. repeat (destruct I as [I|I]; [discriminate I|]). exact I.
  - exfalso. eapply NB. left. reflexivity.
Qed.

(** ** After the quotation mark of a lifetime *)
Lemma start_facts c : start_char c -> ~ In c punct_chars /\ ~ blank c /\ is_dec_digit c = false /\ c <> DQUOTE /\
  (forall d, In d delims -> open_char d <> [c] /\ close_char d <> [c]).
Proof using HU.
  intros S. split; [intros I; exact (punct_not_start _ I S)|].
  assert (C : is_xid_continue c = true).
  { destruct S as [->|S]; [now rewrite (xid_continue_ascii U HU) by reflexivity|exact (xid_start_continue U HU c S)]. }
  assert (A : forall x, x < 128 -> c = x -> is_xid_start x = true \/ x = "_"%ch) by (intros x _ <-; destruct S; auto).
  repeat split.
  - intros [B|[->| ->]].
    + rewrite (xid_not_space U HU c B) in C. discriminate C.
    + destruct (xid_not_marks U HU) as (X & _). rewrite X in C. discriminate C.
    + destruct (xid_not_marks U HU) as (_ & X & _). rewrite X in C. discriminate C.
  - destruct (is_dec_digit c) eqn:D; [|reflexivity]. exfalso.
    assert (L : c < 128) by (unfold is_dec_digit, between in D; lia).
    destruct S as [->|S]; [discriminate D|]. rewrite (xid_start_ascii U HU c L) in S. unfold is_dec_digit, ascii_letter, between in *. cbn in *. lia.
  - intros ->. destruct (A DQUOTE) as [X|X]; [reflexivity|reflexivity| |discriminate X]. rewrite (xid_start_ascii U HU) in X by reflexivity. discriminate X.
  - destruct d; cbn in H; try (intuition discriminate); cbn; intros [= <-]; (destruct S as [S|S]; [discriminate S|rewrite (xid_start_ascii U HU) in S by reflexivity; discriminate S]).
  - destruct d; cbn in H; try (intuition discriminate); cbn; intros [= <-]; (destruct S as [S|S]; [discriminate S|rewrite (xid_start_ascii U HU) in S by reflexivity; discriminate S]).
Qed.

Lemma quoted_word q c u : quoted q -> q = c :: u -> start_char c -> exists p x, q = p ++ x /\ literal_prefix p x /\
    (forall z, x = "#"%ch :: z -> exists e y, z = e :: y /\ ~ start_char e).
Proof using HU.
  intros Q E S. destruct (start_facts c S) as (N1 & _ & _ & N2 & _). unfold literal_prefix.
  destruct Q as [k b v C1 C2|k n b L C1 F NO|k c' K N B|k e v K ES].
  - destruct k; cbn in E; injection E as <- _; [now destruct N2|..].
    + exists (tag "b"), ([DQUOTE] ++ b ++ [DQUOTE]). split; [reflexivity|]. split; [left; split; [cbn; tauto|eexists; reflexivity]|discriminate].
    + exists (tag "c"), ([DQUOTE] ++ b ++ [DQUOTE]). split; [reflexivity|]. split; [left; split; [cbn; tauto|eexists; reflexivity]|discriminate].
  - exists (prefix k ++ tag "r"), (repeat "#"%ch n ++ [DQUOTE] ++ b ++ [DQUOTE] ++ repeat "#"%ch n).
    split; [unfold raw_literal; now rewrite <- !app_assoc|].
    assert (ND : ~ start_char DQUOTE) by (intros X; now destruct (start_facts _ X) as (_ & _ & _ & [] & _)).
    assert (NH : ~ start_char "#"%ch) by (intros X; apply (proj1 (start_facts _ X)); cbn; tauto).
    destruct n as [|[|n]]; (split; [|intros z FE; cbn in FE; first [discriminate FE|injection FE as <-; eexists _, _; split; [reflexivity|assumption]]]);
      [left|right; right|right; right]; (split; [destruct k; cbn; tauto|eexists; cbn; reflexivity]).
  - destruct k; cbn in E; [injection E as <- _; exfalso; apply N1; cbn; tauto| |now destruct K].
    exists (tag "b"), [SQUOTE; c'; SQUOTE]. split; [reflexivity|]. split; [right; left; split; [reflexivity|eexists; reflexivity]|discriminate].
  - destruct k; cbn in E; [injection E as <- _; exfalso; apply N1; cbn; tauto| |now destruct K].
    exists (tag "b"), ([SQUOTE; BACKSLASH] ++ e ++ [SQUOTE]). split; [reflexivity|]. split; [right; left; split; [reflexivity|eexists; reflexivity]|discriminate].
Qed.
(** What [punct_at] says of the text after the quotation mark. *)
Definition after_mark (s : str) : Prop :=
  (exists sym after, s = sym ++ after /\ ident_text sym /\ word_end after /\ ~ begins after [SQUOTE] /\ ~ begins after (tag "#")) \/
  (exists sym after, s = tag "r#" ++ sym ++ after /\ ident_text sym).
Lemma after_mark_head s : after_mark s -> exists c t, s = c :: t /\ start_char c.
Proof using HU.
  intros [(sym & after & -> & (c & t & -> & S & _) & _)|(sym & after & -> & _)].
  - eexists _, _. split; [reflexivity|exact S].
  - eexists _, _. split; [reflexivity|]. right. now rewrite (xid_start_ascii U HU) by reflexivity.
Qed.
Lemma cont_false c : In c [DQUOTE; SQUOTE; "#"%ch] -> is_xid_continue c = false.
Proof using HU. cbn. intros [<-|[<-|[<-|[]]]]; now rewrite (xid_continue_ascii U HU) by reflexivity. Qed.
Lemma prefix_cont p x : literal_prefix p x -> Forall (fun c => is_xid_continue c = true) p.
Proof using HU.
  assert (X : forall p, In p [tag "r"; tag "b"; tag "c"; tag "br"; tag "cr"] -> Forall (fun c => is_xid_continue c = true) p).
  { cbn. intros q [<-|[<-|[<-|[<-|[<-|[]]]]]]; repeat constructor; now rewrite (xid_continue_ascii U HU) by reflexivity. }
  intros [[I _]|[[-> _]|[I _]]]; apply X; cbn in *; tauto.
Qed.
Lemma after_mark_prefix s p x y : after_mark s -> s = p ++ x ++ y -> literal_prefix p x ->
    (forall z, x = "#"%ch :: z -> exists e y, z = e :: y /\ ~ start_char e) -> begins x [DQUOTE].
Proof using HU.
  intros M E L H.
  assert (X : exists c z, x = c :: z /\ In c [DQUOTE; SQUOTE; "#"%ch]).
  { destruct L as [[_ [z ->]]|[[_ [z ->]]|[_ [z ->]]]]; eexists _, _; (split; [reflexivity|cbn; tauto]). }
  destruct X as (c & z & -> & I). pose proof (prefix_cont _ _ L) as PC. pose proof (cont_false c I) as CF.
  destruct M as [(sym & after & -> & IT & W & N1 & N2)|(sym & after & -> & IT)].
  - destruct (proj1 (word_prefix p sym after c [] (ident_text_all HU _ IT) W PC CF)) as [-> [w ->]].
    { exists (z ++ y). rewrite <- app_assoc. exact E. }
    cbn in I. destruct I as [<-|[<-|[<-|[]]]]; [now exists z|exfalso; apply N1; now exists w|exfalso; apply N2; now exists w].
  - destruct IT as (d & t & -> & S & _). destruct (start_facts d S) as (Q1 & _ & _ & Q2 & _).
    assert (W : word_end (tag "#" ++ (d :: t) ++ after)) by (intros c1 t1 [= <- _]; apply cont_false; cbn; tauto).
    destruct (proj1 (word_prefix p (tag "r") (tag "#" ++ (d :: t) ++ after) c [] ltac:(repeat constructor; now rewrite (xid_continue_ascii U HU) by reflexivity) W PC CF)) as [<- [w F]].
    { exists (z ++ y). rewrite <- app_assoc. exact E. }
    cbn in F. injection F as <- _. cbn in E. injection E as E.
    destruct (H z eq_refl) as (e & y1 & -> & NS). cbn in E. injection E as -> _. now destruct NS.
Qed.
Lemma literal_word t r c u : literal_at t r -> t = c :: u -> start_char c ->
  exists p x, t = p ++ x /\ literal_prefix p x /\ (forall z, x = "#"%ch :: z -> exists e y, z = e :: y /\ ~ start_char e).
Proof using HU.
  intros L E S. destruct (start_facts c S) as (_ & _ & D & _).
  destruct L as [q r Q N|q s r Q I W|t r F|t r F N].
  - eapply quoted_word; eassumption.
  - destruct q as [|c' q]; [now destruct (quoted_nonempty _ Q)|]. cbn in E. injection E as -> _.
    destruct (quoted_word _ _ _ Q eq_refl S) as (p & x & -> & L & H). exists p, (x ++ s). rewrite app_assoc. split; [reflexivity|].
    assert (B : forall y, begins x y -> begins (x ++ s) y) by (intros y [z ->]; exists (z ++ s); now rewrite app_assoc).
    split.
    + destruct L as [[X Y]|[[X Y]|[X Y]]]; unfold literal_prefix; auto.
    + intros z X. destruct x as [|c' x]; [destruct L as [[_ [v L]]|[[_ [v L]]|[_ [v L]]]]; discriminate L|].
      cbn in X. injection X as -> <-. destruct (H x eq_refl) as (e & y & -> & NS). now exists e, (y ++ s).
  - destruct (float_first _ _ F) as (c' & u' & E' & D'). rewrite E in E'. injection E' as <- _. rewrite D in D'. discriminate D'.
  - destruct (int_first _ _ F) as (c' & u' & E' & D'). rewrite E in E'. injection E' as <- _. rewrite D in D'. discriminate D'.
Qed.
Lemma trivia_word w s c t : trivia w -> w <> [] -> w ++ s = c :: t -> start_char c -> False.
Proof using HU.
  intros T N E S. destruct (start_facts c S) as (P & B & _). destruct T as [|b w X T|x w X T|b w X T].
  - now apply N.
  - cbn [app] in E. injection E as <- _. exact (B X).
  - cbn in E. injection E as <- _. apply P. cbn. tauto.
  - destruct X as [(v & -> & _) _]. cbn in E. injection E as <- _. apply P. cbn. tauto.
Qed.
Lemma reads_word a s ps : reads a s ps -> no_bad ps -> after_mark s ->
  exists u y, ps = PTok [u] :: y /\ lo (token_span u) = a /\ (is_ident u \/ prefixed_string u).
Proof using HU.
  intros R NB M. destruct (after_mark_head _ M) as (c & t0 & E0 & S). destruct (start_facts c S) as (NP & NBl & _ & _ & ND).
  assert (SL : c <> "/"%ch) by (intros ->; apply NP; cbn; tauto).
  destruct R as [a s B|a w s d r ps T O R|a w s d r ps T O R|a w d r inner x ps T O R|a w t r k ps T L R|a w s T UN].
  - exfalso. destruct B as [w T|w x T X].
    + destruct w as [|c0 w]; [discriminate E0|]. apply (trivia_word (c0 :: w) [] c t0 T); [discriminate|rewrite app_nil_r; exact E0|exact S].
    + destruct w as [|c0 w]; [|eapply (trivia_word (c0 :: w)); [exact T|discriminate|exact E0|exact S]].
      cbn in E0. injection E0 as <- _. now apply SL.
  - exfalso. destruct w as [|c0 w]; [|eapply (trivia_word (c0 :: w)); [exact T|discriminate|exact E0|exact S]].
    destruct O as (D & O & _). destruct (ND d D) as [X _]. cbn [app] in E0. rewrite O in E0.
    destruct d; cbn in D, E0, X; try (injection E0 as E0 _; subst c; now apply X); intuition discriminate.
  - exfalso. destruct w as [|c0 w]; [|eapply (trivia_word (c0 :: w)); [exact T|discriminate|exact E0|exact S]].
    destruct O as (D & O). destruct (ND d D) as [_ X]. cbn [app] in E0. rewrite O in E0.
    destruct d; cbn in D, E0, X; try (injection E0 as E0 _; subst c; now apply X); intuition discriminate.
  - exfalso. destruct w as [|c0 w]; [|eapply (trivia_word (c0 :: w)); [exact T|discriminate|exact E0|exact S]].
    cbn [app] in E0. apply SL. symmetry.
    destruct O as [d r i x DL _ _|d r i x DL _ _|d r i x DB _].
    + destruct DL; cbn in E0; now injection E0 as -> _.
    + destruct DL; cbn in E0; now injection E0 as -> _.
    + destruct DB; cbn in E0; now injection E0 as -> _.
  - destruct w as [|c0 w]; [|exfalso; eapply (trivia_word (c0 :: w)); [exact T|discriminate|exact E0|exact S]].
    cbn [app] in *. eexists _, _. split; [reflexivity|].
    change (strlen []) with 0 in *. rewrite N.add_0_r in *.
    destruct t as [|c' t']; [now destruct (lexeme_nonempty _ _ _ L)|]. cbn [app] in E0. injection E0 as -> <-.
    split; [destruct L; reflexivity|].
    inversion L as [t r' LA E1 E2 E3|c1 r' sg PA E1 E2 E3|t r' s raw IA E1 E2 E3|r' E1 E2 E3]; subst.
    + right. destruct (literal_word _ _ _ _ LA eq_refl S) as (p & x & E & LP & H).
      assert (B : begins x [DQUOTE]).
      { apply (after_mark_prefix _ p x r M); [|exact LP|exact H]. rewrite app_assoc, <- E. reflexivity. }
      destruct B as [z ->]. rewrite E. eexists p, z, _. split; [reflexivity|].
      destruct LP as [[I _]|[[_ [v X]]|[_ [v X]]]]; [exact I|discriminate X|discriminate X].
    + exfalso. apply NP. now destruct PA; [| |cbn; tauto|cbn; tauto].
    + left. eexists _, _, _. reflexivity.
    + exfalso. apply (proj1 (ND Parenthesis ltac:(cbn; tauto))). reflexivity.
  - exfalso. eapply NB. left. reflexivity.
Qed.

(** ** Along the pieces *)
Definition pnext (k : list token) (y : list piece) : Prop :=
  match k with
  | [TPunct c Joint sp] =>
      exists u z, y = PTok [u] :: z /\ next_to sp u /\
        (if (c =? SQUOTE)%N then is_ident u \/ prefixed_string u else is_punct u \/ char_like u)
  | [TPunct c Alone sp] =>
      c <> SQUOTE /\
      forall u m z, y = PTok (u :: m) :: z -> next_to sp u ->
        ~ char_like u /\ (is_punct u -> exists inner l, u :: m = doc_attribute inner l (token_span u))
  | [TGroup _ _ _] => False
  | [_] => True
  | _ => exists inner l sp, k = doc_attribute inner l sp /\ lo sp < hi sp
  end.
Definition good (ps : list piece) : Prop := forall x k y, ps = x ++ PTok k :: y -> pnext k y.

Lemma strlen_pos (s : str) : s <> [] -> 0 < strlen s.
Proof using. destruct s; [easy|]. intros _. unfold strlen. cbn [length]. lia. Qed.
Lemma reads_alone a s ps : reads a s ps -> ~ starts_punct s ->
  forall u m z, ps = PTok (u :: m) :: z -> lo (token_span u) = a ->
    ~ char_like u /\ (is_punct u -> exists inner l, u :: m = doc_attribute inner l (token_span u)).
Proof using.
  intros R NS u m z E A.
  destruct R as [a s B|a w s d r ps T O R|a w s d r ps T O R|a w d r inner x ps T O R|a w t r k ps T L R|a w s T UN]; try discriminate E.
  - injection E as E1 E2 _. split; [intros (v & sp & F); subst u; discriminate F|].
    intros _. exists inner, (Lexer.literal_string x). destruct inner; cbn in E2 |- *; now subst.
  - injection E as <- <- _.
    assert (W : w = []).
    { destruct w as [|c0 w]; [reflexivity|]. pose proof (strlen_pos (c0 :: w) ltac:(discriminate)).
      assert (X : lo (token_span (k (mkspan (a + strlen (c0 :: w)) (a + strlen (c0 :: w) + strlen t)))) = a + strlen (c0 :: w)) by (now destruct L).
      lia. }
    subst w. cbn [app] in NS.
    split.
    + intros (v & sp & E).
      inversion L as [t' r' LA E1 E2 E3|c1 r' sg' PA E1 E2 E3|t' r' s' raw IA E1 E2 E3|r' E1 E2 E3]; subst; try discriminate E.
      injection E as -> _. apply NS. exists SQUOTE, (v ++ r). split; [reflexivity|].
      split; [cbn; tauto|split; intros [v' X]; discriminate X].
    + intros (c & sg & sp & E). exfalso.
      inversion L as [t' r' LA E1 E2 E3|c1 r' sg' PA E1 E2 E3|t' r' s' raw IA E1 E2 E3|r' E1 E2 E3]; subst; try discriminate E.
      apply NS. exists c1, r. split; [reflexivity|].
      destruct PA as [c1 r I N N1 N2 SP|c1 r I N N1 N2 SP|s' af I W N1 N2|s' af I N W N1]; try (now repeat split);
        (split; [cbn; tauto|split; intros [v X]; discriminate X]).
Qed.
Lemma doc_nonempty d r i x : doc_at d r i x -> d <> [].
Proof using. intros [d' r' i' x' DL _ _|d' r' i' x' DL _ _|d' r' i' x' DB _]; [destruct DL|destruct DL|destruct DB]; discriminate. Qed.

Lemma reads_good a s ps : reads a s ps -> no_bad ps -> good ps.
Proof using HU.
  revert a s ps. assert (SKIP : forall p ps, (forall k, p <> PTok k) -> good ps -> good (p :: ps)).
  { intros p ps N G x k y E. destruct x as [|p' x]; cbn in E; injection E as E1 E2; [now destruct (N k)|]. now apply (G x). }
  assert (TOK : forall k ps, pnext k ps -> good ps -> good (PTok k :: ps)).
  { intros k ps H G x k' y E. destruct x as [|p' x]; cbn in E; injection E as E1 E2; [now subst|]. now apply (G x). }
  intros a0 s0 ps0. induction 1 as [a s B|a w s d r ps T O R IH|a w s d r ps T O R IH|a w d r inner x ps T O R IH|a w t r k ps T L R IH|a w s T UN]; intros NB.
  - intros [|? ?] k y [=].
  - apply SKIP; [discriminate|]. apply IH. exact (no_bad_tail _ _ NB).
  - apply SKIP; [discriminate|]. apply IH. exact (no_bad_tail _ _ NB).
  - pose proof (no_bad_tail _ _ NB) as NB'. apply TOK; [|now apply IH].
    pose proof (strlen_pos d (doc_nonempty _ _ _ _ O)) as P.
    destruct inner; (eexists _, _, _; split; [reflexivity|cbn [lo hi]; lia]).
  - pose proof (no_bad_tail _ _ NB) as NB'. apply TOK; [|now apply IH].
    inversion L as [t' r' LA E1 E2 E3|c1 r' sg' PA E1 E2 E3|t' r' s' raw IA E1 E2 E3|r' E1 E2 E3]; subst; cbn [pnext]; auto.
    set (e := a + strlen w + strlen [c1]) in *. clearbody e.
    destruct PA as [c1 r I N N1 N2 SP|c1 r I N N1 N2 SP|s' af I W N1 N2|s' af I N W N1].
    + destruct (reads_punct _ _ _ R NB' SP) as (u & y & -> & LO & K). exists u, y.
      apply N.eqb_neq in N. rewrite N. auto.
    + split; [exact N|]. intros u m z E NX. exact (reads_alone _ _ _ R SP u m z E NX).
    + destruct (reads_word _ _ _ R NB') as (u & y & -> & LO & K); [|now exists u, y].
      left. now exists s', af.
    + destruct (reads_word _ _ _ R NB') as (u & y & -> & LO & K); [|now exists u, y].
      right. now exists s', af.
  - intros x k y E. destruct x as [|? [|? ?]]; discriminate E.
Qed.

Lemma tree_no_bad ps ts : tree ps ts -> no_bad ps.
Proof using.
  induction 1 as [|k ps ts T IH|d a b ps1 inner ps2 ts T1 IH1 T2 IH2]; intros p I.
  - exact I.
  - destruct I as [I|I]; [discriminate I|exact (IH p I)].
  - destruct I as [I|I]; [discriminate I|]. apply in_app_or in I. destruct I as [I|[I|I]]; [exact (IH1 p I)|discriminate I|exact (IH2 p I)].
Qed.

(** ** Along the trees *)
Lemma good_tail p ps : good (p :: ps) -> good ps.
Proof using. intros G x k y E. apply (G (p :: x)). now rewrite E. Qed.
Lemma good_app x y : good (x ++ y) -> good y.
Proof using. induction x as [|p x IH]; [auto|]. intros G. apply IH. exact (good_tail _ _ G). Qed.
Lemma good_inner ps1 d b ps2 : good (ps1 ++ PClose d b :: ps2) -> good ps1.
Proof using.
  intros G x k y E. specialize (G x k (y ++ PClose d b :: ps2)). rewrite E, <- app_assoc in G. specialize (G eq_refl).
  unfold pnext in *. destruct k as [|[| |c sg sp|] [|]]; auto. destruct sg.
  - destruct G as [NQ G]. split; [exact NQ|]. intros u m z -> NX. now apply (G u m (z ++ PClose d b :: ps2)).
  - destruct G as (u & z & E1 & E2). destruct y as [|p y]; cbn in E1; [discriminate E1|]. injection E1 as -> <-. now exists u, y.
Qed.

Definition spaced (ts : list token) : Prop := forall l, level l ts -> forall x t y, l = x ++ t :: y -> implemented t y.
Lemma spaced_cons t ts : implemented t ts -> spaced ts ->
  (forall d inner sp, t = TGroup d inner sp -> spaced inner) -> spaced (t :: ts).
Proof using.
  intros H1 H2 H3 l L. inversion L as [E|d inner sp ts' I L' E]; subst.
  - intros x t' y E. destruct x as [|t1 x]; cbn in E; injection E as -> E; [now subst|]. apply (H2 ts (level_here _) x _ _ E).
  - destruct I as [->|I]; [exact (H3 d inner sp eq_refl l L')|].
    apply H2. exact (level_inside l d inner sp ts I L').
Qed.
Lemma spaced_nil : spaced [].
Proof using.
  intros l L. inversion L as [E|d inner sp ts' I L' E]; subst; [intros [|? ?] ? ? [=]|destruct I].
Qed.

Lemma good_spaced ps ts : tree ps ts -> good ps -> spaced ts.
Proof using.
  induction 1 as [|k ps ts T IH|d a b ps1 inner ps2 ts T1 IH1 T2 IH2]; intros G.
  - exact spaced_nil.
  - pose proof (good_tail _ _ G) as G'. specialize (IH G'). specialize (G [] k ps eq_refl). unfold pnext in G.
    assert (DOC : (exists inner l sp, k = doc_attribute inner l sp /\ lo sp < hi sp) -> spaced (k ++ ts)).
    { intros (inner & l & sp & -> & LT).
      assert (IN : spaced [TIdent (tag "doc") false sp; TPunct "="%ch Alone sp; TLiteral l sp]).
      { repeat (apply spaced_cons; [|..|discriminate]); try exact spaced_nil; cbn; auto. split; [discriminate|]. intros u y [= <- _] NX. exfalso. unfold next_to in NX. cbn in NX. lia. }
      destruct inner; cbn [doc_attribute app]; repeat (apply spaced_cons; [..|]); try exact IH; try discriminate; try (now intros d i s [= _ <- _]);
        cbn; auto; (split; [discriminate|]); intros u y [= <- _] NX; exfalso; unfold next_to in NX; cbn in NX; lia. }
    destruct k as [|t [|t2 k]]; [destruct G as ([] & ? & ? & [=] & _)| |apply DOC; destruct t as [| |? [] ?|]; exact G].
    cbn [app]. destruct t as [d i sp|s raw sp|c sg sp|l sp]; [destruct G| | |]; (apply spaced_cons; [|exact IH|discriminate]); cbn [implemented]; auto.
    destruct sg.
    + destruct G as [NQ G]. split; [exact NQ|]. intros u y E NX.
      destruct T as [|k' ps ts' T'|d a b ps1 inner ps2 ts' T1 T2];
        [discriminate E| |injection E as <- _; split; [intros (? & ? & [=])|intros (? & ? & ? & [=])]].
      destruct k' as [|u' m]; [destruct (G' [] [] ps eq_refl) as ([] & ? & ? & [=] & _)|].
      cbn in E. injection E as -> E. destruct (G u m ps eq_refl NX) as [NC D]. split; [exact NC|]. intros IP. destruct (D IP) as (inner & l & F).
      exists inner, l, ts'. change (u :: m ++ ts') with ((u :: m) ++ ts'). now rewrite F at 1.
    + destruct G as (u & z & -> & NX & K). inversion T as [|k' ps' ts' T' E1 E2|]; subst. now exists u, ts'.
  - pose proof (good_tail _ _ G) as G1. apply spaced_cons; [exact I|apply IH2|].
    + apply good_tail with (p := PClose d b). exact (good_app _ _ G1).
    + intros d' i sp [= _ <- _]. apply IH1. exact (good_inner _ _ _ _ G1).
Qed.

Lemma spacing_of_parse src start : start + strlen src < two32 -> forall ts,
  token_stream_from_str start src = Ok (Lexed ts) ->
  forall l, level l ts -> forall x t y, l = x ++ t :: y -> implemented t y.
Proof using HU.
  intros room ts E. apply (parse_reads HU src start room) in E. destruct E as (ps & (a & s & _ & R) & T).
  apply (good_spaced _ _ T). exact (reads_good _ _ _ R (tree_no_bad _ _ T)).
Qed.
End Spacing.

(** ** Where the documentation is not followed *)
Lemma joint_char : @token_stream_from_str sample_unicode 0 (tag "+'a'") =
    Ok (Lexed [TPunct "+"%ch Joint (mkspan 0 1); TLiteral (tag "'a'") (mkspan 1 4)]) /\
  ~ documented (TPunct "+"%ch Joint (mkspan 0 1)) [TLiteral (tag "'a'") (mkspan 1 4)].
Proof.
  split; [vm_compute; reflexivity|]. intros (u & y & [= <- <-] & _ & [(c & sg & sp & [=])|[E _]]). discriminate E.
Qed.
Lemma lifetime_string : @token_stream_from_str sample_unicode 0 (tag "'b" ++ [DQUOTE] ++ tag "x" ++ [DQUOTE]) =
    Ok (Lexed [TPunct SQUOTE Joint (mkspan 0 1); TLiteral (tag "b" ++ [DQUOTE] ++ tag "x" ++ [DQUOTE]) (mkspan 1 5)]) /\
  ~ documented (TPunct SQUOTE Joint (mkspan 0 1)) [TLiteral (tag "b" ++ [DQUOTE] ++ tag "x" ++ [DQUOTE]) (mkspan 1 5)].
Proof.
  split; [vm_compute; reflexivity|]. intros (u & y & [= <- <-] & _ & [(c & sg & sp & [=])|[_ (s & raw & sp & [=])]]).
Qed.
Definition doc_of_d (sp : span) : list token := doc_attribute false ([DQUOTE] ++ tag " d" ++ [DQUOTE]) sp.
Lemma alone_doc : @token_stream_from_str sample_unicode 0 (tag "+/// d") =
    Ok (Lexed (TPunct "+"%ch Alone (mkspan 0 1) :: doc_of_d (mkspan 1 6))) /\
  ~ documented (TPunct "+"%ch Alone (mkspan 0 1)) (doc_of_d (mkspan 1 6)).
Proof.
  split; [vm_compute; reflexivity|]. intros H. apply (H _ _ eq_refl); [reflexivity|]. eexists _, _, _. reflexivity.
Qed.
Lemma spacing_example :
  @token_stream_from_str sample_unicode 0 (tag "a<<='b (= =)") =
    Ok (Lexed [TIdent (tag "a") false (mkspan 0 1); TPunct "<"%ch Joint (mkspan 1 2); TPunct "<"%ch Joint (mkspan 2 3);
               TPunct "="%ch Joint (mkspan 3 4); TPunct SQUOTE Joint (mkspan 4 5); TIdent (tag "b") false (mkspan 5 6);
               TGroup Parenthesis [TPunct "="%ch Alone (mkspan 8 9); TPunct "="%ch Alone (mkspan 10 11)] (mkspan 7 12)]).
Proof. vm_compute. reflexivity. Qed.
Lemma joint_refuted : exists src ts x t y, @token_stream_from_str sample_unicode 0 src = Ok (Lexed ts) /\
  ts = x ++ t :: y /\ ~ documented t y.
Proof.
  destruct joint_char as [E N]. eexists _, _, [], _, _. split; [exact E|]. split; [reflexivity|exact N].
Qed.
Lemma lifetime_refuted : exists src ts sp u y, @token_stream_from_str sample_unicode 0 src = Ok (Lexed ts) /\
  ts = TPunct SQUOTE Joint sp :: u :: y /\ ~ is_ident u /\ ~ documented (TPunct SQUOTE Joint sp) (u :: y).
Proof.
  destruct lifetime_string as [E N]. eexists _, _, _, _, _. split; [exact E|]. split; [reflexivity|].
  split; [intros (s & raw & sp & [=])|exact N].
Qed.
Lemma alone_refuted : exists src ts c sp y, @token_stream_from_str sample_unicode 0 src = Ok (Lexed ts) /\
  ts = TPunct c Alone sp :: y /\ ~ documented (TPunct c Alone sp) y.
Proof. destruct alone_doc as [E N]. eexists _, _, _, _, _. split; [exact E|]. split; [reflexivity|exact N]. Qed.
