(** * What comes before an error can be continued (C99) *)
From Verif Require Import Base BaseFacts Unicode Tokens Lexer PureLexer.
From Verif Require Import LexerEquiv LexerEquiv2 LexerEquiv3 LexerEquiv4 Grammar Stable Local NumGrammar.
From Verif Require Import SpecText SpecTree SpecLit SpecGrammar SpecFinal Comments Spans Balance LexemeProofs SpacingProofs AppendProofs FinalProofs ForeignProofs.
From Verif Require SourceProofs.
Import ListNotations.
Local Open Scope N_scope.

Section WithUnicode.
Context {U : unicode} (UO : unicode_ok U).

(** ** Leaving out what follows *)
Definition mild (s : str) : Prop := word_end s /\ forall c u, s = c :: u -> ~ In c (tag "+-.").

Lemma begins_cut (m s p : str) : begins m p -> begins (m ++ s) p.
Proof using. intros (z & ->). exists (z ++ s). now rewrite <- app_assoc. Qed.
Lemma word_end_cut m s : word_end (m ++ s) -> word_end m.
Proof using. intros H c t ->. exact (H c (t ++ s) eq_refl). Qed.
Lemma word_end_put m s : word_end s -> word_end m -> word_end (m ++ s).
Proof using. intros S H c t E. destruct m as [|x m]; [exact (S c t E)|]. injection E as -> _. exact (H c m eq_refl). Qed.
Lemma no_word_cut m s : no_word (m ++ s) -> no_word m.
Proof using. intros H c t ->. exact (H c (t ++ s) eq_refl). Qed.

Definition exponent_char (c : char) : Prop := is_xid_continue c = true \/ In c (tag "+-").
Lemma exponent_inside e : exponent_text e -> Forall exponent_char e.
Proof using UO.
  assert (C : forall l, Forall (fun c => c = "_"%ch) l -> Forall exponent_char l).
  { intros l H. eapply Forall_impl; [|exact H]. intros c ->. left. now rewrite (xid_continue_ascii U UO). }
  intros (a & s & b & d & -> & A & S & B & D). repeat (apply Forall_app; split); auto.
  - destruct S as [->|[->| ->]]; [constructor|constructor; [right; cbn; tauto|constructor]..].
  - destruct D as (x & t & -> & X & T). constructor; [left; now apply (digit_continue UO)|]. eapply Forall_impl; [|exact T].
    intros y [Y| ->]; left; [now apply (digit_continue UO)|]. now rewrite (xid_continue_ascii U UO).
Qed.
Lemma exponent_within e y m s : mild s -> exponent_text e -> m ++ s = e ++ y -> exists q, m = e ++ q.
Proof using UO.
  intros [W M] H E. destruct (app_cases _ _ _ _ E) as [(q & -> & _)|(q & -> & E')]; [now exists q|].
  destruct q as [|x q]; [exists []; now rewrite !app_nil_r|]. exfalso. apply exponent_inside in H. apply Forall_app in H as [_ H].
  inversion H as [|? ? [X|X] _]; subst.
  - rewrite (W x (q ++ y) eq_refl) in X. discriminate.
  - apply (M x (q ++ y) eq_refl). cbn in X |- *. tauto.
Qed.
Lemma float_cut t m s : float_at t (m ++ s) -> float_at t m.
Proof using.
  intros H. remember (m ++ s) as x eqn:X. destruct H as [d x D W B|d f k x D G S W N|d f n e k x D G M E S W]; subst x.
  - constructor; [exact D|exact (word_end_cut _ _ W)|]. intros C. apply B. now apply begins_cut.
  - apply float_fraction; auto; [exact (word_end_cut _ _ W)|]. intros n x L ES (e & y & E & EX). apply (N n x L ES).
    exists e, (y ++ s). split; [|exact EX]. now rewrite app_assoc, E, <- app_assoc.
  - apply float_exponent; auto. exact (word_end_cut _ _ W).
Qed.
Lemma float_put t m s : mild s -> float_at t m -> float_at t (m ++ s).
Proof using UO.
  intros MS H. pose proof MS as [WS DS]. destruct H as [d x D W B|d f k x D G S W N|d f n e k x D G M E S W].
  - constructor; [exact D|now apply word_end_put|]. intros (z & C). destruct x as [|c x]; [apply (DS _ _ C); cbn; tauto|].
    injection C as -> _. apply B. now exists x.
  - apply float_fraction; auto; [now apply word_end_put|]. intros n y L ES (e & z & E & EX). rewrite app_assoc in E.
    destruct (exponent_within e z _ s MS EX E) as (q & Q). apply (N n y L ES). now exists e, q.
  - apply float_exponent; auto. now apply word_end_put.
Qed.
Lemma literal_cut t m s : mild s -> literal_at t (m ++ s) -> literal_at t m.
Proof using UO.
  intros MS H. remember (m ++ s) as x eqn:X. destruct H as [q x Q N|q k x Q S W|t x H|t x H N]; subst x.
  - apply literal_quoted; auto. exact (no_word_cut _ _ N).
  - apply literal_suffixed; auto. exact (word_end_cut _ _ W).
  - apply literal_float. exact (float_cut _ _ _ H).
  - apply literal_int.
    + remember (m ++ s) as x eqn:X. destruct H as [d k x D S W R|p b ds k x R D E S K W]; subst x.
      * apply int_decimal; auto. exact (word_end_cut _ _ W).
      * apply int_radix with b; auto. exact (word_end_cut _ _ W).
    + intros t' r' E H'. apply (N t' (r' ++ s)); [now rewrite app_assoc, E, <- app_assoc|]. now apply float_put.
Qed.
Lemma ident_cut t m s n raw : ident_at t (m ++ s) n raw -> ident_at t m n raw.
Proof using.
  intros H. remember (m ++ s) as x eqn:X. destruct H as [n x I W N|n x I N W]; subst x.
  - constructor; [exact I|exact (word_end_cut _ _ W)|]. intros L. apply N.
    destruct L as [[A B]|[[A B]|[A B]]]; [left|right; left|right; right]; (split; [exact A|now apply begins_cut]).
  - constructor; auto. exact (word_end_cut _ _ W).
Qed.
Lemma starts_punct_dec s : starts_punct s \/ ~ starts_punct s.
Proof using.
  destruct (p_punct_char s) as [[r c]|] eqn:E; [left; apply p_punct_char_spec; now exists r, c|].
  right. intros H. apply p_punct_char_spec in H as (r & c & H). congruence.
Qed.
Lemma word_within i m s after : word_end s -> Forall (fun x => is_xid_continue x = true) i -> m ++ s = i ++ after -> exists q, m = i ++ q /\ after = q ++ s.
Proof using.
  intros W H E. destruct (app_cases _ _ _ _ E) as [(q & -> & ->)|(q & -> & E')]; [now exists q|].
  destruct q as [|x q]; [exists []; rewrite !app_nil_r; now split|]. exfalso. apply Forall_app in H as [_ H].
  inversion H as [|? ? X _]; subst. rewrite (W x (q ++ after) eq_refl) in X. discriminate.
Qed.
Lemma punct_any c r : In c punct_chars -> c <> SQUOTE -> ~ begins (c :: r) (tag "//") -> ~ begins (c :: r) (tag "/*") -> exists sg, punct_at c r sg.
Proof using. intros P Q A B. destruct (starts_punct_dec r) as [H|H]; [exists Joint; now constructor|exists Alone; now constructor]. Qed.
Lemma hash_mild s : mild s -> forall n m after, ident_text n -> m ++ s = tag "r#" ++ n ++ after -> (exists q, m = tag "r#" ++ n ++ q /\ after = q ++ s) \/ m = tag "r" \/ m = [].
Proof using UO.
  intros [W M] n m after I E. destruct m as [|c m]; [now right; right|]. injection E as -> E.
  destruct m as [|c m]; [now right; left|]. injection E as -> E.
  destruct (word_within n m s after W (ident_continue UO n I) E) as (q & -> & ->). left. now exists q.
Qed.

Definition no_raw (m s : str) : Prop := m = tag "r" -> forall n after, s = tag "#" ++ n ++ after -> ident_text n -> ~ In n never_raw -> word_end after -> False.
Lemma lexeme_cut t m s k : mild s -> no_raw m s -> lexeme t (m ++ s) k -> exists k', lexeme t m k'.
Proof using UO.
  intros MS NH H. pose proof MS as [WS DS]. remember (m ++ s) as x eqn:X. destruct H as [t x H|p x sg H|t x n raw H|x]; subst.
  - eexists. apply lexeme_literal. exact (literal_cut _ _ _ MS H).
  - remember (m ++ s) as x eqn:X. destruct H as [p x P Q N1 N2 S|p x P Q N1 N2 S|i after I W A1 A2|i after I N W A1].
    1,2: subst x; destruct (punct_any p m P Q) as (sg & G); [intros B; apply N1; now apply (begins_cut (p :: m))|
      intros B; apply N2; now apply (begins_cut (p :: m))|exists (TPunct p sg); now constructor].
    + symmetry in X. destruct (word_within i m s after WS (ident_continue UO i I) X) as (q & -> & ->).
      eexists. apply lexeme_punct, punct_lifetime; auto; [exact (word_end_cut _ _ W)| |]; intros B; [apply A1|apply A2]; now apply begins_cut.
    + symmetry in X. destruct (hash_mild s MS i m after I X) as [(q & -> & ->)|[->| ->]].
      * eexists. apply lexeme_punct, punct_raw_lifetime; auto; [exact (word_end_cut _ _ W)|]. intros B; apply A1; now apply begins_cut.
      * exfalso. injection X as X. exact (NH eq_refl i after X I N W).
      * exfalso. cbn [app] in X. rewrite X in WS. specialize (WS "r"%ch _ eq_refl). rewrite (xid_continue_ascii U UO) in WS by reflexivity. discriminate.
  - eexists. apply lexeme_ident. exact (ident_cut _ _ _ _ _ H).
  - eexists. apply lexeme_error.
Qed.

Lemma doc_cut d m s inner x : doc_at d (m ++ s) inner x -> m <> [] \/ (s <> [] /\ ~ begins s [LF]) -> doc_at d m inner x.
Proof using.
  intros H C. remember (m ++ s) as z eqn:Z. destruct H as [d z inner x L E N|d z inner x L E N|d z inner x L N]; subst z.
  - apply doc_at_line; auto. destruct m as [|c m]; [now left|]. right. destruct E as [E|(u & E)]; [discriminate E|]. injection E as -> _. now exists m.
  - apply doc_at_crlf; auto. destruct m as [|c m]; [exfalso; destruct C as [C|[_ C]]; auto|]. destruct E as (u & E). injection E as -> _. now exists m.
  - now apply doc_at_block.
Qed.

(** ** The delimiters of a sequence of pieces *)
Definition delim_piece (z : piece) : bool := match z with POpen _ _ | PClose _ _ => true | _ => false end.
Fixpoint only_delims (ps : list piece) : list piece := match ps with [] => [] | z :: ps => if delim_piece z then z :: only_delims ps else only_delims ps end.
Lemma delims_app x y : only_delims (x ++ y) = only_delims x ++ only_delims y.
Proof using. induction x as [|z x IH]; [reflexivity|]. cbn [app only_delims]. rewrite IH. now destruct (delim_piece z). Qed.
Lemma delims_split z y : delim_piece z = true -> forall ps x, only_delims ps = x ++ z :: y ->
  exists p q, ps = p ++ z :: q /\ only_delims p = x /\ only_delims q = y.
Proof using.
  intros D. induction ps as [|a ps IH]; intros x E; [destruct x; discriminate E|]. cbn [only_delims] in E. destruct (delim_piece a) eqn:A.
  - destruct x as [|b x]; injection E as <- E; [exists [], ps; auto|]. destruct (IH _ E) as (p & q & -> & <- & <-).
    exists (a :: p), q. cbn [app only_delims]. rewrite A. auto.
  - destruct (IH _ E) as (p & q & -> & <- & <-). exists (a :: p), q. cbn [app only_delims]. rewrite A. auto.
Qed.
Lemma toks_tree ps : only_delims ps = [] -> no_bad ps -> exists ts, tree ps ts.
Proof using.
  induction ps as [|z ps IH]; intros E N; [exists []; constructor|]. assert (N' : no_bad ps) by exact (no_bad_tail _ _ N). destruct z as [d a|d a|k|a]; try discriminate E.
  - destruct (IH E N') as (ts & T). exists (k ++ ts). now constructor.
  - exfalso. apply (N a). now left.
Qed.
Lemma no_bad_part x y : no_bad (x ++ y) -> no_bad x /\ no_bad y.
Proof using. intros N. split; intros q Q; apply (N q); apply in_app_iff; auto. Qed.
Lemma tree_delims ps ts : tree ps ts -> forall qs, only_delims qs = only_delims ps -> no_bad qs -> exists us, tree qs us.
Proof using.
  induction 1 as [|k ps ts T IH|d a b ps1 inner ps2 ts T1 IH1 T2 IH2]; intros qs E N.
  - now apply toks_tree.
  - exact (IH qs E N).
  - cbn [only_delims delim_piece] in E. rewrite delims_app in E. cbn [only_delims delim_piece] in E.
    destruct (delims_split (POpen d a) _ eq_refl qs [] E) as (p & q & -> & P0 & Q).
    destruct (delims_split (PClose d b) _ eq_refl q _ Q) as (p1 & q1 & -> & P1 & Q1).
    destruct (no_bad_part _ _ N) as [N0 N']. pose proof (no_bad_tail _ _ N') as N1. destruct (no_bad_part _ _ N1) as [N2 N3].
    destruct (toks_tree p P0 N0) as (t0 & T0). destruct (IH1 p1 P1 N2) as (t1 & TT1). destruct (IH2 q1 Q1 (no_bad_tail _ _ N3)) as (t2 & TT2).
    eexists. apply tree_app; [exact T0|]. apply tree_group; eassumption.
Qed.

(** ** A text up to the place of a piece *)
Lemma open_mild d m s : In d delims -> opens (open_char d ++ m ++ s) d (m ++ s) -> opens (open_char d ++ m) d m.
Proof using. intros D (_ & _ & N). split; [exact D|]. split; [reflexivity|]. intros B. apply N. rewrite app_assoc. now apply begins_cut. Qed.
Lemma reads_upto a x ps : reads a x ps -> forall pre z post p, ps = pre ++ z :: post -> placed z = Some p ->
  exists y r, x = y ++ r /\ p = a + strlen y /\ found z r /\
    forall w s, r = w ++ s -> mild s -> (w = tag "r" -> forall n after, s = tag "#" ++ n ++ after -> ident_text n -> ~ In n never_raw -> word_end after -> False) ->
      (w = [] -> s <> [] /\ ~ begins s (tag "#") /\ ~ begins s [LF]) ->
      forall qs, reads p w qs -> no_bad qs -> exists pre', reads a (y ++ w) (pre' ++ qs) /\ only_delims pre' = only_delims pre /\ no_bad pre'.
Proof using UO.
  assert (NR : forall y w s : str, (w = tag "r" -> forall n after, s = tag "#" ++ n ++ after -> ident_text n -> ~ In n never_raw -> word_end after -> False) ->
     (w = [] -> s <> [] /\ ~ begins s (tag "#") /\ ~ begins s [LF]) -> no_raw (y ++ w) s).
  { intros y w s R E EQ n after S. destruct y as [|c y]; [now apply R|]. cbn [app] in EQ. injection EQ as -> EQ.
    destruct y; [|discriminate EQ]. cbn [app] in EQ. exfalso. destruct (E EQ) as (_ & H & _). apply H. rewrite S. eexists. reflexivity. }
  induction 1 as [a s B|a w s d r ps Hw Hd H IH|a w s d r ps Hw Hd H IH|a w d r inner x ps Hw Hd H IH
                 |a w t r k ps Hw Hl H IH|a w s Hw Hs]; intros pre z post p E P; (destruct pre as [|z' pre]; [|]); try discriminate E; cbn [app] in E.
  - injection E as <- <-. injection P as <-. exists w, s. split; [reflexivity|]. split; [reflexivity|]. split; [now exists r|].
    intros v s' _ _ _ _ qs Q N. exists []. split; [now apply reads_before|]. split; [reflexivity|intros q []].
  - injection E as <- ->. destruct (IH _ _ _ _ eq_refl P) as (y & r' & -> & -> & F & R). pose proof Hd as (D1 & -> & _).
    assert (L1 : strlen (open_char d) = 1) by (cbn in D1; decompose [or] D1; subst; try reflexivity; contradiction).
    exists (w ++ open_char d ++ y), r'. split; [now rewrite <- !app_assoc|]. split; [rewrite !strlen_app'; lia|]. split; [exact F|].
    intros v s -> M1 M2 M3 qs Q N. destruct (R v s eq_refl M1 M2 M3 qs Q N) as (pre' & R' & O & NB).
    exists (POpen d (a + strlen w) :: pre'). split; [|split; [cbn [only_delims delim_piece]; now rewrite O|intros q [X|X]; [discriminate X|exact (NB q X)]]].
    rewrite <- !app_assoc. cbn [app]. apply reads_open with (r := y ++ v); [exact Hw| |exact R'].
    rewrite (app_assoc y v s) in Hd. exact (open_mild d (y ++ v) s D1 Hd).
  - injection E as <- <-. injection P as <-. exists w, s. split; [reflexivity|]. split; [reflexivity|]. split; [now exists r|].
    intros v s' _ _ _ _ qs Q N. exists []. split; [now apply reads_before|]. split; [reflexivity|intros q []].
  - injection E as <- ->. destruct (IH _ _ _ _ eq_refl P) as (y & r' & -> & -> & F & R). destruct Hd as (D1 & ->).
    assert (L1 : strlen (close_char d) = 1) by (cbn in D1; decompose [or] D1; subst; try reflexivity; contradiction).
    exists (w ++ close_char d ++ y), r'. split; [now rewrite <- !app_assoc|]. split; [rewrite !strlen_app'; lia|]. split; [exact F|].
    intros v s -> M1 M2 M3 qs Q N. destruct (R v s eq_refl M1 M2 M3 qs Q N) as (pre' & R' & O & NB).
    exists (PClose d (a + strlen w) :: pre'). split; [|split; [cbn [only_delims delim_piece]; now rewrite O|intros q [X|X]; [discriminate X|exact (NB q X)]]].
    rewrite <- !app_assoc. cbn [app]. apply reads_close with (r := y ++ v); [exact Hw|now split|exact R'].
  - injection E as <- _. discriminate P.
  - injection E as <- ->. destruct (IH _ _ _ _ eq_refl P) as (y & r' & -> & -> & F & R).
    exists (w ++ d ++ y), r'. split; [now rewrite <- !app_assoc|]. split; [rewrite !strlen_app'; lia|]. split; [exact F|].
    intros v s -> M1 M2 M3 qs Q N. destruct (R v s eq_refl M1 M2 M3 qs Q N) as (pre' & R' & O & NB).
    eexists (PTok _ :: pre'). split; [|split; [exact O|intros q [X|X]; [discriminate X|exact (NB q X)]]].
    rewrite <- !app_assoc. cbn [app]. apply reads_doc; [exact Hw| |exact R'].
    rewrite app_assoc in Hd. apply doc_cut in Hd; [exact Hd|]. destruct (y ++ v) eqn:YV; [right|left; discriminate].
    apply app_eq_nil in YV as [_ YV]. destruct (M3 YV) as (A & _ & B). now split.
  - injection E as <- _. discriminate P.
  - injection E as <- ->. destruct (IH _ _ _ _ eq_refl P) as (y & r' & -> & -> & F & R).
    exists (w ++ t ++ y), r'. split; [now rewrite <- !app_assoc|]. split; [rewrite !strlen_app'; lia|]. split; [exact F|].
    intros v s -> M1 M2 M3 qs Q N. destruct (R v s eq_refl M1 M2 M3 qs Q N) as (pre' & R' & O & NB).
    rewrite app_assoc in Hl. apply lexeme_cut in Hl as (k' & Hl); [|exact M1|exact (NR y v s M2 M3)].
    eexists (PTok _ :: pre'). split; [|split; [exact O|intros q [X|X]; [discriminate X|exact (NB q X)]]].
    rewrite <- !app_assoc. cbn [app]. apply reads_leaf; [exact Hw|exact Hl|exact R'].
  - injection E as <- <-. injection P as <-. exists w, s. split; [reflexivity|]. split; [reflexivity|]. split; [exact Hs|].
    intros v s' _ _ _ _ qs Q N. exists []. split; [now apply reads_before|]. split; [reflexivity|intros q []].
  - injection E as _ E. destruct pre; discriminate E.
Qed.

(** ** What there is at the place of an error *)
(** Digits, and marks that are not letters. *)
Definition continues_only (c : char) : Prop := is_xid_continue c = true /\ ~ start_char c.
Lemma word_split (s : str) : exists w r, s = w ++ r /\ Forall (fun c => is_xid_continue c = true) w /\ word_end r.
Proof using.
  induction s as [|c s (w & r & -> & W & R)]; [exists [], []; split; [reflexivity|]; split; [constructor|discriminate]|].
  destruct (is_xid_continue c) eqn:C; [exists (c :: w), r; auto|]. exists [], (c :: w ++ r). split; [reflexivity|]. split; [constructor|].
  now intros x t [= <- _].
Qed.
Lemma prefix_dec s r : literal_prefix s r \/ ~ literal_prefix s r.
Proof using.
  assert (I : forall l : list str, In s l \/ ~ In s l) by (intros l; destruct (in_dec (list_eq_dec N.eq_dec) s l); auto).
  assert (B := SourceProofs.begins_dec r).
  assert (A : forall P Q : Prop, P \/ ~ P -> Q \/ ~ Q -> (P /\ Q) \/ ~ (P /\ Q)) by (intros P Q; tauto).
  assert (O : forall P Q : Prop, P \/ ~ P -> Q \/ ~ Q -> (P \/ Q) \/ ~ (P \/ Q)) by (intros P Q; tauto).
  assert (E : s = tag "b" \/ s <> tag "b") by (destruct (list_eq_dec N.eq_dec s (tag "b")); auto).
  unfold literal_prefix. apply O; [|apply O]; apply A; auto.
Qed.
Lemma ascii_end c u : c < 128 -> is_xid_continue c = false -> ~ In c (tag "+-.") -> mild (c :: u).
Proof using. intros L C N. split; intros x t [= <- _]; auto. Qed.
Definition stops_at (w s : str) : Prop := mild s /\
  (w = tag "r" -> forall n after, s = tag "#" ++ n ++ after -> ident_text n -> ~ In n never_raw -> word_end after -> False) /\
  (w = [] -> s <> [] /\ ~ begins s (tag "#") /\ ~ begins s [LF]) /\ (length w <= 2)%nat /\ (forall t, w <> 0xFEFF :: t) /\
  forall p, exists qs, reads p w qs /\ no_bad qs /\ only_delims qs = [].
Lemma nothing_stops s : mild s -> s <> [] -> ~ begins s (tag "#") -> ~ begins s [LF] -> stops_at [] s.
Proof using.
  intros M N H L. repeat split; auto; try apply M; try discriminate. intros p. exists []. split; [apply reads_nil|]. split; [intros q []|reflexivity].
Qed.
Lemma found_stops z s : found z s -> delim_piece z = true \/ (exists p, z = PBad p) -> (forall c u, s = c :: u -> ~ continues_only c) ->
  exists w r, s = w ++ r /\ stops_at w r.
Proof using UO.
  intros F K NC.
  assert (DC : forall d u, In d delims -> (s = open_char d ++ u \/ s = close_char d ++ u) -> exists w r, s = w ++ r /\ stops_at w r).
  { intros d u D E. exists [], s. split; [reflexivity|]. assert (X : exists c, s = c :: u /\ In c (tag "()[]{}")).
    { cbn in D. destruct D as [<-|[<-|[<-|[]]]]; destruct E as [->| ->]; eexists; (split; [reflexivity|]); cbn; tauto. }
    destruct X as (c & -> & C). cbn in C. apply nothing_stops; [|discriminate|..].
    - apply ascii_end; decompose [or] C; subst; try contradiction; try reflexivity; try (now rewrite (xid_continue_ascii U UO)); cbn; intros X; decompose [or] X; try discriminate; assumption.
    - intros (v & [= X _]). subst c. decompose [or] C; try discriminate; assumption.
    - intros (v & [= X _]). subst c. decompose [or] C; try discriminate; assumption. }
  destruct z as [d p|d p|k|p]; cbn [found] in F.
  - destruct F as (r & D & -> & _). eapply DC; [exact D|now left].
  - destruct F as (r & D & ->). eapply DC; [exact D|now right].
  - destruct K as [K|(p & K)]; discriminate K.
  - clear DC K p. destruct s as [|c u]; [exfalso; apply (proj1 F); constructor; constructor|].
    destruct F as (FB & FT & FD & FO & FC & FL).
    destruct (is_xid_continue c) eqn:C.
    + assert (S : start_char c).
      { destruct (N.eq_dec c "_"%ch) as [->|NE]; [now left|]. destruct (is_xid_start c) eqn:XS; [now right|]. exfalso. apply (NC c u eq_refl).
        split; [exact C|]. intros [X|X]; congruence. }
      destruct (word_split u) as (w & r & -> & W & R). exists (c :: w), r. split; [reflexivity|].
      assert (I : ident_text (c :: w)) by (now exists c, w).
      destruct (prefix_dec (c :: w) r) as [LP|NP]; [|exfalso; apply (FL (c :: w) r (TIdent (c :: w) false) eq_refl); now constructor; constructor].
      assert (M : In (c :: w) [tag "r"; tag "b"; tag "c"; tag "br"; tag "cr"] /\ exists q v, r = q :: v /\ In q (tag """'#")).
      { destruct LP as [[A (v & ->)]|[[-> (v & ->)]|[A (v & ->)]]].
        - split; [exact A|]. exists DQUOTE, v. split; [reflexivity|cbn; tauto].
        - split; [cbn; tauto|]. exists SQUOTE, v. split; [reflexivity|cbn; tauto].
        - split; [|exists "#"%ch, v; split; [reflexivity|cbn; tauto]]. destruct A as [<-|[<-|[<-|[]]]]; cbn; tauto. }
      destruct M as (IN & q & v & -> & IQ). split; [|split; [|split; [discriminate|split; [|split]]]].
      * split; [exact R|]. intros x t [= <- _] X. cbn in IQ, X. decompose [or] IQ; decompose [or] X; subst; try contradiction; discriminate.
      * intros EW n after ES IT NR WE. apply (FL (tag "r#" ++ n) after (TIdent n true)); [|now constructor; constructor].
        injection EW as -> ->. cbn [app] in ES |- *. injection ES as -> ->. reflexivity.
      * cbn in IN. decompose [or] IN; try contradiction; match goal with X : _ = c :: w |- _ => rewrite <- X end; cbn; lia.
      * intros t [= -> _]. cbn in IN. decompose [or] IN; try contradiction; discriminate.
      * intros p. eexists. split; [|split].
        -- rewrite <- (app_nil_r (c :: w)). apply (reads_leaf p [] (c :: w) [] (TIdent (c :: w) false) []); [constructor|constructor; constructor; [exact I|discriminate|]|apply reads_nil].
           intros [[_ (z & Z)]|[[_ (z & Z)]|[_ (z & Z)]]]; discriminate Z.
        -- intros x [X|[]]. discriminate X.
        -- reflexivity.
    + exists [], (c :: u). split; [reflexivity|].
      assert (P : In c punct_chars -> c <> "/"%ch -> c <> SQUOTE -> False).
      { intros P S Q. destruct (punct_any c u P Q) as (sg & G); [| |exact (FL [c] u (TPunct c sg) eq_refl ltac:(now constructor))];
          intros (v & [= X _]); congruence. }
      apply nothing_stops; [|discriminate|..].
      * split; [now intros x t [= <- _]|]. intros x t [= <- _] X. cbn in X. apply P; decompose [or] X; subst; try contradiction; try discriminate; cbn; tauto.
      * intros (v & [= X _]). apply P; subst c; [cbn; tauto|discriminate..].
      * intros (v & [= X _]). specialize (FT [c] u eq_refl). assert (TR : trivia [c]) by (apply trivia_blank; [subst c; left; reflexivity|constructor]).
        specialize (FT TR). discriminate FT.
Qed.

(** ** Up to a character that can only continue a word *)
Definition plain_char (c : char) : Prop := ~ In c (tag "()[]{}").
Lemma continue_plain c : is_xid_continue c = true -> plain_char c.
Proof using UO. intros H I. cbn in I. decompose [or] I; subst; try contradiction; now rewrite (xid_continue_ascii U UO) in H. Qed.
Lemma number_plain s : Forall number_char s -> Forall plain_char s.
Proof using UO.
  apply Forall_impl. intros c [H|H]; [now apply continue_plain|]. intros I. cbn in H, I. decompose [or] H; decompose [or] I; subst; try contradiction; discriminate.
Qed.
Lemma sign_free (l : str) g : In g (tag "+-") -> Forall (fun c => c = "_"%ch \/ dec_digit c) l -> ~ In g l.
Proof using.
  intros G F I. rewrite Forall_forall in F. destruct (F g I) as [->|D]; [cbn in G; decompose [or] G; try discriminate; assumption|].
  unfold dec_digit in D. cbn in G. decompose [or] G; subst; try assumption; cbn in D; lia.
Qed.
Lemma under_plain l : Forall (fun c => c = "_"%ch) l -> Forall (fun c => c = "_"%ch \/ dec_digit c) l.
Proof using. apply Forall_impl. auto. Qed.
Lemma dec_plain d : dec_text d -> Forall (fun c => c = "_"%ch \/ dec_digit c) d.
Proof using. intros (x & t & -> & X & T). constructor; [now right|]. eapply Forall_impl; [|exact T]. intros y [Y|Y]; auto. Qed.
Lemma digit_no_under c : dec_digit c -> c <> "_"%ch.
Proof using. unfold dec_digit. intros H ->. cbn in H. lia. Qed.

(** An exponent that goes beyond its sign and a further character. *)
Lemma exponent_cross e y x g v h z : In g (tag "+-") -> Forall (fun c => c = "_"%ch) v -> h <> "_"%ch -> exponent_text e ->
  e ++ y = (x ++ g :: v ++ [h]) ++ z -> exists e' y', x ++ g :: v ++ [h] = e' ++ y' /\ exponent_text e'.
Proof using.
  intros G V H EX E. destruct (app_cases _ _ _ _ E) as [(q & -> & _)|(q & E1 & _)]; [|exists e, q; now split].
  destruct EX as (u0 & sg & u1 & ds & E1 & U0 & SG & U1 & D).
  assert (P : Forall (fun c => c = "_"%ch \/ dec_digit c) (u1 ++ ds)) by (apply Forall_app; split; [now apply under_plain|now apply dec_plain]).
  rewrite <- app_assoc in E1. cbn [app] in E1.
  assert (K : x = u0 /\ sg = [g] /\ u1 ++ ds = (v ++ [h]) ++ q).
  { destruct (app_cases _ _ _ _ E1) as [(n & EN & E2)|(n & EN & E2)]; subst; destruct n as [|f n]; cbn [app] in E2.
    3: symmetry in E2.
    1,3: rewrite app_nil_r in *; split; [reflexivity|]; destruct SG as [->|[->| ->]]; cbn [app] in E2;
      [exfalso; apply (sign_free _ g G P); rewrite E2; now left|now injection E2 as <- E2..].
    - exfalso. apply (sign_free _ g G P). destruct SG as [->|[->| ->]]; cbn [app] in E2; [rewrite E2; right|injection E2 as _ E2; rewrite E2..]; apply in_app_iff; right; now left.
    - exfalso. injection E2 as <- E2. apply (sign_free _ g G (under_plain _ U0)). apply in_app_iff. right. now left. }
  destruct K as (-> & -> & K). destruct D as (f & t & -> & F & T).
  assert (DH : dec_digit h).
  { rewrite <- app_assoc in K. destruct (app_cases _ _ _ _ K) as [(n & -> & E2)|(n & -> & E2)].
    - apply Forall_app in U1 as [_ U1]. destruct n as [|f' n]; [now injection E2 as -> _|]. injection E2 as <- _. inversion U1; contradiction.
    - apply Forall_app in V as [_ V]. destruct n as [|f' n]; [now injection E2 as <- _|]. injection E2 as <- _. inversion V as [|? ? X _]. now apply digit_no_under in F. }
  exists (u0 ++ g :: v ++ [h]), []. split; [now rewrite app_nil_r|]. exists u0, [g], v, [h]. split; [reflexivity|]. split; [exact U0|].
  split; [|split; [exact V|exists h, []; auto]]. cbn in G. destruct G as [<-|[<-|[]]]; auto.
Qed.
Lemma under_split (s : str) : exists v r, s = v ++ r /\ Forall (fun c => c = "_"%ch) v /\ forall c t, r = c :: t -> c <> "_"%ch.
Proof using.
  induction s as [|c s (v & r & -> & V & R)]; [exists [], []; split; [reflexivity|]; split; [constructor|discriminate]|].
  destruct (N.eq_dec c "_"%ch) as [->|N]; [exists ("_"%ch :: v), r; auto|]. exists [], (c :: v ++ r). split; [reflexivity|]. split; [constructor|].
  now intros x t [= <- _].
Qed.

(** A float that is there only when the text ends ends with it, or is followed by a sign and underscores. *)
Lemma float_only t r s : float_at t r -> (forall t' r', t ++ r ++ s = t' ++ r' -> ~ float_at t' r') ->
  r = [] \/ exists g v, r = g :: v /\ In g (tag "+-") /\ Forall (fun c => c = "_"%ch) v.
Proof using UO.
  intros H N. destruct r as [|g r]; [now left|]. right.
  assert (WP : word_end (g :: r) -> word_end ((g :: r) ++ s)) by (intros W c u [= <- _]; exact (W g r eq_refl)).
  destruct (in_dec N.eq_dec g (tag "+-")) as [G|G].
  - destruct (under_split r) as (v & z & -> & V & Z). destruct z as [|h z]; [exists g, v; rewrite app_nil_r; auto|]. exfalso.
    apply (N t ((g :: v ++ h :: z) ++ s) eq_refl). remember (g :: v ++ h :: z) as r eqn:R. destruct H as [d x D W B|d f k x D F K W M|d f n e k x D F M E K W]; subst x.
    + constructor; [exact D|now apply WP|]. intros (q & [= -> _]). cbn in G. decompose [or] G; try discriminate; assumption.
    + apply float_fraction; auto. intros n x L EK (e & y & E & EX). apply (M n x L EK).
      assert (E' : e ++ y = (x ++ g :: v ++ [h]) ++ z ++ s) by (rewrite <- E; cbn [app]; rewrite <- !app_assoc; cbn [app]; rewrite <- !app_assoc; reflexivity).
      destruct (exponent_cross e y x g v h _ G V (Z h z eq_refl) EX E') as (e' & y' & E2 & EX'). exists e', (y' ++ z). split; [|exact EX'].
      rewrite app_assoc, <- E2, <- app_assoc. cbn [app]. now rewrite <- app_assoc.
    + apply float_exponent; auto.
  - exfalso. apply (N t ((g :: r) ++ s) eq_refl). remember (g :: r) as r' eqn:R. destruct H as [d x D W B|d f k x D F K W M|d f n e k x D F M E K W]; subst x.
    + constructor; [exact D|now apply WP|]. intros (q & [= -> _]). apply B. now exists r.
    + apply float_fraction; auto. intros n x L EK (e & y & E & EX). apply (M n x L EK). cbn [app] in E.
      destruct (app_cases _ _ _ _ E) as [(q & -> & _)|(q & -> & E')]; [exists e, (q ++ g :: r); now rewrite <- app_assoc|].
      destruct q as [|f' q]; [exists x, (g :: r); rewrite app_nil_r in EX; now split|]. exfalso. injection E' as <- _.
      apply exponent_inside in EX. apply Forall_app in EX as [_ EX]. inversion EX as [|? ? [X|X] _]; [|contradiction]. rewrite (W g r eq_refl) in X. discriminate.
    + apply float_exponent; auto.
Qed.

Lemma leaf_reads a t r k ps : lexeme t r k -> reads (a + strlen t) r ps -> reads a (t ++ r) (PTok [k (mkspan a (a + strlen t))] :: ps).
Proof using.
  intros L R. assert (X := reads_leaf a [] t r k ps trivia_nil L). unfold strlen in X at 1 3 4. cbn [length app] in X. change (N.of_nat 0) with 0 in X. rewrite N.add_0_r in X. now apply X.
Qed.
Definition all_tokens (a : N) (x : str) : Prop := exists ps, reads a x ps /\ only_delims ps = [] /\ no_bad ps.
Lemma tokens_leaf a t r k : lexeme t r k -> all_tokens (a + strlen t) r -> all_tokens a (t ++ r).
Proof using.
  intros L (ps & R & D & N). eexists. split; [exact (leaf_reads _ _ _ _ _ L R)|]. split; [exact D|]. intros q [X|X]; [discriminate X|exact (N q X)].
Qed.
Lemma tokens_nil a : all_tokens a [].
Proof using. exists []. split; [apply reads_nil|]. split; [reflexivity|intros q []]. Qed.
Lemma tokens_signed a t g v : In g (tag "+-") -> Forall (fun c => c = "_"%ch) v -> float_at t (g :: v) -> all_tokens a (t ++ g :: v).
Proof using UO.
  intros G V F. apply tokens_leaf with (TLiteral t); [now constructor; apply literal_float|].
  assert (P : In g punct_chars /\ g <> SQUOTE /\ g <> "/"%ch) by (cbn in G; destruct G as [<-|[<-|[]]]; (split; [cbn; tauto|split; discriminate])).
  destruct P as (P & Q & S). destruct (punct_any g v P Q) as (sg & PA); [intros (z & [= X _]); contradiction..|].
  apply (tokens_leaf _ [g] v (TPunct g sg)); [now constructor|]. destruct v as [|c v]; [apply tokens_nil|].
  rewrite <- (app_nil_r (c :: v)). apply tokens_leaf with (TIdent (c :: v) false); [|apply tokens_nil]. inversion V as [|? ? -> V']; subst. apply lexeme_ident, ident_plain.
  - eexists _, v. split; [reflexivity|]. split; [now left|]. eapply Forall_impl; [|exact V']. intros x ->. now rewrite (xid_continue_ascii U UO).
  - discriminate.
  - intros [[_ (z & Z)]|[[_ (z & Z)]|[_ (z & Z)]]]; discriminate Z.
Qed.

Lemma lexeme_upto t m c u k : continues_only c -> lexeme t (m ++ c :: u) k ->
  (forall i after, m ++ c :: u = tag "r#" ++ i ++ after -> ident_text i -> ~ In i never_raw -> word_end after -> exists q, m = tag "r#" ++ i ++ q /\ after = q ++ c :: u) ->
  (exists k', lexeme t m k') \/ (Forall plain_char m /\ forall a, all_tokens a (t ++ m)).
Proof using UO.
  intros [C NS] H RW. remember (m ++ c :: u) as x eqn:X. destruct H as [t x H|p x sg H|t x n raw H|x]; subst.
  - remember (m ++ c :: u) as x eqn:X. destruct H as [q x Q N|q k x Q S W|t x H|t x H N]; subst x.
    + left. eexists. apply lexeme_literal, literal_quoted; auto. exact (no_word_cut _ _ N).
    + left. eexists. apply lexeme_literal, literal_suffixed; auto. exact (word_end_cut _ _ W).
    + left. eexists. apply lexeme_literal, literal_float. exact (float_cut _ _ _ H).
    + destruct (p_float (t ++ m)) as [r'|] eqn:PF.
      * right. apply (p_float_iff UO) in PF as (t' & E & F).
        assert (K : r' = [] \/ exists g v, r' = g :: v /\ In g (tag "+-") /\ Forall (fun c => c = "_"%ch) v).
        { apply (float_only t' r' (c :: u) F). intros t1 r1 E1. apply N. now rewrite app_assoc, E, <- app_assoc. }
        assert (NC : Forall number_char t') by exact (float_chars UO _ _ F).
        destruct K as [->|(g & v & -> & G & V)].
        -- rewrite app_nil_r in E. split.
           ++ apply number_plain. rewrite <- E in NC. now apply Forall_app in NC.
           ++ intros a. rewrite E, <- (app_nil_r t'). apply tokens_leaf with (TLiteral t'); [now constructor; apply literal_float|apply tokens_nil].
        -- split.
           ++ apply number_plain. assert (NA : Forall number_char (t ++ m)).
              { rewrite E. apply Forall_app. split; [exact NC|]. constructor; [right; cbn in G |- *; tauto|exact (underscores UO v V)]. }
              now apply Forall_app in NA.
           ++ intros a. rewrite E. now apply tokens_signed.
      * left. eexists. apply lexeme_literal, literal_int.
        -- remember (m ++ c :: u) as x eqn:X. destruct H as [d k x D S W R|p b ds k x R D E S K W]; subst x.
           ++ apply int_decimal; auto. exact (word_end_cut _ _ W).
           ++ apply int_radix with b; auto. exact (word_end_cut _ _ W).
        -- intros t' r' E F. assert (Z : p_float (t ++ m) = Some r') by (apply (p_float_iff UO); now exists t'). congruence.
  - left. remember (m ++ c :: u) as x eqn:X. destruct H as [p x P Q N1 N2 S|p x P Q N1 N2 S|i after I W A1 A2|i after I N W A1].
    1,2: subst x; destruct (punct_any p m P Q) as (sg & G); [intros B; apply N1; now apply (begins_cut (p :: m))|
      intros B; apply N2; now apply (begins_cut (p :: m))|exists (TPunct p sg); now constructor].
    + symmetry in X. destruct (app_cases _ _ _ _ X) as [(q & -> & ->)|(q & -> & E')].
      * eexists. apply lexeme_punct, punct_lifetime; auto; [exact (word_end_cut _ _ W)| |]; intros B; [apply A1|apply A2]; now apply begins_cut.
      * destruct I as (f & i & EI & SF & CI). destruct m as [|f' m].
        -- exfalso. cbn [app] in EI. rewrite EI in E'. injection E' as -> _. contradiction.
        -- injection EI as -> <-. apply Forall_app in CI as [CI _].
           assert (IM : ident_text (f :: m)) by (now exists f, m).
           eexists. apply lexeme_punct. rewrite <- (app_nil_r (f :: m)). apply punct_lifetime; [exact IM|discriminate|intros (z & Z); discriminate Z..].
    + symmetry in X. destruct (RW i after eq_refl I N W) as (q & -> & ->).
      eexists. apply lexeme_punct, punct_raw_lifetime; auto; [exact (word_end_cut _ _ W)|]. intros B; apply A1; now apply begins_cut.
  - left. eexists. apply lexeme_ident. exact (ident_cut _ _ _ _ _ H).
  - left. eexists. apply lexeme_error.
Qed.

Lemma plain_side d : In d delims -> (forall y, ~ Forall plain_char (open_char d ++ y)) /\ (forall y, ~ Forall plain_char (close_char d ++ y)).
Proof using.
  intros D. cbn in D. destruct D as [<-|[<-|[<-|[]]]]; (split; intros y F; inversion F as [|? ? P _]; apply P; cbn; tauto).
Qed.
Lemma reads_upto_continue a x ps : reads a x ps -> a + strlen x < two32 -> forall pre z post p, ps = pre ++ z :: post -> placed z = Some p ->
  forall y c u, x = y ++ c :: u -> p = a + strlen y -> continues_only c ->
  (exists pre', reads a y pre' /\ only_delims pre' = only_delims pre /\ no_bad pre') /\ (Forall plain_char y -> only_delims pre = []).
Proof using UO.
  induction 1 as [a s B|a w s d r ps Hw Hd H IH|a w s d r ps Hw Hd H IH|a w d r inner x ps Hw Hd H IH
                 |a w t r k ps Hw Hl H IH|a w s Hw Hs]; intros BD pre z post p E P y c u EY PY CO; (destruct pre as [|z' pre]; [|]); try discriminate E; cbn [app] in E.
  all: try (assert (w = y) as <- by (injection E as <- _; try discriminate P; injection P as P; rewrite <- P in PY; now destruct (same_place a _ _ _ _ EY PY));
    split; [exists []; split; [apply reads_end; now constructor|split; [reflexivity|intros q []]]|reflexivity]).
  all: try (injection E as E _; rewrite <- E in P; discriminate P).
  all: injection E as <- E; try (destruct pre; discriminate E).
  all: destruct (reads_upto _ _ _ H _ _ _ _ E P) as (y' & r' & -> & PY' & _ & _).
  - destruct Hd as (D1 & -> & ND).
    assert (L1 : strlen (open_char d) = 1) by (cbn in D1; decompose [or] D1; subst; try reflexivity; contradiction).
    destruct (same_place a (w ++ open_char d ++ y') y r' (c :: u)) as [<- ->]; [now rewrite <- EY, <- !app_assoc|rewrite !strlen_app'; lia|].
    destruct (IH ltac:(rewrite !strlen_app' in *; lia) _ _ _ _ E P y' c u eq_refl PY' CO) as ((pre' & R & O & NB) & PL). split.
    + exists (POpen d (a + strlen w) :: pre'). split; [|split; [cbn [only_delims delim_piece]; now rewrite O|intros q [X|X]; [discriminate X|exact (NB q X)]]].
      apply reads_open with y'; [exact Hw| |exact R]. split; [exact D1|]. split; [reflexivity|]. intros X. apply ND. rewrite app_assoc. now apply begins_cut.
    + intros F. apply Forall_app in F as [_ F]. exfalso. exact (proj1 (plain_side d D1) _ F).
  - destruct Hd as (D1 & ->).
    assert (L1 : strlen (close_char d) = 1) by (cbn in D1; decompose [or] D1; subst; try reflexivity; contradiction).
    destruct (same_place a (w ++ close_char d ++ y') y r' (c :: u)) as [<- ->]; [now rewrite <- EY, <- !app_assoc|rewrite !strlen_app'; lia|].
    destruct (IH ltac:(rewrite !strlen_app' in *; lia) _ _ _ _ E P y' c u eq_refl PY' CO) as ((pre' & R & O & NB) & PL). split.
    + exists (PClose d (a + strlen w) :: pre'). split; [|split; [cbn [only_delims delim_piece]; now rewrite O|intros q [X|X]; [discriminate X|exact (NB q X)]]].
      apply reads_close with y'; [exact Hw|now split|exact R].
    + intros F. apply Forall_app in F as [_ F]. exfalso. exact (proj2 (plain_side d D1) _ F).
  - destruct (same_place a (w ++ d ++ y') y r' (c :: u)) as [<- ->]; [now rewrite <- EY, <- !app_assoc|rewrite !strlen_app'; lia|].
    destruct (IH ltac:(rewrite !strlen_app' in *; lia) _ _ _ _ E P y' c u eq_refl PY' CO) as ((pre' & R & O & NB) & PL). split.
    + eexists (PTok _ :: pre'). split; [|split; [exact O|intros q [X|X]; [discriminate X|exact (NB q X)]]].
      apply reads_doc; [exact Hw| |exact R]. apply doc_cut in Hd; [exact Hd|]. right. split; [discriminate|]. intros (v & [= -> _]).
      destruct CO as [CO _]. rewrite (xid_continue_ascii U UO) in CO by reflexivity. discriminate.
    + intros F. apply Forall_app in F as [_ F]. apply Forall_app in F as [_ F]. exact (PL F).
  - destruct (same_place a (w ++ t ++ y') y r' (c :: u)) as [<- ->]; [now rewrite <- EY, <- !app_assoc|rewrite !strlen_app'; lia|].
    assert (BD' : a + strlen w + strlen t + strlen (y' ++ c :: u) < two32) by (rewrite !strlen_app' in *; lia).
    destruct (IH BD' _ _ _ _ E P y' c u eq_refl PY' CO) as ((pre' & R & O & NB) & PL).
    assert (PLL : Forall plain_char (w ++ t ++ y') -> only_delims pre = []).
    { intros F. apply Forall_app in F as [_ F]. apply Forall_app in F as [_ F]. exact (PL F). }
    split; [|exact PLL].
    destruct (lexeme_upto t y' c u k CO Hl) as [(k' & L)|(F & T)].
    + intros i after X I N W. destruct (reads_any UO (a + strlen w + strlen t + strlen (tag "r#" ++ i)) after) as (qs & Q).
      { rewrite X, app_assoc, strlen_app' in BD'. lia. }
      assert (LX : lexeme (tag "r#" ++ i) after (TIdent i true)) by (now constructor; constructor).
      assert (R2 := leaf_reads _ _ _ _ _ LX Q). rewrite <- app_assoc, <- X in R2.
      pose proof (reads_fun UO _ _ _ _ BD' H R2) as EQ. rewrite E in EQ. destruct pre as [|z' pre].
      { injection EQ as EQ _. rewrite EQ in P. discriminate P. }
      injection EQ as _ EQ. destruct (reads_upto _ _ _ Q _ _ _ _ (eq_sym EQ) P) as (y2 & r2 & -> & P2 & _).
      destruct (same_place (a + strlen w + strlen t) ((tag "r#" ++ i) ++ y2) y' r2 (c :: u)) as [<- ->]; [now rewrite X, <- !app_assoc|rewrite strlen_app'; lia|].
      exists y2. now rewrite <- !app_assoc.
    + eexists (PTok _ :: pre'). split; [|split; [exact O|intros q [X|X]; [discriminate X|exact (NB q X)]]].
      apply reads_leaf; [exact Hw|exact L|exact R].
    + destruct (T (a + strlen w)) as (qs & Q & D & N). exists qs. split; [now apply reads_before|]. split; [|exact N].
      rewrite D. symmetry. exact (PL F).
Qed.

(** ** Before an error everything can be closed *)
Definition closable (pre : list piece) : Prop :=
  exists ds, (length ds <= length pre)%nat /\ Forall (fun d => exists q, In (POpen d q) pre) ds /\ forall b, exists ts, tree (pre ++ zip_close ds b) ts.
Definition cut_at (x : list piece) (p : N) : Prop :=
  exists pre z post, x = pre ++ z :: post /\ placed z = Some p /\ closable pre.
Lemma closable_tree pre ts : tree pre ts -> closable pre.
Proof using. intros T. exists []. cbn. split; [lia|]. split; [constructor|]. intros b. exists ts. now rewrite app_nil_r. Qed.
Lemma closable_open d a pre : closable pre -> closable (POpen d a :: pre).
Proof using.
  intros (ds & L & F & T). exists (ds ++ [d]). rewrite app_length. cbn [length]. split; [lia|]. split.
  - apply Forall_app. split; [|repeat constructor; exists a; now left]. eapply Forall_impl; [|exact F]. intros e (q & Q). exists q. now right.
  - intros c. destruct (T c) as (ts & TS). rewrite zip_close_app. cbn [app]. rewrite app_assoc. eexists. exact (tree_group d a _ _ _ [] [] TS tree_nil).
Qed.
Lemma closable_after ps ts pre : tree ps ts -> closable pre -> closable (ps ++ pre).
Proof using.
  intros T0 (ds & L & F & T). exists ds. rewrite app_length. split; [lia|]. split.
  - eapply Forall_impl; [|exact F]. intros e (q & Q). exists q. apply in_app_iff. now right.
  - intros c. destruct (T c) as (us & TS). exists (ts ++ us). rewrite <- app_assoc. now apply tree_app.
Qed.
Lemma wrong_cut x p : wrong x p -> cut_at x p.
Proof using.
  induction 1 as [a ps|d a ps ts T|d a ps1 ts d' b ps2 T N|d a ps b W IH|ps1 ts ps2 b T W IH].
  - exists [], (PBad a), ps. repeat split. apply closable_tree with []. constructor.
  - exists [], (POpen d a), ps. repeat split. apply closable_tree with []. constructor.
  - exists (POpen d a :: ps1), (PClose d' b), ps2. repeat split. apply closable_open. now apply closable_tree with ts.
  - destruct IH as (pre & z & post & -> & P & C). exists (POpen d a :: pre), z, post. repeat split; auto. now apply closable_open.
  - destruct IH as (pre & z & post & -> & P & C). exists (ps1 ++ pre), z, post. rewrite <- app_assoc. repeat split; auto. now apply closable_after with ts.
Qed.
Lemma wrong_top_cut x p : wrong_top x p -> cut_at x p.
Proof using.
  intros [x' b W|ps1 ts d b ps2 T]; [now apply wrong_cut|]. exists ps1, (PClose d b), ps2. repeat split. now apply closable_tree with ts.
Qed.

Lemma continues_dec c : continues_only c \/ ~ continues_only c.
Proof using.
  unfold continues_only, start_char. destruct (is_xid_continue c); [|right; intros [H _]; discriminate]. destruct (N.eq_dec c "_"%ch), (is_xid_start c); try (right; tauto). left. split; [reflexivity|]. intros [H|H]; congruence.
Qed.
Lemma error_viable : forall start s c r sp, start + 2 * strlen (s ++ c :: r) + 3 < two32 ->
  token_stream_from_str start (s ++ c :: r) = Ok (LexError sp) -> lo sp = start + strlen s ->
  exists u ts, token_stream_from_str start (s ++ u) = Ok (Lexed ts).
Proof using UO.
  intros start s c r sp B P L.
  apply (parse_reads_error UO _ start) in P as (ps & (a & x & WB & R) & W & E); [|lia].
  destruct (wrong_top_cut _ _ W) as (pre & z & post & -> & PZ & ds & LD & FD & T).
  destruct (reads_upto _ _ _ R _ _ _ _ eq_refl PZ) as (y & r' & EX & PP & F & RU).
  assert (XY : r' = c :: r /\ exists b, s = b ++ y /\ forall u, (forall t, u <> 0xFEFF :: t) -> without_bom start (s ++ u) a (y ++ u)).
  { remember (s ++ c :: r) as src eqn:S. destruct WB as [x|x NB].
    - destruct s as [|f s]; [exfalso; unfold strlen in *; cbn [length] in *; lia|]. injection S as <- S. rewrite S in EX.
      destruct (same_place start _ _ _ _ EX) as [<- ->]; [unfold strlen in *; cbn [length] in *; lia|]. split; [reflexivity|].
      exists [0xFEFF]. split; [reflexivity|]. intros u _. constructor.
    - rewrite S in EX. destruct (same_place start _ _ _ _ EX) as [<- ->]; [lia|]. split; [reflexivity|]. exists []. split; [reflexivity|].
      intros u NU. constructor. intros t TT. destruct s as [|f s]; [exact (NU t TT)|]. injection TT as -> _. apply (NB (s ++ c :: r)). now rewrite S. }
  destruct XY as (-> & b & Eb & WB').
  assert (K : exists w pre', (length w <= 2)%nat /\ (forall t, w <> 0xFEFF :: t) /\ reads a (y ++ w) pre' /\ no_bad pre' /\ only_delims pre' = only_delims pre).
  { destruct (continues_dec c) as [CO|NC].
    - assert (BX : a + strlen x < two32) by (destruct WB; unfold strlen in *; cbn [length] in *; lia).
      destruct (reads_upto_continue _ _ _ R BX _ _ _ _ eq_refl PZ y c r EX PP CO) as ((pre' & R' & O & NB) & _).
      exists [], pre'. rewrite app_nil_r. cbn [length]. split; [lia|]. split; [discriminate|auto].
    - destruct (found_stops z (c :: r) F) as (w & s' & ES & M1 & M2 & M3 & LW & NW & QS).
      { destruct z; try discriminate PZ; eauto. }
      { intros c' u [= <- _]. exact NC. }
      destruct (QS (lo sp)) as (qs & Q & NQ & DQ).
      destruct (RU w s' ES M1 M2 M3 qs Q NQ) as (pre' & R' & O & NB). exists w, (pre' ++ qs). repeat (split; [assumption|]). split.
      + intros q I; apply in_app_iff in I as [I|I]; [exact (NB q I)|exact (NQ q I)].
      + now rewrite delims_app, O, DQ, app_nil_r. }
  destruct K as (w & pre' & LW & NW & R' & NB2 & O).
  assert (FD' : Forall (fun e => In e delims) ds).
  { eapply Forall_impl; [|exact FD]. intros e (q & IQ). destruct (reads_at _ _ _ R _ _ (proj2 (in_app_iff pre (z :: post) (POpen e q)) (or_introl IQ)) eq_refl) as (_ & s1 & _ & _ & r1 & OO & _). exact OO. }
  destruct (T (a + strlen (y ++ w) + 1)) as (ts & TS).
  assert (OD : only_delims (pre' ++ zip_close ds (a + strlen (y ++ w) + 1)) = only_delims (pre ++ zip_close ds (a + strlen (y ++ w) + 1))) by (now rewrite !delims_app, O).
  assert (NB3 : no_bad (pre' ++ zip_close ds (a + strlen (y ++ w) + 1))).
  { intros q I. apply in_app_iff in I as [I|I]; [exact (NB2 q I)|]. revert I. generalize (a + strlen (y ++ w) + 1). clear. induction ds as [|d ds IH]; intros n; [intros []|].
    intros [I|I]; [discriminate I|exact (IH _ I)]. }
  destruct (tree_delims _ _ TS _ OD NB3) as (us & TU).
  assert (LC : length (concat (map close_char ds)) = length ds).
  { clear - FD'. induction FD' as [|e ds DE _ IH]; [reflexivity|]. cbn [map concat]. rewrite app_length, IH.
    cbn in DE. destruct DE as [<-|[<-|[<-|[]]]]; reflexivity. }
  assert (LPS : (length ds <= length (s ++ c :: r))%nat).
  { pose proof (reads_count UO _ _ _ R) as RC. rewrite app_length in RC. cbn [length] in RC. rewrite EX in RC. rewrite Eb, <- app_assoc, app_length. lia. }
  exists (w ++ LF :: concat (map close_char ds)), us.
  assert (B' : start + strlen (s ++ w ++ LF :: concat (map close_char ds)) < two32).
  { unfold strlen in *. rewrite !app_length in *. cbn [length] in *. rewrite LC. lia. }
  apply (parse_reads UO _ start B'). eexists. split; [|exact TU].
  exists a, ((y ++ w) ++ LF :: concat (map close_char ds)). split.
  - rewrite <- app_assoc. apply WB'. intros t TT. destruct w as [|f w]; [discriminate TT|]. injection TT as -> _. exact (NW w eq_refl).
  - apply (reads_lf UO); [exact R'|exact NB2|now apply reads_closers].
Qed.
Lemma found_some z s p : found z s -> placed z = Some p -> s <> [].
Proof using.
  intros F P ->. destruct z as [d q|d q|k|q]; cbn [found] in F; try discriminate P.
  - destruct F as (r & D & E & _). cbn in D. destruct D as [<-|[<-|[<-|[]]]]; discriminate E.
  - destruct F as (r & D & E). cbn in D. destruct D as [<-|[<-|[<-|[]]]]; discriminate E.
  - apply (proj1 F). constructor. constructor.
Qed.
Lemma before_error : forall start s r sp, start + 2 * strlen (s ++ r) + 3 < two32 ->
  token_stream_from_str start (s ++ r) = Ok (LexError sp) -> lo sp = start + strlen s ->
  exists u ts, token_stream_from_str start (s ++ u) = Ok (Lexed ts).
Proof using UO.
  intros start s [|c r] sp B P L; [exfalso|exact (error_viable start s c r sp B P L)]. rewrite app_nil_r in *.
  apply (parse_reads_error UO _ start) in P as (ps & (a & x & WB & R) & W & E); [|lia].
  destruct (wrong_top_cut _ _ W) as (pre & z & post & -> & PZ & _).
  destruct (reads_upto _ _ _ R _ _ _ _ eq_refl PZ) as (y & r' & -> & PP & F & _). apply (found_some _ _ _ F PZ).
  destruct r' as [|f r']; [reflexivity|]. exfalso. inversion WB; subst; unfold strlen in *; cbn [length] in *; rewrite ?app_length in *; cbn [length] in *; lia.
Qed.
End WithUnicode.
