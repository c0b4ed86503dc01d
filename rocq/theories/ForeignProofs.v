(** * Errors at characters with which nothing begins (C93) *)
From Verif Require Import Base BaseFacts Unicode Tokens Lexer PureLexer.
From Verif Require Import LexerEquiv LexerEquiv2 LexerEquiv3 LexerEquiv4 Grammar Stable Local.
From Verif Require Import SpecText SpecTree SpecLit SpecGrammar SpecFinal Comments Spans Balance LexemeProofs SpacingProofs AppendProofs FinalProofs.
Import ListNotations.
Local Open Scope N_scope.

Section WithUnicode.
Context {U : unicode} (UO : unicode_ok U).

(** ** Exchanging what follows *)
Definition apart (c : char) : Prop := is_xid_continue c = false /\ ~ In c punct_chars /\ c <> DQUOTE /\ c <> LF.
Lemma nothing_apart c : begins_nothing c -> apart c.
Proof using.
  intros (B & C & P & _ & Q). repeat split; auto. intros ->. apply B. left. reflexivity.
Qed.
Section Swap.
Variables (c : char) (r u : str).
Hypothesis F : apart c.

Lemma not_continue x : is_xid_continue x = true -> x <> c.
Proof using F. intros H ->. destruct F as (E & _). congruence. Qed.
Lemma start_continue x : start_char x -> is_xid_continue x = true.
Proof using UO.
  intros [->|H]; [now rewrite (xid_continue_ascii U UO)|]. now apply (xid_start_continue U UO).
Qed.
Lemma ident_continue s : ident_text s -> Forall (fun x => is_xid_continue x = true) s.
Proof using UO. intros (x & t & -> & H & T). constructor; [now apply start_continue|exact T]. Qed.
Lemma not_punct x : In x punct_chars -> x <> c.
Proof using F. intros H ->. now destruct F as (_ & N & _). Qed.

Lemma begins_swap m p : ~ In c p -> begins (m ++ c :: u) p -> begins (m ++ c :: r) p.
Proof using.
  intros N (z & Z). destruct (app_cases _ _ _ _ Z) as [(q & -> & _)|(q & -> & E)].
  - exists (q ++ c :: r). now rewrite <- app_assoc.
  - destruct q as [|x q]; [rewrite app_nil_r; now exists (c :: r)|]. injection E as <- _. exfalso. apply N. apply in_app_iff. right. now left.
Qed.
Lemma head_swap (P : char -> Prop) m : (forall x t, m ++ c :: r = x :: t -> P x) -> forall x t, m ++ c :: u = x :: t -> P x.
Proof using.
  intros H x t E. destruct m as [|y m]; cbn [app] in *; injection E as <- _; eapply H; reflexivity.
Qed.
Lemma word_end_swap m : word_end (m ++ c :: r) -> word_end (m ++ c :: u).
Proof using. unfold word_end. apply head_swap. Qed.
Lemma no_word_swap m : no_word (m ++ c :: r) -> no_word (m ++ c :: u).
Proof using. unfold no_word. apply (head_swap (fun x => ~ start_char x)). Qed.

(** ** Numbers *)
Lemma digit_continue x : dec_digit x -> is_xid_continue x = true.
Proof using UO.
  unfold dec_digit. intros H. rewrite (xid_continue_ascii U UO) by lia. unfold is_dec_digit, between. cbn. lia.
Qed.
Definition number_char (x : char) : Prop := is_xid_continue x = true \/ In x (tag "+-.").
Lemma number_not x : number_char x -> x <> c.
Proof using F.
  intros [H|H]; [now apply not_continue|]. apply not_punct. cbn in H. decompose [or] H; subst; try contradiction; cbn; tauto.
Qed.
Lemma dec_chars s : dec_text s -> Forall number_char s.
Proof using UO.
  intros (x & t & -> & D & T). constructor; [left; now apply digit_continue|]. eapply Forall_impl; [|exact T].
  intros y [Y| ->]; left; [now apply digit_continue|]. now rewrite (xid_continue_ascii U UO).
Qed.
Lemma suffix_chars s : number_suffix s -> Forall number_char s.
Proof using UO.
  intros [->|[H _]]; [constructor|]. eapply Forall_impl; [|now apply ident_continue]. intros y Y. now left.
Qed.
Lemma underscores s : Forall (fun x => x = "_"%ch) s -> Forall number_char s.
Proof using UO. intros H. eapply Forall_impl; [|exact H]. intros y ->. left. now rewrite (xid_continue_ascii U UO). Qed.
Lemma exponent_chars e : exponent_text e -> Forall number_char e.
Proof using UO.
  intros (a & s & b & d & -> & A & S & B & D). repeat (apply Forall_app; split); auto using underscores, dec_chars.
  destruct S as [->|[->| ->]]; [constructor|constructor; [right; cbn; tauto|constructor]..].
Qed.
Lemma letter_chars m : exponent_letter m -> Forall number_char m.
Proof using UO. intros [->| ->]; (constructor; [left; now rewrite (xid_continue_ascii U UO)|constructor]). Qed.
Lemma point : number_char "."%ch.
Proof using. right. cbn. tauto. Qed.
Lemma float_chars t x : float_at t x -> Forall number_char t.
Proof using UO.
  intros [d y D _ _|d f s y D G S _ _|d f m e s y D G M E S _]; repeat (apply Forall_app; split); auto using dec_chars, suffix_chars, exponent_chars, letter_chars.
  1,2: (constructor; [exact point|constructor]).
  destruct G as [->|(f' & -> & G)]; [constructor|]. apply Forall_app. split; [constructor; [exact point|constructor]|now apply dec_chars].
Qed.
Lemma within (P : char -> Prop) e y z m : (forall x, P x -> x <> c) -> Forall P e -> m ++ c :: z = e ++ y -> exists q, m = e ++ q /\ y = q ++ c :: z.
Proof using.
  intros N H E. destruct (app_cases _ _ _ _ E) as [(q & -> & ->)|(q & -> & E')]; [now exists q|].
  destruct q as [|x q]; [exists []; rewrite !app_nil_r; now split|]. injection E' as <- _. apply Forall_app in H as [_ H].
  inversion H; subst. now elim (N c).
Qed.
Lemma float_swap t m : float_at t (m ++ c :: r) -> float_at t (m ++ c :: u).
Proof using UO F.
  intros H. remember (m ++ c :: r) as x eqn:X. destruct H as [d x D W B|d f s x D G S W N|d f n e s x D G M E S W]; subst x.
  - constructor; [exact D|now apply word_end_swap|]. intros C. apply B. destruct m as [|y m].
    + destruct C as (z & C). injection C as C _. now exfalso; apply (not_punct "."%ch ltac:(cbn; tauto)).
    + destruct C as (z & C). injection C as -> _. now exists (m ++ c :: r).
  - apply float_fraction; auto; [now apply word_end_swap|]. intros n x L ES (e & y & E & EX). apply (N n x L ES).
    rewrite app_assoc in E. destruct (within _ e y u (x ++ m) number_not (exponent_chars e EX) E) as (q & Q & _).
    exists e, (q ++ c :: r). split; [|exact EX]. now rewrite app_assoc, Q, <- app_assoc.
  - apply float_exponent; auto. now apply word_end_swap.
Qed.
Lemma int_swap t m : int_at t (m ++ c :: r) -> int_at t (m ++ c :: u).
Proof using.
  intros H. remember (m ++ c :: r) as x eqn:X. destruct H as [d s x D S W N|p b ds s x R D E S N W]; subst x.
  - apply int_decimal; auto. now apply word_end_swap.
  - apply int_radix with b; auto. now apply word_end_swap.
Qed.
End Swap.

Lemma literal_swap c r u : apart c -> forall t m, literal_at t (m ++ c :: r) -> literal_at t (m ++ c :: u).
Proof using UO.
  intros F t m H. remember (m ++ c :: r) as x eqn:X. destruct H as [q x Q N|q s x Q S W|t x H|t x H N]; subst x.
  - apply literal_quoted; auto. now apply no_word_swap with r.
  - apply literal_suffixed; auto. now apply word_end_swap with r.
  - apply literal_float. now apply float_swap with r.
  - apply literal_int; [now apply int_swap with r|]. intros t' r' E H'. rewrite app_assoc in E.
    destruct (within c number_char t' r' u (t ++ m) (number_not c F) (float_chars _ _ H') E) as (q & Q & ->).
    apply (float_swap c u r F) in H'. apply (N t' (q ++ c :: r)); [|exact H']. now rewrite app_assoc, Q, <- app_assoc.
Qed.
Lemma ident_swap c r u : apart c -> forall t m s raw, ident_at t (m ++ c :: r) s raw -> ident_at t (m ++ c :: u) s raw.
Proof using UO.
  intros F t m s raw H. remember (m ++ c :: r) as x eqn:X. destruct H as [s x I W N|s x I N W]; subst x.
  - constructor; [exact I|now apply word_end_swap with r|]. intros L. apply N.
    assert (NQ : ~ In c [DQUOTE]) by (intros [E|[]]; destruct F as (_ & _ & X & _); now apply X).
    assert (NS : ~ In c [SQUOTE]) by (intros [E|[]]; apply (not_punct c F SQUOTE); [cbn; tauto|exact E]).
    assert (NH : ~ In c (tag "#")) by (intros [E|[]]; apply (not_punct c F "#"%ch); [cbn; tauto|exact E]).
    destruct L as [[A B]|[[A B]|[A B]]]; [left|right; left|right; right]; (split; [exact A|now apply begins_swap with u]).
  - constructor; auto. now apply word_end_swap with r.
Qed.
Lemma comment_not c : apart c -> ~ In c (tag "//") /\ ~ In c (tag "/*").
Proof using.
  intros F. pose proof (not_punct c F "/"%ch ltac:(cbn; tauto)) as A. pose proof (not_punct c F "*"%ch ltac:(cbn; tauto)) as B.
  split; intros [E|[E|[]]]; auto.
Qed.
Lemma starts_swap c r u : apart c -> forall m, starts_punct (m ++ c :: r) -> starts_punct (m ++ c :: u).
Proof using.
  intros F m (x & t & E & P & N1 & N2). destruct (comment_not c F) as [C1 C2].
  destruct m as [|y m]; cbn [app] in E; injection E as -> E; [exfalso; now apply (not_punct _ F x P)|]. 
  exists x, (m ++ c :: u). split; [reflexivity|]. split; [exact P|]. split; intros B; [apply N1|apply N2]; now apply (begins_swap c r u (x :: m)).
Qed.
Lemma punct_swap c r u : apart c -> forall p m sg, punct_at p (m ++ c :: r) sg -> punct_at p (m ++ c :: u) sg.
Proof using UO.
  intros F p m sg H. destruct (comment_not c F) as [C1 C2].
  assert (NS : ~ In c [SQUOTE]) by (intros [E|[]]; apply (not_punct c F SQUOTE); [cbn; tauto|exact E]).
  assert (NH : ~ In c (tag "#")) by (intros [E|[]]; apply (not_punct c F "#"%ch); [cbn; tauto|exact E]).
  remember (m ++ c :: r) as x eqn:X. destruct H as [p x P Q N1 N2 S|p x P Q N1 N2 S|s after I W A1 A2|s after I N W A1].
  - subst x. apply punct_joint; auto; [| |now apply starts_swap with r]; intros B; [apply N1|apply N2]; now apply (begins_swap c r u (p :: m)).
  - subst x. apply punct_alone; auto; [| |intros B; apply S; now apply starts_swap with u]; intros B; [apply N1|apply N2]; now apply (begins_swap c r u (p :: m)).
  - symmetry in X. destruct (within c (fun x => is_xid_continue x = true) s after r m (not_continue c F) (ident_continue s I) X) as (q & -> & ->).
    rewrite <- app_assoc. apply punct_lifetime; auto; [now apply word_end_swap with r| |]; intros B; [apply A1|apply A2]; now apply begins_swap with u.
  - rewrite app_assoc in X. symmetry in X.
    assert (NE : forall x, (is_xid_continue x = true \/ In x (tag "r#")) -> x <> c).
    { intros x [H|[<-|[<-|[]]]]; [now apply not_continue| |apply not_punct; [exact F|cbn; tauto]].
      apply not_continue; [exact F|]. now rewrite (xid_continue_ascii U UO). }
    destruct (within c (fun x => is_xid_continue x = true \/ In x (tag "r#")) (tag "r#" ++ s) after r m NE) as (q & -> & ->); [|exact X|].
    + apply Forall_app. split; [repeat constructor; right; cbn; tauto|]. eapply Forall_impl; [|now apply ident_continue]. intros y Y. now left.
    + rewrite <- !app_assoc. apply punct_raw_lifetime; auto; [now apply word_end_swap with r|]. intros B; apply A1; now apply begins_swap with u.
Qed.
Lemma foreign_swap c r u : apart c -> forall t m k, lexeme t (m ++ c :: r) k -> lexeme t (m ++ c :: u) k.
Proof using UO.
  intros F t m k H. remember (m ++ c :: r) as x eqn:X. destruct H as [t x H|p x sg H|t x s raw H|x]; subst.
  - constructor. now apply literal_swap with r.
  - constructor. now apply punct_swap with r.
  - constructor. now apply ident_swap with r.
  - apply lexeme_error.
Qed.
Lemma doc_swap c r u : apart c -> forall d m inner x, doc_at d (m ++ c :: r) inner x -> doc_at d (m ++ c :: u) inner x.
Proof using.
  intros F d m inner x H. assert (NL : ~ In c [LF]).
  { intros [E|[]]. destruct F as (_ & _ & _ & F0). now apply F0. }
  remember (m ++ c :: r) as z eqn:Z. destruct H as [d z inner x L [E|E] N|d z inner x L E N|d z inner x L N]; subst z.
  - destruct m; discriminate E.
  - apply doc_at_line; auto. right. now apply begins_swap with r.
  - apply doc_at_crlf; auto. now apply begins_swap with r.
  - now apply doc_at_block.
Qed.

(** ** Nothing begins with it *)
Definition lexeme_start (x : char) : Prop := is_xid_continue x = true \/ In x punct_chars \/ x = DQUOTE \/ x = "("%ch.
Lemma prefix_head k t : (exists y z, t = y :: z /\ lexeme_start y) -> exists y z, prefix k ++ t = y :: z /\ lexeme_start y.
Proof using UO.
  intros H. destruct k; cbn [prefix app]; [exact H|..]; (eexists _, _; split; [reflexivity|]; left; now rewrite (xid_continue_ascii U UO)).
Qed.
Lemma number_head t x : Forall number_char t -> t = x -> t <> [] -> exists y z, x = y :: z /\ lexeme_start y.
Proof using.
  intros H <- N. destruct t as [|y z]; [congruence|]. exists y, z. split; [reflexivity|]. inversion H as [|? ? H' _]; subst.
  destruct H' as [H'|H']; [now left|right; left]. cbn in H'. decompose [or] H'; subst; try contradiction; cbn; tauto.
Qed.
Lemma quoted_head q : quoted q -> exists y z, q = y :: z /\ lexeme_start y.
Proof using UO.
  intros [k b v _ _|k n b _ _ _ _|k x _ _ _|k e v _ _].
  - apply prefix_head. eexists _, _. split; [reflexivity|]. right. right. now left.
  - unfold raw_literal. destruct k; cbn [app]; (eexists _, _; split; [reflexivity|]; left; now rewrite (xid_continue_ascii U UO)).
  - apply prefix_head. eexists _, _. split; [reflexivity|]. right. left. cbn. tauto.
  - apply prefix_head. eexists _, _. split; [reflexivity|]. right. left. cbn. tauto.
Qed.
Lemma ident_head s : ident_text s -> exists y z, s = y :: z /\ lexeme_start y.
Proof using UO. intros (y & z & -> & S & _). exists y, z. split; [reflexivity|]. left. now apply start_continue. Qed.
Lemma dec_nonempty d x : dec_text d -> d ++ x <> [].
Proof using. intros (c & t & -> & _). discriminate. Qed.
Lemma lexeme_head t r k : lexeme t r k -> exists y z, t = y :: z /\ lexeme_start y.
Proof using UO.
  intros [x y H|p x sg H|x y s raw H|x].
  - destruct H as [q x Q _|q s x Q _ _|x y H|x y H _].
    + now apply quoted_head.
    + destruct (quoted_head q Q) as (a & z & -> & L). eexists _, _. split; [reflexivity|exact L].
    + apply (number_head x); [now apply float_chars with y|reflexivity|].
      destruct H as [d y D _ _|d f s y D G S _ _|d f m e s y D G M E S _]; now apply dec_nonempty.
    + destruct H as [d s y D S _ _|p b ds s y R _ _ _ _ _].
      * destruct D as (c & t' & -> & D & _). eexists _, _. split; [reflexivity|]. left. now apply digit_continue.
      * destruct R; (eexists _, _; split; [reflexivity|]; left; now rewrite (xid_continue_ascii U UO)).
  - exists p, []. split; [reflexivity|]. right. left. destruct H as [p x P|p x P|s after I|s after I]; auto; cbn; tauto.
  - destruct H as [s y I _ _|s y I _ _]; [now apply ident_head|]. eexists _, _. split; [reflexivity|]. left. now rewrite (xid_continue_ascii U UO).
  - eexists _, _. split; [reflexivity|]. right. right. now right.
Qed.
Lemma trivia_head w : trivia w -> w = [] \/ exists y z, w = y :: z /\ (blank y \/ y = "/"%ch).
Proof using.
  intros [|c w' B _|x w' _ _|b w' [(z & -> & _) _] _]; [now left|right..]; eexists _, _; (split; [reflexivity|]); auto.
Qed.
Lemma unreadable_foreign c u : begins_nothing c -> unreadable (c :: u).
Proof using UO.
  intros F. pose proof (not_punct c (nothing_apart c F) "/"%ch ltac:(cbn; tauto)) as SL.
  assert (T : forall w r, c :: u = w ++ r -> trivia w -> w = []).
  { intros w r E W. destruct (trivia_head w W) as [->|(y & z & -> & H)]; [reflexivity|]. exfalso. injection E as <- _.
    destruct H as [H|H]; [destruct F as (F0 & _); now apply F0|congruence]. }
  split; [|split; [exact T|split; [|split; [|split]]]].
  - intros B. remember (c :: u) as s eqn:S. destruct B as [w W|w x W P].
    + subst w. specialize (T (c :: u) [] ltac:(now rewrite app_nil_r) W). discriminate T.
    + symmetry in S. pose proof (T w _ eq_refl W) as ->. injection S as S _. congruence.
  - intros d r inner x E H. assert (exists z, d = "/"%ch :: z) as (z & ->).
    { destruct H as [d r inner x [|] _ _|d r inner x [|] _ _|d r inner x [|] _]; eexists; reflexivity. }
    injection E as E _. congruence.
  - intros d r (D & E & _). cbn in D. destruct F as (_ & _ & _ & N & _). apply N.
    destruct D as [<-|[<-|[<-|[]]]]; injection E as -> _; cbn; tauto.
  - intros d r (D & E). cbn in D. destruct F as (_ & _ & _ & N & _). apply N.
    destruct D as [<-|[<-|[<-|[]]]]; injection E as -> _; cbn; tauto.
  - intros t r k E H. destruct (lexeme_head t r k H) as (y & z & -> & L). injection E as <- _.
    destruct F as (_ & F1 & F2 & F3 & F4). destruct L as [L|[L|[L|L]]]; [congruence|now apply F2|now apply F4|].
    apply F3. rewrite L. cbn. tauto.
Qed.

(** ** Up to such a character *)
Lemma reads_foreign a x ps : reads a x ps -> forall p y c r, In (PBad p) ps -> x = y ++ c :: r -> p = a + strlen y ->
  begins_nothing c -> forall u, reads a (y ++ c :: u) ps.
Proof using UO.
  induction 1 as [a s B|a w s d r ps Hw Hd H IH|a w s d r ps Hw Hd H IH|a w d r inner x ps Hw Hd H IH
                 |a w t r k ps Hw Hl H IH|a w s Hw Hs]; intros p y c r' I E P F u; [destruct I|..]; (destruct I as [I|I]; [try discriminate I|]).
  - destruct (reads_at _ _ _ H _ _ I eq_refl) as (y' & s' & -> & PP & _). destruct Hd as (D1 & -> & N).
    assert (L1 : strlen (open_char d) = 1) by (cbn in D1; decompose [or] D1; subst; try reflexivity; contradiction).
    assert (Ey : y = w ++ open_char d ++ y' /\ c :: r' = s').
    { apply (same_place a); [rewrite <- E; now rewrite <- !app_assoc|]. rewrite !strlen_app'. lia. }
    destruct Ey as [-> <-]. rewrite <- !app_assoc. apply reads_open with (r := y' ++ c :: u); [exact Hw| |now apply (IH p y' c r')].
    split; [exact D1|]. split; [reflexivity|]. intros B. apply N. rewrite app_assoc in B |- *. apply (error_swap _ c u r'); [|exact B].
    assert (CO := fun x => not_continue c (nothing_apart c F) x). destruct (comment_not c (nothing_apart c F)) as [C1 C2]. destruct F as (_ & _ & _ & F3 & _).
    intros IN. change (removelast error_text) with (tag "(/*ERROR*/") in IN.
    assert (Q : In c (tag "(") \/ In c (tag "/*") \/ In c (tag "ERO")) by (cbn in IN |- *; tauto).
    destruct Q as [Q|[Q|Q]]; [apply F3; cbn in Q |- *; tauto|exact (C2 Q)|].
    apply (CO c); [|reflexivity]. rewrite (xid_continue_ascii U UO); destruct Q as [<-|[<-|[<-|[]]]]; reflexivity.
  - destruct (reads_at _ _ _ H _ _ I eq_refl) as (y' & s' & -> & PP & _). destruct Hd as (D1 & ->).
    assert (L1 : strlen (close_char d) = 1) by (cbn in D1; decompose [or] D1; subst; try reflexivity; contradiction).
    assert (Ey : y = w ++ close_char d ++ y' /\ c :: r' = s').
    { apply (same_place a); [rewrite <- E; now rewrite <- !app_assoc|]. rewrite !strlen_app'. lia. }
    destruct Ey as [-> <-]. rewrite <- !app_assoc. apply reads_close with (r := y' ++ c :: u); [exact Hw| |now apply (IH p y' c r')].
    split; [exact D1|reflexivity].
  - destruct (reads_at _ _ _ H _ _ I eq_refl) as (y' & s' & -> & PP & _).
    assert (Ey : y = w ++ d ++ y' /\ c :: r' = s').
    { apply (same_place a); [rewrite <- E; now rewrite <- !app_assoc|]. rewrite !strlen_app'. lia. }
    destruct Ey as [-> <-]. rewrite <- !app_assoc. apply reads_doc; [exact Hw|now apply doc_swap with r'; [apply nothing_apart|]|now apply (IH p y' c r')].
  - destruct (reads_at _ _ _ H _ _ I eq_refl) as (y' & s' & -> & PP & _).
    assert (Ey : y = w ++ t ++ y' /\ c :: r' = s').
    { apply (same_place a); [rewrite <- E; now rewrite <- !app_assoc|]. rewrite !strlen_app'. lia. }
    destruct Ey as [-> <-]. rewrite <- !app_assoc. apply reads_leaf; [exact Hw|now apply foreign_swap with r'; [apply nothing_apart|]|now apply (IH p y' c r')].
  - injection I as I. assert (Ey : y = w /\ c :: r' = s) by (apply (same_place a); [now rewrite <- E|lia]).
    destruct Ey as [-> <-]. apply reads_bad; [exact Hw|now apply unreadable_foreign].
  - destruct I.
Qed.

Lemma error_foreign : forall start s c r sp, begins_nothing c -> start + strlen (s ++ c :: r) < two32 ->
  token_stream_from_str start (s ++ c :: r) = Ok (LexError sp) -> lo sp = start + strlen s ->
  forall u, start + strlen (s ++ c :: u) < two32 -> token_stream_from_str start (s ++ c :: u) = Ok (LexError sp).
Proof using UO.
  intros start s c r sp Fc B P L u B'.
  apply (parse_reads_error UO _ start B) in P as (ps & (a & x & WB & R) & W & E).
  apply (parse_reads_error UO _ start B').
  assert (PL : exists z, In z ps /\ placed z = Some (lo sp)).
  { destruct (wrong_top_kinds _ _ W) as [I|[(pre & d' & post & -> & F)|((d' & I) & _)]];
      [eexists; split; [exact I|reflexivity]| |eexists; split; [exact I|reflexivity]].
    exists (PClose d' (lo sp)). split; [apply in_app_iff; right; now left|reflexivity]. }
  assert (WB' : exists y, x = y ++ c :: r /\ start + strlen s = a + strlen y /\ without_bom start (s ++ c :: u) a (y ++ c :: u)).
  { destruct (N.eq_dec c 0xFEFF) as [->|NF]; [|now apply bom_swap].
    destruct s as [|f s].
    - exfalso. destruct PL as (z & I & Z). destruct (reads_at _ _ _ R _ _ I Z) as (y' & s' & _ & PP & _).
      cbn [app] in WB. inversion WB as [s0 Es|s0 NB]; subst; [unfold strlen in *; cbn [length] in *; lia|]. now apply (NB r).
    - remember ((f :: s) ++ 0xFEFF :: r) as z eqn:Z. destruct WB as [z|z NB]; cbn [app] in Z.
      + injection Z as <- ->. exists s. split; [reflexivity|]. split; [unfold strlen; cbn [length]; lia|]. constructor.
      + exists (f :: s). split; [exact Z|]. split; [reflexivity|]. constructor. intros t T. cbn [app] in T. injection T as -> _. exact (NB _ Z). }
  destruct WB' as (y & -> & PY & WB'). rewrite PY in L.
  assert (X : forall z, In z ps -> placed z = Some (lo sp) -> found z (c :: r)).
  { intros z I Z. destruct (reads_at _ _ _ R _ _ I Z) as (y' & s' & S & PP & F). rewrite L in PP.
    destruct (same_place a y y' (c :: r) s' S PP) as [_ ->]. exact F. }
  pose proof (unreadable_foreign c r Fc) as UN.
  destruct (wrong_top_kinds _ _ W) as [I|[(pre & d' & post & -> & F)|((d' & I) & _)]].
  - exists ps. split; [|split; [exact W|exact E]]. exists a, (y ++ c :: u). split; [exact WB'|]. now apply (reads_foreign _ _ _ R (lo sp) y c r).
  - exfalso. destruct (X (PClose d' (lo sp)) ltac:(apply in_app_iff; right; now left) eq_refl) as (r' & C). exact (unreadable_close _ _ _ C UN).
  - exfalso. destruct (X _ I eq_refl) as (r' & D & E' & _). rewrite E' in UN. exact (unreadable_open _ _ D UN).
Qed.
End WithUnicode.
