(** * The crate's reading of a text against that of the Rust reference.  Not a model of code. *)
From Verif Require Import Base BaseFacts Unicode Tokens Lexer PureLexer.
From Verif Require Import LexerEquiv LexerEquiv2 LexerEquiv3 LexerEquiv4 Grammar Stable Trivia.
From Verif Require Import SpecText Comments Fallback SpecTree Spans EscaperFacts.
From Verif Require Import SpecLit SpecGrammar NumGrammar QuotedGrammar LexemeProofs SpecReference ReferenceProofs.
From Verif Require Import SpecSpacing SpacingProofs SpecSource.
Local Open Scope N_scope.

Section Source.
Context {U : unicode} (HU : unicode_ok U).

(** ** White space *)
Lemma pattern_blank c : In c pattern_white_space -> blank c.
Proof using.
  cbn. intros I. unfold blank.
  repeat (destruct I as [<-|I]; [first [left; reflexivity|right; left; reflexivity|right; right; reflexivity]|]). destruct I.
Qed.
Lemma foreign_blank c : In c foreign_white_space -> blank c.
Proof using. cbn. intros I. left. repeat (destruct I as [<-|I]; [reflexivity|]). destruct I. Qed.
Lemma blank_split c : blank c -> In c pattern_white_space \/ In c foreign_white_space.
Proof using.
  intros [B|[->| ->]]; [|left; cbn; tauto|left; cbn; tauto].
  unfold is_white_space, between in B. cbn [In pattern_white_space foreign_white_space]. lia.
Qed.
Lemma space_trivia o w : space o w -> trivia w.
Proof using.
  induction 1 as [|c w I S IH|c w O I S IH|x w P S IH|b w P S IH]; [constructor|..].
  - now apply trivia_blank; [apply pattern_blank|].
  - now apply trivia_blank; [apply foreign_blank|].
  - now apply trivia_line.
  - now apply trivia_block.
Qed.
Lemma trivia_space w : trivia w -> space true w.
Proof using.
  induction 1 as [|c w B T IH|x w P T IH|b w P T IH]; [constructor|..].
  - destruct (blank_split c B); [now apply space_blank|now apply space_foreign].
  - now apply space_line.
  - now apply space_block.
Qed.

(** ** Numbers *)
Definition stops (u : str) : Prop := forall c v, u = c :: v -> dou c = false.
Lemma float_shape d u t r : dec_text d -> stops u -> float_at t r -> d ++ u = t ++ r ->
  (u = tag "." ++ r /\ word_end r /\ ~ begins r (tag ".")) \/
  (exists f v, u = tag "." ++ f ++ v /\ dec_text f) \/
  (exists m v, u = m ++ v /\ exponent_letter m).
Proof using.
  intros Hd Hu Hf E.
  assert (P : forall x, stops (tag "." ++ x)) by (intros x c v [= <- _]; reflexivity).
  assert (L : forall m x, exponent_letter m -> stops (m ++ x)) by (intros m x [->| ->] c v [= <- _]; reflexivity).
  destruct Hf as [d' r' Hd' Hr Hn|d' f s' r' Hd' Hf Hs' Hr Hn|d' f m e s' r' Hd' Hf Hm He Hs' Hr]; rewrite <- !app_assoc in E.
  - apply (run_unique dou) in E as [_ E]; [|now apply dec_run|now apply dec_run|exact Hu|apply P]. left. now rewrite E.
  - apply (run_unique dou) in E as [_ E]; [|now apply dec_run|now apply dec_run|exact Hu|apply P]. right. left. exists f, (s' ++ r'). now rewrite E.
  - destruct Hf as [->|(f' & -> & Hf')].
    + cbn [app] in E. apply (run_unique dou) in E as [_ E]; [|now apply dec_run|now apply dec_run|exact Hu|now apply L].
      right. right. exists m, (e ++ s' ++ r'). now rewrite E.
    + rewrite <- !app_assoc in E. apply (run_unique dou) in E as [_ E]; [|now apply dec_run|now apply dec_run|exact Hu|apply P].
      right. left. exists f', (m ++ e ++ s' ++ r'). now rewrite E.
Qed.
Lemma end_stops r : word_end r -> stops r.
Proof using HU.
  intros W c v E. specialize (W c v E). destruct (dou c) eqn:D; [|reflexivity]. exfalso.
  unfold dou in D. assert (L : c < 128) by (unfold is_dec_digit, between in D; lia).
  rewrite (xid_continue_ascii U HU c L) in W. unfold is_dec_digit, between in *. lia.
Qed.
Lemma letter_continues m v : exponent_letter m -> ~ word_end (m ++ v).
Proof using HU.
  intros [->| ->] W; specialize (W _ _ eq_refl); rewrite (xid_continue_ascii U HU) in W by reflexivity; discriminate W.
Qed.
Lemma digit_start c : dec_digit c -> ~ start_char c.
Proof using HU.
  intros D S. destruct (start_facts HU c S) as (_ & _ & X & _). unfold is_dec_digit, between in X. unfold dec_digit in D. lia.
Qed.
Lemma start_continue c : start_char c -> is_xid_continue c = true.
Proof using HU. intros [->|S]; [now rewrite (xid_continue_ascii U HU) by reflexivity|exact (xid_start_continue U HU c S)]. Qed.
Lemma whole_literal t r : whole t -> word_end r -> point_apart r -> literal_at t r.
Proof using HU.
  intros [d Hd Hp|p b ds Hp [Hf He]] W A; apply literal_int.
  - rewrite <- (app_nil_r d). apply int_decimal; auto; [now left|now rewrite app_nil_r].
  - intros t' r' E F.
    destruct (float_shape d r t' r' Hd (end_stops r W) F E) as [(-> & W' & N)|[(f & v & -> & (c & y & -> & C & _))|(m & v & -> & M)]].
    + destruct (A _ eq_refl) as (c & y & -> & [->|S]); [apply N; now exists y|].
      specialize (W' c y eq_refl). rewrite (start_continue c S) in W'. discriminate W'.
    + destruct (A _ eq_refl) as (c' & y' & [= <- _] & [->|S]); [unfold dec_digit in C; lia|exact (digit_start _ C S)].
    + exact (letter_continues m v M W).
  - rewrite <- (app_nil_r ds). apply (int_radix p b); auto; [now left|discriminate].
  - intros t' r' E. rewrite <- app_assoc in E. now apply (no_float_radix p b (ds ++ r)).
Qed.
Lemma no_e_letter m x : exponent_letter m -> ~ no_e (m ++ x).
Proof using. intros [->| ->] [N1 N2]; [apply N1|apply N2]; now exists x. Qed.
Lemma ref_number_literal t r : ref_number_at t r -> literal_at t r.
Proof using HU.
  intros [t' r' W E A|d s r' Hd Hs N He Hp E|p b ds s r' Hp [Hf Hx] Hs N He Hb E|d r' Hd E N|d f s r' Hd Hf Hs He E|d f m e s r' Hd Hf Hm He Hs E].
  - now apply whole_literal.
  - apply literal_int; [now apply int_decimal|]. intros t' r1 E1 F. rewrite <- app_assoc in E1.
    assert (ST : stops (s ++ r')).
    { destruct s as [|c s]; [contradiction|]. intros c' v [= <- _]. now apply (suffix_dou HU (c :: s) Hs c s). }
    assert (X : forall v, s ++ r' <> tag "." ++ v).
    { intros v X. destruct s as [|c s]; [contradiction|]. injection X as -> _.
      pose proof (suffix_all HU _ Hs) as Y. inversion Y as [|? ? Z]. rewrite (dot_not_cont HU) in Z. discriminate Z. }
    destruct (float_shape d (s ++ r') t' r1 Hd ST F E1) as [(Y & _)|[(f & v & Y & _)|(m & v & Y & M)]].
    + exact (X _ Y).
    + exact (X _ Y).
    + destruct s as [|c s]; [contradiction|]. apply (no_e_letter m s M). destruct M as [->| ->]; injection Y as -> _; exact He.
  - apply literal_int; [now apply (int_radix p b)|]. intros t' r1 E1. rewrite <- !app_assoc in E1. now apply (no_float_radix p b (ds ++ s ++ r')).
  - now apply literal_float, float_point.
  - apply literal_float, float_fraction; auto. intros m y Hm ->. destruct (no_e_letter m y Hm He).
  - apply literal_float, float_exponent; auto. now apply ref_exponent_text.
Qed.

(** ** Tokens *)
Lemma ref_is_lexeme t r k : ref_lexeme t r k -> lexeme t r k.
Proof using HU.
  intros [q r' Q N|q s r' Q I N W|t' r' N|s r' I W N|s r' I N W|c r' sg I N N1 N2 S].
  - apply lexeme_literal, literal_quoted; [now apply ref_quoted_quoted|exact N].
  - apply lexeme_literal, literal_suffixed; auto. now apply ref_quoted_quoted.
  - now apply lexeme_literal, ref_number_literal.
  - apply lexeme_ident, ident_plain; auto. intros [[_ B]|[[_ B]|[_ B]]]; apply N; unfold reserves; auto.
  - now apply lexeme_ident, ident_raw.
  - apply lexeme_punct. destruct sg.
    + apply punct_alone; auto. intros X. apply S in X. discriminate X.
    + apply punct_joint; auto. now apply S.
Qed.
Lemma quote_end r : begins r [DQUOTE] -> word_end r /\ ~ begins r [SQUOTE] /\ ~ begins r (tag "#").
Proof using HU.
  intros [v ->]. split; [|split; intros [w W]; discriminate W].
  intros c t [= <- _]. now rewrite (xid_continue_ascii U HU) by reflexivity.
Qed.
Lemma prefix_ident p : In p string_prefixes -> ident_text p.
Proof using HU.
  assert (A : forall c, c < 128 -> ascii_letter c = true -> start_char c) by (intros c L X; right; now rewrite (xid_start_ascii U HU)).
  assert (B : forall c, c < 128 -> ascii_letter c = true -> is_xid_continue c = true) by (intros c L X; rewrite (xid_continue_ascii U HU) by exact L; now rewrite X).
  cbn. intros [<-|[<-|[<-|[<-|[<-|[]]]]]]; (eexists _, _; split; [reflexivity|]; split; [now apply A|]); repeat constructor; now apply B.
Qed.
Lemma odd_is_lexeme t r k : odd_lexeme t r k -> lexeme t r k.
Proof using HU.
  intros [t' r' L _|t' r' L _ _|s r' I W _ N|r'|p r' I B].
  - now apply lexeme_literal.
  - now apply lexeme_literal.
  - now apply lexeme_ident, ident_plain.
  - apply lexeme_error.
  - apply lexeme_punct. destruct (quote_end r' B) as (W & N1 & N2). apply punct_lifetime; auto. now apply prefix_ident.
Qed.

(** ** What the reference and the crate read alike *)
Lemma strlen_cons c s : strlen (c :: s) = strlen s + 1.
Proof using. unfold strlen. cbn [length]. lia. Qed.
Lemma source_reads o a s ps : source o false a s ps -> reads a s ps /\ no_bad ps.
Proof using HU.
  assert (C : forall p ps, (forall x, p <> PBad x) -> no_bad ps -> no_bad (p :: ps)).
  { intros p ps0 N NB q [->|I]; [now apply (N q)|exact (NB q I)]. }
  induction 1 as [a w S|a w x S P|a w d r ps S D N R [IH NB]|a w d r ps S D R [IH NB]|a w d r inner x ps S D R [IH NB]|a w t r k ps S L R [IH NB]|a w t n raw r ps S L N R [IH NB]].
  - split; [|intros p []]. apply reads_end, blank_trivia. exact (space_trivia _ _ S).
  - split; [|intros p []]. apply reads_end, blank_line; [exact (space_trivia _ _ S)|exact P].
  - split; [|apply C; [discriminate|exact NB]]. apply reads_open with (r := r); [exact (space_trivia _ _ S)| |exact IH].
    destruct N as [N|N]; [discriminate N|]. now repeat split.
  - split; [|apply C; [discriminate|exact NB]]. apply reads_close with (r := r); [exact (space_trivia _ _ S)|now repeat split|exact IH].
  - split; [|apply C; [discriminate|exact NB]]. apply reads_doc; [exact (space_trivia _ _ S)|exact D|exact IH].
  - split; [|apply C; [discriminate|exact NB]]. apply reads_leaf; [exact (space_trivia _ _ S)| |exact IH].
    destruct L as [L|[_ L]]; [now apply ref_is_lexeme|now apply odd_is_lexeme].
  - split; [|apply C; [discriminate|apply C; [discriminate|exact NB]]].
    assert (X : forall body k, t = SQUOTE :: body -> lexeme [SQUOTE] (body ++ r) (TPunct SQUOTE Joint) -> lexeme body r k ->
      reads a (w ++ t ++ r) (PTok [TPunct SQUOTE Joint (mkspan (a + strlen w) (a + strlen w + 1))] ::
        PTok [k (mkspan (a + strlen w + 1) (a + strlen w + strlen t))] :: ps)).
    { intros body k -> L1 L2. rewrite strlen_cons in *. change (SQUOTE :: body) with ([SQUOTE] ++ body). rewrite <- app_assoc.
      apply (reads_leaf a w [SQUOTE] (body ++ r) (TPunct SQUOTE Joint)); [exact (space_trivia _ _ S)|exact L1|].
      change (strlen [SQUOTE]) with 1. replace (a + strlen w + (strlen body + 1)) with (a + strlen w + 1 + strlen [] + strlen body) in * by (change (strlen []) with 0; lia).
      pose proof (reads_leaf (a + strlen w + 1) [] body r k ps) as Y. cbn [app] in Y.
      replace (a + strlen w + 1 + strlen []) with (a + strlen w + 1) in * by (change (strlen []) with 0; lia).
      apply Y; [constructor|exact L2|exact IH]. }
    destruct L as [n r I W N1 N2|n r I NR W N1].
    + destruct N as [N|[N|N]]; [discriminate N|discriminate N|].
      apply (X n (TIdent n false)); [reflexivity|now apply lexeme_punct, punct_lifetime|].
      apply lexeme_ident, ident_plain; auto. intros [Y|[[_ Y]|[_ Y]]]; auto.
    + apply (X (tag "r#" ++ n) (TIdent n true)); [reflexivity|rewrite <- app_assoc; now apply lexeme_punct, punct_raw_lifetime|].
      now apply lexeme_ident, ident_raw.
Qed.

(** ** The crate reads nothing else *)
Lemma apart_dec r : point_apart r \/ ~ point_apart r.
Proof using.
  destruct r as [|c u]; [left; discriminate|]. destruct (N.eq_dec c "."%ch) as [->|N]; [|left; intros v [= E _]; contradiction].
  destruct u as [|c t].
  - right. intros A. destruct (A _ eq_refl) as (? & ? & [=] & _).
  - destruct (N.eq_dec c "."%ch) as [->|N]; [left; intros v [= <-]; eexists _, _; split; [reflexivity|now left]|].
    destruct (N.eq_dec c "_"%ch) as [->|N'].
    { left. intros v [= <-]. eexists _, _. split; [reflexivity|right; now left]. }
    destruct (is_xid_start c) eqn:X.
    { left. intros v [= <-]. eexists _, _. split; [reflexivity|right; now right]. }
    right. intros A. destruct (A _ eq_refl) as (? & ? & [= <- <-] & [E|[E|E]]); congruence.
Qed.
Lemma literal_split t r : literal_at t r -> ref_lexeme t r (TLiteral t) \/ odd_lexeme t r (TLiteral t).
Proof using HU.
  intros L. pose proof L as L0. destruct L as [q r Q N|q s r Q I W|t r F|t r F N].
  - destruct (quoted_split q Q) as [H|(k & c & Hk & Hc & ->)].
    + left. now apply ref_lex_quoted.
    + right. apply odd_literal; [exact L0|]. apply (lenient_char k c []); auto.
  - destruct (quoted_split q Q) as [H|(k & c & Hk & Hc & ->)].
    + destruct (list_eq_dec N.eq_dec s (tag "_")) as [->|Hu].
      * right. apply odd_literal; [exact L0|]. now constructor.
      * left. now apply ref_lex_suffixed.
    + right. apply odd_literal; [exact L0|]. rewrite <- app_assoc. apply lenient_char; auto.
  - destruct F as [d' r' Hd' Hr Hn|d' f s' r' Hd' Hf Hs' Hr Hn|d' f m e s' r' Hd' Hf Hm He Hs' Hr].
    + left. now apply ref_lex_number, rn_point.
    + destruct (begins_e s') as [H|(m & x & Hm & ->)].
      * left. now apply ref_lex_number, rn_fraction.
      * right. apply odd_literal; [exact L0|]. apply lenient_fraction_e; auto. intros (e & y & -> & He).
        apply (Hn m (e ++ y) Hm eq_refl). exists e, (y ++ r'). now rewrite <- app_assoc.
    + destruct (exponent_split e He) as [H|(u & sign & v & ds & -> & H1 & H2 & H3 & H4 & H5)].
      * left. now apply ref_lex_number, rn_float.
      * right. apply odd_literal; [exact L0|]. now apply lenient_sign.
  - assert (WH : whole t -> word_end r -> ref_lexeme t r (TLiteral t) \/ odd_lexeme t r (TLiteral t)).
    { intros W E. destruct (apart_dec r) as [A|A]; [left; now apply ref_lex_number, rn_whole|right; now apply odd_point]. }
    destruct F as [d s r Hd Hs Hr Hp|p b ds s r Hp Hf He Hs Hd Hr]; (destruct s as [|c s]; [apply WH; [|exact Hr]|]).
    + rewrite app_nil_r in *. now apply whole_dec.
    + destruct (begins_e (c :: s)) as [H|(m & x & Hm & E)].
      * left. now apply ref_lex_number, rn_dec.
      * right. apply odd_literal; [exact L0|]. rewrite E in *. apply lenient_int_e; auto. intros (e & s' & -> & He & Hs').
        apply (N (d ++ [] ++ m ++ e ++ s') r); [reflexivity|]. apply float_exponent; auto.
    + rewrite app_nil_r in *. apply (whole_radix p b); [exact Hp|now split].
    + destruct (begins_e (c :: s)) as [H|(m & x & Hm & E)].
      * left. apply ref_lex_number, (rn_radix p b); auto; [now split|discriminate].
      * right. apply odd_literal; [exact L0|]. rewrite E in *. apply (lenient_radix_e p b); auto. intros ->.
        destruct Hm as [-> | ->]; (eapply Hd; [reflexivity|]); exists 14; (split; [|lia]).
        -- apply (hex_lower 14). lia.
        -- apply (hex_upper 14). lia.
Qed.
Lemma begins_dec (s p : str) : begins s p \/ ~ begins s p.
Proof using. pose proof (begins_starts s p) as B. destruct (starts_with s p); [left|right]; rewrite <- B; [reflexivity|discriminate]. Qed.
Lemma ident_split t r s raw : ident_at t r s raw -> ref_lexeme t r (TIdent s raw) \/ odd_lexeme t r (TIdent s raw).
Proof using.
  intros [s' r' I W N|s' r' I N W].
  - assert (D : reserves r' \/ ~ reserves r').
    { unfold reserves. destruct (begins_dec r' [DQUOTE]), (begins_dec r' [SQUOTE]), (begins_dec r' (tag "#")); tauto. }
    destruct D as [D|D]; [right; now apply odd_prefix|left; now apply ref_lex_ident].
  - left. now apply ref_lex_raw.
Qed.

(** What is read at the beginning of a word. *)
Lemma reads_lexeme a t r k ps c u : reads a (t ++ r) ps -> no_bad ps -> lexeme t r k -> t = c :: u -> start_char c ->
  exists ps', ps = PTok [k (mkspan a (a + strlen t))] :: ps' /\ reads (a + strlen t) r ps'.
Proof using HU.
  intros R NB L E S. remember (t ++ r) as s eqn:Es.
  assert (E0 : s = c :: u ++ r) by (rewrite Es, E; reflexivity).
  destruct (start_facts HU c S) as (NP & NBl & _ & _ & ND).
  assert (SL : c <> "/"%ch) by (intros ->; apply NP; cbn; tauto).
  destruct R as [a s B|a w s d r1 ps T O R|a w s d r1 ps T O R|a w d r1 inner x ps T O R|a w t1 r1 k1 ps T L1 R|a w s T UN].
  - exfalso. destruct B as [w T|w x T X].
    + destruct w as [|c0 w]; [discriminate E0|]. apply (trivia_word HU (c0 :: w) [] c (u ++ r) T); [discriminate|rewrite app_nil_r; exact E0|exact S].
    + destruct w as [|c0 w]; [|eapply (trivia_word HU (c0 :: w)); [exact T|discriminate|exact E0|exact S]].
      cbn in E0. injection E0 as <- _. now apply SL.
  - exfalso. destruct w as [|c0 w]; [|eapply (trivia_word HU (c0 :: w)); [exact T|discriminate|exact E0|exact S]].
    destruct O as (D & O & _). destruct (ND d D) as [X _]. cbn [app] in E0. rewrite O in E0.
    destruct d; cbn in D, E0, X; try (injection E0 as E0 _; subst c; now apply X); intuition discriminate.
  - exfalso. destruct w as [|c0 w]; [|eapply (trivia_word HU (c0 :: w)); [exact T|discriminate|exact E0|exact S]].
    destruct O as (D & O). destruct (ND d D) as [_ X]. cbn [app] in E0. rewrite O in E0.
    destruct d; cbn in D, E0, X; try (injection E0 as E0 _; subst c; now apply X); intuition discriminate.
  - exfalso. destruct w as [|c0 w]; [|eapply (trivia_word HU (c0 :: w)); [exact T|discriminate|exact E0|exact S]].
    cbn [app] in E0. apply SL. symmetry.
    destruct O as [d r' i x DL _ _|d r' i x DL _ _|d r' i x DB _].
    + destruct DL; cbn in E0; now injection E0 as -> _.
    + destruct DL; cbn in E0; now injection E0 as -> _.
    + destruct DB; cbn in E0; now injection E0 as -> _.
  - destruct w as [|c0 w]; [|exfalso; eapply (trivia_word HU (c0 :: w)); [exact T|discriminate|exact E0|exact S]].
    cbn [app] in Es. destruct (lexeme_once HU _ _ _ _ _ _ L1 L Es) as (-> & -> & ->).
    change (strlen []) with 0 in *. rewrite N.add_0_r in *. now exists ps.
  - exfalso. eapply NB. left. reflexivity.
Qed.

Lemma reads_source_true n : forall a s ps, (length ps <= n)%nat -> reads a s ps -> no_bad ps -> source true false a s ps.
Proof using HU.
  induction n as [|n IH]; intros a s ps Hn R NB.
  - destruct R as [a s B|a w s d r ps T O R|a w s d r ps T O R|a w d r inner x ps T O R|a w t r k ps T L R|a w s T UN]; cbn in Hn; try lia.
    destruct B as [w T|w x T X]; [apply source_end|apply source_end_line]; auto using trivia_space.
  - destruct R as [a s B|a w s d r ps T O R|a w s d r ps T O R|a w d r inner x ps T O R|a w t r k ps T L R|a w s T UN]; cbn in Hn.
    + destruct B as [w T|w x T X]; [apply source_end|apply source_end_line]; auto using trivia_space.
    + destruct O as (D & -> & N). apply source_open; auto using trivia_space. apply IH; [lia|exact R|exact (no_bad_tail _ _ NB)].
    + destruct O as (D & ->). apply source_close; auto using trivia_space. apply IH; [lia|exact R|exact (no_bad_tail _ _ NB)].
    + apply source_doc; auto using trivia_space. apply IH; [lia|exact R|exact (no_bad_tail _ _ NB)].
    + pose proof (no_bad_tail _ _ NB) as NB'.
      assert (ONE : ref_lexeme t r k \/ odd_lexeme t r k -> source true false a (w ++ t ++ r) (PTok [k (mkspan (a + strlen w) (a + strlen w + strlen t))] :: ps)).
      { intros X. apply source_leaf; [now apply trivia_space|tauto|]. apply IH; [lia|exact R|exact NB']. }
      destruct L as [t r L|c r sg P|t r s raw I|r].
      * apply ONE. now apply literal_split.
      * assert (LT : forall body r1 nm raw, r = body ++ r1 -> lexeme body r1 (TIdent nm raw) -> (exists c u, body = c :: u /\ start_char c) ->
                   lifetime (c :: body) nm raw r1 -> (raw = true \/ ~ (In nm string_prefixes /\ begins r1 [DQUOTE])) -> c = SQUOTE -> sg = Joint ->
                   source true false a (w ++ [c] ++ r) (PTok [TPunct c sg (mkspan (a + strlen w) (a + strlen w + strlen [c]))] :: ps)).
        { intros body r1 nm raw -> LX (c1 & u & E & S) LF O -> ->.
          destruct (reads_lexeme _ _ _ _ _ _ _ R NB' LX E S) as (ps' & -> & R').
          replace (w ++ [SQUOTE] ++ body ++ r1) with (w ++ (SQUOTE :: body) ++ r1) by reflexivity.
          change (strlen [SQUOTE]) with 1 in *.
          replace (a + strlen w + 1 + strlen body) with (a + strlen w + strlen (SQUOTE :: body)) in * by (rewrite strlen_cons; lia).
          apply source_lifetime; [now apply trivia_space|exact LF|now right|].
          apply IH; [cbn in Hn; lia|exact R'|exact (no_bad_tail _ _ NB')]. }
        destruct P as [c r I N N1 N2 SP|c r I N N1 N2 SP|s' af I W N1 N2|s' af I N W N1].
        -- apply ONE. left. apply ref_lex_punct; auto. now split.
        -- apply ONE. left. apply ref_lex_punct; auto. split; [discriminate|contradiction].
        -- destruct (in_dec (list_eq_dec N.eq_dec) s' string_prefixes) as [IN|NI].
           ++ destruct (begins_dec af [DQUOTE]) as [B|B]; [apply ONE; right; now apply odd_mark|].
              apply (LT s' af s' false); auto; [|destruct I as (c1 & u & -> & S & _); eauto|now apply lifetime_plain|right; tauto].
              apply lexeme_ident, ident_plain; auto. intros [[_ Y]|[[_ Y]|[_ Y]]]; auto.
           ++ apply (LT s' af s' false); auto; [|destruct I as (c1 & u & -> & S & _); eauto|now apply lifetime_plain|right; tauto].
              apply lexeme_ident, ident_plain; auto. intros [[Y _]|[[_ Y]|[_ Y]]]; auto.
        -- apply (LT (tag "r#" ++ s') af s' true); auto; [now apply lexeme_ident, ident_raw| |now apply lifetime_raw].
           eexists _, _. split; [reflexivity|]. right. now rewrite (xid_start_ascii U HU) by reflexivity.
      * apply ONE. now apply ident_split.
      * apply ONE. right. apply odd_error.
    + exfalso. eapply NB. left. reflexivity.
Qed.

(** ** Whole texts *)
Lemma common_parsed src start : start + strlen src < two32 -> forall ps, common_source start src ps ->
  (forall ts, tree ps ts -> token_stream_from_str start src = Ok (Lexed ts)) /\
  (forall p, wrong_top ps p -> token_stream_from_str start src = Ok (LexError (mkspan p p))).
Proof using HU.
  intros room ps (a & s & B & S). assert (R : reads_source start src ps) by (exists a, s; split; [exact B|exact (proj1 (source_reads _ _ _ _ S))]).
  split.
  - intros ts T. apply (parse_reads HU src start room). now exists ps.
  - intros p W. apply (parse_reads_error HU src start room). now exists ps.
Qed.
Lemma parsed_source src start : start + strlen src < two32 -> forall ts,
  token_stream_from_str start src = Ok (Lexed ts) <-> exists ps, crate_source start src ps /\ tree ps ts.
Proof using HU.
  intros room ts. rewrite (parse_reads HU src start room). split.
  - intros (ps & (a & s & B & R) & T). exists ps. split; [|exact T]. exists a, s. split; [exact B|].
    exact (reads_source_true (length ps) a s ps (le_n _) R (tree_no_bad _ _ T)).
  - intros (ps & (a & s & B & S) & T). exists ps. split; [|exact T]. exists a, s. split; [exact B|].
    exact (proj1 (source_reads _ _ _ _ S)).
Qed.
Lemma common_both src start ps : common_source start src ps -> reference_source start src ps /\ crate_source start src ps.
Proof using.
  assert (SP : forall o w, space false w -> space o w).
  { intros o w. induction 1 as [|c w I S IH|c w O I S IH|x w P S IH|b w P S IH]; [constructor|now apply space_blank|discriminate O|now apply space_line|now apply space_block]. }
  intros (a & s & B & S). split; (exists a, s; split; [exact B|]); clear B;
    induction S as [a w S|a w x S P|a w d r ps S D N R IH|a w d r ps S D R IH|a w d r inner x ps S D R IH|a w t r k ps S L R IH|a w t n raw r ps S L N R IH];
    try (now constructor; auto); try (apply source_leaf; auto; destruct L as [L|[L _]]; [now left|discriminate L]);
    try (apply source_open; auto; destruct N as [N|N]; [discriminate N|now right]).
Qed.

(** ** The literals of this file are those of the reference (C57) *)
Lemma number_at_ref t r : ref_number_at t r -> ref_number t.
Proof using.
  intros [t' r' [d Hd Hp|p b ds Hp [Hf He]] E A|d s r' Hd Hs N He Hp E|p b ds s r' Hp [Hf Hx] Hs N He Hb E|d r' Hd E N|d f s r' Hd Hf Hs He E|d f m e s r' Hd Hf Hm He Hs E].
  - rewrite <- (app_nil_r d). apply ref_dec; auto; [now left|split; intros [y Y]; discriminate Y|now rewrite app_nil_r].
  - rewrite <- (app_nil_r ds). apply (ref_radix p b); auto; [now left|discriminate|split; intros [y Y]; discriminate Y].
  - now apply ref_dec.
  - now apply (ref_radix p b).
  - now apply ref_point.
  - now apply ref_fraction.
  - now apply ref_float.
Qed.
Lemma number_ref_at t : ref_number t -> ref_number_at t [].
Proof using.
  assert (W : word_end []) by (intros c v; discriminate). assert (A : point_apart []) by discriminate.
  intros [d s' Hd Hs He Hp|p b ds s' Hp Hf He Hs Hd Hne|d Hd|d f s' Hd Hf Hs Hne|d f m e s' Hd Hf Hm He Hs].
  - destruct s' as [|c s']; [rewrite app_nil_r in *; apply rn_whole; auto; now apply whole_dec|now apply rn_dec].
  - destruct s' as [|c s']; [rewrite app_nil_r in *; apply rn_whole; auto; apply (whole_radix p b); auto; now split|].
    apply (rn_radix p b); auto; [now split|discriminate].
  - apply rn_point; auto. intros [y Y]; discriminate Y.
  - now apply rn_fraction.
  - now apply rn_float.
Qed.
Lemma kind_literal t s raw : (TLiteral t : span -> token) <> TIdent s raw.
Proof using. intros E. apply (f_equal (fun f => f (mkspan 0 0))) in E. discriminate E. Qed.
Lemma kind_punct c sg t : (TPunct c sg : span -> token) <> TLiteral t.
Proof using. intros E. apply (f_equal (fun f => f (mkspan 0 0))) in E. discriminate E. Qed.
Lemma kind_punct_ident c sg s raw : (TPunct c sg : span -> token) <> TIdent s raw.
Proof using. intros E. apply (f_equal (fun f => f (mkspan 0 0))) in E. discriminate E. Qed.
Lemma literals_agree t : (ref_lexeme t [] (TLiteral t)) <-> ref_literal t.
Proof using.
  assert (W : word_end []) by (intros c v; discriminate). split.
  - intros L. remember (TLiteral t) as k eqn:K. destruct L as [q r' Q N|q s r' Q I N W'|t' r' N|s r' I W' N|s r' I N W'|c r' sg I N N1 N2 S].
    + rewrite <- (app_nil_r q). apply ref_literal_quoted; [exact Q|now left].
    + apply ref_literal_quoted; [exact Q|]. right. auto.
    + apply ref_literal_number. exact (number_at_ref _ _ N).
    + symmetry in K. now apply kind_literal in K.
    + symmetry in K. now apply kind_literal in K.
    + now apply kind_punct in K.
  - intros [q s Q [->|[I N]]|s N].
    + rewrite app_nil_r. apply ref_lex_quoted; [exact Q|]. intros c v; discriminate.
    + now apply ref_lex_suffixed.
    + now apply ref_lex_number, number_ref_at.
Qed.

(** ** Texts without a reading by the reference *)
Lemma space_first c t s : start_char c \/ dec_digit c -> forall w, space false w -> w ++ s = c :: t -> w = [].
Proof using HU.
  intros C w S E. destruct w as [|c0 w]; [reflexivity|]. exfalso. apply space_trivia in S.
  destruct C as [C|C]; [exact (trivia_word HU (c0 :: w) s c t S ltac:(discriminate) E C)|].
  cbn in E. injection E as -> E. unfold dec_digit in C. inversion S as [|b w' X T E1|x w' X T E1|b w' X T E1]; subst.
  - destruct X as [X|[X|X]]; [|lia|lia]. unfold is_white_space, between in X. lia.
  - lia.
  - destruct X as [(v & -> & _) _]. cbn in E1. injection E1 as <- _. lia.
Qed.
Lemma source_first a c t ps : source false true a (c :: t) ps -> start_char c \/ dec_digit c ->
  exists t1 r k, c :: t = t1 ++ r /\ ref_lexeme t1 r k.
Proof using HU.
  intros S C.
  assert (ND : forall d, In d delims -> open_char d <> [c] /\ close_char d <> [c]).
  { destruct C as [C|C]; [now apply (start_facts HU c C)|]. unfold dec_digit in C. intros d D. split; destruct d; cbn; intros [= E]; lia. }
  assert (NS : c <> "/"%ch /\ c <> SQUOTE).
  { destruct C as [C|C]; [|unfold dec_digit in C; split; intros ->; lia].
    destruct (start_facts HU c C) as (X & _). split; intros ->; apply X; cbn; tauto. }
  destruct NS as [NS NQ].
  remember (c :: t) as s eqn:E.
  destruct S as [a w S|a w x S P|a w d r ps S D N R|a w d r ps S D R|a w d r inner x ps S D R|a w t1 r k ps S L R|a w t1 n raw r ps S L N R].
  - exfalso. rewrite <- (app_nil_r w) in E. rewrite (space_first c t [] C w S E) in E. discriminate E.
  - exfalso. rewrite (space_first c t _ C w S E) in E. cbn in E. injection E as E _. now apply NS.
  - exfalso. rewrite (space_first c t _ C w S E) in E. destruct (ND d D) as [X _]. destruct d; cbn in D, E, X; try (injection E as E _; subst c; now apply X); intuition discriminate.
  - exfalso. rewrite (space_first c t _ C w S E) in E. destruct (ND d D) as [_ X]. destruct d; cbn in D, E, X; try (injection E as E _; subst c; now apply X); intuition discriminate.
  - exfalso. rewrite (space_first c t _ C w S E) in E. apply NS. symmetry.
    destruct D as [d r' i x DL _ _|d r' i x DL _ _|d r' i x DB _].
    + destruct DL; cbn in E; now injection E as -> _.
    + destruct DL; cbn in E; now injection E as -> _.
    + destruct DB; cbn in E; now injection E as -> _.
  - rewrite (space_first c t _ C w S E) in *. exists t1, r, k. split; [now symmetry|]. destruct L as [L|[L _]]; [exact L|discriminate L].
  - exfalso. rewrite (space_first c t _ C w S E) in E. apply NQ. destruct L; cbn in E; now injection E as -> _.
Qed.
Lemma reserved_unread sym after : ident_text sym -> word_end after -> reserves after -> ~ literal_prefix sym after ->
  forall a ps, ~ source false true a (sym ++ after) ps.
Proof using HU.
  intros I W R N a ps S. pose proof (lexeme_ident _ _ _ _ (ident_plain sym after I W N)) as L.
  destruct I as (c & t & -> & C & _).
  destruct (source_first a c (t ++ after) ps S (or_introl C)) as (t1 & r & k & E & L1).
  destruct (lexeme_once HU _ _ _ _ _ _ (ref_is_lexeme _ _ _ L1) L (eq_sym E)) as (-> & -> & ->).
  remember (TIdent (c :: t) false) as k eqn:K. clear L.
  destruct L1 as [q r' Q N'|q s r' Q I N' W'|t' r' N'|s r' I W' N'|s r' I N' W'|c' r' sg I N' N1 N2 S'];
    try (now apply kind_literal in K); try (now apply kind_punct_ident in K); [contradiction|].
  apply (f_equal (fun f => f (mkspan 0 0))) in K. discriminate K.
Qed.
Lemma foreign_unread c : In c foreign_white_space -> forall a s ps, ~ source false true a (c :: s) ps.
Proof using HU.
  intros I a s ps S. pose proof (foreign_blank c I) as B.
  assert (NP : ~ In c pattern_white_space /\ 127 < c).
  { cbn in I. repeat (destruct I as [<-|I]; [split; [intros X; cbn in X; intuition discriminate|reflexivity]|]). destruct I. }
  destruct NP as [NP BIG].
  assert (SP : forall w y s, space false w -> w ++ y = c :: s -> w = []).
  { intros w y s' SW E. destruct SW as [|b w X T|b w O X T|x w X T|b w X T]; [reflexivity|..]; exfalso.
    - cbn in E. injection E as <- _. now apply NP.
    - discriminate O.
    - cbn in E. injection E as <- _. lia.
    - destruct X as [(v & -> & _) _]. cbn in E. injection E as <- _. lia. }
  remember (c :: s) as s0 eqn:E.
  destruct S as [a w S|a w x S P|a w d r ps S D N R|a w d r ps S D R|a w d r inner x ps S D R|a w t1 r k ps S L R|a w t1 n raw r ps S L N R].
  - rewrite <- (app_nil_r w) in E. rewrite (SP w [] _ S E) in E. discriminate E.
  - rewrite (SP w _ _ S E) in E. cbn in E. injection E as <- _. lia.
  - rewrite (SP w _ _ S E) in E. destruct d; cbn in D, E; try (injection E as <- _; lia); intuition discriminate.
  - rewrite (SP w _ _ S E) in E. destruct d; cbn in D, E; try (injection E as <- _; lia); intuition discriminate.
  - rewrite (SP w _ _ S E) in E. destruct D as [d r' i x DL _ _|d r' i x DL _ _|d r' i x DB _].
    + destruct DL; cbn in E; injection E as <- _; lia.
    + destruct DL; cbn in E; injection E as <- _; lia.
    + destruct DB; cbn in E; injection E as <- _; lia.
  - rewrite (SP w _ _ S E) in E. destruct L as [L|[L _]]; [|discriminate L]. apply ref_is_lexeme in L. cbn [app] in E.
    assert (X := proj2 (p_leaf_iff HU (t1 ++ r) r k) (ex_intro _ t1 (conj eq_refl L))).
    destruct (p_leaf_start HU _ _ _ X) as [Y _]. rewrite E in Y.
    pose proof (skip_none_no_trivia _ Y [c] s eq_refl) as Z. discriminate Z. apply trivia_blank; [exact B|constructor].
  - rewrite (SP w _ _ S E) in E. destruct L; cbn in E; injection E as <- _; lia.
Qed.

(** ** The reference reads a text in one way *)
Inductive item : str -> str -> (N -> list piece) -> Prop :=
| item_open d r : In d delims -> item (open_char d) r (fun b => [POpen d b])
| item_close d r : In d delims -> item (close_char d) r (fun b => [PClose d b])
| item_doc d r inner x : doc_at d r inner x ->
    item d r (fun b => [PTok (doc_attribute inner (literal_string x) (mkspan b (b + strlen d)))])
| item_leaf t r k : ref_lexeme t r k -> item t r (fun b => [PTok [k (mkspan b (b + strlen t))]])
| item_lifetime t n raw r : lifetime t n raw r ->
    item t r (fun b => [PTok [TPunct SQUOTE Joint (mkspan b (b + 1))]; PTok [TIdent n raw (mkspan (b + 1) (b + strlen t))]]).
Lemma delim_one d : In d delims -> strlen (open_char d) = 1 /\ strlen (close_char d) = 1.
Proof using. cbn. intros [<-|[<-|[<-|[]]]]; now split. Qed.
Lemma source_item a s ps : source false true a s ps ->
  (blank_text s /\ ps = []) \/
  exists w t r f ps', s = w ++ t ++ r /\ trivia w /\ item t r f /\ ps = f (a + strlen w) ++ ps' /\
    source false true (a + strlen w + strlen t) r ps' /\ (length ps' < length ps)%nat.
Proof using HU.
  intros [a' w S|a' w x S P|a' w d r ps' S D N R|a' w d r ps' S D R|a' w d r inner x ps' S D R|a' w t r k ps' S L R|a' w t n raw r ps' S L N R];
    pose proof (space_trivia _ _ S) as T.
  - left. split; [now constructor|reflexivity].
  - left. split; [now constructor|reflexivity].
  - right. exists w, (open_char d), r, (fun b => [POpen d b]), ps'. destruct (delim_one d D) as [-> _].
    repeat split; auto. now constructor.
  - right. exists w, (close_char d), r, (fun b => [PClose d b]), ps'. destruct (delim_one d D) as [_ ->].
    repeat split; auto. now constructor.
  - right. eexists w, d, r, _, ps'. split; [reflexivity|]. split; [exact T|]. split; [apply (item_doc _ _ _ _ D)|]. split; [reflexivity|]. split; [exact R|]. cbn. lia.
  - right. destruct L as [L|[L _]]; [|discriminate L].
    eexists w, t, r, _, ps'. split; [reflexivity|]. split; [exact T|]. split; [apply (item_leaf _ _ _ L)|]. split; [reflexivity|]. split; [exact R|]. cbn. lia.
  - right. eexists w, t, r, _, ps'. split; [reflexivity|]. split; [exact T|]. split; [apply (item_lifetime _ _ _ _ L)|]. split; [reflexivity|]. split; [exact R|]. cbn. lia.
Qed.
Lemma lifetime_mark t n raw r : lifetime t n raw r -> exists b, t = SQUOTE :: b /\ lexeme [SQUOTE] (b ++ r) (TPunct SQUOTE Joint).
Proof using.
  intros [n' r' I W N1 N2|n' r' I NR W N1].
  - exists n'. split; [reflexivity|]. now apply lexeme_punct, punct_lifetime.
  - exists (tag "r#" ++ n'). split; [reflexivity|]. rewrite <- app_assoc. now apply lexeme_punct, punct_raw_lifetime.
Qed.
Lemma ref_lexeme_not_open t r k d : ref_lexeme t r k -> In d delims -> forall r', t ++ r <> open_char d ++ r' /\ t ++ r <> close_char d ++ r'.
Proof using HU.
  intros L D r'. assert (F : exists c u, t = c :: u /\ ~ In c (tag "()[]{}")).
  { assert (Q : forall q, ref_quoted q -> exists c u, q = c :: u /\ ~ In c (tag "()[]{}")).
    { intros q [k' b v _ _|k' n b _ _ _ _|k' c _ _ _|k' e v _ _]; destruct k'; (eexists _, _; split; [reflexivity|]); cbn; intuition discriminate. }
    assert (D' : forall d u, dec_text d -> exists c v, d ++ u = c :: v /\ ~ In c (tag "()[]{}")).
    { intros d0 u (c & v & -> & C & _). exists c, (v ++ u). split; [reflexivity|]. unfold dec_digit in C. cbn. lia. }
    assert (R : forall p b u, radix p b -> exists c v, p ++ u = c :: v /\ ~ In c (tag "()[]{}")).
    { intros p b u []; (eexists _, _; split; [reflexivity|]); cbn; intuition discriminate. }
    assert (I' : forall c, start_char c -> ~ In c (tag "()[]{}")).
    { intros c S I. destruct (start_facts HU c S) as (_ & _ & _ & _ & ND). 
      pose proof (ND Parenthesis ltac:(cbn; tauto)) as [X1 X2]. pose proof (ND Brace ltac:(cbn; tauto)) as [X3 X4]. pose proof (ND Bracket ltac:(cbn; tauto)) as [X5 X6].
      cbn in *. decompose [or] I; subst; auto. }
    destruct L as [q r0 Q0 _|q s r0 Q0 _ _ _|t' r0 N|s r0 I _ _|s r0 _ _ _|c r0 sg I _ _ _ _].
    - auto.
    - destruct (Q q Q0) as (c & u & -> & X). now exists c, (u ++ s).
    - destruct N as [t' r0 W _ _|d0 s r0 A _ _ _ _ _|p b ds s r0 A _ _ _ _ _ _|d0 r0 A _ _|d0 f s r0 A _ _ _ _|d0 f m e s r0 A _ _ _ _ _]; eauto.
      destruct W as [d0 A _|p b ds A _]; [|eauto]. rewrite <- (app_nil_r d0). auto.
    - destruct I as (c & u & -> & S & _). eauto.
    - eexists _, _. split; [reflexivity|]. cbn. intuition discriminate.
    - eexists _, _. split; [reflexivity|]. intros X. cbn in I, X. decompose [or] X; subst; intuition discriminate. }
  destruct F as (c & u & -> & F).
  cbn in D. destruct D as [<-|[<-|[<-|[]]]]; split; intros [= E _]; apply F; subst c; cbn; tauto.
Qed.
Lemma lifetime_once t n raw r t' n' raw' r' : lifetime t n raw r -> lifetime t' n' raw' r' -> t ++ r = t' ++ r' ->
  t = t' /\ n = n' /\ raw = raw' /\ r = r'.
Proof using HU.
  assert (A : forall n, ident_text n -> Forall (fun c => is_xid_continue c = true) n) by apply (ident_text_all HU).
  assert (H : is_xid_continue "#"%ch = false) by now rewrite (xid_continue_ascii U HU) by reflexivity.
  assert (R : Forall (fun c => is_xid_continue c = true) (tag "r")).
  { constructor; [|constructor]. now rewrite (xid_continue_ascii U HU) by reflexivity. }
  assert (M : forall n r v, ident_text n -> word_end r -> ~ begins r (tag "#") -> n ++ r = tag "r#" ++ v -> False).
  { intros m s v I W N E.
    destruct (run_unique (fun c => is_xid_continue c) m (tag "r") s (tag "#" ++ v) E (A m I) R W) as [_ ->].
    - intros c u [= <- _]. exact H.
    - apply N. now exists v. }
  intros [m s I W N1 N2|m s I NR W N1] [m' s' I' W' N1' N2'|m' s' I' NR' W' N1'] E; cbn [app] in E.
  - injection E as E. destruct (run_unique (fun c => is_xid_continue c) m m' s s' E (A m I) (A m' I') W W') as [-> ->]. auto.
  - exfalso. injection E as E. exact (M m s (m' ++ s') I W N2 E).
  - exfalso. injection E as E. symmetry in E. exact (M m' s' (m ++ s) I' W' N2' E).
  - injection E as E. destruct (run_unique (fun c => is_xid_continue c) m m' s s' E (A m I) (A m' I') W W') as [-> ->]. auto.
Qed.
Lemma item_solid t r f : item t r f -> p_skip1 (t ++ r) = None /\ t <> [].
Proof using HU.
  intros [d r' D|d r' D|d r' inner x D|t' r' k L|t' n raw r' L].
  - cbn in D. destruct D as [<-|[<-|[<-|[]]]]; (split; [now apply p_skip1_other|discriminate]).
  - cbn in D. destruct D as [<-|[<-|[<-|[]]]]; (split; [now apply p_skip1_other|discriminate]).
  - split; [exact (doc_at_skip HU _ _ _ _ D)|]. destruct D as [d r' i x DL _ _|d r' i x DL _ _|d r' i x DB _]; [destruct DL|destruct DL|destruct DB]; discriminate.
  - apply ref_is_lexeme in L. split; [|exact (lexeme_nonempty _ _ _ L)].
    eapply (p_leaf_start HU). apply (p_leaf_iff HU). eauto.
  - destruct (lifetime_mark _ _ _ _ L) as (b & -> & X). split; [|discriminate].
    eapply (p_leaf_start HU). apply (p_leaf_iff HU). exists [SQUOTE]. split; [reflexivity|exact X].
Qed.
Lemma item_once t r f t' r' f' : item t r f -> item t' r' f' -> t ++ r = t' ++ r' -> t = t' /\ r = r' /\ f = f'.
Proof using HU.
  assert (DS : forall d r inner x, doc_at d r inner x -> exists u, d = "/"%ch :: u).
  { intros d0 r0 i x [d1 r1 i1 x1 DL _ _|d1 r1 i1 x1 DL _ _|d1 r1 i1 x1 DB _]; [destruct DL|destruct DL|destruct DB]; eexists; reflexivity. }
  assert (LD : forall t r k d r' inner x, ref_lexeme t r k -> doc_at d r' inner x -> t ++ r = d ++ r' -> False).
  { intros t0 r0 k d r1 i x L D E. apply ref_is_lexeme in L.
    assert (X := proj2 (p_leaf_iff HU (t0 ++ r0) r0 k) (ex_intro _ t0 (conj eq_refl L))).
    destruct (p_leaf_start HU _ _ _ X) as (Y & Z & _). rewrite E in Y, Z.
    assert (V := proj2 (p_doc_iff HU (d ++ r1) r1 x i Y) (ex_intro _ d (conj eq_refl D))). congruence. }
  assert (LL : forall t r k t' n raw r', ref_lexeme t r k -> lifetime t' n raw r' -> t ++ r = t' ++ r' -> False).
  { intros t0 r0 k t1 n raw r1 L T E. destruct (lifetime_mark _ _ _ _ T) as (b & -> & X). 
    destruct (lexeme_once HU _ _ _ _ _ _ (ref_is_lexeme _ _ _ L) X E) as (-> & -> & ->).
    remember (TPunct SQUOTE Joint) as k eqn:K. remember [SQUOTE] as t0 eqn:T0.
    destruct L as [q r2 Q0 _|q s r2 Q0 _ _ _|t2 r2 N|s r2 I _ _|s r2 _ _ _|c r2 sg I N _ _ _];
      try (symmetry in K; now apply kind_punct in K); try (symmetry in K; now apply kind_punct_ident in K). injection T0 as ->. contradiction. }
  assert (LS : forall t n raw r, lifetime t n raw r -> exists b, t = SQUOTE :: b).
  { intros t0 n raw r0 L. destruct (lifetime_mark _ _ _ _ L) as (b & -> & _). eauto. }
  intros [d r0 D|d r0 D|d r0 inner x D|t0 r0 k L|t0 n raw r0 L] [d' r1 D'|d' r1 D'|d' r1 inner' x' D'|t1 r1 k' L'|t1 n' raw' r1 L'] E.
  all: try (exfalso; match goal with
    | A : ref_lexeme ?t ?r _, B : In ?d delims |- _ => destruct (ref_lexeme_not_open t r _ d A B r0); congruence
    | A : ref_lexeme ?t ?r _, B : In ?d delims |- _ => destruct (ref_lexeme_not_open t r _ d A B r1); congruence
    | A : ref_lexeme _ _ _, B : doc_at _ _ _ _ |- _ => first [exact (LD _ _ _ _ _ _ _ A B E)|exact (LD _ _ _ _ _ _ _ A B (eq_sym E))]
    | A : ref_lexeme _ _ _, B : lifetime _ _ _ _ |- _ => first [exact (LL _ _ _ _ _ _ _ A B E)|exact (LL _ _ _ _ _ _ _ A B (eq_sym E))]
    end).
  all: try (exfalso; repeat match goal with
    | A : doc_at _ _ _ _ |- _ => apply DS in A as [? ->]
    | A : lifetime _ _ _ _ |- _ => apply LS in A as [? ->]
    | A : In _ delims |- _ => cbn in A; decompose [or] A; clear A; subst
    end; (discriminate E || contradiction)).
  all: try (cbn in D, D'; decompose [or] D; decompose [or] D'; subst; try contradiction; try discriminate E; injection E as ->; auto).
  - pose proof (doc_at_skip HU _ _ _ _ D) as Y.
    assert (V := proj2 (p_doc_iff HU (d ++ r0) r0 x inner Y) (ex_intro _ d (conj eq_refl D))).
    assert (V' := proj2 (p_doc_iff HU (d ++ r0) r1 x' inner' Y) (ex_intro _ d' (conj E D'))).
    rewrite V in V'. injection V' as <- <- <-. apply app_inv_tail in E as <-. auto.
  - destruct (lexeme_once HU _ _ _ _ _ _ (ref_is_lexeme _ _ _ L) (ref_is_lexeme _ _ _ L') E) as (-> & -> & ->). auto.
  - destruct (lifetime_once _ _ _ _ _ _ _ _ L L' E) as (-> & -> & -> & ->). auto.
Qed.
Lemma source_once n : forall a s ps ps', (length ps <= n)%nat -> source false true a s ps -> source false true a s ps' -> ps = ps'.
Proof using HU.
  induction n as [n IH] using (well_founded_induction lt_wf). intros a s ps ps' Hn S S'.
  assert (NB : forall w t r f, trivia w -> item t r f -> p_skip (w ++ t ++ r) = t ++ r /\ t ++ r <> []).
  { intros w t r f T I. destruct (item_solid _ _ _ I) as [K N]. rewrite (trivia_skip w T), (p_skip_stay _ K). split; [reflexivity|].
    destruct t; [contradiction|discriminate]. }
  destruct (source_item _ _ _ S) as [[B ->]|(w & t & r & f & qs & -> & T & I & -> & R & L)].
  - destruct (source_item _ _ _ S') as [[B' ->]|(w' & t' & r' & f' & qs' & -> & T' & I' & -> & R' & L')]; [reflexivity|].
    exfalso. apply blank_text_skip in B. destruct (NB _ _ _ _ T' I') as [X Y]. congruence.
  - destruct (NB _ _ _ _ T I) as [X Y].
    destruct (source_item _ _ _ S') as [[B' ->]|(w' & t' & r' & f' & qs' & E & T' & I' & -> & R' & L')].
    + exfalso. apply blank_text_skip in B'. congruence.
    + destruct (NB _ _ _ _ T' I') as [X' Y']. rewrite E in X. rewrite X in X'.
      destruct (item_once _ _ _ _ _ _ I I' X') as (<- & <- & <-). apply app_inv_tail in E as <-.
      f_equal. apply (IH (length qs) ltac:(lia) _ _ qs qs' (le_n _) R R').
Qed.
Lemma reference_once start src ps ps' : reference_source start src ps -> reference_source start src ps' -> ps = ps'.
Proof using HU.
  intros (a & s & B & S) (a' & s' & B' & S'). destruct (bom_cases start src) as [_ X].
  destruct (X a s B) as [-> ->]. destruct (X a' s' B') as [-> ->]. exact (source_once _ _ _ _ _ (le_n _) S S').
Qed.
Lemma source_apart a s ps : source false true a s ps -> ~ holds_text s error_text ->
  (forall p, In p string_prefixes -> ~ holds_text s (SQUOTE :: p ++ [DQUOTE])) -> source false false a s ps.
Proof using.
  assert (H1 : forall t r p, ~ holds_text (t ++ r) p -> ~ holds_text r p).
  { intros t r p N (x & y & ->). apply N. exists (t ++ x), y. now rewrite <- app_assoc. }
  induction 1 as [a w S|a w x S P|a w d r ps S D N R IH|a w d r ps S D R IH|a w d r inner x ps S D R IH|a w t r k ps S L R IH|a w t n raw r ps S L N R IH]; intros NE NQ.
  - now apply source_end.
  - now apply source_end_line.
  - apply H1 in NE as NE'. apply source_open; auto.
    + right. intros [v E]. apply NE'. exists [], v. exact E.
    + apply IH; [now apply H1 in NE'|]. intros p I. now eapply H1, H1, NQ.
  - apply source_close; auto. apply IH; [now apply H1 in NE; apply H1 in NE|]. intros p I. now eapply H1, H1, NQ.
  - apply source_doc; auto. apply IH; [now apply H1 in NE; apply H1 in NE|]. intros p I. now eapply H1, H1, NQ.
  - apply source_leaf; auto. apply IH; [now apply H1 in NE; apply H1 in NE|]. intros p I. now eapply H1, H1, NQ.
  - apply source_lifetime; auto.
    + right. destruct L as [n r I W N1 N2|n r I NR W N1]; [right|now left].
      intros [IP [v ->]]. apply (NQ n IP). exists w, v. cbn. now rewrite <- app_assoc.
    + apply IH; [now apply H1 in NE; apply H1 in NE|]. intros p I. now eapply H1, H1, NQ.
Qed.
Lemma reference_parsed src start : start + strlen src < two32 ->
  ~ holds_text src error_text -> (forall p, In p string_prefixes -> ~ holds_text src (SQUOTE :: p ++ [DQUOTE])) ->
  forall ps, reference_source start src ps ->
  (forall ts, tree ps ts -> token_stream_from_str start src = Ok (Lexed ts)) /\
  (forall p, wrong_top ps p -> token_stream_from_str start src = Ok (LexError (mkspan p p))).
Proof using HU.
  intros Hr NE NQ ps (a & s & B & S). apply common_parsed; [exact Hr|]. exists a, s. split; [exact B|].
  assert (X : forall p, ~ holds_text src p -> ~ holds_text s p).
  { intros p N (x & y & ->). inversion B; subst; [|]; apply N; [now exists (0xFEFF :: x), y|now exists x, y]. }
  apply source_apart; auto.
Qed.
End Source.

(** ** Witnesses *)
Ltac spaces := repeat (apply space_blank; [cbn; tauto|]); constructor.
Lemma error_reference : @reference_source sample_unicode 0 (tag "(/*ERROR*/)") [POpen Parenthesis 0; PClose Parenthesis 10].
Proof.
  exists 0, (tag "(/*ERROR*/)"). split; [constructor; discriminate|].
  apply (source_open false true 0 [] Parenthesis (tag "/*ERROR*/)")); [constructor|cbn; tauto|now left|].
  apply (source_close false true 1 (tag "/*ERROR*/") Parenthesis []); [|cbn; tauto|].
  - change (tag "/*ERROR*/") with (tag "/*ERROR*/" ++ []). apply space_block; [|constructor]. split.
    + exists (tag "ERROR*/"). split; [reflexivity|].
      do 5 (apply nested_char; [|intros [y Y]; discriminate Y|intros [y Y]; discriminate Y]). apply nested_close.
    + right. split; [left|]; intros [y Y]; discriminate Y.
  - apply source_end. constructor.
Qed.
Lemma error_refuted : exists src ps ts ts',
  @reference_source sample_unicode 0 src ps /\ tree ps ts /\
  @token_stream_from_str sample_unicode 0 src = Ok (Lexed ts') /\ ts' <> ts.
Proof.
  exists (tag "(/*ERROR*/)"), [POpen Parenthesis 0; PClose Parenthesis 10], [TGroup Parenthesis [] (mkspan 0 11)], [TLiteral (tag "(/*ERROR*/)") (mkspan 0 11)].
  split; [exact error_reference|]. split; [apply (tree_group Parenthesis 0 10 [] [] [] []); constructor|].
  split; [vm_compute; reflexivity|discriminate].
Qed.
Lemma empty_string : @ref_quoted [DQUOTE; DQUOTE].
Proof. apply (ref_cooked KStr [] []); [apply cr_only_nil|constructor]. Qed.
Lemma mark_refuted : exists src ps ts ts',
  @reference_source sample_unicode 0 src ps /\ tree ps ts /\
  @token_stream_from_str sample_unicode 0 src = Ok (Lexed ts') /\ ts' <> ts.
Proof.
  exists ([SQUOTE] ++ tag "b" ++ [DQUOTE; DQUOTE]).
  eexists _, _, [TPunct SQUOTE Joint (mkspan 0 1); TLiteral (tag "b" ++ [DQUOTE; DQUOTE]) (mkspan 1 4)].
  split; [|split; [|split; [vm_compute; reflexivity|]]].
  - exists 0. eexists. split; [constructor; discriminate|].
    apply (source_lifetime false true 0 [] ([SQUOTE] ++ tag "b") (tag "b") false [DQUOTE; DQUOTE]); [constructor| |now left|].
    + apply (lifetime_plain (tag "b")).
      * ident.
      * intros c t [= <- _]. reflexivity.
      * intros [y Y]; discriminate Y.
      * intros [y Y]; discriminate Y.
    + apply (source_leaf false true 2 [] [DQUOTE; DQUOTE] [] (TLiteral [DQUOTE; DQUOTE])); [constructor| |].
      * left. apply ref_lex_quoted; [exact empty_string|]. intros c t; discriminate.
      * apply source_end. constructor.
  - repeat apply tree_tok. constructor.
  - discriminate.
Qed.
Lemma plain_start c s a r : without_bom 0 (c :: s) a r -> c <> 0xFEFF -> a = 0 /\ r = c :: s.
Proof. intros B N. inversion B; subst; [contradiction|auto]. Qed.
Lemma no_reading_1e ps : ~ @reference_source sample_unicode 0 (tag "1e") ps.
Proof.
  intros (a & s & B & S). destruct (plain_start _ _ _ _ B ltac:(discriminate)) as [-> ->].
  destruct (source_first sample_unicode_ok _ _ _ _ S) as (t1 & r & k & E & L); [right; unfold dec_digit; lia|].
  assert (L2 : @lexeme sample_unicode (tag "1e") [] (TLiteral (tag "1e"))) by (apply (lexeme_compute sample_unicode_ok); vm_compute; reflexivity).
  destruct (lexeme_once sample_unicode_ok _ _ _ _ _ _ (ref_is_lexeme sample_unicode_ok _ _ _ L) L2 (eq_sym E)) as (-> & -> & ->).
  apply (bare_exponent_not_ref sample_unicode_ok). now apply literals_agree.
Qed.
Lemma no_reading_radix ps : ~ @reference_source sample_unicode 0 (tag "0b1.5") ps.
Proof.
  intros (a & s & B & S). destruct (plain_start _ _ _ _ B ltac:(discriminate)) as [-> ->].
  destruct (source_first sample_unicode_ok _ _ _ _ S) as (t1 & r & k & E & L); [right; unfold dec_digit; lia|].
  assert (L2 : @lexeme sample_unicode (tag "0b1") (tag ".5") (TLiteral (tag "0b1"))) by (apply (lexeme_compute sample_unicode_ok); vm_compute; reflexivity).
  destruct (lexeme_once sample_unicode_ok _ _ _ _ _ _ (ref_is_lexeme sample_unicode_ok _ _ _ L) L2 (eq_sym E)) as (-> & -> & ->).
  clear S B L2 E. remember (tag "0b1") as t eqn:Et. remember (tag ".5") as r eqn:Er. remember (TLiteral t) as k eqn:K.
  assert (Z : forall d y, dec_text d -> d ++ y = tag "0b1" -> d = tag "0" /\ y = tag "b1").
  { intros d y (c & u & -> & Hc & Hu) X. injection X as -> X. destruct u as [|c2 u]; [auto|].
    cbn in X. injection X as -> _. inversion Hu. unfold digit_or_underscore, dec_digit in H1. lia. }
  destruct L as [q r' Q N'|q x r' Q I N' W'|t' r' N'|x r' I W' N'|x r' I N' W'|c' r' sg I N' N1 N2 S'].
  - destruct Q as [k b v _ _|k n b _ _ _ _|k c Hk Hc _|k e v Hk He]; destruct k; discriminate Et.
  - destruct Q as [k b v _ _|k n b _ _ _ _|k c Hk Hc _|k e v Hk He]; destruct k; discriminate Et.
  - destruct N' as [t' r' W E A|d x r' Hd Hs N He Hp E|p b ds x r' Hp [Hf Hx] Hs N He Hb E|d r' Hd E N|d f x r' Hd Hf Hs He E|d f m e x r' Hd Hf Hm He Hs E].
    + subst. destruct (A _ eq_refl) as (c & u & [= <- <-] & [X|[X|X]]); discriminate X.
    + apply (Hp (tag "0b") 2); [constructor|]. rewrite Et. now exists (tag "1").
    + assert (X : ds ++ x = tag "1") by (destruct Hp; cbn in Et; try discriminate Et; now injection Et).
      destruct ds as [|c ds]; [inversion Hx|]. cbn in X. injection X as _ X. apply app_eq_nil in X as [_ X]. contradiction.
    + apply Z in Et as [_ X]; [discriminate X|exact Hd].
    + apply Z in Et as [_ X]; [discriminate X|exact Hd].
    + apply Z in Et as [_ X]; [|exact Hd]. destruct Hf as [->|(f' & -> & _)]; [|discriminate X]. destruct Hm as [->| ->]; discriminate X.
  - symmetry in K. now apply kind_literal in K.
  - symmetry in K. now apply kind_literal in K.
  - now apply kind_punct in K.
Qed.
Lemma beyond_refuted : exists src src',
  (exists ts, @token_stream_from_str sample_unicode 0 src = Ok (Lexed ts)) /\ (forall ps, ~ @reference_source sample_unicode 0 src ps) /\
  (exists ts, @token_stream_from_str sample_unicode 0 src' = Ok (Lexed ts)) /\ (forall ps, ~ @reference_source sample_unicode 0 src' ps).
Proof.
  exists (tag "1e"), (tag "0b1.5"). split; [eexists; vm_compute; reflexivity|]. split; [exact no_reading_1e|].
  split; [eexists; vm_compute; reflexivity|exact no_reading_radix].
Qed.
Lemma reserved_example :
  @ident_text sample_unicode (tag "k") /\ @word_end sample_unicode (tag "#x") /\ reserves (tag "#x") /\ ~ literal_prefix (tag "k") (tag "#x") /\
  @token_stream_from_str sample_unicode 0 (tag "k#x") =
    Ok (Lexed [TIdent (tag "k") false (mkspan 0 1); TPunct "#"%ch Alone (mkspan 1 2); TIdent (tag "x") false (mkspan 2 3)]).
Proof.
  split; [ident|]. split; [intros c t [= <- _]; reflexivity|]. split; [right; right; now exists (tag "x")|].
  split; [|vm_compute; reflexivity].
  intros [[I _]|[[I _]|[I _]]]; [cbn in I; intuition discriminate|discriminate I|cbn in I; intuition discriminate].
Qed.
Lemma foreign_example : In 0xA0 foreign_white_space /\ @token_stream_from_str sample_unicode 0 [0xA0; "a"%ch] = Ok (Lexed [TIdent (tag "a") false (mkspan 1 2)]).
Proof. split; [cbn; tauto|vm_compute; reflexivity]. Qed.

Lemma common_example :
  @common_source sample_unicode 0 (tag "'a 1..(" ++ [DQUOTE; DQUOTE] ++ tag ")")
    [PTok [TPunct SQUOTE Joint (mkspan 0 1)]; PTok [TIdent (tag "a") false (mkspan 1 2)]; PTok [TLiteral (tag "1") (mkspan 3 4)];
     PTok [TPunct "."%ch Joint (mkspan 4 5)]; PTok [TPunct "."%ch Alone (mkspan 5 6)];
     POpen Parenthesis 6; PTok [TLiteral [DQUOTE; DQUOTE] (mkspan 7 9)]; PClose Parenthesis 9].
Proof.
  exists 0. eexists. split; [constructor; discriminate|].
  apply (source_lifetime false false 0 [] (tag "'a") (tag "a") false (tag " 1..(" ++ [DQUOTE; DQUOTE] ++ tag ")")); [constructor| | |].
  { apply (lifetime_plain (tag "a")); [ident|intros c t [= <- _]; reflexivity|intros [y Y]; discriminate Y|intros [y Y]; discriminate Y]. }
  { right. right. intros [I _]. cbn in I. intuition discriminate. }
  apply (source_leaf false false 2 (tag " ") (tag "1") (tag "..(" ++ [DQUOTE; DQUOTE] ++ tag ")") (TLiteral (tag "1"))); [spaces| |].
  { left. apply ref_lex_number, rn_whole.
    - apply whole_dec; [exists "1"%ch, []; repeat split; [unfold dec_digit; lia|unfold dec_digit; lia|constructor]|]. intros p b [] [y Y]; discriminate Y.
    - intros c t [= <- _]. reflexivity.
    - intros u [= <-]. eexists _, _. split; [reflexivity|now left]. }
  apply (source_leaf false false 4 [] (tag ".") (tag ".(" ++ [DQUOTE; DQUOTE] ++ tag ")") (TPunct "."%ch Joint)); [spaces| |].
  { left. apply ref_lex_punct; [cbn; tauto|discriminate|intros [y Y]; discriminate Y|intros [y Y]; discriminate Y|].
    split; [intros _|reflexivity]. eexists _, _. split; [reflexivity|]. split; [cbn; tauto|]. split; intros [y Y]; discriminate Y. }
  apply (source_leaf false false 5 [] (tag ".") (tag "(" ++ [DQUOTE; DQUOTE] ++ tag ")") (TPunct "."%ch Alone)); [spaces| |].
  { left. apply ref_lex_punct; [cbn; tauto|discriminate|intros [y Y]; discriminate Y|intros [y Y]; discriminate Y|].
    split; [discriminate|]. intros (c & t & [= <- _] & I & _). cbn in I. intuition discriminate. }
  apply (source_open false false 6 [] Parenthesis ([DQUOTE; DQUOTE] ++ tag ")")); [constructor|cbn; tauto|right; intros [y Y]; discriminate Y|].
  apply (source_leaf false false 7 [] [DQUOTE; DQUOTE] (tag ")") (TLiteral [DQUOTE; DQUOTE])); [spaces| |].
  { left. apply ref_lex_quoted; [exact empty_string|]. intros c t [= <- _] [X|X]; discriminate X. }
  apply (source_close false false 9 [] Parenthesis []); [constructor|cbn; tauto|]. apply source_end. constructor.
Qed.
Lemma holds_here (src p : str) : existsb (fun n => starts_with (skipn n src) p) (seq 0 (S (length src))) = false -> ~ holds_text src p.
Proof.
  intros H (x & y & ->). apply Bool.not_true_iff_false in H. apply H, existsb_exists. exists (length x). split.
  - apply in_seq. rewrite app_length. lia.
  - rewrite skipn_app, skipn_all, Nat.sub_diag. cbn. apply starts_with_app.
Qed.
Lemma apart_example (src : str) : src = tag "'a 1..(" ++ [DQUOTE; DQUOTE] ++ tag ")" ->
  ~ holds_text src error_text /\ (forall p, In p string_prefixes -> ~ holds_text src (SQUOTE :: p ++ [DQUOTE])).
Proof.
  intros ->. split; [now apply holds_here|]. cbn [string_prefixes In].
  intros p [<-|[<-|[<-|[<-|[<-|[]]]]]]; now apply holds_here.
Qed.
