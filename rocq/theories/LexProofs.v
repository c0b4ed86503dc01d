(** * Corollaries in the form used by PropLex.v. *)
From Verif Require Import Base BaseFacts Unicode Tokens Lexer PureLexer.
From Verif Require Import LexerEquiv LexerEquiv2 LexerEquiv3 LexerEquiv4 Grammar Stable Trivia.
From Verif Require Import SpecText Comments Fallback SpecTree Spans Balance Shift Compose.
Local Open Scope N_scope.

Lemma parse_total (U : unicode) start src : start < two32 ->
  (exists ts, token_stream_from_str start src = Ok (Lexed ts)) \/
  (exists sp, token_stream_from_str start src = Ok (LexError sp)).
Proof.
  intros H. rewrite token_stream_from_str_run by exact H. destruct (run _ _ _) as [ts|sp]; eauto.
Qed.
Lemma literal_total (U : unicode) start src : start < two32 ->
  (exists repr sp, literal_from_str start src = Ok (LitOk repr sp)) \/
  (exists sp, literal_from_str start src = Ok (LitErr sp)).
Proof.
  intros H. rewrite literal_from_str_spec by exact H. destruct (p_literal_from_str src); eauto.
Qed.

Lemma lexes_iff (U : unicode) start src T : start < two32 ->
  lexes src T <-> exists ts, token_stream_from_str start src = Ok (Lexed ts) /\ map strip ts = T.
Proof.
  intros Hs. split.
  - intros H. destruct (lexes_from_str start src T Hs H) as (ts & H1 & H2). eauto.
  - intros (ts & H1 & <-). exact (from_str_lexes start src ts Hs H1).
Qed.
Lemma not_lexes (U : unicode) start src : start < two32 -> (forall T, ~ lexes src T) ->
  exists sp, token_stream_from_str start src = Ok (LexError sp).
Proof.
  intros Hs H. destruct (parse_total U start src Hs) as [[ts E]|E]; [|exact E].
  exfalso. apply (H (strips ts)). eapply from_str_lexes; eauto.
Qed.

Lemma literal_exact_wrap U : unicode_ok U -> forall start src repr sp, start < two32 ->
  literal_from_str start src = Ok (LitOk repr sp) <->
  repr = src /\ sp = mkspan start (wrap32 (start + strlen src)) /\
  exists body, (src = body \/ (src = "-"%ch :: body /\ exists d u, body = d :: u /\ is_dec_digit d = true)) /\
    body <> ERROR /\
    exists sp', token_stream_from_str start body = Ok (Lexed [TLiteral body sp']).
Proof.
  intros UO start src repr sp Hs. rewrite literal_from_str_spec by exact Hs.
  assert (Hl : forall s, p_literal s = Some [] <-> s <> ERROR /\
    exists sp', token_stream_from_str start s = Ok (Lexed [TLiteral s sp'])).
  { intros s. rewrite (p_literal_lexes UO), (lexes_iff U start) by exact Hs. split.
    - intros (H1 & ts & H2 & H3). split; [exact H1|]. destruct ts as [|t [|]]; try discriminate.
      injection H3 as H3. destruct t; inv H3. eauto.
    - intros (H1 & sp' & H2). split; [exact H1|]. eexists. split; [exact H2|]. reflexivity. }
  fold (strlen src). unfold p_literal_from_str. split.
  - destruct (head_is "-"%ch src) eqn:Eh; cbn [andb].
    + destruct src as [|c body]; [discriminate|]. cbn [head_is] in Eh. apply N.eqb_eq in Eh as <-.
      cbn [skipn]. destruct body as [|d u]; [discriminate|]. destruct (is_dec_digit d) eqn:Ed; cbn [negb]; [|discriminate].
      destruct (p_literal (d :: u)) as [[|]|] eqn:El; try discriminate. intros H.
      apply Hl in El as [H1 H2]. split; [congruence|]. split; [congruence|]. exists (d :: u). split; [|auto].
      right. split; [reflexivity|]. eauto.
    + destruct (p_literal src) as [[|]|] eqn:El; try discriminate. intros H.
      apply Hl in El as [H1 H2]. split; [congruence|]. split; [congruence|]. exists src. auto.
  - intros (-> & -> & body & [<-|(-> & d & u & -> & Hd)] & H2).
    + apply Hl in H2. assert (Eh : head_is "-"%ch src = false).
      { pose proof (p_literal_first _ _ H2) as (c & t & -> & Hc). cbn [head_is].
        apply N.eqb_neq. intros <-. destruct Hc as [Hc|Hc]; [discriminate|].
        decompose [or] Hc; discriminate. }
      rewrite Eh. cbn [andb]. now rewrite H2.
    + apply Hl in H2. cbn [head_is]. rewrite N.eqb_refl. cbn [skipn andb]. rewrite Hd. cbn [negb]. now rewrite H2.
Qed.
Lemma literal_exact U : unicode_ok U -> forall start src repr sp,
  start + strlen src < two32 ->
  literal_from_str start src = Ok (LitOk repr sp) <->
  repr = src /\ sp = mkspan start (start + strlen src) /\
  exists body, (src = body \/ (src = "-"%ch :: body /\ exists d u, body = d :: u /\ is_dec_digit d = true)) /\
    body <> ERROR /\
    exists sp', token_stream_from_str start body = Ok (Lexed [TLiteral body sp']).
Proof.
  intros UO start src repr sp Hroom. rewrite (literal_exact_wrap U UO) by lia.
  now rewrite (wrap32_small (start + strlen src)) by exact Hroom.
Qed.

Lemma tokens_independent (U : unicode) a b src : a < two32 -> b < two32 ->
  forall ts, token_stream_from_str a src = Ok (Lexed ts) ->
  exists ts', token_stream_from_str b src = Ok (Lexed ts') /\ map strip ts' = map strip ts.
Proof.
  intros Ha Hb ts H. apply from_str_lexes in H; [|exact Ha]. now apply (lexes_from_str b) in H.
Qed.

Lemma from_str_lines U : unicode_ok U -> forall start a b ts1, start < two32 ->
  starts_with b BYTE_ORDER_MARK = false ->
  token_stream_from_str start a = Ok (Lexed ts1) ->
  forall T,
  (exists ts, token_stream_from_str start (a ++ LF :: b) = Ok (Lexed ts) /\ map strip ts = T) <->
  (exists ts2, token_stream_from_str start b = Ok (Lexed ts2) /\ T = map strip ts1 ++ map strip ts2).
Proof.
  intros UO start a b ts1 Hs Hb H1 T. rewrite <- lexes_iff by exact Hs.
  apply from_str_lexes in H1; [|exact Hs]. rewrite (lexes_lines_iff UO _ _ _ _ Hb H1). split.
  - intros (ts2 & -> & H). apply (lexes_iff U start) in H as (ts & H2 & <-); eauto.
  - intros (ts2 & H & ->). exists (map strip ts2). split; [reflexivity|]. apply (lexes_iff U start); eauto.
Qed.

Lemma from_str_blank U : unicode_ok U -> forall start s, start < two32 ->
  token_stream_from_str start s = Ok (Lexed []) <-> blank_text (strip_bom s).
Proof.
  intros UO start s Hs. rewrite (blank_text_lexes UO), (lexes_iff U start) by exact Hs. split.
  - intros H. eauto.
  - intros (ts & H & E). destruct ts; [exact H|discriminate].
Qed.

Lemma from_str_doc U : unicode_ok U -> forall start d inner text s ts, start < two32 ->
  (doc_line d inner text /\ line_end s) \/ doc_block d inner text -> ~ has_bare_cr text ->
  (exists T, token_stream_from_str start (d ++ s) = Ok (Lexed T) /\ map strip T = ts) <->
  (exists ts', token_stream_from_str start (0xFEFF :: s) = Ok (Lexed ts') /\
     ts = doc_attribute inner (literal_string text) call_site ++ map strip ts').
Proof.
  intros UO start d inner text s ts Hs H Hb. rewrite <- lexes_iff by exact Hs. unfold lexes.
  assert (Hd : strip_bom (d ++ s) = d ++ s).
  { destruct H as [[H _]|H]; inv H; reflexivity. }
  rewrite Hd, (doc_Lex UO _ _ _ _ _ _ H Hb). rewrite doc_tokens_attribute. split.
  - intros (ts' & H1 & ->). apply (lexes_bom s) in H1. apply (lexes_iff U start) in H1 as (T & H2 & <-); eauto.
  - intros (ts' & H1 & ->). exists (map strip ts'). split; [|reflexivity].
    apply (proj1 (lexes_bom s _)), (lexes_iff U start); eauto.
Qed.
Lemma from_str_doc_bare U : unicode_ok U -> forall start d inner text s, start < two32 ->
  (doc_line d inner text /\ (s = [] \/ begins s [LF]) /\
     exists a b, text = a ++ CR :: b /\ (b <> [] \/ s = [])) \/
  (doc_block d inner text /\ has_bare_cr text) ->
  exists sp, token_stream_from_str start (d ++ s) = Ok (LexError sp).
Proof.
  intros UO start d inner text s Hs H. apply not_lexes; [exact Hs|]. intros T. unfold lexes.
  assert (Hd : strip_bom (d ++ s) = d ++ s).
  { destruct H as [[H _]|[H _]]; inv H; reflexivity. }
  rewrite Hd. exact (doc_bare_Lex UO _ _ _ _ _ _ H).
Qed.

Lemma spans_inside (U : unicode) src start : start + strlen src < two32 ->
  forall ts t, token_stream_from_str start src = Ok (Lexed ts) -> occurs t ts ->
  start <= lo (token_span t) /\ lo (token_span t) < hi (token_span t) /\
  hi (token_span t) <= start + strlen src.
Proof.
  intros Hr ts t H Ho. pose proof (parsed_laid_out _ _ Hr _ H) as Hl. eapply laid_out_inside; eauto.
Qed.
Lemma error_position (U : unicode) src start : start + strlen src < two32 -> forall sp,
  token_stream_from_str start src = Ok (LexError sp) ->
  exists ps, pieces src start ps /\ wrong_top ps (lo sp).
Proof.
  intros Hr sp H. apply (parse_wrong _ _ Hr) in H as (ps & H1 & H2 & _). eauto.
Qed.

Lemma from_str_bom (U : unicode) start s : start + 1 < two32 ->
  starts_with s BYTE_ORDER_MARK = false ->
  token_stream_from_str start (0xFEFF :: s) = token_stream_from_str (start + 1) s.
Proof.
  intros Hs Hb. rewrite !token_stream_from_str_run by lia. rewrite (strip_bom_none _ Hb).
  change (strip_bom (0xFEFF :: s)) with s. do 2 f_equal.
  rewrite cur_of_char0 by exact Hs. change (0xFEFF :: s) with ([0xFEFF] ++ s).
  rewrite cur_of_char by (cbn; lia). reflexivity.
Qed.
Lemma from_str_bom_line U : unicode_ok U -> forall start a s ts, start < two32 ->
  token_stream_from_str start a = Ok (Lexed ts) ->
  exists sp, token_stream_from_str start (a ++ LF :: 0xFEFF :: s) = Ok (LexError sp).
Proof.
  intros UO start a s ts Hs H. apply not_lexes; [exact Hs|]. intros T.
  eapply (bom_line UO). eapply from_str_lexes; eauto.
Qed.
Lemma from_str_bom_twice U : unicode_ok U -> forall start s, start < two32 ->
  exists sp, token_stream_from_str start (0xFEFF :: 0xFEFF :: s) = Ok (LexError sp).
Proof.
  intros UO start s Hs. apply not_lexes; [exact Hs|]. intros T. now apply (bom_twice UO).
Qed.

(** Examples for the grammars of comments. *)
Ltac no_begins := let r := fresh in intros [r ?]; discriminate.
Ltac nest := repeat first
  [ apply nested_close
  | match goal with |- nested (47 :: 42 :: _) => fail 2 end
  | apply nested_char; [|no_begins..] ].
Lemma trivia_examples :
  trivia (lit " /* a /* b */ **/ //// x" ++ [LF]) /\
  ~ trivia (lit "/** x */") /\ trivia (lit "/*** x */").
Proof.
  split; [|split].
  - change (trivia (SPACE :: tag "/* a /* b */ **/" ++ tag " //// x" ++ [LF])).
    apply trivia_blank; [left; reflexivity|].
    apply (trivia_block (tag "/* a /* b */ **/") (tag " //// x" ++ [LF])).
    + split; [|right; split; [left|]; no_begins]. eexists; split; [reflexivity|].
      do 3 (apply nested_char; [|no_begins..]).
      apply (nested_open (tag " b */") (tag " **/")); nest.
    + apply trivia_blank; [left; reflexivity|].
      apply (trivia_line (tag "// x") []); [|constructor].
      split; [cbn; intuition discriminate|]. split; [no_begins|]. right. eexists; reflexivity.
  - intros H. change (lit "/** x */") with (tag "/** x */") in H. remember (tag "/** x */") as s eqn:E. destruct H as [|c w Hb _|x w Hp _|b w Hp _].
    + discriminate.
    + injection E as -> _. destruct Hb as [Hb|[Hb|Hb]]; discriminate.
    + discriminate.
    + destruct Hp as [(v & -> & Hn) Hp]. destruct Hp as [Hp|[Hp _]].
      * injection Hp as ->. discriminate.
      * cbn in E. injection E as E. destruct v as [|a v]; [inversion Hn|]. injection E as -> E.
        destruct Hp as [Hp|[r Hp]]; [apply Hp; eexists; reflexivity|].
        injection Hp as ->. discriminate.
  - apply (trivia_block (tag "/*** x */") []); [|constructor].
    split; [|right; split; [right|]; [eexists; reflexivity|no_begins]].
    eexists; split; [reflexivity|]. nest.
Qed.
Lemma doc_examples :
  doc_line (lit "//! x ""y""") true (lit " x ""y""") /\ ~ has_bare_cr (lit " x ""y""") /\
  @token_stream_from_str sample_unicode 5 (lit "//! x ""y""") =
    Ok (Lexed (doc_attribute true (lit """ x \""y\""""") (mkspan 5 14))).
Proof.
  split; [|split].
  - apply (doc_line_inner (tag " x ""y""")). cbn. intuition discriminate.
  - intros (a & b & E & _). assert (H : In CR (lit " x ""y""")) by (rewrite E; apply in_elt).
    cbn in H. intuition discriminate.
  - vm_compute. reflexivity.
Qed.
