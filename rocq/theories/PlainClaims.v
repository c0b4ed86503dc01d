(** * Claims of PropPlain.v. *)
From Verif Require Import Base Unicode Tokens Lexer SpecText SpecTree Fallback LexProofs Roundtrip PrintProofs PlainProofs.
From Verif Require PlainLexer.
Import ListNotations.
Local Open Scope N_scope.

Lemma two32_pos : 0 < two32.
Proof. reflexivity. Qed.

Lemma plain_tokens (U : unicode) start src :
  (forall ts, token_stream_from_str start src = Ok (Lexed ts) ->
     PlainLexer.token_stream_from_str src = Ok (Lexed (map strip ts)) /\
     stream_to_string (map strip ts) = stream_to_string ts) /\
  (forall sp, token_stream_from_str start src = Ok (LexError sp) ->
     PlainLexer.token_stream_from_str src = Ok (LexError PlainLexer.no_span)).
Proof.
  rewrite (plain_stream start). split.
  - intros ts ->. split; [reflexivity|]. apply stream_print_strip.
  - intros sp ->. reflexivity.
Qed.
Lemma plain_total (U : unicode) src :
  (exists ts, PlainLexer.token_stream_from_str src = Ok (Lexed ts) /\ map strip ts = ts) \/
  PlainLexer.token_stream_from_str src = Ok (LexError PlainLexer.no_span).
Proof.
  destruct (plain_tokens U 0 src) as [H1 H2].
  destruct (parse_total U 0 src two32_pos) as [[ts E]|[sp E]].
  - left. exists (map strip ts). split; [now apply H1|]. rewrite map_map. apply map_ext. intros t. apply strip_strip.
  - right. now apply (H2 sp).
Qed.
Lemma plain_parsed (U : unicode) src ts : PlainLexer.token_stream_from_str src = Ok (Lexed ts) ->
  exists ts', token_stream_from_str 0 src = Ok (Lexed ts') /\ map strip ts' = ts.
Proof.
  rewrite (plain_stream 0). destruct (token_stream_from_str 0 src) as [[ts'|sp]| | |]; try discriminate.
  intros H. injection H as <-. eauto.
Qed.
Lemma plain_roundtrip U : unicode_ok U -> forall src ts, valid_str src ->
  PlainLexer.token_stream_from_str src = Ok (Lexed ts) ->
  PlainLexer.token_stream_from_str (stream_to_string ts) = Ok (Lexed ts).
Proof.
  intros UO src ts Hv H. apply plain_parsed in H as (ts' & E & <-).
  destruct (parsed_roundtrip UO 0 0 src ts' two32_pos two32_pos Hv E) as (ts2 & E2 & H2).
  rewrite stream_print_strip, <- H2. now apply (plain_tokens U 0).
Qed.
Lemma plain_literal_exact U : unicode_ok U -> forall src repr sp,
  PlainLexer.literal_from_str src = Ok (LitOk repr sp) <->
  repr = src /\ sp = PlainLexer.no_span /\
  exists body, (src = body \/ (src = "-"%ch :: body /\ exists d u, body = d :: u /\ is_dec_digit d = true)) /\
    body <> ERROR /\
    PlainLexer.token_stream_from_str body = Ok (Lexed [TLiteral body PlainLexer.no_span]).
Proof.
  intros UO src repr sp. rewrite (plain_literal 0).
  assert (Hb : forall body, PlainLexer.token_stream_from_str body = Ok (Lexed [TLiteral body PlainLexer.no_span]) <->
    exists sp', token_stream_from_str 0 body = Ok (Lexed [TLiteral body sp'])).
  { intros body. split.
    - intros H. apply plain_parsed in H as (ts & E & H). destruct ts as [|t [|]]; try discriminate.
      injection H as H. destruct t; inversion H; subst. eauto.
    - intros [sp' E]. now apply (plain_tokens U 0) in E as [E _]. }
  assert (Hl : rmap plit (literal_from_str 0 src) = Ok (LitOk repr sp) <->
    sp = PlainLexer.no_span /\ literal_from_str 0 src = Ok (LitOk repr (mkspan 0 (wrap32 (0 + strlen src))))).
  { split.
    - destruct (literal_from_str 0 src) as [[r s|s]| | |] eqn:E; try discriminate.
      intros H. injection H as -> <-. split; [reflexivity|].
      pose proof E as E'. apply (literal_exact_wrap U UO) in E' as (_ & -> & _); [reflexivity|exact two32_pos].
    - intros (-> & ->). reflexivity. }
  rewrite Hl, (literal_exact_wrap U UO) by exact two32_pos.
  split.
  - intros (-> & -> & _ & body & H1 & H2 & H3). split; [reflexivity|]. split; [reflexivity|]. exists body. now rewrite Hb.
  - intros (-> & -> & body & H1 & H2 & H3). split; [reflexivity|]. split; [reflexivity|]. split; [reflexivity|].
    exists body. now rewrite <- Hb.
Qed.
Lemma plain_literal_total (U : unicode) src :
  (exists repr, PlainLexer.literal_from_str src = Ok (LitOk repr PlainLexer.no_span)) \/
  PlainLexer.literal_from_str src = Ok (LitErr PlainLexer.no_span).
Proof.
  rewrite (plain_literal 0). destruct (literal_total U 0 src two32_pos) as [(r & sp & ->)|(sp & ->)]; cbn; eauto.
Qed.
Lemma plain_literals (U : unicode) start src repr :
  (exists sp, literal_from_str start src = Ok (LitOk repr sp)) <->
  PlainLexer.literal_from_str src = Ok (LitOk repr PlainLexer.no_span).
Proof.
  rewrite (plain_literal start). split.
  - intros [sp ->]. reflexivity.
  - destruct (literal_from_str start src) as [[r s|s]| | |]; try discriminate. intros H. injection H as <-. eauto.
Qed.
Lemma plain_spans a b l lo hi :
  PlainLexer.span_join a b = Some PlainLexer.no_span /\ PlainLexer.span_source_text a = None /\
  PlainLexer.literal_subspan l lo hi = None /\
  PlainLexer.sp_first_byte a = a /\ PlainLexer.sp_last_byte a = a.
Proof. repeat split. Qed.
