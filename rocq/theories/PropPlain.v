(** * Property C75: the default configuration, without [span_locations]. *)
From Verif Require Import Base Unicode Tokens Lexer SpecText Fallback PlainClaims.
From Verif Require Import SpecLex.
From Verif Require PlainLexer.
Import ListNotations.
Local Open Scope N_scope.

(** Whatever was parsed before ([start]), the lexer with locations reads the same
    tokens, which print the same, and fails on the same texts. *)
Theorem c75_tokens : forall (U : unicode) start src,
  (forall ts, token_stream_from_str start src = Ok (Lexed ts) ->
     PlainLexer.token_stream_from_str src = Ok (Lexed (map strip ts)) /\
     stream_to_string (map strip ts) = stream_to_string ts) /\
  (forall sp, token_stream_from_str start src = Ok (LexError sp) ->
     PlainLexer.token_stream_from_str src = Ok (LexError PlainLexer.no_span)).
Proof. exact plain_tokens. Qed.
Print Assumptions c75_tokens.
(** No text makes it panic, of any length, and no location gets into a tree. *)
Theorem c75_total : forall (U : unicode) src,
  (exists ts, PlainLexer.token_stream_from_str src = Ok (Lexed ts) /\ map strip ts = ts) \/
  PlainLexer.token_stream_from_str src = Ok (LexError PlainLexer.no_span).
Proof. exact plain_total. Qed.
Print Assumptions c75_total.
(** Printing and reading back gives the very same stream. *)
Theorem c75_roundtrip : forall U, unicode_ok U -> forall src ts, valid_str src ->
  PlainLexer.token_stream_from_str src = Ok (Lexed ts) ->
  PlainLexer.token_stream_from_str (stream_to_string ts) = Ok (Lexed ts).
Proof. exact plain_roundtrip. Qed.
Print Assumptions c75_roundtrip.
Theorem c75_literals : forall (U : unicode) start src repr,
  (exists sp, literal_from_str start src = Ok (LitOk repr sp)) <->
  PlainLexer.literal_from_str src = Ok (LitOk repr PlainLexer.no_span).
Proof. exact plain_literals. Qed.
Print Assumptions c75_literals.
Theorem c75_literal_total : forall (U : unicode) src,
  (exists repr, PlainLexer.literal_from_str src = Ok (LitOk repr PlainLexer.no_span)) \/
  PlainLexer.literal_from_str src = Ok (LitErr PlainLexer.no_span).
Proof. exact plain_literal_total. Qed.
Print Assumptions c75_literal_total.
(** As [c02_literal_exact], for texts of any length. *)
Theorem c75_literal_exact : forall U, unicode_ok U -> forall src repr sp,
  PlainLexer.literal_from_str src = Ok (LitOk repr sp) <->
  repr = src /\ sp = PlainLexer.no_span /\
  exists body, (src = body \/ (src = "-"%ch :: body /\ exists d u, body = d :: u /\ is_dec_digit d = true)) /\
    body <> ERROR /\
    PlainLexer.token_stream_from_str body = Ok (Lexed [TLiteral body PlainLexer.no_span]).
Proof. exact plain_literal_exact. Qed.
Print Assumptions c75_literal_exact.
(** There is one span; it can be joined with itself and has no text. *)
Theorem c75_spans : forall a b l lo hi,
  PlainLexer.span_join a b = Some PlainLexer.no_span /\ PlainLexer.span_source_text a = None /\
  PlainLexer.literal_subspan l lo hi = None /\
  PlainLexer.sp_first_byte a = a /\ PlainLexer.sp_last_byte a = a.
Proof. exact plain_spans. Qed.
Print Assumptions c75_spans.
Example c75_example :
  let src := tag "/// d
fn f<'a>(x:&'a u8){-1.5e3;br#""q""#}" in
  valid_str src /\
  (exists ts, @PlainLexer.token_stream_from_str sample_unicode src = Ok (Lexed ts) /\
     stream_to_string ts = tag "# [doc = "" d""] fn f <'a > (x :&'a u8) { - 1.5e3 ; br#""q""# }") /\
  @PlainLexer.token_stream_from_str sample_unicode (tag "a ( [ b ] ") = Ok (LexError PlainLexer.no_span) /\
  @PlainLexer.literal_from_str sample_unicode (tag "-0x1Fu8") = Ok (LitOk (tag "-0x1Fu8") PlainLexer.no_span) /\
  @PlainLexer.literal_from_str sample_unicode (tag "- 1") = Ok (LitErr PlainLexer.no_span).
Proof.
  cbn zeta. split; [apply Forall_forall, forallb_forall; reflexivity|].
  split; [eexists; split; vm_compute; reflexivity|]. repeat split; vm_compute; reflexivity.
Qed.
