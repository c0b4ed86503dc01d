(** * Properties C01, C02, C05, C07-C14, C16 of the lexer.  C06 and the rest of C13 are in PropGrammar.v. *)
From Verif Require Import Base BaseFacts Unicode Tokens Lexer PureLexer.
From Verif Require Import LexerEquiv LexerEquiv4 Grammar Stable Trivia.
From Verif Require Import SpecText Comments Fallback SpecTree Spans Balance Shift Compose.
From Verif Require Import LexProofs SpecGrammar LexemeProofs.
From Verif Require Import SpecLex.
Local Open Scope N_scope.

(** A concrete text used in the examples: nested groups, a doc comment, puncts. *)
Definition sample_text : str :=
  lit "fn f(x: &'a u8) { /* c */ x + 1.5e3 }" ++ [LF] ++ lit "/// hi" ++ [LF] ++ lit "'a' br#""q""#".
Definition sample_bad : str := lit "a ( [ b ] ".

(** ** C01 *)
Theorem c01_parse_total : forall (U : unicode) start src, start < two32 ->
  (exists ts, token_stream_from_str start src = Ok (Lexed ts)) \/
  (exists sp, token_stream_from_str start src = Ok (LexError sp)).
Proof. exact parse_total. Qed.
Print Assumptions c01_parse_total.
Example c01_example :
  exists ts sp, @token_stream_from_str sample_unicode 7 sample_text = Ok (Lexed ts) /\ length ts = 8%nat
  /\ @token_stream_from_str sample_unicode 7 sample_bad = Ok (LexError sp).
Proof. eexists _, _. vm_compute. split; [reflexivity|]. split; reflexivity. Qed.

(** ** C02 *)
Theorem c02_literal_total : forall (U : unicode) start src, start < two32 ->
  (exists repr sp, literal_from_str start src = Ok (LitOk repr sp)) \/
  (exists sp, literal_from_str start src = Ok (LitErr sp)).
Proof. exact literal_total. Qed.
Print Assumptions c02_literal_total.
(** Success exactly on an optional [-] directly followed by a digit, and text that
    as a token stream is that one literal; the result prints as the input. *)
Theorem c02_literal_exact : forall U, unicode_ok U -> forall start src repr sp,
  start + strlen src < two32 ->
  literal_from_str start src = Ok (LitOk repr sp) <->
  repr = src /\ sp = mkspan start (start + strlen src) /\
  exists body, (src = body \/ (src = "-"%ch :: body /\ exists d u, body = d :: u /\ is_dec_digit d = true)) /\
    body <> ERROR /\
    exists sp', token_stream_from_str start body = Ok (Lexed [TLiteral body sp']).
Proof. exact @literal_exact. Qed.
Print Assumptions c02_literal_exact.
Example c02_example :
  @literal_from_str sample_unicode 3 (lit "-0x1Fu8") = Ok (LitOk (lit "-0x1Fu8") (mkspan 3 10)) /\
  @literal_from_str sample_unicode 3 (lit "- 1") = Ok (LitErr call_site) /\
  @literal_from_str sample_unicode 3 (lit "1 ") = Ok (LitErr call_site) /\
  @literal_from_str sample_unicode 3 ERROR = Ok (LitErr call_site) /\
  @token_stream_from_str sample_unicode 3 (lit "0x1Fu8") = Ok (Lexed [TLiteral (lit "0x1Fu8") (mkspan 3 9)]).
Proof. vm_compute. repeat split. Qed.

(** ** C05 *)
(** The trees without spans are the same from any two starting offsets, that is
    after any earlier parses and also with span information compiled out. *)
Theorem c05_tokens_independent : forall (U : unicode) a b src, a < two32 -> b < two32 ->
  forall ts, token_stream_from_str a src = Ok (Lexed ts) ->
  exists ts', token_stream_from_str b src = Ok (Lexed ts') /\ map strip ts' = map strip ts.
Proof. exact tokens_independent. Qed.
Print Assumptions c05_tokens_independent.
(** With room for the text, spans and error positions are shifted by the offset. *)
Theorem c05_spans_shift : forall (U : unicode) start k src, start + k + strlen src < two32 ->
  exists l, token_stream_from_str start src = Ok l /\
    token_stream_from_str (start + k) src = Ok (shift_lexed k l).
Proof. exact @from_str_shift. Qed.
Print Assumptions c05_spans_shift.
Example c05_example :
  @token_stream_from_str sample_unicode 0 (lit "(a)") =
    Ok (Lexed [TGroup Parenthesis [TIdent (lit "a") false (mkspan 1 2)] (mkspan 0 3)]) /\
  @token_stream_from_str sample_unicode 40 (lit "(a)") =
    Ok (Lexed [TGroup Parenthesis [TIdent (lit "a") false (mkspan 41 42)] (mkspan 40 43)]) /\
  @token_stream_from_str sample_unicode 40 (lit "(a") = Ok (LexError (mkspan 40 40)).
Proof. vm_compute. repeat split. Qed.

(** ** C07 *)
Theorem c07_lines : forall U, unicode_ok U -> forall start a b ts1, start < two32 ->
  starts_with b BYTE_ORDER_MARK = false ->
  token_stream_from_str start a = Ok (Lexed ts1) ->
  forall T,
  (exists ts, token_stream_from_str start (a ++ LF :: b) = Ok (Lexed ts) /\ map strip ts = T) <->
  (exists ts2, token_stream_from_str start b = Ok (Lexed ts2) /\ T = map strip ts1 ++ map strip ts2).
Proof. exact @from_str_lines. Qed.
Print Assumptions c07_lines.
Example c07_example :
  exists ts1 ts2, @token_stream_from_str sample_unicode 0 (lit "a // c") = Ok (Lexed ts1) /\
    @token_stream_from_str sample_unicode 0 (lit "(b)") = Ok (Lexed ts2) /\ length ts1 = 1%nat /\ length ts2 = 1%nat.
Proof. eexists _, _. vm_compute. repeat split. Qed.

(** ** C08 *)
Theorem c08_trivia_first : forall (U : unicode) start w s, trivia w ->
  starts_with s BYTE_ORDER_MARK = false -> start + N.of_nat (length w) < two32 ->
  token_stream_from_str start (w ++ s) = token_stream_from_str (start + N.of_nat (length w)) s.
Proof. exact @from_str_trivia. Qed.
Print Assumptions c08_trivia_first.
Theorem c08_blank_text : forall U, unicode_ok U -> forall start s, start < two32 ->
  token_stream_from_str start s = Ok (Lexed []) <-> exists a t, without_bom start s a t /\ blank_text t.
Proof. exact @blank_source. Qed.
Print Assumptions c08_blank_text.
Example c08_example :
  trivia (lit " /* a /* b */ **/ //// x" ++ [LF]) /\
  ~ trivia (lit "/** x */") /\ trivia (lit "/*** x */").
Proof. exact trivia_examples. Qed.

(** ** C09 *)
Theorem c09_doc_comment : forall U, unicode_ok U -> forall start d inner text s ts, start < two32 ->
  (doc_line d inner text /\ line_end s) \/ doc_block d inner text -> ~ has_bare_cr text ->
  (exists T, token_stream_from_str start (d ++ s) = Ok (Lexed T) /\ map strip T = ts) <->
  (exists ts', token_stream_from_str start (0xFEFF :: s) = Ok (Lexed ts') /\
     ts = doc_attribute inner (literal_string text) call_site ++ map strip ts').
Proof. exact @from_str_doc. Qed.
Print Assumptions c09_doc_comment.
Theorem c09_doc_bare_cr : forall U, unicode_ok U -> forall start d inner text s, start < two32 ->
  (doc_line d inner text /\ (s = [] \/ begins s [LF]) /\
     exists a b, text = a ++ CR :: b /\ (b <> [] \/ s = [])) \/
  (doc_block d inner text /\ has_bare_cr text) ->
  exists sp, token_stream_from_str start (d ++ s) = Ok (LexError sp).
Proof. exact @from_str_doc_bare. Qed.
Print Assumptions c09_doc_bare_cr.
Example c09_example :
  doc_line (lit "//! x ""y""") true (lit " x ""y""") /\ ~ has_bare_cr (lit " x ""y""") /\
  @token_stream_from_str sample_unicode 5 (lit "//! x ""y""") =
    Ok (Lexed (doc_attribute true (lit """ x \""y\""""") (mkspan 5 14))).
Proof. exact doc_examples. Qed.

(** ** C10 *)
Theorem c10_source_text : forall U, unicode_ok U -> forall src start, start + strlen src < two32 ->
  forall ts t, token_stream_from_str start src = Ok (Lexed ts) -> occurs t ts -> ~ is_group t ->
  text_under src start (token_span t) = tree_to_string t \/
  doc_text (text_under src start (token_span t)).
Proof. exact @leaf_source. Qed.
Print Assumptions c10_source_text.
Example c10_example : exists ts, @token_stream_from_str sample_unicode 7 sample_text = Ok (Lexed ts) /\
  occurs (TLiteral (lit "1.5e3") (mkspan 37 42)) ts /\
  text_under sample_text 7 (mkspan 37 42) = lit "1.5e3".
Proof.
  eexists. split; [vm_compute; reflexivity|]. split; [|reflexivity].
  eapply occurs_inside; [do 3 right; left; reflexivity|]. apply occurs_here. do 2 right. left. reflexivity.
Qed.

(** ** C11 *)
Theorem c11_spans_nested : forall (U : unicode) src start, start + strlen src < two32 ->
  forall ts, token_stream_from_str start src = Ok (Lexed ts) -> laid_out start (start + strlen src) ts.
Proof. exact @parsed_laid_out. Qed.
Print Assumptions c11_spans_nested.
Theorem c11_spans_inside : forall (U : unicode) src start, start + strlen src < two32 ->
  forall ts t, token_stream_from_str start src = Ok (Lexed ts) -> occurs t ts ->
  start <= lo (token_span t) /\ lo (token_span t) < hi (token_span t) /\
  hi (token_span t) <= start + strlen src.
Proof. exact spans_inside. Qed.
Print Assumptions c11_spans_inside.
Example c11_example : exists ts, @token_stream_from_str sample_unicode 7 sample_text = Ok (Lexed ts) /\
  map (fun t => (lo (token_span t), hi (token_span t))) ts =
  [(7, 9); (10, 11); (11, 22); (23, 44); (45, 51); (45, 51); (52, 55); (56, 63)].
Proof. eexists. split; [vm_compute; reflexivity|]. vm_compute. reflexivity. Qed.

(** ** C12 *)
Theorem c12_delimiter_spans : forall U, unicode_ok U -> forall src start, start + strlen src < two32 ->
  forall ts d inner sp, token_stream_from_str start src = Ok (Lexed ts) -> occurs (TGroup d inner sp) ts ->
  (let t := TGroup d inner sp in
   text_under src start (span_open t) = open_char d /\
   text_under src start (span_close t) = close_char d /\
   lo (span_open t) = lo sp /\ hi (span_open t) = lo sp + 1 /\
   lo (span_close t) = hi sp - 1 /\ hi (span_close t) = hi sp /\
   hi (span_open t) <= lo (span_close t) /\ d <> DNone) \/
  doc_text (text_under src start sp).
Proof. exact @group_source. Qed.
Print Assumptions c12_delimiter_spans.
Example c12_example : exists ts inner, @token_stream_from_str sample_unicode 7 sample_text = Ok (Lexed ts) /\
  occurs (TGroup Brace inner (mkspan 23 44)) ts /\
  text_under sample_text 7 (span_open (TGroup Brace inner (mkspan 23 44))) = lit "{" /\
  text_under sample_text 7 (span_close (TGroup Brace inner (mkspan 23 44))) = lit "}".
Proof.
  eexists _, _. split; [vm_compute; reflexivity|]. split; [|split; reflexivity].
  apply occurs_here. do 3 right. left. reflexivity.
Qed.

(** ** C13 *)
Theorem c13_error_in_text : forall (U : unicode) src start, start + strlen src < two32 -> forall sp,
  token_stream_from_str start src = Ok (LexError sp) ->
  lo sp = hi sp /\ start <= lo sp /\ lo sp <= start + strlen src.
Proof. exact @error_in_text. Qed.
Print Assumptions c13_error_in_text.
Example c13_example :
  @token_stream_from_str sample_unicode 7 sample_bad = Ok (LexError (mkspan 9 9)) /\
  @token_stream_from_str sample_unicode 0 (lit "( [ { } ") = Ok (LexError (mkspan 2 2)) /\
  @token_stream_from_str sample_unicode 0 (lit "( ] )") = Ok (LexError (mkspan 2 2)).
Proof. vm_compute. repeat split. Qed.

(** ** C14 *)
Theorem c14_spacing : forall U, unicode_ok U -> forall src start, start + strlen src < two32 ->
  forall ts c sg sp, token_stream_from_str start src = Ok (Lexed ts) -> occurs (TPunct c sg sp) ts ->
  (In c punct_chars /\
   if c =? SQUOTE then
     sg = Joint /\ exists raw sym after, text_after src start sp = ident_to_string sym raw ++ after
       /\ ident_text sym /\ (raw = true -> ~ In sym never_raw) /\ head_cont after = false
       /\ ~ begins after (tag "'")
   else (sg = Joint <-> starts_punct (text_after src start sp))) \/
  doc_text (text_under src start sp).
Proof. exact @punct_source. Qed.
Print Assumptions c14_spacing.
Example c14_example :
  @token_stream_from_str sample_unicode 0 (lit "+= -/**/'b") =
  Ok (Lexed [TPunct "+"%ch Joint (mkspan 0 1); TPunct "="%ch Alone (mkspan 1 2);
             TPunct "-"%ch Alone (mkspan 3 4); TPunct "'"%ch Joint (mkspan 8 9);
             TIdent (lit "b") false (mkspan 9 10)]).
Proof. vm_compute. reflexivity. Qed.

(** ** C16 *)
Theorem c16_leading_bom : forall (U : unicode) start s, start + 1 < two32 ->
  starts_with s BYTE_ORDER_MARK = false ->
  token_stream_from_str start (0xFEFF :: s) = token_stream_from_str (start + 1) s.
Proof. exact from_str_bom. Qed.
Print Assumptions c16_leading_bom.
Theorem c16_bom_line : forall U, unicode_ok U -> forall start a s ts, start < two32 ->
  token_stream_from_str start a = Ok (Lexed ts) ->
  exists sp, token_stream_from_str start (a ++ LF :: 0xFEFF :: s) = Ok (LexError sp).
Proof. exact @from_str_bom_line. Qed.
Print Assumptions c16_bom_line.
Theorem c16_bom_twice : forall U, unicode_ok U -> forall start s, start < two32 ->
  exists sp, token_stream_from_str start (0xFEFF :: 0xFEFF :: s) = Ok (LexError sp).
Proof. exact @from_str_bom_twice. Qed.
Print Assumptions c16_bom_twice.
Example c16_example :
  @token_stream_from_str sample_unicode 0 (0xFEFF :: lit "a") = Ok (Lexed [TIdent (lit "a") false (mkspan 1 2)]) /\
  @token_stream_from_str sample_unicode 0 (lit "a" ++ [LF; 0xFEFF]) = Ok (LexError (mkspan 2 2)).
Proof. vm_compute. repeat split. Qed.
