(** * Property C93: errors and the text that follows them. *)
From Verif Require Import Base Unicode Tokens Lexer SpecText SpecTree SpecFinal FinalProofs ForeignProofs.
Import ListNotations.
Local Open Scope N_scope.

(** An error at a closing delimiter depends on nothing that comes after it. *)
Theorem c93_close : forall U, unicode_ok U -> forall start s d r sp, d <> DNone -> start + strlen (s ++ close_char d ++ r) < two32 ->
  token_stream_from_str start (s ++ close_char d ++ r) = Ok (LexError sp) -> lo sp = start + strlen s ->
  forall u, start + strlen (s ++ close_char d ++ u) < two32 ->
  token_stream_from_str start (s ++ close_char d ++ u) = Ok (LexError sp).
Proof. exact @error_final. Qed.
Print Assumptions c93_close.
(** Nor does one at a character with which nothing begins. *)
Theorem c93_foreign : forall U, unicode_ok U -> forall start s c r sp, begins_nothing c -> start + strlen (s ++ c :: r) < two32 ->
  token_stream_from_str start (s ++ c :: r) = Ok (LexError sp) -> lo sp = start + strlen s ->
  forall u, start + strlen (s ++ c :: u) < two32 -> token_stream_from_str start (s ++ c :: u) = Ok (LexError sp).
Proof. exact @error_foreign. Qed.
Print Assumptions c93_foreign.
Example c93_foreign_example :
  let P := @token_stream_from_str sample_unicode 7 in
  Forall (@begins_nothing sample_unicode) [92; 96; 0; 0x20AC; 0xFEFF] /\
  P (tag "a (1.\") = Ok (LexError (mkspan 12 12)) /\ lo (mkspan 12 12) = 7 + strlen (tag "a (1.") /\
  P (tag "a (1." ++ 92 :: tag " b)") = Ok (LexError (mkspan 12 12)) /\
  P (tag "a """) = Ok (LexError (mkspan 9 9)) /\ (exists t u, P (tag "a """"") = Ok (Lexed [t; u])).
Proof.
  cbv zeta. split; [|vm_compute; repeat split; eexists _, _; reflexivity].
  repeat constructor; try (intros [H|[H|H]]; discriminate H); try (intros H; cbn in H; decompose [or] H; try discriminate; assumption); discriminate.
Qed.
(** An error at an opening delimiter goes away with a line break and closing delimiters. *)
Theorem c93_open : forall U, unicode_ok U -> forall start s x d y sp, d <> DNone -> start + 2 * strlen s + 1 < two32 ->
  token_stream_from_str start s = Ok (LexError sp) -> s = x ++ open_char d ++ y -> lo sp = start + strlen x ->
  exists ds ts, Forall (fun e => e <> DNone) ds /\
    token_stream_from_str start (s ++ LF :: concat (map close_char ds)) = Ok (Lexed ts).
Proof. exact @error_mended. Qed.
Print Assumptions c93_open.
Example c93_example :
  let P := @token_stream_from_str sample_unicode 7 in
  P (tag "a (b] c") = Ok (LexError (mkspan 11 11)) /\ lo (mkspan 11 11) = 7 + strlen (tag "a (b") /\
  P (tag "a (b" ++ close_char Bracket ++ tag ") ""/*") = Ok (LexError (mkspan 11 11)) /\
  P (tag "(a [b // c") = Ok (LexError (mkspan 10 10)) /\ lo (mkspan 10 10) = 7 + strlen (tag "(a ") /\
  (exists t, P (tag "(a [b // c" ++ LF :: concat (map close_char [Bracket; Parenthesis])) = Ok (Lexed [t])) /\
  P (tag "(a [b // c" ++ concat (map close_char [Bracket; Parenthesis])) = Ok (LexError (mkspan 10 10)).
Proof. vm_compute. repeat split. eexists. reflexivity. Qed.
