(** * Property C80: a group is parsed from its contents. *)
From Verif Require Import Base BaseFacts Unicode Tokens Lexer SpecText SpecTree SpecLex GroupProofs.
Import ListNotations.
Local Open Scope N_scope.

(** Once [s] parses, [s] between matching delimiters is one group. *)
Theorem c80_group : forall U, unicode_ok U -> forall start d s r inner, start < two32 -> d <> DNone ->
  starts_with s BYTE_ORDER_MARK = false -> starts_with r BYTE_ORDER_MARK = false ->
  token_stream_from_str start s = Ok (Lexed inner) ->
  forall T,
  (exists ts, token_stream_from_str start (open_char d ++ s ++ LF :: close_char d ++ r) = Ok (Lexed ts) /\ map strip ts = T) <->
  (exists ts2, token_stream_from_str start r = Ok (Lexed ts2) /\ T = TGroup d (map strip inner) call_site :: map strip ts2).
Proof. exact from_str_group. Qed.
Print Assumptions c80_group.
(** With one delimiter missing, or another one, it is an error whatever follows. *)
Theorem c80_no_group : forall U, unicode_ok U -> forall start d s inner, start < two32 -> d <> DNone ->
  starts_with s BYTE_ORDER_MARK = false -> token_stream_from_str start s = Ok (Lexed inner) ->
  (exists sp, token_stream_from_str start (open_char d ++ s ++ [LF]) = Ok (LexError sp)) /\
  (forall r, exists sp, token_stream_from_str start (s ++ LF :: close_char d ++ r) = Ok (LexError sp)) /\
  (forall d' r, d' <> DNone -> d' <> d ->
     exists sp, token_stream_from_str start (open_char d ++ s ++ LF :: close_char d' ++ r) = Ok (LexError sp)).
Proof. exact from_str_ungrouped. Qed.
Print Assumptions c80_no_group.
Example c80_example : exists inner ts,
  @token_stream_from_str sample_unicode 0 (tag "a /*ERROR*/ // b") = Ok (Lexed inner) /\ length inner = 1%nat /\
  @token_stream_from_str sample_unicode 0 (tag "(a /*ERROR*/ // b" ++ LF :: tag ") c") = Ok (Lexed ts) /\ length ts = 2%nat.
Proof. eexists _, _. vm_compute. repeat split. Qed.
