(** * Property C89: text appended at the end. *)
From Verif Require Import Base BaseFacts Unicode Tokens Lexer SpecText SpecTree SpecAppend AppendProofs.
Local Open Scope N_scope.

Theorem c89_kept : forall U, unicode_ok U -> forall start s u ts us, start + strlen (s ++ u) < two32 ->
  token_stream_from_str start s = Ok (Lexed ts) -> token_stream_from_str start (s ++ u) = Ok (Lexed us) ->
  exists kept new, settled (start + strlen s) ts kept /\ us = kept ++ new.
Proof. exact @append_kept. Qed.
Print Assumptions c89_kept.
(** At most three tokens are touched, *)
Theorem c89_three : forall U, unicode_ok U -> forall start s u ts us, start + strlen (s ++ u) < two32 ->
  token_stream_from_str start s = Ok (Lexed ts) -> token_stream_from_str start (s ++ u) = Ok (Lexed us) ->
  exists kept changed new, ts = kept ++ changed /\ us = kept ++ new /\ (length changed <= 3)%nat.
Proof. exact @append_three. Qed.
Print Assumptions c89_three.
(** and none if the last one ends before the text does. *)
Theorem c89_apart : forall U, unicode_ok U -> forall start s u ts us, start + strlen (s ++ u) < two32 ->
  token_stream_from_str start s = Ok (Lexed ts) -> token_stream_from_str start (s ++ u) = Ok (Lexed us) ->
  (forall x t, ts = x ++ [t] -> hi (token_span t) <> start + strlen s) -> exists new, us = ts ++ new.
Proof. exact @append_apart. Qed.
Print Assumptions c89_apart.
(** An error that appears is not before the tokens that are settled. *)
Theorem c89_error : forall U, unicode_ok U -> forall start s u ts sp, start + strlen (s ++ u) < two32 ->
  token_stream_from_str start s = Ok (Lexed ts) -> token_stream_from_str start (s ++ u) = Ok (LexError sp) ->
  exists kept, settled (start + strlen s) ts kept /\ Forall (fun t => hi (token_span t) <= lo sp) kept.
Proof. exact @append_error. Qed.
Print Assumptions c89_error.
(** The shapes of [loose] do change. *)
Example c89_example :
  let P := @token_stream_from_str sample_unicode 0 in
  let n a b := TIdent (tag "n") false (mkspan a b) in
  (P (tag "n 1e+_") = Ok (Lexed [n 0 1; TLiteral (tag "1e") (mkspan 2 4); TPunct "+"%ch Alone (mkspan 4 5); TIdent (tag "_") false (mkspan 5 6)]) /\
   P (tag "n 1e+_" ++ tag "5") = Ok (Lexed [n 0 1; TLiteral (tag "1e+_5") (mkspan 2 7)])) /\
  (P (tag "n 1.5e-") = Ok (Lexed [n 0 1; TLiteral (tag "1.5e") (mkspan 2 6); TPunct "-"%ch Alone (mkspan 6 7)]) /\
   P (tag "n 1.5e-" ++ tag "3") = Ok (Lexed [n 0 1; TLiteral (tag "1.5e-3") (mkspan 2 8)])) /\
  (P (tag "n 'a") = Ok (Lexed [n 0 1; TPunct SQUOTE Joint (mkspan 2 3); TIdent (tag "a") false (mkspan 3 4)]) /\
   P (tag "n 'a" ++ tag "'") = Ok (Lexed [n 0 1; TLiteral (tag "'a'") (mkspan 2 5)])) /\
  (P (tag "n+/") = Ok (Lexed [n 0 1; TPunct "+"%ch Joint (mkspan 1 2); TPunct "/"%ch Alone (mkspan 2 3)]) /\
   P (tag "n+/" ++ tag "/ x") = Ok (Lexed [n 0 1; TPunct "+"%ch Alone (mkspan 1 2)])) /\
  (P (tag "n ///") = Ok (Lexed (n 0 1 :: doc_attribute false (tag """""") (mkspan 2 5))) /\
   P (tag "n ///" ++ tag "/") = Ok (Lexed [n 0 1])) /\
  (P (tag "n = b") = Ok (Lexed [n 0 1; TPunct "="%ch Alone (mkspan 2 3); TIdent (tag "b") false (mkspan 4 5)]) /\
   P (tag "n = b" ++ tag "'") = Ok (LexError (mkspan 4 4))).
Proof. exact append_examples. Qed.
