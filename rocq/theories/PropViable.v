(** * Property C99: what comes before an error can be continued to a text that parses. *)
From Verif Require Import Base Unicode Tokens Lexer SpecText SpecTree ViableProofs.
Import ListNotations.
Local Open Scope N_scope.

Theorem c99_prefix : forall U, unicode_ok U -> forall start s r sp, start + 2 * strlen (s ++ r) + 3 < two32 ->
  token_stream_from_str start (s ++ r) = Ok (LexError sp) -> lo sp = start + strlen s ->
  exists u ts, token_stream_from_str start (s ++ u) = Ok (Lexed ts).
Proof. exact @before_error. Qed.
Print Assumptions c99_prefix.
(** Errors at a string without an end, at a raw string after the quote of a lifetime,
    at a comment without an end, at a delimiter, and at a number that runs into a mark after
    which the text before is read differently: each with a continuation of the text before. *)
Example c99_example :
  let P := @token_stream_from_str sample_unicode 7 in
  P (tag "a (1 ""b") = Ok (LexError (mkspan 12 12)) /\ (exists t u, P (tag "a (1 " ++ tag ")") = Ok (Lexed [t; u])) /\
  P (tag "'r""b") = Ok (LexError (mkspan 8 8)) /\ (exists t u, P (tag "'" ++ tag "r") = Ok (Lexed [t; u])) /\
  P (tag "'") = Ok (LexError (mkspan 7 7)) /\
  P (tag "{+/*") = Ok (LexError (mkspan 9 9)) /\ (exists t, P (tag "{+" ++ tag "}") = Ok (Lexed [t])) /\
  P (tag "a (b]") = Ok (LexError (mkspan 11 11)) /\ (exists t u, P (tag "a (b" ++ tag ")") = Ok (Lexed [t; u])) /\
  P (tag "a) (b") = Ok (LexError (mkspan 8 8)) /\ P (tag "a (b") = Ok (LexError (mkspan 9 9)) /\
  P (tag "a 0b15 ]") = Ok (LexError (mkspan 9 9)) /\
  P (tag "1.5e+5" ++ [0x300]) = Ok (LexError (mkspan 12 12)) /\
  P (tag "1.5e+") = Ok (Lexed [TLiteral (tag "1.5e") (mkspan 7 11); TPunct "+"%ch Alone (mkspan 11 12)]) /\
  P (tag "1." ++ [0x300]) = Ok (LexError (mkspan 9 9)) /\ P (tag "1.") = Ok (Lexed [TLiteral (tag "1.") (mkspan 7 9)]).
Proof. vm_compute. repeat split; repeat eexists. Qed.
