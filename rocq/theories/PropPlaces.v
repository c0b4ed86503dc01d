(** * Properties C78 and the rest of C16: where the characters of a parsed text went. *)
From Verif Require Import Base BaseFacts Unicode Tokens Lexer SpecText SpecTree SpecPlaces Spans Places.
Local Open Scope N_scope.

(** ** C78 *)
Theorem c78_accounted : forall U, unicode_ok U -> forall start src ts, start + strlen src < two32 ->
  token_stream_from_str start src = Ok (Lexed ts) ->
  forall i c, nth_error src i = Some c -> place start src ts i c.
Proof. exact @accounted. Qed.
Print Assumptions c78_accounted.
Theorem c78_foreign : forall U, unicode_ok U -> forall start src ts, start + strlen src < two32 ->
  token_stream_from_str start src = Ok (Lexed ts) ->
  forall i c, nth_error src i = Some c -> foreign c -> (i = 0%nat /\ c = 0xFEFF) \/ enclosed start src ts i.
Proof. exact @foreign_enclosed. Qed.
Print Assumptions c78_foreign.
(** A back quote in a comment and another in a string; the first blank is no token's. *)
Definition places_text : str := tag "(a /*`*/ ""`"")".
Definition places_tokens : list token :=
  [TGroup Parenthesis [TIdent (tag "a") false (mkspan 6 7); TLiteral (tag """`""") (mkspan 14 17)] (mkspan 5 18)].
Example c78_example :
  @token_stream_from_str sample_unicode 5 places_text = Ok (Lexed places_tokens) /\
  nth_error places_text 5 = Some "`"%ch /\ @foreign sample_unicode "`"%ch /\ enclosed 5 places_text places_tokens 5 /\
  enclosed 5 places_text places_tokens 10 /\
  apart places_tokens 7 8 /\ ~ apart places_tokens 7 15 /\ ~ enclosed 5 places_text places_tokens 1.
Proof. exact places_example. Qed.

(** ** C16: a byte order mark that is not the first character is inside a comment or a literal. *)
Theorem c16_bom_elsewhere : forall U, unicode_ok U -> forall start src ts, start + strlen src < two32 ->
  token_stream_from_str start src = Ok (Lexed ts) ->
  forall i, nth_error src i = Some 0xFEFF -> i = 0%nat \/ enclosed start src ts i.
Proof. exact @bom_enclosed. Qed.
Print Assumptions c16_bom_elsewhere.
Example c16_bom_elsewhere_example :
  @token_stream_from_str sample_unicode 0 (tag "a" ++ [0xFEFF]) = Ok (LexError (mkspan 1 1)) /\
  @token_stream_from_str sample_unicode 0 (tag "'" ++ [0xFEFF] ++ tag "'") =
    Ok (Lexed [TLiteral (tag "'" ++ [0xFEFF] ++ tag "'") (mkspan 0 3)]).
Proof. vm_compute. repeat split. Qed.
