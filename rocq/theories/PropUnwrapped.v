(** * Property C81: conversions where the compiler's types are not wrapped. *)
From Verif Require Import Base BaseFacts Unicode Tokens Lexer Fallback SpecText SpecTree SpecPrint SpecLex Wrapper Unwrapped SpecUnwrapped UnwrappedProofs.
Import ListNotations.
Local Open Scope N_scope.

(** A stream of the compiler becomes what its printed text lexes to. *)
Theorem c81_from_compiler : forall (U : unicode) (S : Type) (display : S -> str) start s, start < two32 ->
  (forall ts, from_compiler display start s = Val ts <-> token_stream_from_str start (display s) = Ok (Lexed ts)) /\
  (from_compiler display start s = Panics <-> exists sp, token_stream_from_str start (display s) = Ok (LexError sp)).
Proof. exact @from_compiler_exact. Qed.
Print Assumptions c81_from_compiler.
(** For a stream to the compiler its parser is given one text, with the tokens of the stream. *)
Theorem c81_to_compiler : forall U (S : Type) (parse : str -> cparse S), unicode_ok U -> forall start ts, start < two32 ->
  printable (fun r => accepted start r \/ r = ERROR) ts ->
  exists text ts', to_compiler parse ts = ([text], match parse text with Parsed s => Val s | _ => Panics end) /\
    token_stream_from_str start text = Ok (Lexed ts') /\ map strip ts' = map strip ts.
Proof. exact @to_compiler_text. Qed.
Print Assumptions c81_to_compiler.
(** There and back: the same tokens. *)
Theorem c81_there_and_back : forall U (S : Type) (parse : str -> cparse S) (display : S -> str), unicode_ok U ->
  forall a start ts s, a < two32 -> start < two32 -> faithful parse display start -> valid_str (stream_to_string ts) ->
  printable (fun r => accepted start r \/ r = ERROR) ts -> snd (to_compiler parse ts) = Val s ->
  exists ts', from_compiler display a s = Val ts' /\ map strip ts' = map strip ts.
Proof. exact @there_and_back. Qed.
Print Assumptions c81_there_and_back.
(** A macro that returns its input. *)
Theorem c81_identity_macro : forall U (S : Type) (parse : str -> cparse S) (display : S -> str), unicode_ok U ->
  forall a start input ts, a < two32 -> start < two32 -> valid_str (display input) ->
  from_compiler display a input = Val ts ->
  exists text, same_tokens start (display input) text /\
    macro parse display a (fun ts => ts) input = match parse text with Parsed s => Val s | _ => Panics end.
Proof. exact @identity_macro. Qed.
Print Assumptions c81_identity_macro.
(** A group without delimiters is lost on the way. *)
Theorem c81_none_lost : exists s ts,
  s = [TGroup DNone [TIdent (tag "a") false call_site; TPunct "+"%ch Alone call_site] call_site; TIdent (tag "b") false call_site] /\
  @from_compiler sample_unicode _ stream_to_string 0 s = Val ts /\ map strip ts =
    [TIdent (tag "a") false call_site; TPunct "+"%ch Alone call_site; TIdent (tag "b") false call_site].
Proof. exact none_lost. Qed.
Print Assumptions c81_none_lost.
Example c81_example :
  @faithful sample_unicode _ like_fallback stream_to_string 0 /\
  (let ts := [TIdent (tag "a") true call_site; TPunct "+"%ch Alone call_site; TGroup Brace [] call_site] in
   snd (to_compiler like_fallback ts) = Val [TIdent (tag "a") true (mkspan 0 3); TPunct "+"%ch Alone (mkspan 4 5); TGroup Brace [] (mkspan 6 9)] /\
   @from_compiler sample_unicode _ stream_to_string 7 ts =
     Val [TIdent (tag "a") true (mkspan 7 10); TPunct "+"%ch Alone (mkspan 11 12); TGroup Brace [] (mkspan 13 16)]) /\
  @from_compiler sample_unicode _ stream_to_string 0 [TPunct "'"%ch Alone call_site] = Panics.
Proof. exact conversion_examples. Qed.
