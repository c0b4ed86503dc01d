(** * Properties of spacing *)
From Verif Require Import Base BaseFacts Unicode Tokens Lexer.
From Verif Require Import SpecText SpecTree SpecLit SpecGrammar SpecSpacing SpacingProofs.
Local Open Scope N_scope.

(** ** C84 *)
Theorem c84_spacing_partial : forall U, unicode_ok U -> forall src start, start + strlen src < two32 -> forall ts,
  token_stream_from_str start src = Ok (Lexed ts) ->
  forall l, level l ts -> forall x t y, l = x ++ t :: y -> implemented t y.
Proof. exact @spacing_of_parse. Qed.
Print Assumptions c84_spacing_partial.
Theorem c84_joint_refuted : exists src ts x t y, @token_stream_from_str sample_unicode 0 src = Ok (Lexed ts) /\
  ts = x ++ t :: y /\ ~ documented t y.
Proof. exact joint_refuted. Qed.
Print Assumptions c84_joint_refuted.
Theorem c84_lifetime_refuted : exists src ts sp u y, @token_stream_from_str sample_unicode 0 src = Ok (Lexed ts) /\
  ts = TPunct SQUOTE Joint sp :: u :: y /\ ~ is_ident u /\ ~ documented (TPunct SQUOTE Joint sp) (u :: y).
Proof. exact lifetime_refuted. Qed.
Print Assumptions c84_lifetime_refuted.
Theorem c84_alone_refuted : exists src ts c sp y, @token_stream_from_str sample_unicode 0 src = Ok (Lexed ts) /\
  ts = TPunct c Alone sp :: y /\ ~ documented (TPunct c Alone sp) y.
Proof. exact alone_refuted. Qed.
Print Assumptions c84_alone_refuted.
Example c84_example :
  @token_stream_from_str sample_unicode 0 (tag "a<<='b (= =)") =
    Ok (Lexed [TIdent (tag "a") false (mkspan 0 1); TPunct "<"%ch Joint (mkspan 1 2); TPunct "<"%ch Joint (mkspan 2 3);
               TPunct "="%ch Joint (mkspan 3 4); TPunct SQUOTE Joint (mkspan 4 5); TIdent (tag "b") false (mkspan 5 6);
               TGroup Parenthesis [TPunct "="%ch Alone (mkspan 8 9); TPunct "="%ch Alone (mkspan 10 11)] (mkspan 7 12)]).
Proof. exact spacing_example. Qed.
