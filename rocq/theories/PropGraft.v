(** * Property C100: the contents of a group can be exchanged without parsing the rest again. *)
From Verif Require Import Base Unicode Tokens Lexer SpecText SpecTree SpecGraft GraftProofs.
Import ListNotations.
Local Open Scope N_scope.

Theorem c100_graft : forall U, unicode_ok U -> forall start x d m y ts inner, d <> DNone ->
  start + strlen (x ++ open_char d ++ m ++ close_char d ++ y) < two32 ->
  token_stream_from_str start (x ++ open_char d ++ m ++ close_char d ++ y) = Ok (Lexed ts) ->
  occurs (TGroup d inner (mkspan (start + strlen x) (start + strlen x + strlen m + 2))) ts ->
  forall m' new, (forall t, m' <> 0xFEFF :: t) -> token_stream_from_str (start + strlen x + 1) m' = Ok (Lexed new) ->
  start + strlen (x ++ open_char d ++ m' ++ LF :: close_char d ++ y) < two32 ->
  exists ts', token_stream_from_str start (x ++ open_char d ++ m' ++ LF :: close_char d ++ y) = Ok (Lexed ts') /\
    grafted (mkspan (start + strlen x) (start + strlen x + strlen m + 2)) (mkspan (start + strlen x) (start + strlen x + strlen m' + 3)) new ts ts'.
Proof. exact @graft. Qed.
Print Assumptions c100_graft.
(** In [a+(b[c,]) d] the contents of the brackets become [e // f]. *)
Example c100_example : exists ts ts' new,
  let P := @token_stream_from_str sample_unicode in
  P 7 (tag "a+(b" ++ open_char Bracket ++ tag "c," ++ close_char Bracket ++ tag ") d") = Ok (Lexed ts) /\
  occurs (TGroup Bracket [TIdent (tag "c") false (mkspan 12 13); TPunct ","%ch Alone (mkspan 13 14)] (mkspan (7 + strlen (tag "a+(b")) (7 + strlen (tag "a+(b") + strlen (tag "c,") + 2))) ts /\
  P (7 + strlen (tag "a+(b") + 1) (tag "e // f") = Ok (Lexed new) /\
  P 7 (tag "a+(b" ++ open_char Bracket ++ tag "e // f" ++ LF :: close_char Bracket ++ tag ") d") = Ok (Lexed ts') /\
  ts' = [TIdent (tag "a") false (mkspan 7 8); TPunct "+"%ch Alone (mkspan 8 9);
         TGroup Parenthesis [TIdent (tag "b") false (mkspan 10 11); TGroup Bracket new (mkspan 11 20)] (mkspan 9 21);
         TIdent (tag "d") false (mkspan 22 23)] /\ length new = 1%nat.
Proof.
  eexists _, _, _. cbv zeta. split; [vm_compute; reflexivity|]. split.
  - eapply occurs_inside; [right; right; left; reflexivity|]. constructor. right. left. reflexivity.
  - split; [vm_compute; reflexivity|]. split; [vm_compute; reflexivity|]. split; reflexivity.
Qed.
