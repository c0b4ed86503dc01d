(** * Property C102: text put in the place of an identifier is tokens put in its place. *)
From Verif Require Import Base Unicode Tokens Lexer SpecText SpecTree SpecRename SpecSubst SubstProofs.
Import ListNotations.
Local Open Scope N_scope.

Theorem c102_substitute : forall U, unicode_ok U -> forall start x raw n y ts,
  start + strlen (x ++ written raw n ++ y) < two32 ->
  token_stream_from_str start (x ++ written raw n ++ y) = Ok (Lexed ts) -> (raw = false -> ~ numberish n) -> apart_from x ->
  occurs (TIdent n raw (mkspan (start + strlen x) (start + strlen x + strlen (written raw n)))) ts ->
  forall m new, (forall t, m <> 0xFEFF :: t) -> token_stream_from_str (start + strlen x + 1) m = Ok (Lexed new) ->
  start + strlen (x ++ " "%ch :: m ++ LF :: y) < two32 ->
  exists ts', token_stream_from_str start (x ++ " "%ch :: m ++ LF :: y) = Ok (Lexed ts') /\
    spliced (TIdent n raw (mkspan (start + strlen x) (start + strlen x + strlen (written raw n)))) new (start + strlen x + strlen m + 2) ts ts'.
Proof. exact @substitute. Qed.
Print Assumptions c102_substitute.
(** In [f(+x,)g] the name x becomes [y{1}//]. *)
Example c102_example : exists ts ts' new,
  let P := @token_stream_from_str sample_unicode in
  P 5 (tag "f(+" ++ written false (tag "x") ++ tag ",)g") = Ok (Lexed ts) /\
  occurs (TIdent (tag "x") false (mkspan (5 + strlen (tag "f(+")) (5 + strlen (tag "f(+") + strlen (written false (tag "x"))))) ts /\
  ~ numberish (tag "x") /\ apart_from (tag "f(+") /\
  P (5 + strlen (tag "f(+") + 1) (tag "y{1}//") = Ok (Lexed new) /\
  P 5 (tag "f(+" ++ " "%ch :: tag "y{1}//" ++ LF :: tag ",)g") = Ok (Lexed ts') /\
  ts' = [TIdent (tag "f") false (mkspan 5 6);
         TGroup Parenthesis ([TPunct "+"%ch Alone (mkspan 7 8)] ++ new ++ [TPunct ","%ch Alone (mkspan 16 17)]) (mkspan 6 18);
         TIdent (tag "g") false (mkspan 18 19)] /\ length new = 2%nat.
Proof.
  eexists _, _, _. cbv zeta. split; [vm_compute; reflexivity|]. split.
  - eapply occurs_inside; [right; left; reflexivity|]. constructor. right. left. reflexivity.
  - split.
    + intros (u & d & q & E & V & D). destruct u as [|f u]; injection E as <- _; [cbn in D; lia|]. inversion V. discriminate.
    + split; [intros x0 c E; apply (app_inj_tail (tag "f(") x0 "+"%ch c) in E as [_ <-]; split; discriminate|].
      split; [vm_compute; reflexivity|]. split; [vm_compute; reflexivity|]. split; reflexivity.
Qed.
(** What the condition on the text in front excludes: after [1.] a blank makes a float, and a
    quote needs its name. *)
Example c102_not_apart : exists ts ts' sp,
  let P := @token_stream_from_str sample_unicode 0 in
  P (tag "1.x") = Ok (Lexed ts) /\ length ts = 3%nat /\
  P (tag "1. " ++ tag "y" ++ [LF]) = Ok (Lexed ts') /\ length ts' = 2%nat /\
  P (tag "'x") <> Ok (LexError sp) /\ P (tag "' " ++ tag "y" ++ [LF]) = Ok (LexError sp).
Proof.
  eexists _, _, _. cbv zeta. split; [vm_compute; reflexivity|]. split; [reflexivity|]. split; [vm_compute; reflexivity|]. split; [reflexivity|].
  split; [|vm_compute; reflexivity]. vm_compute. discriminate.
Qed.
