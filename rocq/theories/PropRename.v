(** * Property C101: an identifier can be renamed without parsing the rest again. *)
From Verif Require Import Base Unicode Tokens Lexer SpecText SpecTree SpecRename RenameProofs.
Import ListNotations.
Local Open Scope N_scope.

Theorem c101_rename : forall U, unicode_ok U -> forall start x raw n y ts,
  start + strlen (x ++ written raw n ++ y) < two32 ->
  token_stream_from_str start (x ++ written raw n ++ y) = Ok (Lexed ts) -> (raw = false -> ~ numberish n) ->
  occurs (TIdent n raw (mkspan (start + strlen x) (start + strlen x + strlen (written raw n)))) ts ->
  forall n', fits raw n' -> start + strlen (x ++ written raw n' ++ y) < two32 ->
  exists ts', token_stream_from_str start (x ++ written raw n' ++ y) = Ok (Lexed ts') /\
    replaced (TIdent n raw (mkspan (start + strlen x) (start + strlen x + strlen (written raw n))))
             (TIdent n' raw (mkspan (start + strlen x) (start + strlen x + strlen (written raw n')))) ts ts'.
Proof. exact @rename. Qed.
Print Assumptions c101_rename.
(** The lifetime in [f(<'a>:r#in)g] becomes ['here]. *)
Example c101_example : exists ts ts',
  let P := @token_stream_from_str sample_unicode in
  P 5 (tag "f(<'" ++ written false (tag "a") ++ tag ">:r#in)g") = Ok (Lexed ts) /\
  occurs (TIdent (tag "a") false (mkspan (5 + strlen (tag "f(<'")) (5 + strlen (tag "f(<'") + strlen (written false (tag "a"))))) ts /\
  ~ numberish (tag "a") /\ @fits sample_unicode false (tag "here") /\
  P 5 (tag "f(<'" ++ written false (tag "here") ++ tag ">:r#in)g") = Ok (Lexed ts') /\
  ts' = [TIdent (tag "f") false (mkspan 5 6);
         TGroup Parenthesis [TPunct "<"%ch Joint (mkspan 7 8); TPunct "'"%ch Joint (mkspan 8 9); TIdent (tag "here") false (mkspan 9 13);
                             TPunct ">"%ch Joint (mkspan 13 14); TPunct ":"%ch Alone (mkspan 14 15); TIdent (tag "in") true (mkspan 15 19)] (mkspan 6 20);
         TIdent (tag "g") false (mkspan 20 21)].
Proof.
  assert (NU : forall c t, c <> "_"%ch -> ~ ("0"%ch <= c <= "9"%ch) -> ~ numberish (c :: t)).
  { intros c t A B (u & d & q & E & V & D). destruct u as [|f u]; injection E as <- _; [contradiction|]. inversion V. contradiction. }
  eexists _, _. cbv zeta. split; [vm_compute; reflexivity|]. split.
  - eapply occurs_inside; [right; left; reflexivity|]. constructor. right. right. left. reflexivity.
  - split; [apply NU; [discriminate|cbn; lia]|]. split; [split; [|split]|].
    + eexists _, _. split; [reflexivity|]. split; [right; reflexivity|repeat constructor].
    + apply NU; [discriminate|cbn; lia].
    + cbn. intros H. decompose [or] H; try discriminate; contradiction.
    + split; [vm_compute; reflexivity|reflexivity].
Qed.
(** What the two conditions on names exclude: [1e+_1] is one number, [r"s"] one literal. *)
Example c101_not_numberish : exists ts ts' l,
  let P := @token_stream_from_str sample_unicode 0 in
  P (tag "1e+x") = Ok (Lexed ts) /\ length ts = 3%nat /\ P (tag "1e+_1") = Ok (Lexed ts') /\ ts' = [TLiteral l (mkspan 0 5)].
Proof. eexists _, _, _. cbv zeta. split; [vm_compute; reflexivity|]. split; [reflexivity|]. split; [vm_compute; reflexivity|reflexivity]. Qed.
(** The old name matters too: before [_1] with a combining mark, [1.5e+] cannot be the beginning
    of a number with an exponent, and [1] ends at the dot; before [x] the number is [1.5e]. *)
Example c101_old_numberish : exists ts ts',
  let P := @token_stream_from_str sample_unicode 0 in
  P (tag "1.5e+_1" ++ [0x301]) = Ok (Lexed ts) /\ nth_error ts 4 = Some (TIdent (tag "_1" ++ [0x301]) false (mkspan 5 8)) /\
  nth_error ts 0 = Some (TLiteral (tag "1") (mkspan 0 1)) /\
  P (tag "1.5e+x") = Ok (Lexed ts') /\ nth_error ts' 0 = Some (TLiteral (tag "1.5e") (mkspan 0 4)).
Proof. eexists _, _. cbv zeta. split; [vm_compute; reflexivity|]. split; [reflexivity|]. split; [reflexivity|]. split; [vm_compute; reflexivity|reflexivity]. Qed.
Example c101_not_prefix : exists ts ts' l,
  let P := @token_stream_from_str sample_unicode 0 in
  P (tag "x" ++ [DQUOTE; DQUOTE]) = Ok (Lexed ts) /\ length ts = 2%nat /\ P (tag "r" ++ [DQUOTE; DQUOTE]) = Ok (Lexed ts') /\ ts' = [TLiteral l (mkspan 0 3)].
Proof. eexists _, _, _. cbv zeta. split; [vm_compute; reflexivity|]. split; [reflexivity|]. split; [vm_compute; reflexivity|reflexivity]. Qed.
