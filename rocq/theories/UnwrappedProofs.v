(** * Conversions by text (C81) *)
From Verif Require Import Base BaseFacts Unicode Tokens Lexer Fallback PureLexer Grammar SpecText SpecTree SpecPrint SpecLex LexProofs PrintProofs Wrapper Unwrapped SpecUnwrapped.
From Coq Require Import Lia.
Import ListNotations.
Local Open Scope N_scope.

Section Proofs.
Context {U : unicode} {S : Type} (parse : str -> cparse S) (display : S -> str).
Lemma from_compiler_exact start s : start < two32 ->
  (forall ts, from_compiler display start s = Val ts <-> token_stream_from_str start (display s) = Ok (Lexed ts)) /\
  (from_compiler display start s = Panics <-> exists sp, token_stream_from_str start (display s) = Ok (LexError sp)).
Proof using.
  intros Hs. unfold from_compiler. destruct (parse_total U start (display s) Hs) as [[ts E]|[sp E]]; rewrite E.
  - split; [intros ts'; split; congruence|]. split; [discriminate|intros [sp X]; discriminate X].
  - split; [intros ts; split; discriminate|]. split; eauto.
Qed.
Lemma to_compiler_text (UO : unicode_ok U) start ts : start < two32 ->
  printable (fun r => accepted start r \/ r = ERROR) ts ->
  exists text ts', to_compiler parse ts = ([text], match parse text with Parsed s => Val s | _ => Panics end) /\
    token_stream_from_str start text = Ok (Lexed ts') /\ map strip ts' = map strip ts.
Proof using.
  intros Hs Hp. destruct (built_roundtrip UO start ts Hs Hp) as (ts' & H1 & H2 & _).
  exists (stream_to_string ts), ts'. auto.
Qed.
Lemma there_and_back (UO : unicode_ok U) a start ts s : a < two32 -> start < two32 ->
  faithful parse display start -> valid_str (stream_to_string ts) ->
  printable (fun r => accepted start r \/ r = ERROR) ts -> snd (to_compiler parse ts) = Val s ->
  exists ts', from_compiler display a s = Val ts' /\ map strip ts' = map strip ts.
Proof using.
  intros Ha Hs Hf Hv Hp H. destruct (built_roundtrip UO start ts Hs Hp) as (ts1 & H1 & H2 & _).
  cbn [to_compiler from_str_unchecked snd] in H. destruct (parse (stream_to_string ts)) as [s'| |] eqn:E; try discriminate.
  injection H as ->. destruct (Hf _ _ _ Hv H1 E) as (x & y & X1 & X2 & X3).
  assert (L : lexes (display s) (map strip y)) by (apply (lexes_iff U start); eauto).
  apply (lexes_iff U a) in L as (ts' & L1 & L2); [|exact Ha]. exists ts'. unfold from_compiler. rewrite L1. split; [reflexivity|].
  congruence.
Qed.
Lemma identity_macro (UO : unicode_ok U) a start input ts : a < two32 -> start < two32 -> valid_str (display input) ->
  from_compiler display a input = Val ts ->
  exists text, same_tokens start (display input) text /\
    macro parse display a (fun ts => ts) input = match parse text with Parsed s => Val s | _ => Panics end.
Proof using.
  intros Ha Hs Hv H. apply (proj1 (from_compiler_exact a input Ha)) in H as E.
  exists (stream_to_string ts). split; [|unfold macro; now rewrite H].
  assert (L : lexes (display input) (map strip ts)) by (apply (lexes_iff U a); eauto).
  apply (lexes_iff U start) in L as (ts1 & L1 & L2); [|exact Hs].
  destruct (parsed_roundtrip UO a start _ _ Ha Hs Hv E) as (ts2 & R1 & R2).
  exists ts1, ts2. repeat split; [exact L1|exact R1|congruence].
Qed.
End Proofs.

Lemma like_fallback_faithful : @faithful sample_unicode _ like_fallback stream_to_string 0.
Proof.
  intros text s ts Hv H E. unfold like_fallback in E. rewrite H in E. injection E as <-.
  destruct (@parsed_roundtrip sample_unicode sample_unicode_ok 0 0 text ts eq_refl eq_refl Hv H) as (ts' & H1 & H2).
  exists ts, ts'. auto.
Qed.
Lemma conversion_examples :
  @faithful sample_unicode _ like_fallback stream_to_string 0 /\
  (let ts := [TIdent (tag "a") true call_site; TPunct "+"%ch Alone call_site; TGroup Brace [] call_site] in
   snd (to_compiler like_fallback ts) = Val [TIdent (tag "a") true (mkspan 0 3); TPunct "+"%ch Alone (mkspan 4 5); TGroup Brace [] (mkspan 6 9)] /\
   @from_compiler sample_unicode _ stream_to_string 7 ts =
     Val [TIdent (tag "a") true (mkspan 7 10); TPunct "+"%ch Alone (mkspan 11 12); TGroup Brace [] (mkspan 13 16)]) /\
  @from_compiler sample_unicode _ stream_to_string 0 [TPunct "'"%ch Alone call_site] = Panics.
Proof. split; [exact like_fallback_faithful|]. vm_compute. repeat split. Qed.
Lemma none_lost : exists s ts,
  s = [TGroup DNone [TIdent (tag "a") false call_site; TPunct "+"%ch Alone call_site] call_site; TIdent (tag "b") false call_site] /\
  @from_compiler sample_unicode _ stream_to_string 0 s = Val ts /\ map strip ts =
    [TIdent (tag "a") false call_site; TPunct "+"%ch Alone call_site; TIdent (tag "b") false call_site].
Proof. do 2 eexists. split; [reflexivity|]. vm_compute. repeat split. Qed.
