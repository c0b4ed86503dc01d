(** * Parsing at another offset moves the spans and nothing else. *)
From Verif Require Import Base BaseFacts Unicode Tokens Lexer PureLexer.
From Verif Require Import LexerEquiv LexerEquiv2 LexerEquiv3 LexerEquiv4 Grammar Stable Trivia.
From Verif Require Import SpecText Comments Fallback SpecTree Spans.
From Verif Require Import SpecLex.


Section WithUnicode.
Context {U : unicode}.

Definition moved (k : N) (c c' : cursor) : Prop := rest c' = rest c /\ off c' = (off c + k)%N.
Definition fits (c : cursor) : Prop := (off c + strlen (rest c) < two32)%N.

Lemma moved_cur_of k c c' r : moved k c c' -> fits c' -> suffix r (rest c) ->
  moved k (cur_of c r) (cur_of c' r) /\ fits (cur_of c' r).
Proof.
  intros [Hr Ho] Hf Hs. apply suffix_length in Hs. unfold fits, strlen in *. unfold moved, cur_of. cbn [rest off].
  rewrite Hr in *. rewrite Ho in *. rewrite !wrap32_small by lia. split; [split; [reflexivity|lia]|lia].
Qed.
Lemma moved_skipped k c c' : moved k c c' -> fits c' -> moved k (skipped c) (skipped c') /\ fits (skipped c').
Proof.
  intros Hm Hf. unfold skipped. destruct Hm as [Hr Ho]. rewrite Hr.
  apply moved_cur_of; [split; auto|auto|apply p_skip_suffix].
Qed.

Lemma shift_doc k x i sp : map (shift k) (doc_tokens x i sp) = doc_tokens x i (shift_span k sp).
Proof. destruct i; reflexivity. Qed.
Lemma shift_leaf n s r k sp : p_leaf s = Some (r, k) -> shift n (k sp) = k (shift_span n sp).
Proof.
  unfold p_leaf. destruct (p_literal s) as [x|]; [intros H; inv H; reflexivity|].
  destruct (p_punct s) as [[x [ch sp']]|]; [intros H; inv H; reflexivity|].
  destruct (p_ident s) as [[x [sym raw]]|]; [intros H; inv H; reflexivity|].
  destruct (starts_with s ERROR); [|discriminate]. intros H; inv H; reflexivity.
Qed.

Lemma Str_moved k c ts e : Str c ts e -> forall c', moved k c c' -> fits c' ->
  exists e', Str c' (map (shift k) ts) e' /\ moved k e e' /\ fits e'.
Proof.
  induction 1; intros c' Hm Hf; destruct (moved_skipped _ _ _ Hm Hf) as [Hm1 Hf1];
    pose proof Hm1 as [Hr Ho].
  - exists (skipped c'). repeat split; auto. cbn. apply Str_eof. now rewrite Hr.
  - exists (skipped c'). repeat split; auto. cbn. apply Str_close with d r. now rewrite Hr.
  - destruct (moved_cur_of _ _ _ r Hm1 Hf1) as [Hm2 Hf2]; [now apply doc_next in H|].
    destruct (IHStr _ Hm2 Hf2) as (e' & H1 & H2 & H3). exists e'. split; [|auto].
    rewrite map_app, shift_doc. unfold shift_span. cbn [lo hi]. rewrite <- Ho, <- (proj2 Hm2).
    apply Str_doc; [now rewrite Hr|exact H1].
  - destruct (moved_cur_of _ _ _ r Hm1 Hf1) as [Hm2 Hf2]; [now apply open_next in H0|].
    destruct (IHStr1 _ Hm2 Hf2) as (m' & I1 & I2 & I3).
    destruct (moved_cur_of _ _ _ r' I2 I3) as [Hm3 Hf3]; [now apply close_next in H2|].
    destruct (IHStr2 _ Hm3 Hf3) as (e' & J1 & J2 & J3). exists e'. split; [|auto].
    cbn [map shift]. unfold shift_span. cbn [lo hi]. rewrite <- Ho, <- (proj2 Hm3).
    apply Str_group with r; auto; [now rewrite Hr|now rewrite Hr|now rewrite (proj1 I2)].
  - destruct (moved_cur_of _ _ _ r Hm1 Hf1) as [Hm2 Hf2]; [now apply leaf_next in H0|].
    destruct (IHStr _ Hm2 Hf2) as (e' & H2 & H3 & H4). exists e'. split; [|auto].
    cbn [map]. rewrite (shift_leaf _ _ _ _ _ H0). unfold shift_span. cbn [lo hi].
    rewrite <- Ho, <- (proj2 Hm2). apply Str_leaf; [now rewrite Hr|now rewrite Hr|exact H2].
Qed.

Lemma Fail_moved k c sp : Fail c sp -> forall c', moved k c c' -> fits c' -> Fail c' (shift_span k sp).
Proof.
  assert (Hat : forall c c', moved k c c' -> shift_span k (at_span c) = at_span c').
  { intros c0 c0' [_ H0]. unfold shift_span, at_span. cbn. now rewrite H0. }
  induction 1; intros c' Hm Hf; destruct (moved_skipped _ _ _ Hm Hf) as [Hm1 Hf1];
    pose proof Hm1 as [Hr Ho].
  - rewrite (Hat _ _ Hm1). apply Fail_leaf; now rewrite Hr.
  - destruct (moved_cur_of _ _ _ r Hm1 Hf1) as [Hm2 Hf2]; [now apply doc_next in H|].
    eapply Fail_doc; [rewrite Hr; eauto|auto].
  - destruct (moved_cur_of _ _ _ r Hm1 Hf1) as [Hm2 Hf2]; [now apply open_next in H0|].
    eapply Fail_inside; [now rewrite Hr|rewrite Hr; eauto|auto].
  - destruct (moved_cur_of _ _ _ r Hm1 Hf1) as [Hm2 Hf2]; [now apply open_next in H0|].
    destruct (Str_moved _ _ _ _ H1 _ Hm2 Hf2) as (m' & I1 & I2 & I3). rewrite (Hat _ _ Hm1).
    eapply Fail_unclosed; [now rewrite Hr|rewrite Hr; eauto|eauto|]. now rewrite (proj1 I2).
  - destruct (moved_cur_of _ _ _ r Hm1 Hf1) as [Hm2 Hf2]; [now apply open_next in H0|].
    destruct (Str_moved _ _ _ _ H1 _ Hm2 Hf2) as (m' & I1 & I2 & I3). rewrite (Hat _ _ I2).
    eapply Fail_mismatch; [now rewrite Hr|rewrite Hr; eauto|eauto|rewrite (proj1 I2); eauto|auto].
  - destruct (moved_cur_of _ _ _ r Hm1 Hf1) as [Hm2 Hf2]; [now apply open_next in H0|].
    destruct (Str_moved _ _ _ _ H1 _ Hm2 Hf2) as (m' & I1 & I2 & I3).
    destruct (moved_cur_of _ _ _ r' I2 I3) as [Hm3 Hf3]; [now apply close_next in H2|].
    eapply Fail_after; [now rewrite Hr|rewrite Hr; eauto|eauto|rewrite (proj1 I2); eauto|auto].
  - destruct (moved_cur_of _ _ _ r Hm1 Hf1) as [Hm2 Hf2]; [now apply leaf_next in H0|].
    eapply Fail_next; [now rewrite Hr|rewrite Hr; eauto|auto].
Qed.

Lemma run_moved k c c' : wfc c -> wfc c' -> moved k c c' -> fits c' ->
  run c' [] [] = shift_lexed k (run c [] []).
Proof.
  intros Hw Hw' Hm Hf.
  destruct (run_top c Hw) as [(ts & e & H1 & H2 & ->)|[(ts & e & d & r & H1 & H2 & ->)|(sp & H1 & ->)]].
  - destruct (Str_moved _ _ _ _ H1 _ Hm Hf) as (e' & I1 & I2 & I3). cbn.
    apply run_Lexed; [auto|]. exists e'. split; [auto|]. now rewrite (proj1 I2).
  - destruct (Str_moved _ _ _ _ H1 _ Hm Hf) as (e' & I1 & I2 & I3). cbn.
    rewrite (Str_run _ _ _ I1) by auto. destruct (Str_stop _ _ _ I1) as (J1 & J2 & _).
    rewrite (run_close e' d r); auto; [|now rewrite (proj1 I2)].
    unfold at_span, shift_span. cbn. now rewrite (proj2 I2).
  - cbn. eapply Fail_run; [|auto]. eapply Fail_moved; eauto.
Qed.

Lemma from_str_shift start k src : (start + k + strlen src < two32)%N ->
  exists l, token_stream_from_str start src = Ok l /\
            token_stream_from_str (start + k) src = Ok (shift_lexed k l).
Proof.
  intros Hr. assert (Hs : (start < two32)%N) by lia. assert (Hs' : (start + k < two32)%N) by lia.
  rewrite !token_stream_from_str_run by assumption. eexists. split; [reflexivity|]. f_equal.
  assert (Hf : fits (mkcur src (start + k))) by (unfold fits; cbn [off rest]; lia).
  destruct (moved_cur_of k (mkcur src start) (mkcur src (start + k)) (strip_bom src)) as [Hm Hf'].
  - split; reflexivity.
  - exact Hf.
  - apply strip_bom_suffix.
  - apply run_moved; auto.
Qed.

End WithUnicode.
