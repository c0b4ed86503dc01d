(** * Groups and their contents (C80) *)
From Verif Require Import Base BaseFacts Unicode Tokens Lexer PureLexer SpecText SpecTree.
From Verif Require Import LexerEquiv4 Grammar Stable Trivia Compose Spans LexProofs.
From Coq Require Import Lia.
Import ListNotations.

Section WithUnicode.
Context {U : unicode} (UO : unicode_ok U).

Lemma close_delim_at d r : d <> DNone -> close_delim (close_char d ++ r) = Some (d, r).
Proof using. destruct d; try congruence; reflexivity. Qed.
Lemma closed_not_lexed d r T : d <> DNone -> ~ Lex (close_char d ++ r) T [].
Proof using.
  intros Hd H. pose proof (Lex_close' _ _ _ (close_delim_at d r Hd)) as L.
  destruct (Lex_det _ _ _ _ _ H L) as [_ X]. destruct d; try discriminate X. congruence.
Qed.
(** What begins like the compiler's error placeholder closes a delimiter that is not open. *)
Lemma error_lexes s b T e : starts_with ("("%ch :: s ++ LF :: b) ERROR = true -> ~ Lex s T e \/ e <> [].
Proof using.
  intros E. apply starts_with_spec in E as [t E]. cbn [ERROR app] in E. injection E as E.
  assert (X : exists t', s = tag "/*ERROR*/)" ++ t').
  { do 10 (destruct s as [|? s]; [exfalso; cbn in E; discriminate E|]; cbn [app] in E; injection E as -> E). now exists s. }
  clear E. destruct X as [t' ->]. destruct e as [|c e]; [left|now right]. intros H. apply Lex_unskip in H.
  rewrite (p_skip_step _ (close_char Parenthesis ++ t')) in H by reflexivity.
  rewrite p_skip_stay in H by (apply (close_start _ Parenthesis t'); reflexivity).
  now apply (closed_not_lexed Parenthesis) in H.
Qed.
Lemma open_delim_at d s b T : d <> DNone -> Lex s T [] ->
  open_delim (open_char d ++ s ++ LF :: b) = Some (d, s ++ LF :: b).
Proof using.
  intros Hd H. destruct d; try congruence; try reflexivity. cbn [open_char app]. unfold open_delim. cbn [N.eqb Pos.eqb andb].
  destruct (starts_with ("("%ch :: s ++ LF :: b) ERROR) eqn:E; [|reflexivity].
  destruct (error_lexes s b T [] E); congruence.
Qed.
Lemma Lex_open_inv s d r T e : open_delim s = Some (d, r) -> Lex s T e ->
  exists inner m r', Lex r inner m /\ close_delim m = Some (d, r').
Proof using.
  intros Ho H. destruct (open_start _ _ _ Ho) as [Hs Hd]. pose proof (p_skip_stay _ Hs) as E.
  inversion H as [? X|? ? ? X|? ? ? ? ? ? X|? ? ? ? ? ? ? ? X Y Z W|? ? ? ? ? X Y]; subst; rewrite E in *; try congruence.
  - rewrite X in Ho. discriminate.
  - rewrite (close_open _ _ _ X) in Ho. discriminate.
  - rewrite Ho in Y. inv Y. eauto.
  - destruct X as (_ & _ & X & _). congruence.
Qed.
Lemma strip_bom_open d s : d <> DNone -> strip_bom (open_char d ++ s) = open_char d ++ s.
Proof using. destruct d; try congruence; reflexivity. Qed.

Lemma group_lexes d s r inner T : d <> DNone -> starts_with s BYTE_ORDER_MARK = false ->
  starts_with r BYTE_ORDER_MARK = false -> lexes s inner ->
  lexes (open_char d ++ s ++ LF :: close_char d ++ r) T <->
  exists ts, T = TGroup d inner call_site :: ts /\ lexes r ts.
Proof using UO.
  intros Hd Hs Hr H. unfold lexes in *. rewrite (strip_bom_open d) by exact Hd.
  rewrite (strip_bom_none s Hs) in H. rewrite (strip_bom_none r Hr).
  pose proof (open_delim_at d s (close_char d ++ r) inner Hd H) as Ho.
  pose proof (close_delim_at d r Hd) as Hc.
  pose proof (proj2 (Lex_lf UO _ _ _ (close_char d ++ r) H) eq_refl [] _ (Lex_close' _ _ _ Hc)) as Hi.
  rewrite app_nil_r in Hi. split.
  - intros HT. exact (Lex_group_inv _ _ _ _ _ _ _ _ Ho Hi Hc HT).
  - intros (ts & -> & HT). exact (Lex_group' _ _ _ _ _ _ _ _ Ho Hi Hc HT).
Qed.
(** Closed by another delimiter, or not at all. *)
Lemma mismatch_lexes d d' s r inner T : d <> DNone -> d' <> DNone -> d <> d' ->
  starts_with s BYTE_ORDER_MARK = false -> lexes s inner ->
  ~ lexes (open_char d ++ s ++ LF :: close_char d' ++ r) T.
Proof using UO.
  intros Hd Hd' Hne Hs H. unfold lexes in *. rewrite (strip_bom_open d) by exact Hd.
  rewrite (strip_bom_none s Hs) in H.
  pose proof (open_delim_at d s (close_char d' ++ r) inner Hd H) as Ho.
  pose proof (close_delim_at d' r Hd') as Hc.
  pose proof (proj2 (Lex_lf UO _ _ _ (close_char d' ++ r) H) eq_refl [] _ (Lex_close' _ _ _ Hc)) as Hi.
  intros HT. destruct (Lex_open_inv _ _ _ _ _ Ho HT) as (inner' & m & r' & Z & W).
  destruct (Lex_det _ _ _ _ _ Hi Z) as [_ <-]. congruence.
Qed.
Lemma unclosed_lexes d s inner T : d <> DNone -> starts_with s BYTE_ORDER_MARK = false -> lexes s inner ->
  ~ lexes (open_char d ++ s ++ [LF]) T.
Proof using UO.
  intros Hd Hs H. unfold lexes in *. rewrite (strip_bom_open d) by exact Hd. rewrite (strip_bom_none s Hs) in H.
  pose proof (open_delim_at d s [] inner Hd H) as Ho.
  pose proof (proj2 (Lex_lf UO _ _ _ [] H) eq_refl [] _ Lex_nil) as Hi.
  intros HT. destruct (Lex_open_inv _ _ _ _ _ Ho HT) as (inner' & m & r' & Z & W).
  destruct (Lex_det _ _ _ _ _ Hi Z) as [_ <-]. discriminate W.
Qed.
Lemma unopened_lexes d s r inner T : d <> DNone -> lexes s inner -> ~ lexes (s ++ LF :: close_char d ++ r) T.
Proof using UO.
  intros Hd H HT. assert (B : starts_with (close_char d ++ r) BYTE_ORDER_MARK = false) by (destruct d; try congruence; reflexivity).
  apply (lexes_lines_iff UO s (close_char d ++ r) inner T B H) in HT as (ts2 & _ & HT).
  unfold lexes in HT. rewrite (strip_bom_none _ B) in HT. now apply closed_not_lexed in HT.
Qed.
End WithUnicode.

Lemma from_str_group U : unicode_ok U -> forall start d s r inner, (start < two32)%N -> d <> DNone ->
  starts_with s BYTE_ORDER_MARK = false -> starts_with r BYTE_ORDER_MARK = false ->
  token_stream_from_str start s = Ok (Lexed inner) ->
  forall T,
  (exists ts, token_stream_from_str start (open_char d ++ s ++ LF :: close_char d ++ r) = Ok (Lexed ts) /\ map strip ts = T) <->
  (exists ts2, token_stream_from_str start r = Ok (Lexed ts2) /\ T = TGroup d (map strip inner) call_site :: map strip ts2).
Proof.
  intros UO start d s r inner Hs Hd Bs Br H T. rewrite <- lexes_iff by exact Hs.
  apply from_str_lexes in H; [|exact Hs]. rewrite (group_lexes UO _ _ _ _ _ Hd Bs Br H). split.
  - intros (ts2 & -> & H2). apply (lexes_iff U start) in H2 as (ts & H2 & <-); eauto.
  - intros (ts2 & H2 & ->). exists (map strip ts2). split; [reflexivity|]. apply (lexes_iff U start); eauto.
Qed.
Lemma from_str_fails (U : unicode) start s : (start < two32)%N -> (forall T, ~ lexes s T) ->
  exists sp, token_stream_from_str start s = Ok (LexError sp).
Proof.
  intros Hs H. destruct (parse_total U start s Hs) as [[ts E]|E]; [|exact E].
  exfalso. apply (H (map strip ts)). now apply (lexes_iff U start); eauto.
Qed.
Lemma from_str_ungrouped U : unicode_ok U -> forall start d s inner, (start < two32)%N -> d <> DNone ->
  starts_with s BYTE_ORDER_MARK = false -> token_stream_from_str start s = Ok (Lexed inner) ->
  (exists sp, token_stream_from_str start (open_char d ++ s ++ [LF]) = Ok (LexError sp)) /\
  (forall r, exists sp, token_stream_from_str start (s ++ LF :: close_char d ++ r) = Ok (LexError sp)) /\
  (forall d' r, d' <> DNone -> d' <> d ->
     exists sp, token_stream_from_str start (open_char d ++ s ++ LF :: close_char d' ++ r) = Ok (LexError sp)).
Proof.
  intros UO start d s inner Hs Hd Bs H. apply from_str_lexes in H; [|exact Hs].
  split; [|split; [intros r|intros d' r Hd' Hne]]; apply from_str_fails; try exact Hs; intros T.
  - now apply (unclosed_lexes UO d s (strips inner)).
  - now apply (unopened_lexes UO d s r (strips inner)).
  - now apply (mismatch_lexes UO d d' s r (strips inner)); auto.
Qed.
