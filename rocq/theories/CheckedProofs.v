(** * The lexer with overflow checks computes what the one without computes, or panics
    because the text does not fit. *)
From Coq Require Import Lia.
From Verif Require Import Base Unicode Tokens Lexer SpecTree.
From Verif Require Import BaseFacts.
From Verif Require SourceMap SpecMap MapRelease CheckedLexer.
Import ListNotations.
Module K := CheckedLexer.
Local Open Scope N_scope.

Section Relation.
Variables T L : N.
(** Positions between the start and the end [T] of a text of [L] characters. *)
Definition inv (c : cursor) : Prop :=
  off c < two32 /\ strlen (rest c) <= L /\ off c + strlen (rest c) <= T /\
  (L < two32 -> off c + strlen (rest c) = T).
Definition inv1 {A} (x : cursor * A) : Prop := inv (fst x).
Definition any {A} (x : A) : Prop := True.
Definition rel {A} (g : A -> Prop) (r r' : res A) : Prop :=
  (r' = r /\ forall x, r = Ok x -> g x) \/ (r' = Panic /\ two32 <= T).

Lemma rel_ret {A} (g : A -> Prop) x : g x -> rel g (Ok x) (Ok x).
Proof. intros H. left. split; [reflexivity|]. intros y E. now injection E as <-. Qed.
Lemma rel_any {A} (r : res A) : rel any r r.
Proof. left. split; [reflexivity|]. now intros. Qed.
Lemma rel_reject {A} (g : A -> Prop) : rel g Reject Reject.
Proof. left. split; [reflexivity|]. discriminate. Qed.
Lemma rel_panic {A} (g : A -> Prop) : rel g Panic Panic.
Proof. left. split; [reflexivity|]. discriminate. Qed.
Lemma rel_fuel {A} (g : A -> Prop) : rel g Fuel Fuel.
Proof. left. split; [reflexivity|]. discriminate. Qed.
Lemma rel_bind {A B} (g : A -> Prop) (h : B -> Prop) r r' k k' :
  rel g r r' -> (forall x, g x -> rel h (k x) (k' x)) -> rel h (bind r k) (bind r' k').
Proof.
  intros [[-> H]|[-> H]] K; [|right; now split].
  destruct r as [x| | |]; cbn [bind]; [now apply K, H|apply rel_reject|apply rel_panic|apply rel_fuel].
Qed.
Lemma rel_if_ok {A B} (g : A -> Prop) (h : B -> Prop) r r' k k' a a' :
  rel g r r' -> (forall x, g x -> rel h (k x) (k' x)) -> rel h a a' -> rel h (if_ok r k a) (if_ok r' k' a').
Proof.
  intros [[-> H]|[-> H]] K R; [|right; now split].
  destruct r as [x| | |]; cbn [if_ok]; [now apply K, H|exact R|apply rel_panic|apply rel_fuel].
Qed.

Lemma rel_adv c n : inv c -> rel inv (advance c n) (K.advance c n).
Proof.
  intros (H & HL & HT & HE). unfold advance, K.advance. destruct (split_at (rest c) n) as [[f r]|] eqn:E; [|apply rel_panic].
  apply split_at_inv in E as [E _]. unfold SourceMap.add_u32, strlen in *. rewrite E, app_length, Nat2N.inj_add in *.
  set (a := N.of_nat (length f)) in *. set (b := N.of_nat (length r)) in *.
  assert (W : wrap32 a <= a) by (unfold wrap32; apply N.mod_le; unfold two32; lia).
  destruct (off c + wrap32 a <? two32) eqn:F.
  - apply N.ltb_lt in F. cbn [bind].
    assert (X : wrap32 (off c + a) = off c + wrap32 a).
    { unfold wrap32 in *. rewrite <- N.add_mod_idemp_r by (unfold two32; lia). now apply N.mod_small. }
    rewrite X. apply rel_ret. unfold inv, strlen. cbn [off rest]. fold b. repeat split; try lia.
    intros G. assert (wrap32 a = a) by (unfold wrap32; apply N.mod_small; lia). lia.
  - apply N.ltb_ge in F. right. split; [reflexivity|]. lia.
Qed.
End Relation.
Global Hint Resolve rel_adv : chk.
Ltac pairs := repeat match goal with x : (_ * _)%type |- _ => destruct x end; unfold inv1 in *; cbn [fst] in *.
Ltac gog t :=
  lazymatch t with
  | (if ?x then _ else _) => destruct x
  | (match ?x with [] => _ | _ => _ end) => destruct x
  | (match ?x with Some _ => _ | _ => _ end) => destruct x; pairs
  | (match ?x with O => _ | _ => _ end) => destruct x
  | (let (_, _) := ?x in _) => destruct x
  end.
Ltac stp :=
  lazymatch goal with
  | |- rel _ _ (bind _ _) _ => eapply rel_bind; [first [solve [eauto with chk] | apply rel_any] | intros; pairs]
  | |- rel _ _ (if_ok _ _ _) _ => eapply rel_if_ok; [first [solve [eauto with chk] | apply rel_any] | intros; pairs |]
  | |- rel _ _ (Ok _) (Ok _) => apply rel_ret; try unfold inv1; cbn [fst]; try exact I; assumption
  | |- rel _ _ Reject _ => apply rel_reject
  | |- rel _ _ Panic _ => apply rel_panic
  | |- rel _ _ Fuel _ => apply rel_fuel
  | |- rel _ _ ?t _ => first [solve [eauto with chk] | gog t]
  end.
Ltac run := cbv zeta; repeat (stp; cbv zeta beta).

Section Lexer.
Variables T L : N.
Notation rel1 := (rel T (inv T L)).
Notation rel2 := (rel T (inv1 T L)).

Lemma rel_tag c t : inv T L c -> rel1 (parse_tag c t) (K.parse_tag c t).
Proof. intros H. unfold parse_tag, K.parse_tag. run. Qed.
Hint Resolve rel_tag : chk.
Lemma newline_loop c chars : inv T L c -> forall i, rel2 (take_until_newline_loop c i chars) (K.take_until_newline_loop c i chars).
Proof. intros H. induction chars as [|ch t IH]; intros i; cbn [K.take_until_newline_loop take_until_newline_loop]; run. Qed.
Lemma rel_newline c : inv T L c -> rel2 (take_until_newline_or_eof c) (K.take_until_newline_or_eof c).
Proof. intros H. now apply newline_loop. Qed.
Lemma block_loop c fuel : inv T L c -> forall d i bs, rel2 (block_comment_loop c fuel d i bs) (K.block_comment_loop c fuel d i bs).
Proof.
  intros H. induction fuel as [|fuel IH]; intros d i bs; cbn [K.block_comment_loop block_comment_loop]; [apply rel_fuel|].
  destruct bs as [|b0 [|b1 t]]; try apply rel_reject. destruct d as [|[|d]]; run.
Qed.
Lemma rel_block c : inv T L c -> rel2 (block_comment c) (K.block_comment c).
Proof. intros H. unfold K.block_comment, block_comment. destruct negb; [apply rel_reject|]. now apply block_loop. Qed.
Hint Resolve rel_newline rel_block : chk.
Lemma skip_loop fuel : forall c, inv T L c -> rel1 (skip_whitespace_loop fuel c) (K.skip_whitespace_loop fuel c).
Proof. induction fuel as [|fuel IH]; intros c H; cbn [K.skip_whitespace_loop skip_whitespace_loop]; run. Qed.
Lemma rel_skip c : inv T L c -> rel1 (skip_whitespace c) (K.skip_whitespace c).
Proof. intros H. now apply skip_loop. Qed.
Hint Resolve rel_skip : chk.

Context {U : unicode}.
Lemma rel_break c : inv T L c -> rel1 (word_break c) (word_break c).
Proof. intros H. unfold word_break. run. Qed.
Lemma rel_not_raw c : inv T L c -> rel2 (ident_not_raw c) (K.ident_not_raw c).
Proof. intros H. unfold K.ident_not_raw, ident_not_raw. run. Qed.
Hint Resolve rel_break rel_not_raw : chk.
Lemma rel_ident_any c : inv T L c -> rel2 (ident_any c) (K.ident_any c).
Proof. intros H. unfold K.ident_any, ident_any. run. Qed.
Hint Resolve rel_ident_any : chk.
Lemma rel_ident c : inv T L c -> rel2 (ident c) (K.ident c).
Proof. intros H. unfold K.ident, ident. run. Qed.
Lemma rel_suffix c : inv T L c -> rel1 (literal_suffix c) (K.literal_suffix c).
Proof. intros H. unfold K.literal_suffix, literal_suffix. run. Qed.
Hint Resolve rel_ident rel_suffix : chk.
Lemma trailing_loop c fuel : inv T L c -> forall last ws, rel1 (trailing_backslash_loop c fuel last ws) (K.trailing_backslash_loop c fuel last ws).
Proof. intros H. induction fuel as [|fuel IH]; intros last ws; cbn [K.trailing_backslash_loop trailing_backslash_loop]; run. Qed.
Lemma rel_trailing c last : inv T L c -> rel1 (trailing_backslash c last) (K.trailing_backslash c last).
Proof. intros H. now apply trailing_loop. Qed.
Hint Resolve rel_trailing : chk.
Lemma cooked_loop fuel : forall c it, inv T L c -> rel1 (cooked_string_loop fuel c it) (K.cooked_string_loop fuel c it).
Proof. induction fuel as [|fuel IH]; intros c it H; cbn [K.cooked_string_loop cooked_string_loop]; run. Qed.
Lemma rel_cooked c : inv T L c -> rel1 (cooked_string c) (K.cooked_string c).
Proof. intros H. now apply cooked_loop. Qed.
Lemma delim_loop c bs : inv T L c -> forall i, rel2 (delimiter_loop c i bs) (K.delimiter_loop c i bs).
Proof. intros H. induction bs as [|b t IH]; intros i; cbn [K.delimiter_loop delimiter_loop]; run. Qed.
Lemma rel_delim c : inv T L c -> rel2 (delimiter_of_raw_string c) (K.delimiter_of_raw_string c).
Proof. intros H. now apply delim_loop. Qed.
Hint Resolve rel_cooked rel_delim : chk.
Lemma raw_loop ok c d fuel : inv T L c -> forall it, rel1 (raw_string_loop ok c d fuel it) (K.raw_string_loop ok c d fuel it).
Proof. intros H. induction fuel as [|fuel IH]; intros it; cbn [K.raw_string_loop raw_string_loop]; run. Qed.
Hint Resolve raw_loop : chk.
Lemma rel_raw_with ok c : inv T L c -> rel1 (raw_string_with ok c) (K.raw_string_with ok c).
Proof. intros H. unfold K.raw_string_with, raw_string_with. run. Qed.
Lemma rel_raw c : inv T L c -> rel1 (raw_string c) (K.raw_string c). Proof. apply rel_raw_with. Qed.
Lemma rel_rawb c : inv T L c -> rel1 (raw_byte_string c) (K.raw_byte_string c). Proof. apply rel_raw_with. Qed.
Lemma rel_rawc c : inv T L c -> rel1 (raw_c_string c) (K.raw_c_string c). Proof. apply rel_raw_with. Qed.
Hint Resolve rel_raw rel_rawb rel_rawc : chk.
Lemma rel_string c : inv T L c -> rel1 (string_lit c) (K.string_lit c).
Proof. intros H. unfold K.string_lit, string_lit. run. Qed.
Lemma cookedb_loop fuel : forall c it, inv T L c -> rel1 (cooked_byte_string_loop fuel c it) (K.cooked_byte_string_loop fuel c it).
Proof. induction fuel as [|fuel IH]; intros c it H; cbn [K.cooked_byte_string_loop cooked_byte_string_loop]; run. Qed.
Lemma rel_cookedb c : inv T L c -> rel1 (cooked_byte_string c) (K.cooked_byte_string c).
Proof. intros H. now apply cookedb_loop. Qed.
Lemma cookedc_loop fuel : forall c it, inv T L c -> rel1 (cooked_c_string_loop fuel c it) (K.cooked_c_string_loop fuel c it).
Proof. induction fuel as [|fuel IH]; intros c it H; cbn [K.cooked_c_string_loop cooked_c_string_loop]; run. Qed.
Lemma rel_cookedc c : inv T L c -> rel1 (cooked_c_string c) (K.cooked_c_string c).
Proof. intros H. now apply cookedc_loop. Qed.
Hint Resolve rel_string rel_cookedb rel_cookedc : chk.
Lemma rel_byte_string c : inv T L c -> rel1 (byte_string c) (K.byte_string c).
Proof. intros H. unfold K.byte_string, byte_string. run. Qed.
Lemma rel_c_string c : inv T L c -> rel1 (c_string c) (K.c_string c).
Proof. intros H. unfold K.c_string, c_string. run. Qed.
Lemma rel_byte c : inv T L c -> rel1 (byte_lit c) (K.byte_lit c).
Proof. intros H. unfold K.byte_lit, byte_lit. run. Qed.
Lemma rel_character c : inv T L c -> rel1 (character c) (K.character c).
Proof. intros H. unfold K.character, character. run. Qed.
Definition invo (o : option cursor) : Prop := match o with Some c => inv T L c | None => True end.
Lemma rel_float_digits c : inv T L c -> rel1 (float_digits c) (K.float_digits c).
Proof.
  intros H. unfold K.float_digits, float_digits. destruct (rest c) as [|ch t] eqn:R; [apply rel_reject|].
  destruct (is_dec_digit ch); [|apply rel_reject].
  eapply rel_bind; [apply rel_any|]. intros [[[len dot] ex] chars] _. destruct negb; [apply rel_reject|].
  destruct ex; [|now apply rel_adv]. eapply rel_bind with (g := invo).
  - destruct dot; [|apply rel_ret; exact I]. eapply rel_bind; [exact (rel_adv T L _ _ H)|]. intros d D. now apply rel_ret.
  - intros [b|] B; run.
Qed.
Lemma rel_tail c : inv T L c -> rel1 (number_tail c) (K.number_tail c).
Proof.
  intros H. unfold K.number_tail, number_tail. eapply rel_bind with (g := inv T L); [|intros; now apply rel_break].
  run.
Qed.
Lemma rel_digits c : inv T L c -> rel1 (digits c) (K.digits c).
Proof.
  intros H. unfold K.digits, digits. eapply rel_bind with (g := inv1 T L).
  - repeat match goal with |- context [if ?b then _ else _] => destruct b end; run.
  - intros [d base] D. unfold inv1 in D. cbn [fst] in D. run.
Qed.
Hint Resolve rel_byte_string rel_c_string rel_byte rel_character rel_float_digits rel_tail rel_digits : chk.
Lemma rel_float c : inv T L c -> rel1 (float_lit c) (K.float_lit c).
Proof. intros H. unfold K.float_lit, float_lit. run. Qed.
Lemma rel_int c : inv T L c -> rel1 (int_lit c) (K.int_lit c).
Proof. intros H. unfold K.int_lit, int_lit. run. Qed.
Hint Resolve rel_float rel_int : chk.
Lemma rel_nocapture c : inv T L c -> rel1 (literal_nocapture c) (K.literal_nocapture c).
Proof. intros H. unfold K.literal_nocapture, literal_nocapture. run. Qed.
Hint Resolve rel_nocapture : chk.
Lemma rel_literal c : inv T L c -> rel2 (literal c) (K.literal c).
Proof. intros H. unfold K.literal, literal. run. Qed.
Lemma rel_punct_char c : inv T L c -> rel2 (punct_char c) (K.punct_char c).
Proof. intros H. unfold K.punct_char, punct_char. run. Qed.
Hint Resolve rel_literal rel_punct_char : chk.
Lemma rel_punct c : inv T L c -> rel2 (punct c) (K.punct c).
Proof.
  intros H. unfold K.punct, punct. eapply rel_bind; [exact (rel_punct_char _ H)|]. intros [r ch] R. pairs.
  destruct (ch =? SQUOTE); [run|]. eapply rel_bind with (g := any); [|intros; run].
  eapply rel_if_ok; [now apply rel_punct_char| |]; intros; now apply rel_ret.
Qed.
Hint Resolve rel_punct : chk.
Lemma rel_leaf c : inv T L c -> rel2 (leaf_token c) (K.leaf_token c).
Proof. intros H. unfold K.leaf_token, leaf_token. run. Qed.
Lemma rel_contents c : inv T L c -> rel2 (doc_comment_contents c) (K.doc_comment_contents c).
Proof. intros H. unfold K.doc_comment_contents, doc_comment_contents. run. Qed.
Hint Resolve rel_leaf rel_contents : chk.
Lemma rel_doc c : inv T L c -> rel2 (doc_comment c) (K.doc_comment c).
Proof. intros H. unfold K.doc_comment, doc_comment. run. Qed.
Hint Resolve rel_doc : chk.
(** A stream is returned only at the end of the text. *)
Definition fits (l : lexed) : Prop := match l with Lexed _ => L < two32 -> T < two32 | LexError _ => True end.
Lemma stream_loop fuel : forall c ts st, inv T L c ->
  rel T fits (token_stream_loop fuel c ts st) (K.token_stream_loop fuel c ts st).
Proof.
  induction fuel as [|fuel IH]; intros c ts st H; cbn [K.token_stream_loop token_stream_loop]; [apply rel_fuel|].
  eapply rel_bind; [exact (rel_skip _ H)|]. clear c H. intros c H.
  eapply rel_if_ok; [exact (rel_doc _ H)|intros [r d] R; now apply IH|]. cbv zeta.
  destruct (first_byte c) eqn:F.
  - destruct open_delimiter.
    { eapply rel_bind; [exact (rel_adv T L _ _ H)|]. intros; now apply IH. }
    destruct close_delimiter.
    { destruct st as [|[lo [od outer]] st]; [apply rel_ret; exact I|]. destruct negb; [apply rel_ret; exact I|].
      eapply rel_bind; [exact (rel_adv T L _ _ H)|]. intros; now apply IH. }
    eapply rel_if_ok; [exact (rel_leaf _ H)|intros [r t] R; now apply IH|apply rel_ret; exact I].
  - destruct st as [|[lo f] st]; [|apply rel_ret; exact I]. apply rel_ret. intros HL.
    destruct H as (A & _ & _ & E). specialize (E HL). unfold first_byte in F.
    assert (R : rest c = []).
    { destruct (rest c) as [|x t]; [reflexivity|]. 
      destruct (first_byte_char x t) as (b & u & Eb & _). rewrite Eb in F. discriminate F. }
    rewrite R in E. unfold strlen in E. cbn [length N.of_nat] in E. lia.
Qed.

Definition fitl (l : lit_result) : Prop := match l with LitOk _ _ => L < two32 -> T < two32 | LitErr _ => True end.
Lemma inv_start start src : start < two32 -> start + strlen src = T -> strlen src = L -> inv T L (mkcur src start).
Proof. intros A B C. unfold inv. cbn [off rest]. repeat split; lia. Qed.
Lemma rel_stream start src : start < two32 -> start + strlen src = T -> strlen src = L ->
  rel T fits (token_stream_from_str start src) (K.token_stream_from_str start src).
Proof.
  intros A B C. unfold token_stream_from_str, K.token_stream_from_str. cbv zeta.
  assert (I0 := inv_start _ _ A B C). eapply rel_bind with (g := inv T L).
  - destruct cstarts; [now apply rel_adv|now apply rel_ret].
  - intros c H. now apply stream_loop.
Qed.
Lemma rel_lit start src : start < two32 -> start + strlen src = T -> strlen src = L ->
  rel T fitl (literal_from_str start src) (K.literal_from_str start src).
Proof.
  intros A B C. unfold literal_from_str, K.literal_from_str. cbv zeta.
  assert (I0 := inv_start _ _ A B C). eapply rel_if_ok with (g := inv T L); [|intros c H|apply rel_ret; exact I].
  - destruct cstarts_char; [|now apply rel_ret]. run.
  - eapply rel_if_ok; [exact (rel_literal _ H)|intros [r x] R; pairs|apply rel_ret; exact I].
    destruct (rest r) eqn:E; [|apply rel_ret; exact I]. apply rel_ret. intros HL.
    destruct R as (F & _ & _ & G). specialize (G HL). rewrite E in G. unfold strlen in G. cbn [length N.of_nat] in G. lia.
Qed.
End Lexer.

Section Statements.
Context {U : unicode}.
Theorem checked_stream start src : start < two32 ->
  (start + strlen src < two32 -> K.token_stream_from_str start src = token_stream_from_str start src) /\
  (two32 <= start + strlen src ->
   K.token_stream_from_str start src = Panic \/ K.token_stream_from_str start src = token_stream_from_str start src) /\
  (two32 <= start + strlen src -> strlen src < two32 -> forall ts, K.token_stream_from_str start src <> Ok (Lexed ts)).
Proof.
  intros H. destruct (rel_stream _ _ start src H eq_refl eq_refl) as [[E F]|[E F]]; rewrite E.
  - split; [intros _; reflexivity|]. split; [intros _; right; reflexivity|]. intros A B ts X. specialize (F _ X B). lia.
  - split; [lia|]. split; [intros _; left; reflexivity|]. discriminate.
Qed.
Theorem checked_literal start src : start < two32 ->
  (start + strlen src < two32 -> K.literal_from_str start src = literal_from_str start src) /\
  (two32 <= start + strlen src ->
   K.literal_from_str start src = Panic \/ K.literal_from_str start src = literal_from_str start src) /\
  (two32 <= start + strlen src -> strlen src < two32 -> forall r sp, K.literal_from_str start src <> Ok (LitOk r sp)).
Proof.
  intros H. destruct (rel_lit _ _ start src H eq_refl eq_refl) as [[E F]|[E F]]; rewrite E.
  - split; [intros _; reflexivity|]. split; [intros _; right; reflexivity|]. intros A B r sp X. specialize (F _ X B). lia.
  - split; [lia|]. split; [intros _; left; reflexivity|]. discriminate.
Qed.
(** The source map has checked that a text of less than 2^32 characters fits. *)
Lemma add_file_fits m src m' sp : strlen src < two32 -> SourceMap.add_file m src = Ok (m', sp) ->
  lo sp < two32 /\ lo sp + strlen src < two32.
Proof.
  intros H. unfold SourceMap.add_file. destruct (SourceMap.lines_offsets src) as [len lines] eqn:E.
  assert (length src = len) as <-.
  { unfold SourceMap.lines_offsets in E. now injection E. }
  fold (strlen src). unfold wrap32. rewrite N.mod_small by assumption.
  destruct (SourceMap.next_start_pos m) as [l| | |]; cbn [bind]; try discriminate.
  unfold SourceMap.add_u32. destruct (l + strlen src <? two32) eqn:F; cbn [bind]; [|discriminate].
  intros X. injection X as <- <-. cbn [lo]. apply N.ltb_lt in F. lia.
Qed.
Theorem checked_parse m src : strlen src < two32 -> K.parse m src = SourceMap.parse m src.
Proof.
  intros H. unfold K.parse, SourceMap.parse. destruct (SourceMap.add_file m src) as [[m' sp]| | |] eqn:E; cbn [bind]; [|reflexivity..].
  apply add_file_fits in E as [A B]; [|assumption]. destruct (checked_stream (lo sp) src A) as [G _]. now rewrite (G B).
Qed.
Theorem checked_parse_literal m src : strlen src < two32 -> K.parse_literal m src = SourceMap.parse_literal m src.
Proof.
  intros H. unfold K.parse_literal, SourceMap.parse_literal. destruct (SourceMap.add_file m src) as [[m' sp]| | |] eqn:E; cbn [bind]; [|reflexivity..].
  apply add_file_fits in E as [A B]; [|assumption]. destruct (checked_literal (lo sp) src A) as [G _]. now rewrite (G B).
Qed.

(** A comment of 2^32 characters moves the cursor by none. *)
Definition comma : char := 44%N.
Definition long_text (n : nat) : str := tag "//" ++ repeat 97%N n ++ [LF; comma].
Lemma run_of_a c n : forall i, K.take_until_newline_loop c i (repeat 97 n ++ [LF; comma]) =
  let? d := K.advance c (i + n)%nat in let? s := slice_to (rest c) (i + n)%nat in Ok (d, s).
Proof.
  induction n as [|n IH]; intros i; cbn [repeat app K.take_until_newline_loop].
  - rewrite Nat.add_0_r. reflexivity.
  - change (97 =? LF) with false. change (97 =? CR) with false. cbv iota. rewrite IH.
    change (len_utf8 97) with 1%nat. now replace (i + 1 + n)%nat with (i + S n)%nat by lia.
Qed.
Lemma len_a n : str_len (repeat 97 n) = n.
Proof.
  induction n as [|n IH]; [reflexivity|]. change (repeat 97 (S n)) with ([97] ++ repeat 97 n).
  now rewrite str_len_app, IH.
Qed.
Lemma skip_long n k : N.of_nat (2 + n) = two32 ->
  K.skip_whitespace_loop (S k) (mkcur (long_text n) 1) = K.skip_whitespace_loop k (mkcur [LF; comma] 1).
Proof.
  intros E. assert (A : exists m, n = S m) by (destruct n as [|m]; [discriminate E|now exists m]).
  destruct A as [m ->]. cbn [K.skip_whitespace_loop rest].
  change (str_bytes (long_text (S m))) with (47 :: 47 :: str_bytes (repeat 97 (S m) ++ [LF; comma])). cbv iota zeta.
  change (47 =? "/"%ch) with true. cbv iota.
  change (cstarts (mkcur (long_text (S m)) 1) (tag "//")) with true.
  change (cstarts (mkcur (long_text (S m)) 1) (tag "///")) with false.
  change (cstarts (mkcur (long_text (S m)) 1) (tag "//!")) with false. cbn [andb orb negb].
  unfold K.take_until_newline_or_eof. cbn [rest].
  change (K.take_until_newline_loop (mkcur (long_text (S m)) 1) 0 (long_text (S m)))
    with (K.take_until_newline_loop (mkcur (long_text (S m)) 1) 2 (repeat 97 (S m) ++ [LF; comma])).
  rewrite run_of_a. cbn [rest]. unfold K.advance, long_text. cbn [rest off]. rewrite app_assoc.
  assert (X : (2 + S m)%nat = str_len (tag "//" ++ repeat 97 (S m))) by now rewrite str_len_app, len_a.
  rewrite X, split_at_app, slice_to_app. rewrite app_length, repeat_length. change (length (tag "//")) with 2%nat.
  rewrite E. reflexivity.
Qed.
Lemma long_parse n : N.of_nat (2 + n) = two32 ->
  K.token_stream_from_str 1 (long_text n) = Ok (Lexed [TPunct comma Alone (mkspan 2 3)]).
Proof.
  intros E. unfold K.token_stream_from_str. cbv zeta.
  change (cstarts (mkcur (long_text n) 1) BYTE_ORDER_MARK) with false. cbn [bind].
  assert (F : str_len (long_text n) = (4 + n)%nat).
  { unfold long_text. rewrite !str_len_app, len_a. change (str_len (tag "//")) with 2%nat.
    change (str_len [LF; comma]) with 2%nat. lia. }
  unfold K.token_stream. cbn [rest]. rewrite F. remember (S (4 + n)) as k eqn:Ek.
  cbn [K.token_stream_loop]. unfold K.skip_whitespace at 1. cbn [rest]. rewrite F, skip_long by assumption.
  subst k. reflexivity.
Qed.
Lemma long_length n : N.of_nat (2 + n) = two32 -> strlen (long_text n) = two32 + 2.
Proof. intros E. unfold strlen, long_text. rewrite !app_length, repeat_length. 
  change (length (tag "//")) with 2%nat. change (length [LF; comma]) with 2%nat. lia. Qed.
Lemma long_lines n : SourceMap.line_starts (long_text n) 0 = [(3 + n)%nat].
Proof.
  change (SourceMap.line_starts (long_text n) 0) with (SourceMap.line_starts (repeat 97 n ++ [LF; comma]) 2).
  assert (A : forall m k, SourceMap.line_starts (repeat 97 m ++ [LF; comma]) k = [(S (m + k))%nat]).
  { induction m as [|m IH]; intros k; cbn [repeat app SourceMap.line_starts].
    - change (LF =? LF) with true. change (comma =? LF) with false. cbv iota. f_equal. lia.
    - change (97 =? LF) with false. cbv iota. rewrite IH. f_equal. lia. }
  rewrite A. f_equal. lia.
Qed.
Lemma long_file n : N.of_nat (2 + n) = two32 ->
  K.parse SourceMap.fresh_map (long_text n) =
  Ok (SourceMap.fresh_map ++ [SourceMap.mkfile (long_text n) (mkspan 1 3) [0; 3 + n]%nat []],
      Lexed [TPunct comma Alone (mkspan 2 3)]).
Proof.
  intros E. pose proof (long_length n E) as G. unfold strlen in G.
  unfold K.parse, SourceMap.add_file, SourceMap.lines_offsets. rewrite G, long_lines.
  change (SourceMap.next_start_pos SourceMap.fresh_map) with (@Ok N 1). cbn [bind].
  change (SourceMap.add_u32 1 (wrap32 (two32 + 2))) with (@Ok N 3). cbn [bind lo].
  rewrite (long_parse n E). reflexivity.
Qed.
Lemma long_comma n : nth_error (long_text n) (3 + n) = Some comma.
Proof.
  unfold long_text. rewrite app_assoc, nth_error_app2; rewrite app_length, repeat_length; change (length (tag "//")) with 2%nat; [|lia].
  now replace (3 + n - (2 + n))%nat with 1%nat by lia.
Qed.
Theorem checked_long : exists src st, nth_error src (N.to_nat (two32 + 1)) = Some comma /\
  @K.run U SourceMap.std_new SpecMap.initial [SpecMap.OParse src; SpecMap.OStart 0; SpecMap.OText 0] =
  Ok (st, [SpecMap.Nothing; SpecMap.Position (SourceMap.mklc 1 1); SpecMap.Text (Some (tag "/"))]).
Proof.
  set (n := N.to_nat (two32 - 2)).
  assert (E : N.of_nat (2 + n) = two32). { unfold n. rewrite Nat2N.inj_add, N2Nat.id. reflexivity. }
  exists (long_text n). assert (X : N.to_nat (two32 + 1) = (3 + n)%nat) by lia.
  rewrite X. assert (Z := long_comma n). clearbody n. clear X.
  eexists. split; [exact Z|]. cbn [K.run K.step SpecMap.smap SpecMap.initial]. rewrite (long_file n E).
  destruct n as [|n]; [discriminate E|]. clear E Z. cbn [bind]. reflexivity.
Qed.

Theorem checked_run {S : SourceMap.std_search} os : Forall MapRelease.short os ->
  forall st, K.run st os = SpecMap.run st os.
Proof.
  induction 1 as [|o os H Hs IH]; intros st; [reflexivity|]. cbn [K.run SpecMap.run].
  assert (E : K.step st o = SpecMap.step st o).
  { destruct o as [s|s| | | | | | | | | | | ]; [| |reflexivity..]; cbn [K.step SpecMap.step].
    - now rewrite (checked_parse _ s H).
    - now rewrite (checked_parse_literal _ s H). }
  rewrite E. destruct (SpecMap.step st o) as [[st' x]| | |]; cbn [bind]; [|reflexivity..]. now rewrite IH.
Qed.
End Statements.
