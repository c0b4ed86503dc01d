(** Bounds on the number of steps: leaf tokens.

    A literal in quotes is tried before anything else and may be scanned to the end of the
    text; when it is then given up no other token begins there.  What a number or a
    lifetime has looked at beyond its end is set off against the tokens that follow. *)
From Verif Require Import Base BaseFacts Unicode Tokens Lexer PureLexer.
From Verif Require Import LexerEquiv LexerEquiv2 LexerEquiv3 LexerEquiv4.
From Verif Require Import Timed TimedErase TimedBounds TimedStrings TimedNumbers.

Section WithUnicode.
Context {U : unicode} (HU : unicode_ok U).

Lemma tag_yes c t : starts_with (rest c) t = true ->
  t_parse_tag c t = (Ok (cur_of c (skipn (length t) (rest c))), S (str_len t) + S (str_len t)).
Proof.
  intros H. pose proof (parse_tag_spec c t) as Hs. unfold t_parse_tag, parse_tag, cstarts in *.
  rewrite H in *. unfold t_advance, work, charge. cbn [fst snd]. now rewrite Hs.
Qed.
Lemma tag_no c t : starts_with (rest c) t = false -> t_parse_tag c t = (Reject, S (str_len t) + 0).
Proof. intros H. unfold t_parse_tag, cstarts. rewrite H. reflexivity. Qed.

(** *** Attempts that end at once *)
Definition mark (s : str) : bool :=
  match s with c :: _ => (c =? DQUOTE)%N || (c =? "#"%ch)%N | [] => false end.
Lemma raw_cheap ok c : mark (rest c) = false -> t_raw_string_with ok c = (Reject, 1).
Proof.
  unfold t_raw_string_with, t_delimiter_of_raw_string. destruct (rest c) as [|ch t]; [easy|].
  destruct (first_byte_char ch t) as (b & u & -> & Hb). cbn [mark t_delimiter_loop]. intros H.
  apply orb_false_elim in H as [H1 H2].
  replace (b =? DQUOTE)%N with false by (destruct Hb as [(? & -> & _)|[? ?]]; lia).
  replace (b =? "#"%ch)%N with false by (destruct Hb as [(? & -> & _)|[? ?]]; lia). reflexivity.
Qed.
Lemma raw_cheap2 ok c t : rest c = "#"%ch :: t -> mark t = false -> t_raw_string_with ok c = (Reject, 2).
Proof.
  intros E. unfold t_raw_string_with, t_delimiter_of_raw_string. rewrite E, str_bytes_cons.
  rewrite encode_ascii by lia. cbn [app t_delimiter_loop].
  change ("#"%ch =? DQUOTE)%N with false. change ("#"%ch =? "#"%ch)%N with true. cbv iota.
  destruct t as [|ch t]; [easy|].
  destruct (first_byte_char ch t) as (b & u & -> & Hb). cbn [mark t_delimiter_loop]. intros H.
  apply orb_false_elim in H as [H1 H2].
  replace (b =? DQUOTE)%N with false by (destruct Hb as [(? & -> & _)|[? ?]]; lia).
  replace (b =? "#"%ch)%N with false by (destruct Hb as [(? & -> & _)|[? ?]]; lia). reflexivity.
Qed.

Lemma number_none s : digit_start s = false -> p_float s = None /\ p_int s = None.
Proof.
  intros H. set (c := mkcur s 0).
  assert (Hw : wfc c) by reflexivity.
  destruct (float_cheap c H) as [E1 _]. destruct (int_cheap c H) as [E2 _].
  pose proof (er_float c) as R1. pose proof (er_int c) as R2. unfold erases in R1, R2.
  rewrite float_lit_spec in R1. rewrite int_lit_spec in R2 by exact Hw. rewrite E1 in R1. rewrite E2 in R2.
  cbn [rest c] in *. split.
  - destruct (p_float s); [discriminate|reflexivity].
  - destruct (p_int s); [discriminate|reflexivity].
Qed.
Lemma leaf_none s :
  digit_start s = false -> p_quoted s = None -> p_punct s = None -> p_ident s = None ->
  starts_with s ERROR = false -> p_leaf s = None.
Proof.
  intros H1 H2 H3 H4 H5. unfold p_leaf, p_literal. destruct (number_none s H1) as [-> ->].
  rewrite H2, H3, H4, H5. reflexivity.
Qed.

Lemma not_ident ch t : is_ident_start ch = false -> p_ident_any (ch :: t) = None /\ p_ident (ch :: t) = None.
Proof.
  intros H. assert (E : p_ident_any (ch :: t) = None).
  { unfold p_ident_any, p_ident_not_raw. destruct (starts_with (ch :: t) (tag "r#")) eqn:Es.
    - cbn in Es. apply andb_prop in Es as [Es _]. apply N.eqb_eq in Es. subst ch.
      rewrite (start_ascii HU) in H by reflexivity. discriminate H.
    - now rewrite H. }
  split; [exact E|]. unfold p_ident. destruct (existsb _ _); [reflexivity|exact E].
Qed.

Lemma string_reject c : p_leaf (rest c) <> None -> fst (t_string_lit c) = Reject ->
  snd (t_string_lit c) <= 20.
Proof.
  intros Hl Hr. pose proof (er_string c) as Er. unfold erases in Er. rewrite Hr, string_lit_spec in Er.
  assert (Hq : q_string (rest c) = None) by (destruct (q_string (rest c)); [discriminate|reflexivity]).
  clear Er. unfold t_string_lit in *. destruct (rest c) as [|ch t] eqn:Es.
  { rewrite !tag_no by (now rewrite Es). apply Nat.leb_le. reflexivity. }
  destruct (N.eqb_spec DQUOTE ch) as [<-|N1].
  { exfalso. apply Hl, leaf_none; try reflexivity.
    - unfold p_quoted. rewrite Hq. reflexivity.
    - apply not_ident. rewrite (start_ascii HU) by reflexivity. reflexivity. }
  rewrite (tag_no c (tag """")) in * by (rewrite Es; cbn; apply N.eqb_neq in N1; now rewrite N1).
  destruct (N.eqb_spec "r"%ch ch) as [<-|N2].
  2: { rewrite tag_no by (rewrite Es; cbn; apply N.eqb_neq in N2; now rewrite N2). apply Nat.leb_le. reflexivity. }
  rewrite tag_yes in * by (now rewrite Es). rewrite Es in *.
  change (length (tag "r")) with 1 in *. cbn [skipn] in *.
  assert (Hno : existsb (starts_with ("r"%ch :: t)) ident_reject_prefixes = true -> False).
  { intros Hp. apply Hl, leaf_none; try reflexivity.
    - unfold p_quoted. rewrite Hq. reflexivity.
    - unfold p_ident. now rewrite Hp. }
  cbn [t_if_ok charge snd] in *.
  assert (Hcheap : forall k, t_raw_string (cur_of c t) = (Reject, k) -> k <= 2 ->
    snd (t_raw_string (cur_of c t)) <= 2) by (intros k -> Hk; exact Hk).
  enough (snd (t_raw_string (cur_of c t)) <= 2) by (change (str_len (tag """")) with 1; change (str_len (tag "r")) with 1; lia).
  destruct (mark t) eqn:Em.
  2: { apply (Hcheap 1); [apply raw_cheap; exact Em|lia]. }
  destruct t as [|c2 t]; [discriminate|]. cbn [mark] in Em. apply orb_prop in Em as [Em|Em]; apply N.eqb_eq in Em; subst c2.
  - exfalso. apply Hno. reflexivity.
  - destruct (mark t) eqn:Em2.
    + exfalso. apply Hno. destruct t as [|c3 t]; [discriminate|]. cbn [mark] in Em2.
      apply orb_prop in Em2 as [Em|Em]; apply N.eqb_eq in Em; subst c3; reflexivity.
    + apply (Hcheap 2); [|lia]. apply raw_cheap2 with (t := t); [reflexivity|exact Em2].
Qed.

(** A word of the list begins no other token, unless it is a literal in quotes. *)
Lemma prefix_leaf s : existsb (starts_with s) ident_reject_prefixes = true ->
  p_quoted s = None -> p_leaf s = None.
Proof.
  intros H Hq.
  assert (Hc : exists ch t, s = ch :: t /\ In ch [ "r"%ch; "b"%ch; "c"%ch ]).
  { destruct s as [|ch t].
    - exfalso. apply existsb_exists in H as (p & Hi & H). unfold ident_reject_prefixes in Hi.
      cbn [In] in Hi. repeat (destruct Hi as [<-|Hi]; [discriminate H|]). exact Hi.
    - exists ch, t. split; [reflexivity|]. apply existsb_exists in H as (p & Hi & H).
      unfold ident_reject_prefixes in Hi. cbn [In] in Hi |- *.
      repeat (destruct Hi as [<-|Hi]; [cbn in H; apply andb_prop in H as [H _]; apply N.eqb_eq in H; auto|]).
      contradiction. }
  destruct Hc as (ch & t & -> & Hc). apply leaf_none; [| exact Hq | | |].
  - cbn [In] in Hc. repeat (destruct Hc as [<-|Hc]; [reflexivity|]). contradiction.
  - cbn [In] in Hc. repeat (destruct Hc as [<-|Hc]; [reflexivity|]). contradiction.
  - unfold p_ident. now rewrite H.
  - cbn [In] in Hc. repeat (destruct Hc as [<-|Hc]; [reflexivity|]). contradiction.
Qed.

(** The literals with a letter and a double quote. *)
Lemma prefixed_reject c x cooked (raw : cursor -> timed cursor) ok :
  (forall c', raw c' = t_raw_string_with ok c') ->
  (forall t', rest c <> x :: DQUOTE :: t') ->
  (forall t', rest c <> x :: "r"%ch :: DQUOTE :: t') ->
  (forall t', rest c <> x :: "r"%ch :: "#"%ch :: t') ->
  len_utf8 x = 1 ->
  snd (t_if_ok (t_parse_tag c [x; DQUOTE]) cooked (t_if_ok (t_parse_tag c [x; "r"%ch]) raw reject)) <= 20.
Proof.
  intros Hraw P1 P2 P3 Hx.
  assert (E1 : starts_with (rest c) [x; DQUOTE] = false).
  { destruct (starts_with (rest c) [x; DQUOTE]) eqn:E; [|reflexivity]. apply starts_with_skipn in E.
    exfalso. now apply P1 in E. }
  rewrite (tag_no c _ E1). cbn [str_len]. rewrite Hx. change (len_utf8 DQUOTE) with 1.
  destruct (starts_with (rest c) [x; "r"%ch]) eqn:E2.
  2: { rewrite (tag_no c _ E2). cbn [str_len]. rewrite Hx. change (len_utf8 "r"%ch) with 1. cbn. lia. }
  rewrite (tag_yes c _ E2). cbn [str_len length]. rewrite Hx. change (len_utf8 "r"%ch) with 1.
  apply starts_with_skipn in E2. cbn [length] in E2. cbn [t_if_ok charge fst snd].
  rewrite Hraw. rewrite raw_cheap; [cbn; lia|]. cbn [rest cur_of].
  destruct (skipn 2 (rest c)) as [|y t]; [reflexivity|]. cbn [mark].
  destruct (N.eqb_spec y DQUOTE) as [->|]; [now apply P2 in E2|].
  destruct (N.eqb_spec y "#"%ch) as [->|]; [now apply P3 in E2|reflexivity].
Qed.
Lemma byte_string_reject c : p_leaf (rest c) <> None -> fst (t_byte_string c) = Reject ->
  snd (t_byte_string c) <= 20.
Proof.
  intros Hl Hr. pose proof (er_byte_string c) as Er. unfold erases in Er. rewrite Hr, byte_string_spec in Er.
  assert (Hq : q_byte_string (rest c) = None) by (destruct (q_byte_string (rest c)); [discriminate|reflexivity]).
  unfold t_byte_string. apply prefixed_reject with (ok := is_ascii); [reflexivity| | | |reflexivity];
    intros t' E; rewrite E in *; apply Hl; (apply prefix_leaf; [reflexivity|]);
    unfold p_quoted; rewrite Hq; reflexivity.
Qed.
Lemma c_string_reject c : p_leaf (rest c) <> None -> fst (t_c_string c) = Reject ->
  snd (t_c_string c) <= 20.
Proof.
  intros Hl Hr. pose proof (er_c_string c) as Er. unfold erases in Er. rewrite Hr, c_string_spec in Er.
  assert (Hq : q_c_string (rest c) = None) by (destruct (q_c_string (rest c)); [discriminate|reflexivity]).
  unfold t_c_string. eapply prefixed_reject; [reflexivity| | | |reflexivity];
    intros t' E; rewrite E in *; apply Hl; (apply prefix_leaf; [reflexivity|]);
    unfold p_quoted; rewrite Hq; reflexivity.
Qed.
Lemma byte_lit_reject c : p_leaf (rest c) <> None -> fst (t_byte_lit c) = Reject ->
  snd (t_byte_lit c) <= 20.
Proof.
  intros Hl Hr. pose proof (er_byte_lit c) as Er. unfold erases in Er. rewrite Hr, byte_lit_spec in Er.
  assert (Hq : q_byte (rest c) = None) by (destruct (q_byte (rest c)); [discriminate|reflexivity]).
  unfold t_byte_lit. destruct (starts_with (rest c) (tag "b'")) eqn:E.
  - exfalso. apply starts_with_skipn in E. change (tag "b'") with ["b"%ch; SQUOTE] in E. cbn [app] in E.
    apply Hl. apply prefix_leaf; [now rewrite E|]. unfold p_quoted. rewrite Hq, E. reflexivity.
  - rewrite (tag_no _ _ E). apply Nat.leb_le. reflexivity.
Qed.
Lemma character_reject c : p_leaf (rest c) <> None -> fst (t_character c) = Reject ->
  snd (t_character c) <= 30.
Proof.
  intros Hl Hr. pose proof (er_character c) as Er. unfold erases in Er. rewrite Hr, character_spec in Er.
  assert (Hq : q_char (rest c) = None) by (destruct (q_char (rest c)); [discriminate|reflexivity]).
  unfold t_character in *. destruct (starts_with (rest c) (tag "'")) eqn:E.
  2: { rewrite (tag_no _ _ E). apply Nat.leb_le. reflexivity. }
  rewrite (tag_yes _ _ E) in *. apply starts_with_skipn in E. change (tag "'") with [SQUOTE] in *.
  cbn [app length] in E. change (length [SQUOTE]) with 1 in *. change (str_len [SQUOTE]) with 1 in *.
  set (t := skipn 1 (rest c)) in *. rewrite E in Hq, Hl. cbn [tbind fst snd charge] in Hr |- *.
  cbn [rest cur_of] in *. unfold char_indices in *. destruct t as [|ch t].
  { cbn. lia. }
  cbn [ci_next] in *. destruct (N.eqb_spec ch BACKSLASH) as [->|].
  { exfalso. apply Hl. apply leaf_none; try reflexivity.
    - unfold p_quoted. rewrite Hq. reflexivity.
    - unfold p_punct. change (p_punct_char (SQUOTE :: BACKSLASH :: t)) with (Some (BACKSLASH :: t, SQUOTE)).
      cbv iota beta. change (SQUOTE =? SQUOTE)%N with true. cbv iota.
      destruct (not_ident BACKSLASH t) as [-> _]; [rewrite (start_ascii HU) by reflexivity; reflexivity|reflexivity].
    - apply not_ident. rewrite (start_ascii HU) by reflexivity. reflexivity. }
  cbn [charge ret tbind fst snd] in *. destruct t as [|c2 t]; cbn [ci_next] in *; [cbn; lia|].
  assert (len_utf8 ch <= 4) by (unfold len_utf8; repeat destruct (_ <? _)%N; lia).
  unfold t_advance, work in *. change (0 + len_utf8 ch) with (len_utf8 ch) in *.
  destruct (advance _ (len_utf8 ch)) as [c'| | |]; cbn [tbind charge fst snd] in *; try lia.
  destruct (starts_with (rest c') [SQUOTE]) eqn:Eq.
  - rewrite (tag_yes _ _ Eq) in *. exfalso. cbn [tbind charge fst snd] in Hr.
    match type of Hr with fst (t_literal_suffix ?k) = _ => pose proof (er_suffix k) as Er2; unfold erases in Er2 end.
    rewrite literal_suffix_spec in Er2 by apply wfc_cur_of. congruence.
  - rewrite (tag_no _ _ Eq). cbn [tbind charge fst snd]. change (str_len [SQUOTE]) with 1. lia.
Qed.

End WithUnicode.
