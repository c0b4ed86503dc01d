(** * Sub-lexers and what follows them.

    Not a model of code.  If the text after a token starts with a stop character
    (newline, space, closing delimiter) or is empty, then every sub-lexer gives the
    same answer as when the token stands alone.  Also: the leaf kinds exclude each
    other. *)
From Verif Require Import Base BaseFacts Unicode Tokens Lexer PureLexer.
From Verif Require Import LexerEquiv LexerEquiv2 LexerEquiv3 LexerEquiv4 Grammar.

Definition is_stop (c : char) : bool :=
  (c =? LF)%N || (c =? SPACE)%N || (c =? ")"%ch)%N || (c =? "]"%ch)%N || (c =? "}"%ch)%N.
Definition stop (f : str) : Prop := match f with [] => True | c :: _ => is_stop c = true end.

Lemma is_stop_cases c : is_stop c = true ->
  c = LF \/ c = SPACE \/ c = ")"%ch \/ c = "]"%ch \/ c = "}"%ch.
Proof. unfold is_stop. lia. Qed.

Local Arguments cannot_be_raw : simpl never.
Local Arguments contains : simpl never.
Local Arguments punct_recognized : simpl never.
Local Arguments is_stop : simpl never.
Local Arguments is_ident_start : simpl never.
Local Arguments is_ident_continue : simpl never.
Section WithUnicode.
Context {U : unicode} (UO : unicode_ok U).

(** *** Character classes *)
Lemma ident_start_continue c : is_ident_start c = true -> is_ident_continue c = true.
Proof using UO.
  unfold is_ident_start, is_ident_continue. rewrite orb_true_iff. intros [H|H].
  - apply N.eqb_eq in H. subst. now rewrite (xid_continue_ascii U UO).
  - now apply (xid_start_continue U UO).
Qed.
Lemma ident_start_ascii c : (c < 0x80)%N ->
  is_ident_start c = ((c =? "_"%ch)%N || ascii_letter c).
Proof using UO. intros H. unfold is_ident_start. now rewrite (xid_start_ascii U UO). Qed.
Lemma ident_continue_ascii c : (c < 0x80)%N ->
  is_ident_continue c = (ascii_letter c || is_dec_digit c || (c =? "_"%ch)%N).
Proof using UO. intros H. unfold is_ident_continue. now rewrite (xid_continue_ascii U UO). Qed.

Lemma stop_not_continue c : is_stop c = true -> is_ident_continue c = false.
Proof using UO.
  intros H. apply is_stop_cases in H.
  destruct H as [->|[->|[->|[->| ->]]]]; rewrite ident_continue_ascii by lia; reflexivity.
Qed.
Lemma stop_not_start c : is_stop c = true -> is_ident_start c = false.
Proof using UO.
  intros H. destruct (is_ident_start c) eqn:E; [|reflexivity].
  apply ident_start_continue in E. now rewrite stop_not_continue in E.
Qed.

Ltac stopc H :=
  let H' := fresh in pose proof (is_stop_cases _ H) as H';
  destruct H' as [->|[->|[->|[->| ->]]]].

(** *** Identifiers *)
Lemma p_continue_stop f : stop f -> p_continue f = (f, []).
Proof using UO.
  destruct f as [|c t]; cbn; [reflexivity|]. intros H. now rewrite stop_not_continue.
Qed.
Lemma p_continue_app s f r x : stop f -> p_continue s = (r, x) -> p_continue (s ++ f) = (r ++ f, x).
Proof using UO.
  intros Hf. revert r x. induction s as [|c t IH]; intros r x H; cbn in *.
  - inv H. now apply p_continue_stop.
  - destruct (is_ident_continue c).
    + destruct (p_continue t) as [r' x'] eqn:E. inv H. now rewrite (IH _ _ eq_refl).
    + inv H. reflexivity.
Qed.
Lemma p_ident_not_raw_app s f : stop f ->
  p_ident_not_raw (s ++ f) = omap (fun '(r, x) => (r ++ f, x)) (p_ident_not_raw s).
Proof using UO.
  intros Hf. destruct s as [|c t]; cbn.
  - destruct f as [|c t]; [reflexivity|]. cbn in *. now rewrite stop_not_start.
  - destruct (is_ident_start c); [|reflexivity].
    destruct (p_continue t) as [r x] eqn:E. now rewrite (p_continue_app _ _ _ _ Hf E).
Qed.
Lemma p_suffix_app s f : stop f -> p_suffix (s ++ f) = p_suffix s ++ f.
Proof using UO.
  intros Hf. unfold p_suffix. rewrite p_ident_not_raw_app by exact Hf.
  destruct (p_ident_not_raw s) as [[r x]|]; reflexivity.
Qed.
Lemma p_suffix_nil : p_suffix [] = []. Proof. reflexivity. Qed.

(** Prefix tests with tags free of stop characters. *)
Definition no_stop (t : str) : bool := forallb (fun c => negb (is_stop c)) t.
Lemma starts_with_stop s f t : stop f -> no_stop t = true -> starts_with (s ++ f) t = starts_with s t.
Proof.
  intros Hf. revert s. induction t as [|c t IH]; intros s Ht; cbn in *; [reflexivity|].
  apply andb_prop in Ht as [Hc Ht]. destruct s as [|d s]; cbn.
  - destruct f as [|d f]; [reflexivity|]. cbn in Hf.
    destruct (N.eqb_spec c d) as [->|]; [|reflexivity]. now rewrite Hf in Hc.
  - now rewrite IH.
Qed.
Lemma head_is_stop c s f : stop f -> is_stop c = false -> head_is c (s ++ f) = head_is c s.
Proof.
  intros Hf Hc. destruct s as [|d s]; cbn; [|reflexivity].
  destruct f as [|d f]; [reflexivity|]. cbn in *.
  destruct (N.eqb_spec c d) as [->|]; [congruence|reflexivity].
Qed.
Lemma starts_with_app_l s f t : starts_with s t = true -> starts_with (s ++ f) t = true.
Proof.
  rewrite !starts_with_spec. intros [r ->]. exists (r ++ f). now rewrite app_assoc.
Qed.
Lemma skipn_starts {A} (s f : list A) n : n <= length s -> skipn n (s ++ f) = skipn n s ++ f.
Proof. intros H. rewrite skipn_app. now replace (n - length s) with 0 by lia. Qed.
Lemma starts_with_len s t : starts_with s t = true -> length t <= length s.
Proof. intros H. apply starts_with_spec in H as [r ->]. rewrite app_length. lia. Qed.

Lemma p_ident_any_app s f : stop f ->
  p_ident_any (s ++ f) = omap (fun '(r, x) => (r ++ f, x)) (p_ident_any s).
Proof using UO.
  intros Hf. unfold p_ident_any. rewrite starts_with_stop by auto.
  destruct (starts_with s _) eqn:E.
  - rewrite skipn_starts by (now apply starts_with_len in E).
    rewrite p_ident_not_raw_app by exact Hf.
    destruct (p_ident_not_raw _) as [[r x]|]; cbn; [|reflexivity].
    destruct (cannot_be_raw x); reflexivity.
  - rewrite p_ident_not_raw_app by exact Hf.
    destruct (p_ident_not_raw _) as [[r x]|]; reflexivity.
Qed.
Lemma existsb_ext {A} (f g : A -> bool) l : (forall x, In x l -> f x = g x) -> existsb f l = existsb g l.
Proof.
  induction l as [|a l IH]; cbn; [reflexivity|]. intros H. rewrite (H a) by auto. f_equal. auto.
Qed.
Lemma p_ident_app s f : stop f ->
  p_ident (s ++ f) = omap (fun '(r, x) => (r ++ f, x)) (p_ident s).
Proof using UO.
  intros Hf. unfold p_ident.
  rewrite (existsb_ext (starts_with (s ++ f)) (starts_with s)).
  2: { intros x Hx. apply starts_with_stop; [exact Hf|].
       cbn in Hx. decompose [or] Hx; subst; try reflexivity; contradiction. }
  destruct (existsb _ _); [reflexivity|]. now apply p_ident_any_app.
Qed.

(** *** Escapes and quoted bodies: success is stable under any extension *)
Lemma p_u_loop_app s f v n r c : p_u_loop s v n = Some (r, c) -> p_u_loop (s ++ f) v n = Some (r ++ f, c).
Proof.
  revert v n. induction s as [|ch t IH]; intros v n H; cbn in *; [discriminate|].
  destruct (is_hex_digit ch); [destruct (n =? 6); [discriminate|auto]|].
  destruct (_ && _); [auto|]. destruct (_ && _); [|discriminate].
  destruct (char_from_u32 v); [|discriminate]. now inv H.
Qed.
Lemma p_u_app s f r c : p_u s = Some (r, c) -> p_u (s ++ f) = Some (r ++ f, c).
Proof.
  destruct s as [|ch t]; cbn; [discriminate|]. destruct (_ =? _)%N; [|discriminate]. apply p_u_loop_app.
Qed.
Definition extends (e : str -> option str) : Prop :=
  forall s f r, e s = Some r -> e (s ++ f) = Some (r ++ f).
Lemma p_x_char_app : extends p_x_char.
Proof. intros [|a [|b t]] f r H; cbn in *; try discriminate. destruct (_ && _); [now inv H|discriminate]. Qed.
Lemma p_x_byte_app : extends p_x_byte.
Proof. intros [|a [|b t]] f r H; cbn in *; try discriminate. destruct (_ && _); [now inv H|discriminate]. Qed.
Lemma p_x_nonzero_app : extends p_x_nonzero.
Proof. intros [|a [|b t]] f r H; cbn in *; try discriminate. destruct (_ && _); [now inv H|discriminate]. Qed.
Lemma esc_str_app : extends esc_str.
Proof.
  intros [|c t] f r H; cbn in *; [discriminate|].
  destruct (_ =? _)%N; [now apply p_x_char_app|]. destruct (simple_escape0 c); [now inv H|].
  destruct (_ =? _)%N; [|discriminate]. destruct (p_u t) as [[r' v]|] eqn:E; [|discriminate].
  inv H. now rewrite (p_u_app _ _ _ _ E).
Qed.
Lemma esc_byte_app : extends esc_byte.
Proof.
  intros [|c t] f r H; cbn in *; [discriminate|].
  destruct (_ =? _)%N; [now apply p_x_byte_app|]. destruct (simple_escape0 c); [now inv H|discriminate].
Qed.
Lemma esc_c_app : extends esc_c.
Proof.
  intros [|c t] f r H; cbn in *; [discriminate|].
  destruct (_ =? _)%N; [now apply p_x_nonzero_app|]. destruct (simple_escape_c c); [now inv H|].
  destruct (_ =? _)%N; [|discriminate]. destruct (p_u t) as [[r' v]|] eqn:E; [|discriminate].
  rewrite (p_u_app _ _ _ _ E). destruct (v =? NUL)%N; [discriminate|]. now inv H.
Qed.
Lemma p_trail_app s f : forall l r, p_trail l s = Some r -> p_trail l (s ++ f) = Some (r ++ f).
Proof.
  remember (length s) as n eqn:En. revert s En. induction n as [n IH] using lt_wf_ind.
  intros s -> l r H. destruct s as [|c t]; cbn in *; [discriminate|].
  destruct (l =? CR)%N.
  - destruct (c =? LF)%N; [|discriminate]. destruct t as [|b t']; [discriminate|]. cbn.
    destruct (is_trail_ws b); [|now inv H]. apply (IH (length t')); cbn; auto; lia.
  - destruct (is_trail_ws c); [|now inv H]. apply (IH (length t)); cbn; auto; lia.
Qed.
Lemma p_cooked_app esc ok : esc_shrinks esc -> extends esc -> extends (p_cooked esc ok).
Proof.
  intros Hs He s. remember (length s) as n eqn:En. revert s En. induction n as [n IH] using lt_wf_ind.
  intros s -> f r H. rewrite p_cooked_eq in * by exact Hs.
  destruct s as [|c t]; cbn [app] in *; [discriminate|].
  destruct (c =? DQUOTE)%N; [now inv H|]. destruct (c =? CR)%N.
  { destruct t as [|c2 t']; [discriminate|]. cbn [app]. destruct (c2 =? LF)%N; [|discriminate].
    apply (IH (length t')); cbn; auto; lia. }
  destruct (c =? BACKSLASH)%N.
  { destruct t as [|c2 t2]; [discriminate|]. cbn [app]. destruct (_ || _).
    - destruct (p_trail c2 t2) as [r'|] eqn:E; [|discriminate]. rewrite (p_trail_app _ _ _ _ E).
      apply (IH (length r')); auto. apply p_trail_suffix in E. apply suffix_length in E. cbn. lia.
    - destruct (esc (c2 :: t2)) as [r'|] eqn:E; [|discriminate]. change (c2 :: t2 ++ f) with ((c2 :: t2) ++ f).
      rewrite (He _ _ _ E).
      apply (IH (length r')); auto. apply Hs in E as (c3 & t3 & E & Hsf). inv E. apply suffix_length in Hsf. cbn. lia. }
  destruct (ok c); [|discriminate]. apply (IH (length t)); cbn; auto; lia.
Qed.

Lemma p_delim_app n s f m r : p_delim n s = Some (m, r) -> p_delim n (s ++ f) = Some (m, r ++ f).
Proof.
  revert n. induction s as [|c t IH]; intros n H; cbn in *; [discriminate|].
  destruct (c =? DQUOTE)%N; [destruct (_ <? _)%N; [discriminate|now inv H]|].
  destruct (_ =? _)%N; [auto|discriminate].
Qed.
Lemma p_raw_short ok d s : length s <= length d -> p_raw ok d s = None.
Proof.
  remember (length s) as n eqn:En. revert s En. induction n as [n IH] using lt_wf_ind.
  intros s -> Hl. destruct s as [|c t]; cbn in *; [reflexivity|].
  destruct (starts_with t d) eqn:E. { apply starts_with_len in E. lia. }
  rewrite andb_false_r. destruct (c =? CR)%N.
  - destruct t as [|c2 t']; [reflexivity|]. destruct (_ =? _)%N; [|reflexivity].
    apply (IH (length t')); cbn in *; auto; lia.
  - destruct (ok c); [|reflexivity]. apply (IH (length t)); cbn in *; auto; lia.
Qed.
Lemma starts_with_app_long s f t : length t <= length s -> starts_with (s ++ f) t = starts_with s t.
Proof.
  revert s. induction t as [|c t IH]; intros s Hl; cbn; [reflexivity|].
  destruct s as [|d s]; cbn in *; [lia|]. rewrite IH; [reflexivity|lia].
Qed.
Lemma p_raw_app ok d : extends (p_raw ok d).
Proof.
  intros s. remember (length s) as n eqn:En. revert s En. induction n as [n IH] using lt_wf_ind.
  intros s -> f r H.
  destruct (Nat.le_gt_cases (length s) (length d)) as [Hl|Hl]. { now rewrite p_raw_short in H. }
  destruct s as [|c t]; cbn in *; [discriminate|].
  rewrite starts_with_app_long by lia. destruct (_ && starts_with t d) eqn:Ec.
  { inv H. rewrite skipn_starts by lia. reflexivity. }
  destruct (c =? CR)%N.
  { destruct t as [|c2 t']; [discriminate|]. cbn. destruct (c2 =? LF)%N; [|discriminate].
    apply (IH (length t')); cbn; auto; lia. }
  destruct (ok c); [|discriminate]. apply (IH (length t)); cbn; auto; lia.
Qed.
Lemma p_raw_with_app ok : extends (p_raw_with ok).
Proof.
  intros s f r H. unfold p_raw_with in *. destruct (p_delim 0 s) as [[n t]|] eqn:E; [|discriminate].
  rewrite (p_delim_app _ _ _ _ _ E). now apply p_raw_app.
Qed.

(** *** Which first characters a quoted literal can have *)
Lemma starts_with_cons s c t : starts_with s (c :: t) = true -> exists u, s = c :: u /\ starts_with u t = true.
Proof.
  destruct s as [|d u]; cbn; [discriminate|]. intros H. apply andb_prop in H as [H1 H2].
  apply N.eqb_eq in H1 as ->. eauto.
Qed.

Lemma q_string_first s r : q_string s = Some r -> exists c t, s = c :: t /\ (c = DQUOTE \/ c = "r"%ch).
Proof.
  unfold q_string. destruct (starts_with s [DQUOTE]) eqn:E1.
  { apply starts_with_cons in E1 as (u & -> & _). eauto. }
  destruct (starts_with s ["r"%ch]) eqn:E2; [|discriminate].
  apply starts_with_cons in E2 as (u & -> & _). eauto 6.
Qed.
Lemma q_byte_string_first s r : q_byte_string s = Some r ->
  exists c t, s = "b"%ch :: c :: t /\ (c = DQUOTE \/ c = "r"%ch).
Proof.
  unfold q_byte_string. destruct (starts_with s ["b"%ch; DQUOTE]) eqn:E1.
  { apply starts_with_cons in E1 as (u & -> & E1). apply starts_with_cons in E1 as (v & -> & _). eauto. }
  destruct (starts_with s ["b"%ch; "r"%ch]) eqn:E2; [|discriminate].
  apply starts_with_cons in E2 as (u & -> & E2). apply starts_with_cons in E2 as (v & -> & _). eauto 6.
Qed.
Lemma q_c_string_first s r : q_c_string s = Some r ->
  exists c t, s = "c"%ch :: c :: t /\ (c = DQUOTE \/ c = "r"%ch).
Proof.
  unfold q_c_string. destruct (starts_with s ["c"%ch; DQUOTE]) eqn:E1.
  { apply starts_with_cons in E1 as (u & -> & E1). apply starts_with_cons in E1 as (v & -> & _). eauto. }
  destruct (starts_with s ["c"%ch; "r"%ch]) eqn:E2; [|discriminate].
  apply starts_with_cons in E2 as (u & -> & E2). apply starts_with_cons in E2 as (v & -> & _). eauto 6.
Qed.
Lemma q_byte_first s r : q_byte s = Some r -> exists t, s = "b"%ch :: SQUOTE :: t.
Proof.
  unfold q_byte. destruct (starts_with s ["b"%ch; SQUOTE]) eqn:E1; [|discriminate].
  apply starts_with_cons in E1 as (u & -> & E1). apply starts_with_cons in E1 as (v & -> & _). eauto.
Qed.
Lemma q_char_first s r : q_char s = Some r -> exists t, s = SQUOTE :: t.
Proof.
  unfold q_char. destruct (starts_with s [SQUOTE]) eqn:E1; [|discriminate].
  apply starts_with_cons in E1 as (u & -> & E1). eauto.
Qed.

Lemma q_string_app : extends q_string.
Proof.
  intros s f r H. unfold q_string in *.
  destruct s as [|c t]; [discriminate|]. cbn [starts_with app skipn] in *. rewrite !andb_true_r in *.
  destruct (_ =? c)%N; [now apply p_cooked_app; auto using esc_str_shrinks, esc_str_app|].
  destruct (_ =? c)%N; [|discriminate]. now apply p_raw_with_app.
Qed.
Lemma q_byte_string_app : extends q_byte_string.
Proof.
  intros s f r H. pose proof H as Hf. apply q_byte_string_first in Hf as (c & t & -> & Hc).
  unfold q_byte_string in *. cbn [starts_with app skipn] in *. rewrite !andb_true_r in *.
  destruct (_ && _)%bool; [now apply p_cooked_app; auto using esc_byte_shrinks, esc_byte_app|].
  destruct (_ && _)%bool; [|discriminate]. now apply p_raw_with_app.
Qed.
Lemma q_c_string_app : extends q_c_string.
Proof.
  intros s f r H. pose proof H as Hf. apply q_c_string_first in Hf as (c & t & -> & Hc).
  unfold q_c_string in *. cbn [starts_with app skipn] in *. rewrite !andb_true_r in *.
  destruct (_ && _)%bool; [now apply p_cooked_app; auto using esc_c_shrinks, esc_c_app|].
  destruct (_ && _)%bool; [|discriminate]. now apply p_raw_with_app.
Qed.
Lemma closing_quote_app : extends closing_quote.
Proof. intros [|c t] f r H; cbn in *; [discriminate|]. destruct (_ =? _)%N; [now inv H|discriminate]. Qed.
Lemma u_byte_app : extends u_byte.
Proof.
  intros [|c t] f r H; cbn in *; [discriminate|]. destruct (_ =? _)%N; [now apply esc_byte_app|].
  destruct (is_ascii c); [now inv H|discriminate].
Qed.
Lemma u_char_app : extends u_char.
Proof.
  intros [|c t] f r H; cbn in *; [discriminate|]. destruct (_ =? _)%N; [now apply esc_str_app|now inv H].
Qed.
Lemma q_byte_app : extends q_byte.
Proof.
  intros s f r H. pose proof H as Hf. apply q_byte_first in Hf as (t & ->).
  unfold q_byte in *. cbn [starts_with app skipn] in *. rewrite !N.eqb_refl in *. cbn [andb] in *.
  destruct (u_byte t) as [x|] eqn:E; [|discriminate]. rewrite (u_byte_app _ _ _ E). now apply closing_quote_app.
Qed.
Lemma q_char_app : extends q_char.
Proof.
  intros s f r H. pose proof H as Hf. apply q_char_first in Hf as (t & ->).
  unfold q_char in *. cbn [starts_with app skipn] in *. rewrite !N.eqb_refl in *. cbn [andb] in *.
  destruct (u_char t) as [x|] eqn:E; [|discriminate]. rewrite (u_char_app _ _ _ E). now apply closing_quote_app.
Qed.

(** First-char exclusion: evaluate the five alternatives on a known first char. *)
Lemma q_string_none c t : c <> DQUOTE -> c <> "r"%ch -> q_string (c :: t) = None.
Proof.
  intros H1 H2. destruct (q_string (c :: t)) eqn:E; [|reflexivity].
  apply q_string_first in E as (c' & t' & E & [-> | ->]); congruence.
Qed.
Lemma q_byte_string_none c t : c <> "b"%ch -> q_byte_string (c :: t) = None.
Proof.
  intros H1. destruct (q_byte_string (c :: t)) eqn:E; [|reflexivity].
  apply q_byte_string_first in E as (c' & t' & E & _); congruence.
Qed.
Lemma q_c_string_none c t : c <> "c"%ch -> q_c_string (c :: t) = None.
Proof.
  intros H1. destruct (q_c_string (c :: t)) eqn:E; [|reflexivity].
  apply q_c_string_first in E as (c' & t' & E & _); congruence.
Qed.
Lemma q_byte_none c t : c <> "b"%ch -> q_byte (c :: t) = None.
Proof.
  intros H1. destruct (q_byte (c :: t)) eqn:E; [|reflexivity]. apply q_byte_first in E as (t' & E); congruence.
Qed.
Lemma q_char_none c t : c <> SQUOTE -> q_char (c :: t) = None.
Proof.
  intros H1. destruct (q_char (c :: t)) eqn:E; [|reflexivity]. apply q_char_first in E as (t' & E); congruence.
Qed.

Lemma orelse_some {A} (a b : option A) x : orelse a b = Some x -> a = Some x \/ a = None /\ b = Some x.
Proof. destruct a; cbn; auto. Qed.

Lemma p_quoted_cases s r : p_quoted s = Some r ->
  q_string s = Some r \/ q_byte_string s = Some r \/ q_c_string s = Some r \/ q_byte s = Some r
  \/ q_char s = Some r.
Proof.
  unfold p_quoted. intros H. repeat (apply orelse_some in H as [H|[_ H]]; [tauto|]). tauto.
Qed.
Lemma p_quoted_intro s r :
  q_string s = Some r \/ q_byte_string s = Some r \/ q_c_string s = Some r \/ q_byte s = Some r
  \/ q_char s = Some r -> p_quoted s = Some r.
Proof.
  unfold p_quoted. intros [H|[H|[H|[H|H]]]].
  - now rewrite H.
  - pose proof H as H'. apply q_byte_string_first in H' as (c & t & -> & _).
    rewrite q_string_none by discriminate. now rewrite H.
  - pose proof H as H'. apply q_c_string_first in H' as (c & t & -> & _).
    rewrite q_string_none by discriminate. rewrite q_byte_string_none by discriminate. now rewrite H.
  - pose proof H as H'. apply q_byte_first in H' as (t & ->).
    rewrite q_string_none by discriminate. 
    rewrite q_c_string_none by discriminate. rewrite H.
    destruct (q_byte_string _) eqn:E; [|reflexivity].
    apply q_byte_string_first in E as (c & t' & E & [-> | ->]); discriminate.
  - pose proof H as H'. apply q_char_first in H' as (t & ->).
    rewrite q_string_none by discriminate. rewrite q_byte_string_none by discriminate.
    rewrite q_c_string_none by discriminate. rewrite q_byte_none by discriminate. now rewrite H.
Qed.
Lemma p_quoted_app : extends p_quoted.
Proof.
  intros s f r H. apply p_quoted_intro. apply p_quoted_cases in H as [H|[H|[H|[H|H]]]].
  - left. now apply q_string_app.
  - right; left. now apply q_byte_string_app.
  - right; right; left. now apply q_c_string_app.
  - right; right; right; left. now apply q_byte_app.
  - right; right; right; right. now apply q_char_app.
Qed.
Lemma p_quoted_first s r : p_quoted s = Some r -> exists c t, s = c :: t /\
  (c = DQUOTE \/ c = "r"%ch \/ c = "b"%ch \/ c = "c"%ch \/ c = SQUOTE).
Proof.
  intros H. apply p_quoted_cases in H as [H|[H|[H|[H|H]]]].
  - apply q_string_first in H as (c & t & -> & H). exists c, t. tauto.
  - apply q_byte_string_first in H as (c & t & -> & H). exists "b"%ch, (c :: t). tauto.
  - apply q_c_string_first in H as (c & t & -> & H). exists "c"%ch, (c :: t). tauto.
  - apply q_byte_first in H as (t & ->). exists "b"%ch, (SQUOTE :: t). tauto.
  - apply q_char_first in H as (t & ->). exists SQUOTE, t. tauto.
Qed.
Lemma p_quoted_digit c t : is_dec_digit c = true -> p_quoted (c :: t) = None.
Proof.
  intros Hc. destruct (p_quoted _) eqn:E; [|reflexivity].
  apply p_quoted_first in E as (c' & t' & E & H). inv E.
  unfold is_dec_digit, between in Hc. lia.
Qed.

(** *** Numbers: both success and failure are stable before a stop *)
Ltac stop_head f Hf :=
  destruct f as [|?fc ?ft]; [|cbn in Hf; apply is_stop_cases in Hf; destruct Hf as [->|[->|[->|[->| ->]]]]].

Lemma p_mantissa_app s f hd : stop f ->
  p_mantissa (s ++ f) hd = omap (fun '(a, b, r) => (a, b, r ++ f)) (p_mantissa s hd).
Proof using UO.
  intros Hf. revert hd. induction s as [|c t IH]; intros hd; cbn.
  - stop_head f Hf; reflexivity.
  - destruct (_ || _); [apply IH|]. destruct (c =? "."%ch)%N.
    + destruct hd; [reflexivity|]. destruct t as [|c2 t']; cbn [app].
      * rewrite <- (app_nil_l f), <- IH. cbn [app]. destruct f as [|c2 f']; [reflexivity|].
        cbn in Hf. rewrite stop_not_start by exact Hf. rewrite orb_false_r.
        destruct (N.eqb_spec c2 "."%ch) as [->|]; [discriminate|reflexivity].
      * destruct (_ || _); [reflexivity|]. apply IH.
    + destruct (_ || _); reflexivity.
Qed.
Lemma p_exponent_app s f a b : stop f ->
  p_exponent (s ++ f) a b = omap (fun r => r ++ f) (p_exponent s a b).
Proof.
  intros Hf. revert a b. induction s as [|c t IH]; intros a b.
  - cbn. stop_head f Hf; destruct b; reflexivity.
  - cbn. destruct (_ || _).
    + destruct b; [reflexivity|]. destruct a; [reflexivity|apply IH].
    + destruct (is_dec_digit c); [apply IH|]. destruct (_ =? _)%N; [apply IH|]. destruct b; reflexivity.
Qed.
Lemma p_mantissa_end_app s f b : stop f -> p_mantissa_end (s ++ f) b = p_mantissa_end s b ++ f.
Proof.
  intros Hf. revert b. induction s as [|c t IH]; intros b; cbn.
  - stop_head f Hf; reflexivity.
  - destruct (_ || _); [apply IH|]. destruct (_ =? _)%N; [|reflexivity]. destruct b; [reflexivity|apply IH].
Qed.
Lemma p_float_digits_app s f : stop f ->
  p_float_digits (s ++ f) = omap (fun r => r ++ f) (p_float_digits s).
Proof using UO.
  intros Hf. destruct s as [|c t]; cbn.
  - stop_head f Hf; reflexivity.
  - destruct (is_dec_digit c); [|reflexivity]. rewrite p_mantissa_app by exact Hf.
    destruct (p_mantissa t false) as [[[a b] r]|]; [|reflexivity]. cbn.
    destruct (negb _); [reflexivity|]. destruct b; [|reflexivity].
    rewrite p_exponent_app by exact Hf. destruct (p_exponent r false false); cbn; [reflexivity|].
    destruct a; [|reflexivity]. cbn. now rewrite p_mantissa_end_app.
Qed.
Lemma p_word_break_app s f : stop f -> p_word_break (s ++ f) = omap (fun r => r ++ f) (p_word_break s).
Proof using UO.
  intros Hf. destruct s as [|c t]; cbn.
  - destruct f as [|c t]; [reflexivity|]. cbn in *. now rewrite stop_not_continue.
  - destruct (is_ident_continue c); reflexivity.
Qed.
Lemma p_number_tail_app s f : stop f -> p_number_tail (s ++ f) = omap (fun r => r ++ f) (p_number_tail s).
Proof using UO.
  intros Hf. destruct s as [|c t].
  - destruct f as [|c t]; [reflexivity|]. cbn in *. rewrite stop_not_start by exact Hf.
    now rewrite stop_not_continue.
  - cbn [p_number_tail app]. destruct (is_ident_start c).
    + change (c :: t ++ f) with ((c :: t) ++ f). rewrite p_suffix_app by exact Hf. now apply p_word_break_app.
    + now apply (p_word_break_app (c :: t)).
Qed.
Lemma p_digits_loop_app base s f e : stop f ->
  p_digits_loop base (s ++ f) e = omap (fun '(r, e) => (r ++ f, e)) (p_digits_loop base s e).
Proof.
  intros Hf. revert e. induction s as [|b t IH]; intros e.
  - cbn. stop_head f Hf; reflexivity.
  - cbn. destruct (between _ _ _). { destruct (_ <=? _)%N; [reflexivity|apply IH]. }
    destruct (between _ _ _). { destruct (_ <=? _)%N; [reflexivity|apply IH]. }
    destruct (between _ _ _). { destruct (_ <=? _)%N; [reflexivity|apply IH]. }
    destruct (_ =? _)%N; [|reflexivity]. destruct (_ && _); [reflexivity|apply IH].
Qed.
Lemma p_base_app s f : stop f -> p_base (s ++ f) = let (r, b) := p_base s in (r ++ f, b).
Proof.
  intros Hf. unfold p_base. rewrite !starts_with_stop by auto.
  destruct (starts_with s _) eqn:E1. { rewrite skipn_starts; [reflexivity|now apply starts_with_len in E1]. }
  destruct (starts_with s ["0"%ch; "o"%ch]) eqn:E2. { rewrite skipn_starts; [reflexivity|now apply starts_with_len in E2]. }
  destruct (starts_with s ["0"%ch; "b"%ch]) eqn:E3. { rewrite skipn_starts; [reflexivity|now apply starts_with_len in E3]. }
  reflexivity.
Qed.
Lemma p_digits_app s f : stop f -> p_digits (s ++ f) = omap (fun r => r ++ f) (p_digits s).
Proof.
  intros Hf. unfold p_digits. rewrite p_base_app by exact Hf. destruct (p_base s) as [r b].
  rewrite p_digits_loop_app by exact Hf. destruct (p_digits_loop b r true) as [[x [|]]|]; reflexivity.
Qed.
Lemma p_float_app s f : stop f -> p_float (s ++ f) = omap (fun r => r ++ f) (p_float s).
Proof using UO.
  intros Hf. unfold p_float. rewrite p_float_digits_app by exact Hf.
  destruct (p_float_digits s); cbn; [|reflexivity]. now apply p_number_tail_app.
Qed.
Lemma p_int_app s f : stop f -> p_int (s ++ f) = omap (fun r => r ++ f) (p_int s).
Proof using UO.
  intros Hf. unfold p_int. rewrite p_digits_app by exact Hf.
  destruct (p_digits s); cbn; [|reflexivity]. now apply p_number_tail_app.
Qed.

Lemma p_float_first s r : p_float s = Some r -> exists c t, s = c :: t /\ is_dec_digit c = true.
Proof.
  unfold p_float. destruct s as [|c t]; cbn; [discriminate|].
  destruct (is_dec_digit c) eqn:E; [eauto|discriminate].
Qed.
Lemma p_digits_first s r : p_digits s = Some r -> exists c t, s = c :: t /\ is_dec_digit c = true.
Proof.
  unfold p_digits, p_base.
  destruct (starts_with s _) eqn:E1. { apply starts_with_cons in E1 as (u & -> & _). eauto. }
  destruct (starts_with s ["0"%ch; "o"%ch]) eqn:E2. { apply starts_with_cons in E2 as (u & -> & _). eauto. }
  destruct (starts_with s ["0"%ch; "b"%ch]) eqn:E3. { apply starts_with_cons in E3 as (u & -> & _). eauto. }
  destruct s as [|c t]; cbn; [discriminate|]. intros H.
  destruct (between "0"%ch c "9"%ch) eqn:E4; [eauto|]. exfalso. revert H.
  destruct (between "a"%ch c "f"%ch) eqn:E5.
  { unfold between in *. destruct (N.leb_spec 10 (10 + (c - "a"%ch))); [discriminate|lia]. }
  destruct (between "A"%ch c "F"%ch) eqn:E6.
  { unfold between in *. destruct (N.leb_spec 10 (10 + (c - "A"%ch))); [discriminate|lia]. }
  destruct (_ =? _)%N; cbn; discriminate.
Qed.
Lemma p_int_first s r : p_int s = Some r -> exists c t, s = c :: t /\ is_dec_digit c = true.
Proof.
  unfold p_int. destruct (p_digits s) eqn:E; [|discriminate]. intros _. eapply p_digits_first; eauto.
Qed.

Lemma p_literal_app s f r : stop f -> p_literal s = Some r -> p_literal (s ++ f) = Some (r ++ f).
Proof using UO.
  intros Hf H. unfold p_literal in *. destruct (p_quoted s) as [x|] eqn:E.
  - rewrite (p_quoted_app _ f _ E). cbn in *. inv H. now rewrite p_suffix_app.
  - cbn [omap orelse] in H.
    assert (Hd : exists c t, s = c :: t /\ is_dec_digit c = true).
    { apply orelse_some in H as [H|[_ H]]; [eapply p_float_first|eapply p_int_first]; eauto. }
    destruct Hd as (c & t & -> & Hd). cbn [app]. rewrite p_quoted_digit by exact Hd.
    change (c :: t ++ f) with ((c :: t) ++ f). cbn [omap orelse].
    rewrite p_float_app, p_int_app by exact Hf.
    destruct (p_float (c :: t)) as [y|]; cbn in *; [now inv H|]. now rewrite H.
Qed.
Lemma p_literal_first s r : p_literal s = Some r -> exists c t, s = c :: t /\
  (is_dec_digit c = true \/ c = DQUOTE \/ c = "r"%ch \/ c = "b"%ch \/ c = "c"%ch \/ c = SQUOTE).
Proof.
  unfold p_literal. intros H. apply orelse_some in H as [H|[_ H]].
  - destruct (p_quoted s) as [x|] eqn:E; [|discriminate]. apply p_quoted_first in E as (c & t & -> & Hc).
    exists c, t. tauto.
  - assert (Hd : exists c t, s = c :: t /\ is_dec_digit c = true).
    { apply orelse_some in H as [H|[_ H]]; [eapply p_float_first|eapply p_int_first]; eauto. }
    destruct Hd as (c & t & -> & Hd). exists c, t. tauto.
Qed.

(** *** Puncts *)
Lemma p_punct_char_stop f : stop f -> p_punct_char f = None.
Proof. intros Hf. stop_head f Hf; reflexivity. Qed.
Lemma p_punct_char_app s f : stop f ->
  p_punct_char (s ++ f) = omap (fun '(r, c) => (r ++ f, c)) (p_punct_char s).
Proof.
  intros Hf. destruct s as [|c t]; [now apply p_punct_char_stop|].
  unfold p_punct_char. rewrite !starts_with_stop by auto.
  destruct (_ || _); [reflexivity|]. cbn [app]. destruct (contains punct_recognized c); reflexivity.
Qed.
Lemma p_punct_char_inv s r c : p_punct_char s = Some (r, c) ->
  s = c :: r /\ contains punct_recognized c = true.
Proof.
  unfold p_punct_char. destruct (_ || _); [discriminate|]. destruct s as [|d t]; [discriminate|].
  destruct (contains _ d) eqn:E; [|discriminate]. intros H. now inv H.
Qed.
Lemma p_punct_app s f : stop f ->
  p_punct (s ++ f) = omap (fun '(r, c) => (r ++ f, c)) (p_punct s).
Proof using UO.
  intros Hf. unfold p_punct. rewrite p_punct_char_app by exact Hf.
  destruct (p_punct_char s) as [[r c]|] eqn:E; [|reflexivity]. cbn [omap].
  destruct (c =? SQUOTE)%N.
  - rewrite p_ident_any_app by exact Hf. destruct (p_ident_any r) as [[a x]|] eqn:Ei; [|reflexivity]. cbn [omap].
    rewrite !head_is_stop by auto. rewrite starts_with_stop by auto.
    destruct (_ || _); reflexivity.
  - rewrite p_punct_char_app by exact Hf. destruct (p_punct_char r) as [[a x]|]; reflexivity.
Qed.

(** *** The leaf kinds exclude each other *)
Lemma punct_not_start c : contains punct_recognized c = true -> is_ident_start c = false.
Proof using UO.
  intros H. apply contains_In in H. unfold punct_recognized in H.
  cbn in H. decompose [or] H; subst; try contradiction; rewrite ident_start_ascii by lia; reflexivity.
Qed.
Lemma punct_not_lit c t : contains punct_recognized c = true -> c <> SQUOTE -> p_literal (c :: t) = None.
Proof.
  intros H Hc. destruct (p_literal (c :: t)) eqn:E; [|reflexivity].
  apply p_literal_first in E as (c' & t' & E & Hc'). inversion E; subst c' t'. clear E. exfalso.
  apply contains_In in H. unfold punct_recognized in H. cbn in H. unfold is_dec_digit, between in Hc'. lia.
Qed.
Lemma p_ident_any_start s r x : p_ident_any s = Some (r, x) ->
  exists c t, s = c :: t /\ is_ident_start c = true.
Proof using UO.
  unfold p_ident_any. destruct (starts_with s _) eqn:E.
  - intros _. apply starts_with_cons in E as (u & -> & _). eexists _, _. split; [reflexivity|].
    rewrite ident_start_ascii by lia. reflexivity.
  - unfold p_ident_not_raw. destruct s as [|c t]; [discriminate|].
    destruct (is_ident_start c) eqn:E'; [eauto|discriminate].
Qed.
Lemma p_literal_quoted_none c t : is_dec_digit c = false -> p_quoted (c :: t) = None -> p_literal (c :: t) = None.
Proof.
  intros Hd Hq. unfold p_literal. rewrite Hq. cbn [omap orelse].
  destruct (p_float (c :: t)) eqn:E1.
  { apply p_float_first in E1 as (c' & t' & E & ?). inv E. congruence. }
  destruct (p_int (c :: t)) eqn:E2; [|reflexivity].
  apply p_int_first in E2 as (c' & t' & E & ?). inv E. congruence.
Qed.
Lemma p_punct_not_literal s x : p_punct s = Some x -> p_literal s = None.
Proof using UO.
  unfold p_punct. destruct (p_punct_char s) as [[r c]|] eqn:E; [|discriminate].
  apply p_punct_char_inv in E as [-> Hc]. destruct (N.eqb_spec c SQUOTE) as [->|Hn].
  2: { intros _. now apply punct_not_lit. }
  destruct (p_ident_any r) as [[a y]|] eqn:Ei; [|discriminate]. intros H.
  apply p_literal_quoted_none; [reflexivity|]. destruct (p_quoted _) eqn:Eq; [|reflexivity]. exfalso.
  apply p_quoted_cases in Eq.
  rewrite q_string_none, q_byte_string_none, q_c_string_none, q_byte_none in Eq by discriminate.
  destruct Eq as [Eq|[Eq|[Eq|[Eq|Eq]]]]; try discriminate.
  unfold q_char in Eq. cbn [starts_with skipn] in Eq. rewrite N.eqb_refl in Eq. cbn [andb] in Eq.
  pose proof (p_ident_any_start _ _ _ Ei) as (c1 & t & -> & Hs). cbn [u_char] in Eq.
  destruct (N.eqb_spec c1 BACKSLASH) as [->|_].
  { rewrite ident_start_ascii in Hs by lia. discriminate. }
  cbn [obind] in Eq. destruct t as [|c2 t]; [discriminate|]. cbn in Eq.
  destruct (N.eqb_spec c2 SQUOTE) as [->|]; [|discriminate].
  (* the identifier is the single char c1, directly followed by a quote *)
  assert (Ha : a = SQUOTE :: t).
  { unfold p_ident_any in Ei. cbn [starts_with] in Ei.
    change ("#"%ch =? SQUOTE)%N with false in Ei. rewrite andb_false_r in Ei.
    cbn in Ei. rewrite Hs in Ei. rewrite ident_continue_ascii in Ei by lia. cbn in Ei. now inv Ei. }
  subst a. cbn in H. discriminate.
Qed.
Lemma p_ident_not_literal s x : p_ident s = Some x -> p_literal s = None.
Proof using UO.
  unfold p_ident. destruct (existsb _ _) eqn:Ex; [discriminate|]. intros H. destruct x as [r y].
  pose proof (p_ident_any_start _ _ _ H) as (c & t & -> & Hs).
  assert (Hd : is_dec_digit c = false).
  { destruct (is_dec_digit c) eqn:E; [|reflexivity].
    rewrite ident_start_ascii in Hs by (unfold is_dec_digit, between in E; lia).
    unfold is_dec_digit, ascii_letter, between in *. lia. }
  apply p_literal_quoted_none; [exact Hd|]. destruct (p_quoted _) eqn:Eq; [|reflexivity]. exfalso.
  cbn [existsb ident_reject_prefixes] in Ex. repeat (apply orb_false_iff in Ex as [? Ex]).
  apply p_quoted_cases in Eq as [Eq|[Eq|[Eq|[Eq|Eq]]]].
  - pose proof Eq as Eq'. apply q_string_first in Eq' as (c' & t' & E & [-> | ->]); inv E.
    { rewrite ident_start_ascii in Hs by lia. discriminate. }
    unfold q_string in Eq. cbn in Eq. cmpc. destruct t' as [|c1 t1]; [discriminate|].
    unfold p_raw_with in Eq. cbn in Eq.
    destruct (N.eqb_spec c1 DQUOTE) as [->|]; [discriminate|].
    destruct (N.eqb_spec c1 "#"%ch) as [->|]; [|discriminate].
    destruct t1 as [|c2 t2]; [discriminate|]. cbn in Eq.
    destruct (N.eqb_spec c2 DQUOTE) as [->|]; [discriminate|].
    destruct (N.eqb_spec c2 "#"%ch) as [->|]; [|discriminate]. discriminate.
  - pose proof Eq as Eq'. apply q_byte_string_first in Eq' as (c' & t' & E & [-> | ->]); inv E.
    { discriminate. }
    unfold q_byte_string in Eq. cbn in Eq. cmpc. destruct t' as [|c1 t1]; [discriminate|].
    unfold p_raw_with in Eq. cbn in Eq.
    destruct (N.eqb_spec c1 DQUOTE) as [->|]; [discriminate|].
    destruct (N.eqb_spec c1 "#"%ch) as [->|]; [|discriminate]. discriminate.
  - pose proof Eq as Eq'. apply q_c_string_first in Eq' as (c' & t' & E & [-> | ->]); inv E.
    { discriminate. }
    unfold q_c_string in Eq. cbn in Eq. cmpc. destruct t' as [|c1 t1]; [discriminate|].
    unfold p_raw_with in Eq. cbn in Eq.
    destruct (N.eqb_spec c1 DQUOTE) as [->|]; [discriminate|].
    destruct (N.eqb_spec c1 "#"%ch) as [->|]; [|discriminate]. discriminate.
  - apply q_byte_first in Eq as (t' & E). inv E. discriminate.
  - apply q_char_first in Eq as (t' & E). inv E. rewrite ident_start_ascii in Hs by lia. discriminate.
Qed.
Lemma p_ident_not_punct s x : p_ident s = Some x -> p_punct s = None.
Proof using UO.
  unfold p_ident. destruct (existsb _ _); [discriminate|]. destruct x as [r y]. intros H.
  apply p_ident_any_start in H as (c & t & -> & Hs).
  unfold p_punct. destruct (p_punct_char _) as [[a b]|] eqn:E; [|reflexivity].
  apply p_punct_char_inv in E as [E Hc]. inv E. now rewrite punct_not_start in Hs.
Qed.
Lemma error_other s : starts_with s ERROR = true ->
  p_literal s = None /\ p_punct s = None /\ p_ident s = None.
Proof using UO.
  intros H. apply starts_with_spec in H as [r ->]. split; [|split].
  - destruct (p_literal _) eqn:E; [|reflexivity]. apply p_literal_first in E as (c & t & E & Hc).
    cbn in E. inv E. unfold is_dec_digit, between in Hc. lia.
  - unfold p_punct. destruct (p_punct_char _) as [[a b]|] eqn:E; [|reflexivity].
    apply p_punct_char_inv in E as [E Hc]. cbn in E. inv E. discriminate.
  - destruct (p_ident _) as [[a b]|] eqn:E; [|reflexivity].
    unfold p_ident in E. destruct (existsb _ _); [discriminate|]. apply p_ident_any_start in E as (c & t & E & Hs).
    cbn in E. inv E. rewrite ident_start_ascii in Hs by lia. discriminate.
Qed.

(** Four ways to be a leaf. *)
Inductive leaf_kind (s : str) : str -> (span -> token) -> Prop :=
| LK_lit r : p_literal s = Some r -> leaf_kind s r (TLiteral (prefix_of s r))
| LK_punct r c sp : p_punct s = Some (r, (c, sp)) -> leaf_kind s r (TPunct c sp)
| LK_ident r sym raw : p_ident s = Some (r, (sym, raw)) -> leaf_kind s r (TIdent sym raw)
| LK_error : starts_with s ERROR = true -> leaf_kind s (skipn (length ERROR) s) (TLiteral ERROR).

Lemma p_leaf_kind s r k : p_leaf s = Some (r, k) <-> leaf_kind s r k.
Proof using UO.
  unfold p_leaf. split.
  - destruct (p_literal s) eqn:E1; [intros H; inv H; now constructor|].
    destruct (p_punct s) as [[x [c sp]]|] eqn:E2; [intros H; inv H; now constructor|].
    destruct (p_ident s) as [[x [sym raw]]|] eqn:E3; [intros H; inv H; now constructor|].
    destruct (starts_with s ERROR) eqn:E4; [|discriminate].
    intros H. assert (r = skipn (length ERROR) s) by congruence. assert (k = TLiteral ERROR) by congruence.
    subst. now constructor.
  - intros H. destruct H as [r H|r c sp H|r sym raw H|H].
    + now rewrite H.
    + rewrite (p_punct_not_literal _ _ H). now rewrite H.
    + rewrite (p_ident_not_literal _ _ H), (p_ident_not_punct _ _ H). now rewrite H.
    + destruct (error_other _ H) as (-> & -> & ->). now rewrite H.
Qed.

Lemma prefix_of_stop s r f : suffix r s -> prefix_of (s ++ f) (r ++ f) = prefix_of s r.
Proof.
  intros Hs. unfold prefix_of. rewrite !app_length.
  replace (length s + length f - (length r + length f)) with (length s - length r) by lia.
  rewrite firstn_app. replace (length s - length r - length s) with 0 by lia. now rewrite firstn_O, app_nil_r.
Qed.
Lemma p_leaf_app s f r k : stop f -> p_leaf s = Some (r, k) -> p_leaf (s ++ f) = Some (r ++ f, k).
Proof using UO.
  intros Hf H. apply p_leaf_kind. apply p_leaf_kind in H. destruct H as [r H|r c sp H|r sym raw H|H].
  - rewrite <- (prefix_of_stop s r f) by (now apply p_literal_suffix). constructor. now apply p_literal_app.
  - constructor. rewrite p_punct_app by exact Hf. now rewrite H.
  - constructor. rewrite p_ident_app by exact Hf. now rewrite H.
  - pose proof (starts_with_len _ _ H). rewrite <- skipn_starts by assumption. constructor.
    now apply starts_with_app_l.
Qed.

Lemma leaf_first s r k : p_leaf s = Some (r, k) ->
  exists c t, s = c :: t /\ (is_ident_start c = true \/ is_dec_digit c = true \/ c = DQUOTE \/ c = "("%ch
                             \/ contains punct_recognized c = true).
Proof using UO.
  intros H. apply p_leaf_kind in H. destruct H as [r H|r c sp H|r sym raw H|H].
  - apply p_literal_first in H as (c & t & -> & H). exists c, t. split; [reflexivity|].
    destruct H as [H|[H|[H|[H|[H|H]]]]]; subst; auto.
    + left. rewrite ident_start_ascii by lia. reflexivity.
    + left. rewrite ident_start_ascii by lia. reflexivity.
    + left. rewrite ident_start_ascii by lia. reflexivity.

  - unfold p_punct in H. destruct (p_punct_char s) as [[a b]|] eqn:E; [|discriminate].
    apply p_punct_char_inv in E as [-> Hc]. eexists _, _. split; [reflexivity|]. tauto.
  - unfold p_ident in H. destruct (existsb _ _); [discriminate|].
    apply p_ident_any_start in H as (c & t & -> & Hs). eexists _, _. split; [reflexivity|]. tauto.
  - apply starts_with_spec in H as [u ->]. cbn. eexists _, _. split; [reflexivity|]. tauto.
Qed.
End WithUnicode.
