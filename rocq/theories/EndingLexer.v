(** * The lexer on texts with CRLF read as LF. *)
From Verif Require Import Base BaseFacts Unicode Tokens Lexer PureLexer.
From Verif Require Import LexerEquiv LexerEquiv2 LexerEquiv3 LexerEquiv4 Grammar Stable Local.
From Verif Require Import SpecText SpecTree SpecLit SpecGrammar SpecEnding Comments LexemeProofs.
Import ListNotations.
Local Open Scope N_scope.

Inductive good : str -> Prop :=
| good_nil : good []
| good_crlf s : good s -> good (CR :: LF :: s)
| good_char c s : c <> CR -> good s -> good (c :: s).

Lemma unix_char c s : c <> CR -> unix (c :: s) = c :: unix s.
Proof. intros H. unfold unix. cbn [filter]. destruct (N.eqb_spec c CR); [contradiction|reflexivity]. Qed.
Lemma unix_crlf s : unix (CR :: LF :: s) = LF :: unix s.
Proof. reflexivity. Qed.
Lemma unix_app a b : unix (a ++ b) = unix a ++ unix b.
Proof. apply filter_app. Qed.

Lemma good_tail c s : good (c :: s) -> good s.
Proof.
  intros H. inversion H; subst; [|assumption]. apply good_char; [discriminate|assumption].
Qed.
Lemma good_suffix r s : suffix r s -> good s -> good r.
Proof. intros [p ->]. induction p as [|c p IH]; cbn; [auto|]. intros H. apply IH. eapply good_tail, H. Qed.
Lemma good_iff s : good s <-> cr_only_before_lf s.
Proof.
  split.
  - intros H a b E. subst s. apply good_suffix with (r := CR :: b) in H; [|now exists a].
    inversion H; subst; [eauto|congruence].
  - assert (L : forall n s, (length s <= n)%nat -> cr_only_before_lf s -> good s).
    { clear s. induction n as [|n IH]; intros [|c s] Hn H; cbn [length] in Hn; try lia; try exact good_nil.
      destruct (N.eq_dec c CR) as [->|Hc].
      - destruct (H [] s eq_refl) as (t & ->). apply good_crlf. apply IH; [cbn [length] in Hn; lia|].
        intros a b E. apply (H (CR :: LF :: a) b). cbn. now rewrite E.
      - apply good_char; [exact Hc|]. apply IH; [lia|]. intros a b E. apply (H (c :: a) b). cbn. now rewrite E. }
    intros H. now apply (L (length s)).
Qed.

Definition plain (t : str) : bool := forallb (fun c => negb (c =? CR) && negb (c =? LF)) t.
Lemma plain_cons c t : plain (c :: t) = true -> c <> CR /\ c <> LF /\ plain t = true.
Proof.
  cbn. intros H. apply andb_prop in H as [H1 H2]. apply andb_prop in H1 as [H0 H1].
  destruct (N.eqb_spec c CR); [discriminate|]. destruct (N.eqb_spec c LF); [discriminate|]. auto.
Qed.
Lemma unix_plain t : plain t = true -> unix t = t.
Proof.
  induction t as [|c t IH]; intros H; [reflexivity|]. apply plain_cons in H as (H1 & _ & H).
  now rewrite unix_char, IH.
Qed.
Lemma starts_unix t : plain t = true -> forall s, good s -> starts_with (unix s) t = starts_with s t.
Proof.
  induction t as [|d t IH]; intros Hp s Hs; [destruct (unix s), s; reflexivity|].
  apply plain_cons in Hp as (H1 & H2 & Hp). destruct Hs as [|s Hs|c s Hc Hs]; [reflexivity|..].
  - rewrite unix_crlf. cbn [starts_with]. destruct (N.eqb_spec d LF); [contradiction|]. destruct (N.eqb_spec d CR); [contradiction|]. reflexivity.
  - rewrite unix_char by exact Hc. cbn [starts_with]. now rewrite IH.
Qed.
Lemma head_unix c s : c <> CR -> c <> LF -> good s -> head_is c (unix s) = head_is c s.
Proof.
  intros H1 H2 [|t Hs|d t Hc Hs]; [reflexivity|..].
  - rewrite unix_crlf. cbn [head_is]. destruct (N.eqb_spec c LF); [contradiction|]. destruct (N.eqb_spec c CR); [contradiction|]. reflexivity.
  - now rewrite unix_char.
Qed.
Lemma skipn_unix t s : plain t = true -> starts_with s t = true -> skipn (length t) (unix s) = unix (skipn (length t) s).
Proof.
  intros Hp H. apply starts_with_skipn in H. rewrite H at 1. rewrite unix_app, unix_plain by exact Hp.
  rewrite skipn_app, skipn_all, Nat.sub_diag. reflexivity.
Qed.

(** ** Line and block comments *)
Lemma line_unix s : good s -> p_line (unix s) = (unix (fst (p_line s)), snd (p_line s)).
Proof.
  induction 1 as [|s Hs IH|c s Hc Hs IH]; [reflexivity|reflexivity|]. rewrite unix_char by exact Hc. cbn [p_line].
  destruct (N.eqb_spec c LF) as [->|Hl]; [cbn [fst snd]; now rewrite unix_char|].
  destruct (N.eqb_spec c CR); [contradiction|]. cbn [andb]. rewrite IH. now destruct (p_line s).
Qed.
Lemma block_step d a b t : p_block d (a :: b :: t) =
  if (a =? "/"%ch) && (b =? "*"%ch) then p_block (S d) t
  else if (a =? "*"%ch) && (b =? "/"%ch) then match d with O => None | S O => Some t | S d => p_block d t end
  else p_block d (b :: t).
Proof. destruct d; reflexivity. Qed.
Lemma block_unix s : good s -> forall d, p_block d (unix s) = omap unix (p_block d s).
Proof.
  remember (length s) as n eqn:En. revert s En. induction n as [n IH] using lt_wf_ind. intros s -> H d.
  assert (IHs : forall r, (length r < length s)%nat -> good r -> forall d, p_block d (unix r) = omap unix (p_block d r)).
  { intros r Hr. eapply IH; [exact Hr|reflexivity]. }
  clear IH. destruct H as [|s Hs|c s Hc Hs]; [now destruct d|..].
  - rewrite block_step. change ((CR =? "/"%ch) && (LF =? "*"%ch)) with false. change ((CR =? "*"%ch) && (LF =? "/"%ch)) with false. cbv iota.
    rewrite <- IHs; [|cbn; lia|apply good_char; [discriminate|exact Hs]]. reflexivity.
  - rewrite unix_char by exact Hc. destruct Hs as [|s Hs|b s Hb Hs].
    + now destruct d.
    + rewrite unix_crlf, !block_step. change (LF =? "*"%ch) with false. change (CR =? "*"%ch) with false.
      change (LF =? "/"%ch) with false. change (CR =? "/"%ch) with false. rewrite !andb_false_r.
      rewrite <- IHs; [reflexivity|cbn; lia|apply good_char; [discriminate|exact Hs]].
    + rewrite unix_char by exact Hb. rewrite !block_step.
      destruct ((c =? "/"%ch) && (b =? "*"%ch)); [apply IHs; [cbn; lia|exact Hs]|].
      destruct ((c =? "*"%ch) && (b =? "/"%ch)).
      * destruct d as [|[|d]]; [reflexivity..|apply IHs; [cbn; lia|exact Hs]].
      * rewrite <- IHs; [now rewrite unix_char|cbn; lia|now apply good_char].
Qed.

Lemma line_start_unix s : good s -> line_comment_start (unix s) = line_comment_start s.
Proof. intros H. unfold line_comment_start. now rewrite !starts_unix. Qed.
Lemma block_start_unix s : good s -> block_comment_start (unix s) = block_comment_start s.
Proof. intros H. unfold block_comment_start. now rewrite !starts_unix. Qed.

Lemma skip1_unix c s : c <> CR -> good s -> p_skip1 (unix (c :: s)) = omap unix (p_skip1 (c :: s)).
Proof.
  intros Hc Hs. assert (G : good (c :: s)) by now apply good_char.
  unfold p_skip1 at 2. pose proof (line_start_unix _ G) as E1. pose proof (block_start_unix _ G) as E2.
  pose proof (starts_unix (tag "/**/") eq_refl _ G) as E3. pose proof (line_unix _ G) as E4. pose proof (block_unix _ G 0%nat) as E5.
  rewrite <- E1, <- E2, <- E3. pose proof (skipn_unix (tag "/**/") (c :: s) eq_refl) as E6. rewrite <- E3 in E6.
  rewrite unix_char in * by exact Hc. unfold p_skip1.
  destruct (line_comment_start (c :: unix s)); [cbn [omap]; now rewrite E4|].
  destruct (starts_with (c :: unix s) (tag "/**/")); [cbn [omap]; f_equal; apply (E6 eq_refl)|].
  destruct (block_comment_start (c :: unix s)); [exact E5|]. now destruct (is_whitespace c).
Qed.
Lemma skip_unix s : good s -> p_skip (unix s) = unix (p_skip s).
Proof.
  remember (length s) as n eqn:En. revert s En. induction n as [n IH] using lt_wf_ind. intros s -> H.
  assert (IHs : forall r, (length r < length s)%nat -> good r -> p_skip (unix r) = unix (p_skip r)).
  { intros r Hr. eapply IH; [exact Hr|reflexivity]. }
  clear IH. destruct H as [|s Hs|c s Hc Hs]; [reflexivity|..].
  - rewrite (p_skip_eq (CR :: LF :: s)). change (p_skip1 (CR :: LF :: s)) with (Some (LF :: s)). cbv iota.
    rewrite <- IHs; [reflexivity|cbn; lia|apply good_char; [discriminate|exact Hs]].
  - rewrite (p_skip_eq (unix (c :: s))), (p_skip_eq (c :: s)), skip1_unix by assumption.
    destruct (p_skip1 (c :: s)) as [r|] eqn:E; [|reflexivity]. cbn [omap].
    apply p_skip1_shorter in E as [E1 E2]. apply IHs; [exact E2|]. apply good_suffix with (1 := E1). now apply good_char.
Qed.

Definition commutes (f : str -> option str) : Prop := forall s, good s -> f (unix s) = omap unix (f s).

(** ** Strings *)
Ltac split_good H := destruct H as [|?s ?Hs|?c ?s ?Hc ?Hs]; [reflexivity|try solve [reflexivity | rewrite unix_crlf; match goal with |- context [unix ?s] => destruct (unix s) end; reflexivity]|].
Lemma x_char_unix : commutes p_x_char.
Proof.
  intros s H. split_good H. rewrite unix_char by assumption. split_good Hs.
  - rewrite unix_crlf. cbn [p_x_char]. change (is_hex_digit LF) with false. change (is_hex_digit CR) with false. now rewrite andb_false_r.
  - rewrite unix_char by assumption. cbn [p_x_char]. now destruct (_ && _).
Qed.
Lemma x_byte_unix : commutes p_x_byte.
Proof.
  intros s H. split_good H. rewrite unix_char by assumption. split_good Hs.
  - rewrite unix_crlf. cbn [p_x_byte]. change (is_hex_digit LF) with false. change (is_hex_digit CR) with false. now rewrite andb_false_r.
  - rewrite unix_char by assumption. cbn [p_x_byte]. now destruct (_ && _).
Qed.
Lemma x_nonzero_unix : commutes p_x_nonzero.
Proof.
  intros s H. split_good H. rewrite unix_char by assumption. split_good Hs.
  - rewrite unix_crlf. cbn [p_x_nonzero]. change (is_hex_digit LF) with false. change (is_hex_digit CR) with false. now rewrite andb_false_r.
  - rewrite unix_char by assumption. cbn [p_x_nonzero]. now destruct (_ && _).
Qed.
Definition fst_unix {A} (p : str * A) : str * A := (unix (fst p), snd p).
Lemma u_loop_unix s : good s -> forall v n, p_u_loop (unix s) v n = omap fst_unix (p_u_loop s v n).
Proof.
  induction 1 as [|s Hs IH|c s Hc Hs IH]; intros v n; [reflexivity|reflexivity|]. rewrite unix_char by exact Hc. cbn [p_u_loop].
  destruct (is_hex_digit c); [destruct (n =? 6)%nat; [reflexivity|apply IH]|].
  destruct (_ && _); [apply IH|]. destruct (_ && _); [|reflexivity]. now destruct (char_from_u32 v).
Qed.
Lemma u_unix s : good s -> p_u (unix s) = omap fst_unix (p_u s).
Proof.
  intros H. split_good H. rewrite unix_char by assumption. cbn [p_u]. destruct (_ =? _); [|reflexivity]. now apply u_loop_unix.
Qed.
Lemma esc_str_unix : commutes esc_str.
Proof.
  intros s H. split_good H. rewrite unix_char by assumption. cbn [esc_str]. destruct (_ =? _); [now apply x_char_unix|].
  destruct (simple_escape0 _); [reflexivity|]. destruct (_ =? _); [|reflexivity]. rewrite u_unix by assumption. now destruct (p_u s) as [[? ?]|].
Qed.
Lemma esc_byte_unix : commutes esc_byte.
Proof.
  intros s H. split_good H. rewrite unix_char by assumption. cbn [esc_byte]. destruct (_ =? _); [now apply x_byte_unix|].
  now destruct (simple_escape0 _).
Qed.
Lemma esc_c_unix : commutes esc_c.
Proof.
  intros s H. split_good H. rewrite unix_char by assumption. cbn [esc_c]. destruct (_ =? _); [now apply x_nonzero_unix|].
  destruct (simple_escape_c _); [reflexivity|]. destruct (_ =? _); [|reflexivity]. rewrite u_unix by assumption.
  destruct (p_u s) as [[r v]|]; [|reflexivity]. cbn [omap fst_unix fst snd]. now destruct (v =? NUL).
Qed.

Lemma trail_last l s : l <> CR -> p_trail l s = p_trail LF s.
Proof.
  intros H. destruct s as [|c t]; [reflexivity|]. cbn [p_trail]. destruct (N.eqb_spec l CR); [contradiction|]. reflexivity.
Qed.
Lemma trail_cr s : p_trail CR (LF :: s) = p_trail LF s.
Proof. destruct s; reflexivity. Qed.
Lemma trail_unix s : good s -> p_trail LF (unix s) = omap unix (p_trail LF s).
Proof.
  induction 1 as [|s Hs IH|c s Hc Hs IH]; [reflexivity|..].
  - change (p_trail LF (CR :: LF :: s)) with (p_trail CR (LF :: s)). rewrite trail_cr, <- IH. reflexivity.
  - rewrite unix_char by exact Hc. cbn [p_trail]. change (LF =? CR) with false. cbv iota.
    destruct (is_trail_ws c); [now rewrite !(trail_last c)|]. cbn [omap]. now rewrite unix_char.
Qed.

Lemma cooked_unix esc ok : esc_shrinks esc -> commutes esc -> ok LF = true -> commutes (p_cooked esc ok).
Proof.
  intros Sh Ce Ol s. remember (length s) as n eqn:En. revert s En. induction n as [n IH] using lt_wf_ind. intros s -> H.
  assert (IHs : forall r, (length r < length s)%nat -> good r -> p_cooked esc ok (unix r) = omap unix (p_cooked esc ok r)).
  { intros r Hr. eapply IH; [exact Hr|reflexivity]. }
  clear IH. rewrite (p_cooked_eq esc ok (unix s) Sh), (p_cooked_eq esc ok s Sh). destruct H as [|s Hs|c s Hc Hs]; [reflexivity|..].
  - rewrite unix_crlf. change (LF =? DQUOTE) with false. change (LF =? CR) with false. change (LF =? BACKSLASH) with false.
    change (CR =? DQUOTE) with false. change (CR =? CR) with true. change (LF =? LF) with true. cbv iota. rewrite Ol.
    apply IHs; [cbn; lia|exact Hs].
  - rewrite unix_char by exact Hc. destruct (c =? DQUOTE); [reflexivity|]. destruct (N.eqb_spec c CR); [contradiction|].
    destruct (c =? BACKSLASH).
    2:{ destruct (ok c); [|reflexivity]. apply IHs; [cbn; lia|exact Hs]. }
    destruct Hs as [|s Hs|b s Hb Hs]; [reflexivity|..].
    + rewrite unix_crlf. change ((LF =? LF) || (LF =? CR)) with true. change ((CR =? LF) || (CR =? CR)) with true. cbv iota.
      rewrite trail_cr, trail_unix by exact Hs. destruct (p_trail LF s) as [r|] eqn:E; [|reflexivity]. cbn [omap].
      apply p_trail_suffix in E. apply IHs; [apply suffix_length in E; cbn; lia|now apply good_suffix with s].
    + rewrite unix_char by exact Hb. destruct ((b =? LF) || (b =? CR)) eqn:E1.
      * rewrite !(trail_last b) by exact Hb. rewrite trail_unix by exact Hs. destruct (p_trail LF s) as [r|] eqn:E; [|reflexivity]. cbn [omap].
        apply p_trail_suffix in E. apply IHs; [apply suffix_length in E; cbn; lia|now apply good_suffix with s].
      * rewrite <- unix_char by exact Hb. rewrite Ce by now apply good_char. destruct (esc (b :: s)) as [r|] eqn:E; [|reflexivity]. cbn [omap].
        apply Sh in E as (x & y & Exy & E). injection Exy as <- <-. apply IHs; [apply suffix_length in E; cbn; lia|now apply good_suffix with s].
Qed.

Lemma delim_unix s : good s -> forall n, p_delim n (unix s) = omap (fun p => (fst p, unix (snd p))) (p_delim n s).
Proof.
  induction 1 as [|s Hs IH|c s Hc Hs IH]; intros n; [reflexivity|reflexivity|]. rewrite unix_char by exact Hc. cbn [p_delim].
  destruct (c =? DQUOTE); [now destruct (_ <? _)|]. destruct (_ =? _); [apply IH|reflexivity].
Qed.
Lemma hashes_plain n : plain (repeat "#"%ch n) = true.
Proof. induction n; [reflexivity|exact IHn]. Qed.
Lemma raw_unix ok d : plain d = true -> ok LF = true -> commutes (p_raw ok d).
Proof.
  intros Hd Ol s. induction 1 as [|s Hs IH|c s Hc Hs IH]; [reflexivity|..].
  - rewrite unix_crlf. cbn [p_raw]. change (LF =? DQUOTE) with false. change (LF =? CR) with false.
    change (CR =? DQUOTE) with false. change (CR =? CR) with true. change (LF =? LF) with true. cbn [andb]. cbv iota. now rewrite Ol.
  - rewrite unix_char by exact Hc. cbn [p_raw]. rewrite starts_unix by assumption. destruct (N.eqb_spec c CR); [contradiction|].
    destruct ((c =? DQUOTE) && starts_with s d) eqn:E.
    + apply andb_prop in E as [_ E]. cbn [omap]. f_equal. now apply skipn_unix.
    + destruct (ok c); [exact IH|reflexivity].
Qed.
Lemma raw_with_unix ok : ok LF = true -> commutes (p_raw_with ok).
Proof.
  intros Ol s H. unfold p_raw_with. rewrite delim_unix by exact H. destruct (p_delim 0 s) as [[n t]|] eqn:E; [|reflexivity]. cbn [omap fst snd].
  apply raw_unix; [apply hashes_plain|exact Ol|]. apply p_delim_suffix in E as (k & _ & E & _). apply good_suffix with s; [|exact H].
  exists (repeat "#"%ch k ++ [DQUOTE]). now rewrite <- app_assoc.
Qed.

Section WithUnicode.
Context {U : unicode}.
Hypothesis UO : unicode_ok U.

Lemma start_nl : is_ident_start LF = false /\ is_ident_start CR = false.
Proof using UO. split; rewrite (ident_start_ascii UO) by lia; reflexivity. Qed.
Lemma continue_nl : is_ident_continue LF = false /\ is_ident_continue CR = false.
Proof using UO. split; rewrite (ident_continue_ascii UO) by lia; reflexivity. Qed.

(** ** Words *)
Lemma continue_unix s : good s -> p_continue (unix s) = fst_unix (p_continue s).
Proof using UO.
  destruct continue_nl as [L C].
  induction 1 as [|s Hs IH|c s Hc Hs IH]; [reflexivity|..].
  - rewrite unix_crlf. cbn [p_continue]. rewrite L, C. reflexivity.
  - rewrite unix_char by exact Hc. cbn [p_continue]. destruct (is_ident_continue c).
    + rewrite IH. now destruct (p_continue s).
    + unfold fst_unix. cbn [fst snd]. now rewrite unix_char.
Qed.
Lemma not_raw_unix s : good s -> p_ident_not_raw (unix s) = omap fst_unix (p_ident_not_raw s).
Proof using UO.
  destruct start_nl as [L C]. intros H. destruct H as [|s Hs|c s Hc Hs]; [reflexivity|..].
  - rewrite unix_crlf. cbn [p_ident_not_raw]. now rewrite L, C.
  - rewrite unix_char by exact Hc. cbn [p_ident_not_raw]. destruct (is_ident_start c); [|reflexivity].
    rewrite continue_unix by exact Hs. now destruct (p_continue s).
Qed.
Lemma ident_any_unix s : good s -> p_ident_any (unix s) = omap fst_unix (p_ident_any s).
Proof using UO.
  intros H. unfold p_ident_any. rewrite starts_unix by (reflexivity || exact H). destruct (starts_with s (tag "r#")) eqn:E.
  - rewrite (skipn_unix (tag "r#") s eq_refl E : skipn 2 (unix s) = unix (skipn 2 s)).
    rewrite not_raw_unix by (apply good_suffix with s; [apply skipn_suffix|exact H]).
    destruct (p_ident_not_raw (skipn 2 s)) as [[r x]|]; [|reflexivity]. cbn [omap fst_unix fst snd]. now destruct (cannot_be_raw x).
  - rewrite not_raw_unix by exact H. now destruct (p_ident_not_raw s) as [[r x]|].
Qed.
Lemma ident_unix s : good s -> p_ident (unix s) = omap fst_unix (p_ident s).
Proof using UO.
  intros H. unfold p_ident. rewrite (existsb_ext (starts_with (unix s)) (starts_with s)).
  - destruct (existsb _ _); [reflexivity|]. now apply ident_any_unix.
  - intros x Hx. apply starts_unix; [|exact H]. cbn in Hx. decompose [or] Hx; subst; try contradiction; reflexivity.
Qed.
Lemma suffix_unix s : good s -> p_suffix (unix s) = unix (p_suffix s).
Proof using UO.
  intros H. unfold p_suffix. rewrite not_raw_unix by exact H. now destruct (p_ident_not_raw s) as [[r x]|].
Qed.

(** ** Numbers *)
Lemma mantissa_unix s : good s -> forall b, p_mantissa (unix s) b = omap (fun p => (fst p, unix (snd p))) (p_mantissa s b).
Proof using UO.
  destruct start_nl as [L C].
  induction 1 as [|s Hs IH|c s Hc Hs IH]; intros b; [reflexivity|reflexivity|]. rewrite unix_char by exact Hc. cbn [p_mantissa].
  destruct (_ || _); [apply IH|]. destruct (c =? "."%ch).
  - destruct b; [cbn [omap fst snd]; now rewrite unix_char|].
    destruct Hs as [|t Ht|d t Hd Ht].
    + apply IH.
    + rewrite unix_crlf in *. rewrite L, C. apply IH.
    + rewrite unix_char in * by exact Hd. destruct (_ || _); [reflexivity|apply IH].
  - destruct (_ || _); [reflexivity|]. cbn [omap fst snd]. now rewrite unix_char.
Qed.
Lemma mantissa_end_unix s : good s -> forall b, p_mantissa_end (unix s) b = unix (p_mantissa_end s b).
Proof using.
  induction 1 as [|s Hs IH|c s Hc Hs IH]; intros b; [reflexivity|reflexivity|]. rewrite unix_char by exact Hc. cbn [p_mantissa_end].
  destruct (_ || _); [apply IH|]. destruct (c =? "."%ch); [destruct b; [now rewrite unix_char|apply IH]|now rewrite unix_char].
Qed.
Lemma exponent_unix s : good s -> forall a b, p_exponent (unix s) a b = omap unix (p_exponent s a b).
Proof using.
  induction 1 as [|s Hs IH|c s Hc Hs IH]; intros a b; [now destruct b|now destruct b|].
  rewrite unix_char by exact Hc. cbn [p_exponent].
  assert (F : (if b then Some (c :: unix s) else None) = omap unix (if b then Some (c :: s) else None))
    by (destruct b; [cbn [omap]; now rewrite unix_char|reflexivity]).
  destruct (_ || _).
  - destruct b; [exact F|]. destruct a; [reflexivity|apply IH].
  - destruct (is_dec_digit c); [apply IH|]. destruct (_ =? _); [apply IH|exact F].
Qed.
Lemma mantissa_suffix s : forall b x y r, p_mantissa s b = Some (x, y, r) -> suffix r s.
Proof using.
  induction s as [|c t IH]; intros b x y r; cbn [p_mantissa]; [intros H; inv H; auto|].
  destruct (_ || _); [intros H; apply suffix_cons; eauto|]. destruct (c =? "."%ch).
  - destruct b; [intros H; inv H; auto|]. destruct t as [|d t]; [intros H; apply suffix_cons; eauto|].
    destruct (_ || _); [discriminate|intros H; apply suffix_cons; eauto].
  - destruct (_ || _); intros H; inv H; auto.
Qed.
Lemma float_digits_unix : commutes p_float_digits.
Proof using UO.
  intros s H. split_good H. rewrite unix_char by assumption. cbn [p_float_digits]. destruct (is_dec_digit c); [|reflexivity].
  rewrite mantissa_unix by exact Hs. destruct (p_mantissa s false) as [[[x y] r]|] eqn:E; [|reflexivity]. cbn [omap fst snd].
  destruct (negb _); [reflexivity|]. destruct y; [|reflexivity].
  rewrite exponent_unix by (apply good_suffix with s; [eapply mantissa_suffix, E|exact Hs]).
  destruct (p_exponent r false false); [reflexivity|]. cbn [omap]. destruct x; [|reflexivity]. cbn [omap]. f_equal. now apply mantissa_end_unix.
Qed.
Lemma word_break_unix : commutes p_word_break.
Proof using UO.
  destruct continue_nl as [L C]. intros s H. destruct H as [|s Hs|c s Hc Hs]; [reflexivity|..].
  - rewrite unix_crlf. cbn [p_word_break]. now rewrite L, C.
  - rewrite unix_char by exact Hc. cbn [p_word_break]. destruct (is_ident_continue c); [reflexivity|]. cbn [omap]. now rewrite unix_char.
Qed.
Lemma number_tail_unix : commutes p_number_tail.
Proof using UO.
  destruct start_nl as [L C]. intros s H. assert (G := H). destruct H as [|s Hs|c s Hc Hs]; [reflexivity|..].
  - rewrite unix_crlf. unfold p_number_tail. rewrite L, C. rewrite <- unix_crlf. now apply word_break_unix.
  - pose proof (suffix_unix _ G) as Su. pose proof (word_break_unix _ G) as W. rewrite unix_char in * by exact Hc. unfold p_number_tail.
    destruct (is_ident_start c); [|exact W]. rewrite Su. apply word_break_unix. apply good_suffix with (c :: s); [apply p_suffix_suffix|exact G].
Qed.
Lemma digits_loop_unix base s : good s -> forall e, p_digits_loop base (unix s) e = omap fst_unix (p_digits_loop base s e).
Proof using.
  induction 1 as [|s Hs IH|c s Hc Hs IH]; intros e; [reflexivity|reflexivity|]. rewrite unix_char by exact Hc. cbn [p_digits_loop].
  assert (F : Some (c :: unix s, e) = omap fst_unix (Some (c :: s, e))) by (unfold fst_unix; cbn [omap fst snd]; now rewrite unix_char).
  destruct (between _ _ _); [destruct (_ <=? _); [reflexivity|apply IH]|].
  destruct (between _ _ _); [destruct (_ <=? _); [exact F|apply IH]|].
  destruct (between _ _ _); [destruct (_ <=? _); [exact F|apply IH]|].
  destruct (_ =? _); [destruct (_ && _); [reflexivity|apply IH]|exact F].
Qed.
Lemma base_unix s : good s -> p_base (unix s) = fst_unix (p_base s).
Proof using.
  intros H. unfold p_base. rewrite !starts_unix by (reflexivity || exact H).
  destruct (starts_with s (tag "0x")) eqn:E1; [unfold fst_unix; cbn [fst snd]; f_equal; now apply (skipn_unix (tag "0x"))|].
  destruct (starts_with s (tag "0o")) eqn:E2; [unfold fst_unix; cbn [fst snd]; f_equal; now apply (skipn_unix (tag "0o"))|].
  destruct (starts_with s (tag "0b")) eqn:E3; [unfold fst_unix; cbn [fst snd]; f_equal; now apply (skipn_unix (tag "0b"))|].
  reflexivity.
Qed.
Lemma base_suffix s : suffix (fst (p_base s)) s.
Proof using. unfold p_base. repeat destruct (starts_with _ _); cbn [fst]; auto using skipn_suffix. Qed.
Lemma digits_unix : commutes p_digits.
Proof using.
  intros s H. unfold p_digits. rewrite base_unix by exact H. pose proof (base_suffix s) as Sx. destruct (p_base s) as [t b]. cbn [fst_unix fst snd] in *.
  rewrite digits_loop_unix by now apply good_suffix with s. destruct (p_digits_loop b t true) as [[r [|]]|]; reflexivity.
Qed.
Lemma commutes_bind f g : commutes f -> commutes g -> (forall s r, f s = Some r -> suffix r s) -> commutes (fun s => obind (f s) g).
Proof using.
  intros F G Sx s H. cbv beta. rewrite F by exact H. destruct (f s) as [r|] eqn:E; [|reflexivity]. cbn [omap obind]. apply G.
  apply good_suffix with s; [now apply Sx|exact H].
Qed.

(** ** Literals *)
Lemma closing_unix : commutes closing_quote.
Proof using.
  intros s H. split_good H. rewrite unix_char by assumption. cbn [closing_quote]. now destruct (c =? SQUOTE).
Qed.
(** A quotation mark with a CRLF and another one after it. *)
Definition crlf_quoted (s : str) : Prop := begins s quoted_crlf \/ begins s ("b"%ch :: quoted_crlf).
Lemma unit_unix (u : str -> option str) (esc : str -> option str) (ok : char -> bool) :
  (forall c t, u (c :: t) = if c =? BACKSLASH then esc t else if ok c then Some t else None) -> u [] = None ->
  ok CR = true -> ok LF = true -> commutes esc -> (forall s r, esc s = Some r -> suffix r s) ->
  forall s, good s -> ~ begins s [CR; LF; SQUOTE] -> obind (u (unix s)) closing_quote = omap unix (obind (u s) closing_quote).
Proof using.
  intros Uc Un Oc Ol Ce Se s H N. destruct H as [|s Hs|c s Hc Hs].
  - cbn [unix filter]. now rewrite Un.
  - rewrite unix_crlf, !Uc. change (LF =? BACKSLASH) with false. change (CR =? BACKSLASH) with false. cbv iota. rewrite Oc, Ol. cbn [obind].
    change (closing_quote (LF :: s)) with (@None str). rewrite closing_unix by exact Hs.
    destruct (closing_quote s) as [r|] eqn:E; [|reflexivity]. exfalso. apply N. unfold closing_quote in E. destruct s as [|d t]; [discriminate|].
    destruct (N.eqb_spec d SQUOTE) as [->|]; [|discriminate]. now exists t.
  - rewrite unix_char by exact Hc. rewrite !Uc. destruct (c =? BACKSLASH).
    + rewrite Ce by exact Hs. destruct (esc s) as [r|] eqn:E; [|reflexivity]. cbn [omap obind]. apply closing_unix. apply good_suffix with s; [eapply Se, E|exact Hs].
    + destruct (ok c); [|reflexivity]. cbn [obind]. now apply closing_unix.
Qed.
Lemma q_char_unix s : good s -> ~ crlf_quoted s -> q_char (unix s) = omap unix (q_char s).
Proof using.
  intros H N. unfold q_char. rewrite starts_unix by (reflexivity || exact H). destruct (starts_with s (tag "'")) eqn:E; [|reflexivity].
  rewrite (skipn_unix (tag "'") s eq_refl E : skipn 1 (unix s) = unix (skipn 1 s)).
  apply (unit_unix u_char esc_str (fun _ => true)); try reflexivity.
  - exact esc_str_unix.
  - intros x r X. apply esc_str_suffix in X as (c & t & -> & X). now apply suffix_cons.
  - apply good_suffix with s; [apply skipn_suffix|exact H].
  - intros (z & Z). apply N. left. exists z. apply starts_with_skipn in E. change (s = [SQUOTE] ++ skipn 1 s) in E. rewrite E, Z. reflexivity.
Qed.
Lemma q_byte_unix s : good s -> ~ crlf_quoted s -> q_byte (unix s) = omap unix (q_byte s).
Proof using.
  intros H N. unfold q_byte. rewrite starts_unix by (reflexivity || exact H). destruct (starts_with s (tag "b'")) eqn:E; [|reflexivity].
  rewrite (skipn_unix (tag "b'") s eq_refl E : skipn 2 (unix s) = unix (skipn 2 s)).
  apply (unit_unix u_byte esc_byte is_ascii); try reflexivity.
  - exact esc_byte_unix.
  - intros x r X. apply esc_byte_suffix in X as (c & t & -> & X). now apply suffix_cons.
  - apply good_suffix with s; [apply skipn_suffix|exact H].
  - intros (z & Z). apply N. right. exists z. apply starts_with_skipn in E. change (s = ["b"%ch; SQUOTE] ++ skipn 2 s) in E. rewrite E, Z. reflexivity.
Qed.
Lemma prefixed_unix (q f : str -> option str) (g : str -> option str) a b :
  plain a = true -> plain b = true ->
  (forall s, q s = if starts_with s a then f (skipn (length a) s) else if starts_with s b then g (skipn (length b) s) else None) ->
  commutes f -> commutes g -> commutes q.
Proof using.
  intros Ha Hb Q F G s H. rewrite !Q. rewrite !starts_unix by (assumption || exact H). destruct (starts_with s a) eqn:E1.
  - rewrite skipn_unix by assumption. apply F. apply good_suffix with s; [apply skipn_suffix|exact H].
  - destruct (starts_with s b) eqn:E2; [|reflexivity]. rewrite skipn_unix by assumption. apply G. apply good_suffix with s; [apply skipn_suffix|exact H].
Qed.
Lemma q_string_unix : commutes q_string.
Proof using.
  apply (prefixed_unix _ (p_cooked esc_str ok_any) (p_raw_with ok_any) (tag """") (tag "r")); try reflexivity.
  - apply cooked_unix; [exact esc_str_shrinks|exact esc_str_unix|reflexivity].
  - now apply raw_with_unix.
Qed.
Lemma q_byte_string_unix : commutes q_byte_string.
Proof using.
  apply (prefixed_unix _ (p_cooked esc_byte is_ascii) (p_raw_with is_ascii) (tag "b""") (tag "br")); try reflexivity.
  - apply cooked_unix; [exact esc_byte_shrinks|exact esc_byte_unix|reflexivity].
  - now apply raw_with_unix.
Qed.
Lemma q_c_string_unix : commutes q_c_string.
Proof using.
  apply (prefixed_unix _ (p_cooked esc_c ok_nonnul) (p_raw_with ok_nonnul) (tag "c""") (tag "cr")); try reflexivity.
  - apply cooked_unix; [exact esc_c_shrinks|exact esc_c_unix|reflexivity].
  - now apply raw_with_unix.
Qed.
Lemma orelse_unix (a b a' b' : option str) : a' = omap unix a -> b' = omap unix b -> orelse a' b' = omap unix (orelse a b).
Proof using. intros -> ->. now destruct a. Qed.
Lemma quoted_unix s : good s -> ~ crlf_quoted s -> p_quoted (unix s) = omap unix (p_quoted s).
Proof using.
  intros H N. unfold p_quoted. repeat apply orelse_unix.
  - now apply q_string_unix.
  - now apply q_byte_string_unix.
  - now apply q_c_string_unix.
  - now apply q_byte_unix.
  - now apply q_char_unix.
Qed.

Lemma float_unix : commutes p_float.
Proof using UO.
  apply commutes_bind; [exact float_digits_unix|exact number_tail_unix|]. intros s r E. now apply p_float_digits_asuffix, asuffix_suffix in E.
Qed.
Lemma int_unix : commutes p_int.
Proof using UO.
  apply commutes_bind; [exact digits_unix|exact number_tail_unix|]. intros s r E. now apply p_digits_asuffix, asuffix_suffix in E.
Qed.
Lemma literal_unix s : good s -> ~ crlf_quoted s -> p_literal (unix s) = omap unix (p_literal s).
Proof using UO.
  intros H N. unfold p_literal. repeat apply orelse_unix.
  - rewrite quoted_unix by assumption. destruct (p_quoted s) as [r|] eqn:E; [|reflexivity]. cbn [omap]. f_equal. apply suffix_unix.
    apply good_suffix with s; [now apply p_quoted_suffix|exact H].
  - now apply float_unix.
  - now apply int_unix.
Qed.

(** ** Puncts *)
Lemma punct_char_unix s : good s -> p_punct_char (unix s) = omap fst_unix (p_punct_char s).
Proof using.
  intros H. unfold p_punct_char. rewrite !starts_unix by (reflexivity || exact H). destruct (_ || _); [reflexivity|].
  split_good H. rewrite unix_char by assumption. now destruct (contains punct_recognized c).
Qed.
Lemma punct_char_suffix s r c : p_punct_char s = Some (r, c) -> suffix r s.
Proof using.
  unfold p_punct_char. destruct (_ || _); [discriminate|]. destruct s as [|d t]; [discriminate|]. destruct (contains _ _); [|discriminate].
  intros H. inv H. apply suffix_cons. auto.
Qed.
Lemma punct_unix s : good s -> p_punct (unix s) = omap fst_unix (p_punct s).
Proof using UO.
  intros H. unfold p_punct. rewrite punct_char_unix by exact H. destruct (p_punct_char s) as [[r c]|] eqn:E; [|reflexivity].
  apply punct_char_suffix in E. assert (G : good r) by now apply good_suffix with s. cbn [omap fst_unix fst snd].
  destruct (c =? SQUOTE).
  - rewrite ident_any_unix by exact G. destruct (p_ident_any r) as [[x y]|] eqn:I; [|reflexivity]. cbn [omap fst_unix fst snd].
    apply p_ident_any_suffix in I. assert (Gx : good x) by now apply good_suffix with r.
    rewrite !head_unix by (discriminate || exact Gx). rewrite starts_unix by (reflexivity || exact G). now destruct (_ || _).
  - rewrite punct_char_unix by exact G. now destruct (p_punct_char r).
Qed.

(** ** Leaves *)
Lemma prefix_unix s r : suffix r s -> prefix_of (unix s) (unix r) = unix (prefix_of s r).
Proof using. intros [p ->]. rewrite unix_app, !prefix_of_app'. reflexivity. Qed.
Lemma leaf_unix s : good s -> ~ crlf_quoted s ->
  match p_leaf s with
  | Some (r, k) => exists k', p_leaf (unix s) = Some (unix r, k') /\
      forall start src sp, same_tree start src (k sp) (k' (moved_span start src sp))
  | None => p_leaf (unix s) = None
  end.
Proof using UO.
  intros H N. unfold p_leaf at 1. unfold p_leaf. rewrite literal_unix by assumption. destruct (p_literal s) as [r|] eqn:E1; cbn [omap].
  { eexists. split; [reflexivity|]. intros. rewrite prefix_unix by now apply p_literal_suffix. constructor. }
  rewrite punct_unix by exact H. destruct (p_punct s) as [[r [c sg]]|]; cbn [omap fst_unix fst snd]; [eexists; split; [reflexivity|constructor]|].
  rewrite ident_unix by exact H. destruct (p_ident s) as [[r [sym raw]]|]; cbn [omap fst_unix fst snd]; [eexists; split; [reflexivity|constructor]|].
  rewrite starts_unix by (reflexivity || exact H). destruct (starts_with s ERROR) eqn:E; [|reflexivity].
  eexists. split; [rewrite skipn_unix by (reflexivity || exact E); reflexivity|]. intros. exact (same_literal start src ERROR sp).
Qed.
Lemma leaf_crlf s : crlf_quoted s -> p_leaf s = None /\
  exists l r, p_leaf (unix s) = Some (r, TLiteral l) /\ newline_literal l.
Proof using UO.
  destruct start_nl as [L C]. intros [[t ->]|[t ->]].
  - split.
    + unfold p_leaf. change (p_literal (quoted_crlf ++ t)) with (@None str). cbv iota.
      assert (p_punct (quoted_crlf ++ t) = None) as ->.
      { unfold p_punct. change (p_punct_char (quoted_crlf ++ t)) with (Some (CR :: LF :: SQUOTE :: t, SQUOTE)). cbv iota. change (SQUOTE =? SQUOTE) with true. cbv iota.
        unfold p_ident_any. change (starts_with (CR :: LF :: SQUOTE :: t) (tag "r#")) with false. cbv iota. cbn [p_ident_not_raw]. now rewrite C. }
      assert (p_ident (quoted_crlf ++ t) = None) as ->; [|reflexivity].
      unfold p_ident. change (existsb (starts_with (quoted_crlf ++ t)) ident_reject_prefixes) with false. cbv iota.
      unfold p_ident_any. change (starts_with (quoted_crlf ++ t) (tag "r#")) with false. cbv iota. cbn [p_ident_not_raw quoted_crlf app].
      rewrite (ident_start_ascii UO) by lia. reflexivity.
    + assert (E : p_literal (unix (quoted_crlf ++ t)) = Some (p_suffix (unix t))) by reflexivity.
      eexists _, _. split; [unfold p_leaf; rewrite E; reflexivity|]. apply p_literal_iff in E as (q & E & _); [|exact UO].
      rewrite E at 1. rewrite prefix_of_app'. left. change (unix (quoted_crlf ++ t)) with ([SQUOTE; LF; SQUOTE] ++ unix t) in E.
      destruct (p_suffix_suffix (unix t)) as [z Z]. rewrite Z in E at 1. rewrite app_assoc in E. apply app_inv_tail in E. exists z. now symmetry.
  - split; [reflexivity|].
    assert (E : p_literal (unix (("b"%ch :: quoted_crlf) ++ t)) = Some (p_suffix (unix t))) by reflexivity.
    eexists _, _. split; [unfold p_leaf; rewrite E; reflexivity|]. apply p_literal_iff in E as (q & E & _); [|exact UO].
    rewrite E at 1. rewrite prefix_of_app'. right. change (unix (("b"%ch :: quoted_crlf) ++ t)) with (["b"%ch; SQUOTE; LF; SQUOTE] ++ unix t) in E.
    destruct (p_suffix_suffix (unix t)) as [z Z]. rewrite Z in E at 1. rewrite app_assoc in E. apply app_inv_tail in E. exists z. now symmetry.
Qed.

(** ** Delimiters *)
Lemma open_unix s : good s -> open_delim (unix s) = omap (fun p => (fst p, unix (snd p))) (open_delim s).
Proof using.
  intros H. pose proof (starts_unix ERROR eq_refl _ H) as E. split_good H. rewrite unix_char in * by assumption. unfold open_delim. rewrite E.
  destruct (_ && _); [reflexivity|]. destruct (_ =? _); [reflexivity|]. now destruct (_ =? _).
Qed.
Lemma close_unix s : good s -> close_delim (unix s) = omap (fun p => (fst p, unix (snd p))) (close_delim s).
Proof using.
  intros H. split_good H. rewrite unix_char in * by assumption. unfold close_delim. destruct (_ =? _); [reflexivity|].
  destruct (_ =? _); [reflexivity|]. now destruct (_ =? _).
Qed.

(** ** Doc comments *)
Lemma line_no_cr s : good s -> ~ In CR (snd (p_line s)).
Proof using.
  induction 1 as [|s Hs IH|c s Hc Hs IH]; [intros []|intros []|]. cbn [p_line]. destruct (c =? LF); [intros []|].
  destruct (N.eqb_spec c CR); [contradiction|]. cbn [andb]. destruct (p_line s) as [r x]. cbn [snd] in *. intros [E|I]; auto.
Qed.
Lemma no_cr_unix x : ~ In CR x -> unix x = x.
Proof using.
  induction x as [|c x IH]; intros H; [reflexivity|]. rewrite unix_char by (intros ->; apply H; now left). rewrite IH; [reflexivity|].
  intros I. apply H. now right.
Qed.
Lemma unix_no_cr x : ~ In CR (unix x).
Proof using. intros I. apply filter_In in I as [_ I]. now rewrite N.eqb_refl in I. Qed.
Lemma no_cr_bare x : ~ In CR x -> bare_cr x = false.
Proof using.
  intros H. apply bare_false. intros (a & b & -> & _). apply H. apply in_or_app. right. now left.
Qed.
Lemma good_bare x y : good (x ++ y) -> ~ begins y [LF] -> bare_cr x = false.
Proof using.
  intros G N. apply bare_false. intros (a & b & -> & Hb). apply good_iff in G. rewrite <- app_assoc in G.
  destruct (G a (b ++ y) eq_refl) as (z & Z). destruct b as [|c b]; [apply N; now exists z|]. injection Z as -> _. apply Hb. now exists b.
Qed.
Lemma nested_ends w : nested w -> exists v, w = v ++ tag "*/".
Proof using.
  induction 1 as [|c w H [v ->] _ _|w1 w2 _ _ _ [v ->]]; [now exists []|now exists (c :: v)|].
  exists (tag "/*" ++ w1 ++ v). now rewrite <- !app_assoc.
Qed.
Lemma block_shape s r a : p_block 0 s = Some r -> starts_with s (tag "/*" ++ [a]) = true -> a = "!"%ch \/ (a = "*"%ch /\ starts_with s (tag "/**/") = false) ->
  exists x, s = tag "/*" ++ [a] ++ x ++ tag "*/" ++ r.
Proof using.
  intros B S A. apply starts_with_skipn in S. cbn [length app] in S. set (t := skipn 3 s) in *. rewrite S in B, A. cbn [app] in *.
  change (p_block 0 ("/"%ch :: "*"%ch :: a :: t)) with (p_block 1 (a :: t)) in B.
  apply p_block_nested in B as (w & r' & E & W & ->). destruct W as [|c w W N1 N2|w1 w2 W1 W2].
  - exfalso. cbn [app] in E. injection E as -> E. destruct A as [A|[_ A]]; [discriminate|]. rewrite E in A. discriminate A.
  - cbn [app] in E. injection E as -> E. destruct (nested_ends _ W) as [v ->]. exists v. rewrite S, E, <- app_assoc. reflexivity.
  - cbn [app] in E. injection E as -> E. destruct A as [A|[A _]]; discriminate A.
Qed.
Definition doc_unix_of (p : str * (str * bool)) : str * (str * bool) := (unix (fst p), (unix (fst (snd p)), snd (snd p))).
Lemma middle a (x : str) b : length a = 3%nat -> length b = 2%nat ->
  firstn (length (a ++ x ++ b) - 5) (skipn 3 (a ++ x ++ b)) = x.
Proof using.
  intros A B. replace (length (a ++ x ++ b) - 5)%nat with (length x) by (rewrite !app_length; lia).
  rewrite skipn_app, A, Nat.sub_diag. rewrite <- A, skipn_all. cbn [skipn app]. rewrite firstn_app, firstn_all, Nat.sub_diag, firstn_O. apply app_nil_r.
Qed.
Lemma block_contents s r a i : good s -> plain [a] = true -> p_block 0 s = Some r -> starts_with s (tag "/*" ++ [a]) = true ->
  a = "!"%ch \/ (a = "*"%ch /\ starts_with s (tag "/**/") = false) ->
  let c := fun s r => firstn (length (prefix_of s r) - 5) (skipn 3 (prefix_of s r)) in
  bare_cr (c s r) = false /\ Some (unix r, (c (unix s) (unix r), i)) = omap doc_unix_of (Some (r, (c s r, i))).
Proof using.
  intros G P B S A c. destruct (block_shape s r a B S A) as [x E]. unfold c.
  assert (E2 : s = (tag "/*" ++ [a] ++ x ++ tag "*/") ++ r) by (rewrite E, <- !app_assoc; reflexivity).
  assert (C : firstn (length (prefix_of s r) - 5) (skipn 3 (prefix_of s r)) = x).
  { rewrite E2, prefix_of_app'. exact (middle (tag "/*" ++ [a]) x (tag "*/") eq_refl eq_refl). }
  rewrite prefix_unix by (eexists; exact E2). rewrite C. split.
  - apply good_bare with (tag "*/" ++ r); [|intros (z & Z); discriminate Z]. apply good_suffix with s; [|exact G]. exists (tag "/*" ++ [a]).
    rewrite E. reflexivity.
  - unfold doc_unix_of. cbn [omap fst snd]. do 3 f_equal. rewrite E2, prefix_of_app', !unix_app, (unix_plain [a] P).
    exact (middle (tag "/*" ++ [a]) (unix x) (tag "*/") eq_refl eq_refl).
Qed.
Lemma doc_unix s : good s -> p_skip1 s = None -> p_doc (unix s) = omap doc_unix_of (p_doc s).
Proof using.
  intros G K. assert (E4 : starts_with s (tag "/**/") = false).
  { destruct s as [|c s]; [reflexivity|]. unfold p_skip1 in K. destruct (line_comment_start _); [discriminate|].
    now destruct (starts_with (c :: s) (tag "/**/")). }
  assert (B : forall r x i, p_doc_contents s = Some (r, (x, i)) -> bare_cr x = false /\ p_doc_contents (unix s) = omap doc_unix_of (Some (r, (x, i)))).
  2:{ unfold p_doc. destruct (p_doc_contents s) as [[r [x i]]|] eqn:E.
      - destruct (B r x i eq_refl) as [B1 B2]. rewrite B1, B2. cbn [omap doc_unix_of fst snd]. now rewrite (no_cr_bare _ (unix_no_cr x)).
      - clear B. revert E. unfold p_doc_contents. rewrite !starts_unix by (reflexivity || exact G).
        destruct (starts_with s (tag "//!")) eqn:S1; [destruct (p_line _); discriminate|].
        destruct (starts_with s (tag "/*!")) eqn:S2; [rewrite block_unix by exact G; destruct (p_block 0 s); [discriminate|reflexivity]|].
        destruct (starts_with s (tag "///")) eqn:S3.
        + rewrite (skipn_unix (tag "///") s eq_refl S3 : skipn 3 (unix s) = unix (skipn 3 s)).
          rewrite head_unix by (discriminate || (apply good_suffix with s; [apply skipn_suffix|exact G])).
          destruct (head_is _ _); [reflexivity|]. destruct (p_line _); discriminate.
        + destruct (starts_with s (tag "/**")) eqn:S5; [|reflexivity]. cbn [andb].
          rewrite (skipn_unix (tag "/**") s eq_refl S5 : skipn 3 (unix s) = unix (skipn 3 s)).
          rewrite head_unix by (discriminate || (apply good_suffix with s; [apply skipn_suffix|exact G])).
          destruct (negb _); [|reflexivity]. rewrite block_unix by exact G. destruct (p_block 0 s); [discriminate|reflexivity]. }
  assert (G3 : good (skipn 3 s)) by (apply good_suffix with s; [apply skipn_suffix|exact G]).
  assert (PL : forall i r x i0, (let (r, x) := p_line (skipn 3 s) in Some (r, (x, i))) = Some (r, (x, i0)) ->
    bare_cr x = false /\ (let (r, x) := p_line (unix (skipn 3 s)) in Some (r, (x, i))) = omap doc_unix_of (Some (r, (x, i0)))).
  { intros i r x i0. rewrite line_unix by exact G3. pose proof (line_no_cr _ G3) as C. destruct (p_line (skipn 3 s)) as [r' x']. cbn [fst snd] in *.
    intros H. inv H. split; [now apply no_cr_bare|]. unfold doc_unix_of. cbn [omap fst snd]. now rewrite (no_cr_unix x). }
  intros r x i. unfold p_doc_contents. rewrite !starts_unix by (reflexivity || exact G).
  destruct (starts_with s (tag "//!")) eqn:S1.
  { rewrite (skipn_unix (tag "//!") s eq_refl S1 : skipn 3 (unix s) = unix (skipn 3 s)). apply PL. }
  destruct (starts_with s (tag "/*!")) eqn:S2.
  { rewrite block_unix by exact G. destruct (p_block 0 s) as [r'|] eqn:E; [|discriminate]. intros H. inv H. cbn [omap].
    exact (block_contents s r "!"%ch true G eq_refl E S2 (or_introl eq_refl)). }
  destruct (starts_with s (tag "///")) eqn:S3.
  { rewrite (skipn_unix (tag "///") s eq_refl S3 : skipn 3 (unix s) = unix (skipn 3 s)). rewrite head_unix by (discriminate || exact G3).
    destruct (head_is _ _); [discriminate|]. apply PL. }
  destruct (starts_with s (tag "/**")) eqn:S5; [|discriminate]. cbn [andb].
  rewrite (skipn_unix (tag "/**") s eq_refl S5 : skipn 3 (unix s) = unix (skipn 3 s)). rewrite head_unix by (discriminate || exact G3).
  destruct (negb _); [|discriminate]. rewrite block_unix by exact G. destruct (p_block 0 s) as [r'|] eqn:E; [|discriminate]. intros H. inv H. cbn [omap].
  exact (block_contents s r "*"%ch false G eq_refl E S5 (or_intror (conj eq_refl E4))).
Qed.
End WithUnicode.
