(** * What text appended at the end does to the tokens before it.  Not a model of code. *)
From Verif Require Import Base BaseFacts Unicode Tokens Lexer PureLexer.
From Verif Require Import LexerEquiv LexerEquiv2 LexerEquiv3 LexerEquiv4 Grammar Stable Local.
From Verif Require Import SpecText SpecTree SpecLit SpecGrammar SpecAppend Spans Balance LexemeProofs SpacingProofs.

Section WithUnicode.
Context {U : unicode} (UO : unicode_ok U).
Local Arguments contains : simpl never.
Local Arguments punct_recognized : simpl never.
Local Arguments is_ident_start : simpl never.
Local Arguments is_ident_continue : simpl never.
Local Arguments cannot_be_raw : simpl never.

(** ** Words *)
Lemma continue_more s r x u : p_continue s = (r, x) -> r <> [] -> p_continue (s ++ u) = (r ++ u, x).
Proof.
  revert r x. induction s as [|c t IH]; intros r x H N; cbn in *; [inv H; now elim N|].
  destruct (is_ident_continue c).
  - destruct (p_continue t) as [a b] eqn:E. inv H. now rewrite (IH _ _ eq_refl N).
  - now inv H.
Qed.
Lemma not_raw_more s r x u : p_ident_not_raw s = Some (r, x) -> r <> [] -> p_ident_not_raw (s ++ u) = Some (r ++ u, x).
Proof.
  unfold p_ident_not_raw. destruct s as [|c t]; [discriminate|]. cbn. destruct (is_ident_start c); [|discriminate].
  destruct (p_continue t) as [a b] eqn:E. intros H N. inv H. now rewrite (continue_more _ _ _ u E N).
Qed.
Lemma ident_any_more s r x u : p_ident_any s = Some (r, x) -> r <> [] -> p_ident_any (s ++ u) = Some (r ++ u, x).
Proof.
  unfold p_ident_any. intros H N. destruct (starts_with s (tag "r#")) eqn:E.
  - rewrite (starts_with_app_l _ u _ E). rewrite skipn_starts by (now apply starts_with_len in E).
    destruct (p_ident_not_raw (skipn 2 s)) as [[a b]|] eqn:F; [|discriminate].
    destruct (cannot_be_raw b) eqn:C; [discriminate|]. inv H.
    rewrite (not_raw_more _ _ _ u F N). now rewrite C.
  - destruct (p_ident_not_raw s) as [[a b]|] eqn:F; [|discriminate]. inv H.
    rewrite (not_raw_more _ _ _ u F N).
    destruct (starts_with (s ++ u) (tag "r#")) eqn:G; [|reflexivity]. exfalso.
    destruct s as [|c [|d s]]; [discriminate| |].
    + cbn in F. destruct (is_ident_start c); [inv F; now elim N|discriminate].
    + rewrite starts_with_app_long in G by (cbn; lia). congruence.
Qed.
Lemma suffix_more s u : p_suffix s <> [] -> p_suffix (s ++ u) = p_suffix s ++ u.
Proof.
  unfold p_suffix. destruct (p_ident_not_raw s) as [[a b]|] eqn:E; intros N.
  - now rewrite (not_raw_more _ _ _ u E N).
  - destruct s as [|c t]; [now elim N|]. cbn in *. destruct (is_ident_start c); [|reflexivity].
    destruct (p_continue t); discriminate.
Qed.
Lemma number_tail_more s r u : p_number_tail s = Some r -> r <> [] -> p_number_tail (s ++ u) = Some (r ++ u).
Proof.
  destruct s as [|c t]; cbn [p_number_tail app]; intros H N; [inv H; now elim N|].
  destruct (is_ident_start c).
  - change (c :: t ++ u) with ((c :: t) ++ u). rewrite suffix_more.
    + destruct (p_suffix (c :: t)) as [|d x]; cbn in *; [inv H; now elim N|].
      destruct (is_ident_continue d); [discriminate|]. now inv H.
    + intros E. rewrite E in H. cbn in H. inv H. now elim N.
  - cbn in *. destruct (is_ident_continue c); [discriminate|]. now inv H.
Qed.

(** ** Numbers *)
Lemma mantissa_none s u : forall hd, p_mantissa s hd = None -> p_mantissa (s ++ u) hd = None.
Proof.
  induction s as [|c t IH]; intros hd H; cbn in *; [discriminate|].
  destruct (_ || _); [now apply IH|]. destruct (c =? "."%ch)%N.
  - destruct hd; [discriminate|]. destruct t as [|c2 t']; [discriminate|]. cbn [app].
    destruct (_ || _); [reflexivity|]. now apply IH.
  - destruct (_ || _); discriminate.
Qed.
Lemma mantissa_more s u : forall hd d e r, p_mantissa s hd = Some (d, e, r) -> e = true \/ r <> [] ->
  p_mantissa (s ++ u) hd = Some (d, e, r ++ u).
Proof.
  induction s as [|c t IH]; intros hd d e r H N; cbn in *.
  - inv H. destruct N as [N|N]; [discriminate|now elim N].
  - destruct (_ || _); [now apply IH|]. destruct (c =? "."%ch)%N.
    + destruct hd; [now inv H|]. destruct t as [|c2 t'].
      * cbn in H. inv H. destruct N as [N|N]; [discriminate|now elim N].
      * cbn [app]. destruct (_ || _); [discriminate|]. now apply IH.
    + destruct (_ || _); now inv H.
Qed.
(** Underscores, at most one sign among them. *)
Fixpoint open_exponent (s : str) (sign : bool) : bool :=
  match s with
  | [] => true
  | c :: t => if (c =? "_"%ch)%N then open_exponent t sign
              else if (c =? "+"%ch)%N || (c =? "-"%ch)%N then negb sign && open_exponent t true else false
  end.
Lemma exponent_more s u : forall a b z, p_exponent s a b = Some z -> z <> [] -> p_exponent (s ++ u) a b = Some (z ++ u).
Proof.
  induction s as [|c t IH]; intros a b z H N; cbn in *; [destruct b; [inv H; now elim N|discriminate]|].
  destruct (_ || _). { destruct b; [now inv H|]. destruct a; [discriminate|now apply IH]. }
  destruct (is_dec_digit c); [now apply IH|]. destruct (_ =? _)%N; [now apply IH|]. destruct b; now inv H.
Qed.
Lemma exponent_none s u : forall a, p_exponent s a false = None -> open_exponent s a = false -> p_exponent (s ++ u) a false = None.
Proof.
  induction s as [|c t IH]; intros a H O; [discriminate|]. cbn [app p_exponent open_exponent] in *.
  destruct (N.eqb_spec c "_"%ch) as [->|NE].
  { cbn in *. now apply IH. }
  destruct (_ || _). { destruct a; [reflexivity|now apply IH]. }
  destruct (is_dec_digit c); [|reflexivity].
  exfalso. revert H. apply p_exponent_value.
Qed.
Lemma digits_loop_more base s u : forall e r e', p_digits_loop base s e = Some (r, e') -> r <> [] ->
  p_digits_loop base (s ++ u) e = Some (r ++ u, e').
Proof.
  induction s as [|b t IH]; intros e r e' H N; cbn in *; [inv H; now elim N|].
  destruct (between _ _ _). { destruct (_ <=? _)%N; [discriminate|now apply IH]. }
  destruct (between _ _ _). { destruct (_ <=? _)%N; [now inv H|now apply IH]. }
  destruct (between _ _ _). { destruct (_ <=? _)%N; [now inv H|now apply IH]. }
  destruct (_ =? _)%N; [|now inv H]. destruct (_ && _); [discriminate|now apply IH].
Qed.
Lemma base_more s u : 2 <= length s -> p_base (s ++ u) = let (r, b) := p_base s in (r ++ u, b).
Proof.
  intros L. unfold p_base. rewrite !starts_with_app_long by (cbn; lia).
  destruct (starts_with s (tag "0x")); [now rewrite skipn_starts by exact L|].
  destruct (starts_with s (tag "0o")); [now rewrite skipn_starts by exact L|].
  destruct (starts_with s (tag "0b")); [now rewrite skipn_starts by exact L|]. reflexivity.
Qed.
Lemma digit_between c : is_dec_digit c = true -> between "0"%ch c "9"%ch = true /\ (10 <=? c - "0"%ch)%N = false.
Proof. unfold is_dec_digit, between. intros H. split; [exact H|lia]. Qed.
Lemma int_more s r u : p_int s = Some r -> r <> [] -> p_int (s ++ u) = Some (r ++ u).
Proof.
  unfold p_int. destruct (p_digits s) as [z|] eqn:E; [|discriminate]. cbn. intros H N.
  assert (Z : z <> []). { intros ->. cbn in H. inv H. now elim N. }
  assert (D : p_digits (s ++ u) = Some (z ++ u)).
  { destruct (p_digits_first _ _ E) as (c & t & -> & D). destruct t as [|c' t].
    - exfalso. apply Z. destruct (digit_between _ D) as [D1 D2]. revert E. unfold p_digits, p_base. cbn [starts_with].
      rewrite !andb_false_r. cbn [p_digits_loop]. rewrite D1, D2. now intros [= <-].
    - unfold p_digits in *. rewrite base_more by (cbn; lia). destruct (p_base (c :: c' :: t)) as [x b].
      destruct (p_digits_loop b x true) as [[y [|]]|] eqn:F; try discriminate. inv E.
      now rewrite (digits_loop_more _ _ u _ _ _ F Z). }
  rewrite D. cbn. now apply number_tail_more.
Qed.
Lemma number_tail_none s u : p_number_tail s = None -> p_number_tail (s ++ u) = None.
Proof.
  destruct s as [|c t]; cbn [p_number_tail app]; intros H; [discriminate|].
  destruct (is_ident_start c).
  - change (c :: t ++ u) with ((c :: t) ++ u). rewrite suffix_more.
    + destruct (p_suffix (c :: t)) as [|d x]; cbn in *; [discriminate|]. destruct (is_ident_continue d); [reflexivity|discriminate].
    + intros E. now rewrite E in H.
  - cbn in *. destruct (is_ident_continue c); [reflexivity|discriminate].
Qed.
Lemma mantissa_dot s : forall d e r, p_mantissa s true = Some (d, e, r) -> d = true.
Proof.
  induction s as [|c t IH]; intros d e r H; cbn in *; [now inv H|].
  destruct (_ || _); [now apply IH in H|]. destruct (c =? "."%ch)%N; [now inv H|]. destruct (_ || _); now inv H.
Qed.
(** A mantissa without a point is read by [digits], up to the same place. *)
Lemma mantissa_digits s : forall e x b z b', p_mantissa s false = Some (false, e, x) ->
  p_digits_loop 10 s b = Some (z, b') -> e = true \/ x = [] ->
  (e = true /\ exists l, (l = "e"%ch \/ l = "E"%ch) /\ z = l :: x) \/ (e = false /\ z = []).
Proof.
  induction s as [|c t IH]; intros e x b z b' H G X; cbn [p_mantissa p_digits_loop] in *.
  - inv H. inv G. now right.
  - destruct (is_dec_digit c) eqn:D.
    + destruct (digit_between _ D) as [D1 D2]. rewrite D1, D2 in G. cbn [orb] in H. eauto.
    + change (between "0"%ch c "9"%ch) with (is_dec_digit c) in G. rewrite D in G. cbn [orb] in H.
      destruct (N.eqb_spec c "_"%ch) as [->|NU].
      { cbn in G. destruct b; [discriminate|]. exact (IH _ _ _ _ _ H G X). }
      destruct (N.eqb_spec c "."%ch) as [->|ND].
      { destruct t as [|c2 t'].
        - apply mantissa_dot in H. discriminate.
        - destruct (_ || _); [discriminate|]. apply mantissa_dot in H. discriminate. }
      destruct ((c =? "e"%ch)%N || (c =? "E"%ch)%N) eqn:E.
      { inv H. left. split; [reflexivity|]. exists c. apply orb_true_iff in E. rewrite !N.eqb_eq in E.
        split; [exact E|]. destruct E as [-> | ->]; cbn in G; now inv G. }
      inv H. destruct X as [X|X]; discriminate.
Qed.
Lemma mantissa_base c t d e x : p_mantissa t false = Some (d, e, x) -> e = true \/ x = [] -> is_dec_digit c = true ->
  p_base (c :: t) = (c :: t, 10%N).
Proof.
  intros H X D. unfold p_base. destruct t as [|c2 t]; [cbn [starts_with]; now rewrite !andb_false_r|].
  assert (E : c2 <> "x"%ch /\ c2 <> "o"%ch /\ c2 <> "b"%ch).
  { repeat split; intros ->; cbn in H; inv H; destruct X as [X|X]; discriminate. }
  destruct E as (E1 & E2 & E3). cbn [starts_with].
  repeat match goal with |- context [(c2 =? ?b)%N] => destruct (N.eqb_spec c2 b); [congruence|] end.
  repeat match goal with |- context [(?b =? c2)%N] => destruct (N.eqb_spec b c2); [congruence|] end.
  cbn. now rewrite ?andb_false_r.
Qed.
Lemma mantissa_mark s u : forall hd d x, p_mantissa s hd = Some (d, true, x) ->
  p_mantissa_end (s ++ u) hd = p_mantissa_end s hd ++ u /\ exists l, (l = "e"%ch \/ l = "E"%ch) /\ p_mantissa_end s hd = l :: x.
Proof.
  induction s as [|c t IH]; intros hd d x H; cbn [p_mantissa p_mantissa_end app] in *; [discriminate|].
  destruct (_ || _); [eauto|]. destruct (c =? "."%ch)%N.
  - destruct hd; [discriminate|]. destruct t as [|c2 t'].
    + discriminate.
    + destruct (_ || _); [discriminate|]. eauto.
  - destruct (_ || _) eqn:E; [|discriminate]. inv H. split; [reflexivity|]. exists c.
    apply orb_true_iff in E. rewrite !N.eqb_eq in E. auto.
Qed.

Definition sign_tail (r : str) : Prop :=
  exists c us, r = c :: us /\ (c = "+"%ch \/ c = "-"%ch) /\ Forall (fun c => c = "_"%ch) us.
Lemma open_signed s : open_exponent s true = true -> Forall (fun c => c = "_"%ch) s.
Proof.
  induction s as [|c t IH]; cbn; [constructor|]. destruct (N.eqb_spec c "_"%ch) as [->|]; [constructor; auto|].
  destruct (_ || _); discriminate.
Qed.
Lemma open_continue s : open_exponent s false = true -> exists r x, p_continue s = (r, x) /\ (r = [] \/ sign_tail r).
Proof using UO.
  induction s as [|c t IH]; cbn; [eauto|]. destruct (N.eqb_spec c "_"%ch) as [->|].
  - intros O. destruct (IH O) as (r & x & E & R). rewrite (us_continue UO), E. eauto.
  - destruct ((c =? "+"%ch)%N || (c =? "-"%ch)%N) eqn:E; [|discriminate]. cbn. intros O.
    apply orb_true_iff in E. rewrite !N.eqb_eq in E.
    assert (C : is_ident_continue c = false).
    { destruct E as [-> | ->]; rewrite (ident_continue_ascii UO) by reflexivity; reflexivity. }
    rewrite C. eexists _, _. split; [reflexivity|]. right. exists c, t. split; [reflexivity|]. split; [exact E|]. now apply open_signed.
Qed.
Lemma open_tail l x r : l = "e"%ch \/ l = "E"%ch -> open_exponent x false = true -> p_number_tail (l :: x) = Some r ->
  r = [] \/ sign_tail r.
Proof using UO.
  intros L O H. destruct (open_continue _ O) as (r' & y & E & R).
  assert (S : is_ident_start l = true). { destruct L as [-> | ->]; rewrite (ident_start_ascii UO) by reflexivity; reflexivity. }
  cbn in H. rewrite S in H. unfold p_suffix in H. cbn in H. rewrite S, E in H.
  destruct r' as [|c r']; cbn in H; [inv H; now left|]. destruct (is_ident_continue c); [discriminate|]. now inv H.
Qed.

Lemma number_more s r : orelse (p_float s) (p_int s) = Some r -> r = [] \/ sign_tail r \/
  forall u, orelse (p_float (s ++ u)) (p_int (s ++ u)) = Some (r ++ u).
Proof using UO.
  intros H. destruct r as [|rc rt]; [now left|]. right.
  set (r := rc :: rt) in *. assert (N : r <> []) by discriminate. clearbody r.
  assert (F : exists c t, s = c :: t /\ is_dec_digit c = true).
  { apply orelse_some in H as [H|[_ H]]; [eapply p_float_first|eapply p_int_first]; eauto. }
  destruct F as (c & t & -> & D).
  (* if the float part settles, so does all *)
  assert (K1 : forall x, p_float_digits (c :: t) = Some x -> x = [] \/ (forall u, p_float_digits ((c :: t) ++ u) = Some (x ++ u)) ->
     forall u, orelse (p_float ((c :: t) ++ u)) (p_int ((c :: t) ++ u)) = Some (r ++ u)).
  { intros x E X u. unfold p_float in H at 1. rewrite E in H. cbn [obind] in H.
    destruct X as [->|X]; [cbn in H; inv H; now elim N|].
    unfold p_float at 1. rewrite X. cbn [obind]. destruct (p_number_tail x) as [y|] eqn:T.
    - cbn in H. inv H. now rewrite (number_tail_more _ _ u T N).
    - rewrite (number_tail_none _ u T). cbn [orelse] in *. exact (int_more _ _ u H N). }
  assert (K2 : p_float_digits (c :: t) = None -> (forall u, p_float_digits ((c :: t) ++ u) = None) ->
     forall u, orelse (p_float ((c :: t) ++ u)) (p_int ((c :: t) ++ u)) = Some (r ++ u)).
  { intros E X u. unfold p_float in *. rewrite X. rewrite E in H. cbn [obind orelse] in *. exact (int_more _ _ u H N). }
  destruct (p_mantissa t false) as [[[d e] x]|] eqn:M.
  2: { right. apply K2; cbn; rewrite D; [now rewrite M|]. intros u. now rewrite (mantissa_none _ u _ M). }
  destruct e.
  - assert (MU : forall u, p_mantissa (t ++ u) false = Some (d, true, x ++ u)) by (intros u; apply (mantissa_more _ u _ _ _ _ M); auto).
    destruct (p_exponent x false false) as [z|] eqn:X.
    + right. apply (K1 z).
      * cbn. rewrite D, M, X. now destruct d.
      * destruct z as [|zc z]; [now left|right]. intros u. cbn [app p_float_digits]. rewrite D, MU.
        rewrite (exponent_more _ u _ _ _ X) by discriminate. now destruct d.
    + destruct (mantissa_mark _ [] _ _ _ M) as (_ & l & L & ME).
      destruct (open_exponent x false) eqn:O.
      * left. destruct d.
        -- unfold p_float in H at 1. cbn [p_float_digits] in H. rewrite D, M, X, ME in H. cbn [negb orb obind] in H.
           destruct (p_number_tail (l :: x)) as [y|] eqn:T; cbn in H.
           ++ inv H. destruct (open_tail _ _ _ L O T) as [->|S]; [now elim N|exact S].
           ++ exfalso. destruct (open_continue _ O) as (r' & y & E & R).
              assert (S : is_ident_start l = true). { destruct L as [-> | ->]; rewrite (ident_start_ascii UO) by reflexivity; reflexivity. }
              unfold p_number_tail in T. rewrite S in T. unfold p_suffix in T. cbn in T. rewrite S, E in T.
              destruct R as [->|(sc & us & -> & SC & _)]; cbn in T; [discriminate|].
              assert (C : is_ident_continue sc = false).
              { destruct SC as [-> | ->]; rewrite (ident_continue_ascii UO) by reflexivity; reflexivity. }
              now rewrite C in T.
        -- assert (FN : p_float (c :: t) = None). { unfold p_float. cbn [p_float_digits]. rewrite D, M, X. reflexivity. }
           rewrite FN in H. cbn [orelse] in H. unfold p_int, p_digits in H.
           rewrite (mantissa_base _ _ _ _ _ M (or_introl eq_refl) D) in H.
           destruct (digit_between _ D) as [D1 D2]. cbn [p_digits_loop] in H. rewrite D1, D2 in H.
           destruct (p_digits_loop 10 t false) as [[z b]|] eqn:G; [|discriminate]. destruct b; [discriminate|]. cbn [obind] in H.
           destruct (mantissa_digits _ _ _ _ _ _ M G (or_introl eq_refl)) as [(_ & l' & L' & ->)|[? _]]; [|discriminate].
           destruct (open_tail _ _ _ L' O H) as [->|S]; [now elim N|exact S].
      * right. assert (XU : forall u, p_exponent (x ++ u) false false = None) by (intros u; now apply exponent_none).
        destruct d.
        -- apply (K1 (p_mantissa_end t false)).
           ++ cbn. rewrite D, M, X. reflexivity.
           ++ right. intros u. cbn [app p_float_digits]. rewrite D, MU, XU. cbn. now rewrite (proj1 (mantissa_mark _ u _ _ _ M)).
        -- apply K2; [cbn; rewrite D, M, X; reflexivity|]. intros u. cbn [app p_float_digits]. rewrite D, MU, XU. reflexivity.
  - destruct x as [|xc x].
    + exfalso. destruct d.
      * unfold p_float in H at 1. cbn [p_float_digits] in H. rewrite D, M in H. cbn in H. inv H. now elim N.
      * assert (FN : p_float (c :: t) = None). { unfold p_float. cbn [p_float_digits]. rewrite D, M. reflexivity. }
        rewrite FN in H. cbn [orelse] in H. unfold p_int, p_digits in H.
        rewrite (mantissa_base _ _ _ _ _ M (or_intror eq_refl) D) in H.
        destruct (digit_between _ D) as [D1 D2]. cbn [p_digits_loop] in H. rewrite D1, D2 in H.
        destruct (p_digits_loop 10 t false) as [[z b]|] eqn:G; [|discriminate]. destruct b; [discriminate|]. cbn [obind] in H.
        destruct (mantissa_digits _ _ _ _ _ _ M G (or_intror eq_refl)) as [[? _]|[_ ->]]; [discriminate|]. cbn in H. inv H. now elim N.
    + right. assert (MU : forall u, p_mantissa (t ++ u) false = Some (d, false, (xc :: x) ++ u)).
      { intros u; apply (mantissa_more _ u _ _ _ _ M); right; discriminate. }
      destruct d.
      * apply (K1 (xc :: x)); [cbn; now rewrite D, M|]. right. intros u. cbn [app p_float_digits]. rewrite D, MU. reflexivity.
      * apply K2; [cbn; now rewrite D, M|]. intros u. cbn [app p_float_digits]. rewrite D, MU. reflexivity.
Qed.

(** ** Leaves *)
Lemma literal_more s r : p_literal s = Some r -> r = [] \/ sign_tail r \/ forall u, p_literal (s ++ u) = Some (r ++ u).
Proof using UO.
  unfold p_literal. intros H. destruct (p_quoted s) as [x|] eqn:E; cbn [omap orelse] in H.
  - inv H. destruct (p_suffix x) as [|c t] eqn:S; [now left|right; right]. intros u.
    rewrite (p_quoted_app _ u _ E). cbn [omap orelse]. rewrite suffix_more by (rewrite S; discriminate). now rewrite S.
  - destruct (number_more _ _ H) as [R|[R|R]]; [now left|now right; left|right; right]. intros u.
    assert (F : exists c t, s = c :: t /\ is_dec_digit c = true).
    { apply orelse_some in H as [H|[_ H]]; [eapply p_float_first|eapply p_int_first]; eauto. }
    destruct F as (c & t & -> & D). cbn [app]. rewrite p_quoted_digit by exact D. exact (R u).
Qed.
Lemma punct_char_more s r c : p_punct_char s = Some (r, c) -> r <> [] -> forall u, p_punct_char (s ++ u) = Some (r ++ u, c).
Proof.
  intros H N u. pose proof (p_punct_char_inv _ _ _ H) as [-> C]. destruct r as [|d r]; [now elim N|].
  unfold p_punct_char in *. rewrite !starts_with_app_long by (cbn; lia). destruct (_ || _); [discriminate|].
  cbn [app] in *. now rewrite C in *.
Qed.
Lemma punct_more s r c sg : p_punct s = Some (r, (c, sg)) ->
  r = [] \/ (c = SQUOTE /\ sg = Joint /\ exists x, p_ident_any r = Some ([], x)) \/ (c <> SQUOTE /\ sg = Joint /\ r = tag "/") \/
  forall u, p_punct (s ++ u) = Some (r ++ u, (c, sg)).
Proof.
  unfold p_punct. intros H. destruct (p_punct_char s) as [[a b]|] eqn:E; [|discriminate].
  assert (R : a = r) by (destruct (_ =? _)%N; [destruct (p_ident_any a) as [[? ?]|]; [|discriminate]; destruct (_ || _); [discriminate|]|]; now inv H).
  subst a. destruct r as [|d r]; [now left|]. right. set (r0 := d :: r) in *.
  assert (N : r0 <> []) by discriminate.
  destruct (N.eqb_spec b SQUOTE) as [->|NQ].
  - destruct (p_ident_any r0) as [[af x]|] eqn:I; [|discriminate]. destruct (_ || _) eqn:F; [discriminate|]. inv H.
    destruct af as [|ac af]; [left; eauto|]. right; right. intros u.
    rewrite (punct_char_more _ _ _ E N). rewrite (ident_any_more _ _ _ u I) by discriminate.
    replace (starts_with (r0 ++ u) (tag "r#")) with (starts_with r0 (tag "r#")); [cbn [app head_is] in *; now rewrite F|].
    destruct r as [|d2 r]; [|now rewrite starts_with_app_long by (cbn; lia)].
    exfalso. subst r0. revert I. unfold p_ident_any, p_ident_not_raw. cbn [starts_with]. rewrite !andb_false_r.
    destruct (is_ident_start d); [|discriminate]. cbn. discriminate.
  - right. assert (b = c) by now inv H. subst b. destruct r as [|d2 r].
    + destruct (N.eqb_spec d "/"%ch) as [->|ND].
      * left. inv H. split; [exact NQ|]. split; reflexivity.
      * right. intros u. rewrite (punct_char_more _ _ _ E N). destruct (N.eqb_spec c SQUOTE); [congruence|].
        inv H. subst r0. cbn [app]. do 3 f_equal. unfold p_punct_char. cbn [starts_with].
        destruct (N.eqb_spec "/"%ch d); [congruence|]. cbn. now destruct (contains _ d).
    + right. intros u. rewrite (punct_char_more _ _ _ E N). destruct (N.eqb_spec c SQUOTE); [congruence|].
      inv H. do 3 f_equal. unfold p_punct_char. rewrite !starts_with_app_long by (cbn; lia).
      subst r0. cbn [app]. destruct (_ || _); [reflexivity|]. now destruct (contains _ d).
Qed.
Lemma ident_more s r x : p_ident s = Some (r, x) -> r <> [] -> forall u, p_ident (s ++ u) = Some (r ++ u, x).
Proof using UO.
  unfold p_ident. intros H N u. destruct (existsb _ _) eqn:E; [discriminate|].
  rewrite (ident_any_more _ _ _ u H N). replace (existsb _ _) with false; [reflexivity|]. symmetry.
  destruct s as [|c1 [|c2 [|c3 s]]].
  - discriminate.
  - exfalso. unfold p_ident_any in H. cbn [starts_with] in H. rewrite andb_false_r in H. cbn in H.
    destruct (is_ident_start c1); [inv H; now elim N|discriminate].
  - apply not_true_is_false. intros X. apply existsb_exists in X as (p & P & S).
    destruct (Nat.leb_spec (length p) 2) as [L|L].
    + rewrite starts_with_app_long in S by exact L.
      assert (Y : existsb (starts_with [c1; c2]) ident_reject_prefixes = true) by (apply existsb_exists; eauto). congruence.
    + assert (Q : c1 = "r"%ch /\ c2 = "#"%ch \/ c2 = "r"%ch).
      { apply starts_with_spec in S as [w S]. repeat (destruct P as [<-|P]; [cbn in L; try lia; inv S; auto|]). destruct P. }
      destruct Q as [[-> ->]| ->].
      * cbn in H. discriminate.
      * unfold p_ident_any in H. cbn [starts_with] in H. rewrite andb_false_r in H. cbn in H.
        assert (C : is_ident_continue "r"%ch = true) by (rewrite (ident_continue_ascii UO) by reflexivity; reflexivity).
        rewrite C in H. destruct (is_ident_start c1); [inv H; now elim N|discriminate].
  - rewrite <- E. apply existsb_ext. intros p P. apply starts_with_app_long. cbn [length].
    assert (forall q, In q ident_reject_prefixes -> length q <= 3) by (apply Forall_forall; repeat constructor). specialize (H0 _ P). lia.
Qed.
Lemma leaf_more s r k : p_leaf s = Some (r, k) ->
  r = [] \/
  (exists x, k = TPunct SQUOTE Joint /\ p_ident_any r = Some ([], x)) \/
  (exists c, k = TPunct c Joint /\ r = tag "/") \/
  (exists t, k = TLiteral t /\ sign_tail r) \/
  forall u, p_leaf (s ++ u) = Some (r ++ u, k).
Proof using UO.
  intros H. apply (p_leaf_kind UO) in H. destruct H as [r H|r c sp H|r sym raw H|H].
  - destruct (literal_more _ _ H) as [R|[R|R]]; [now left|right; right; right; left; eauto|]. do 4 right. intros u.
    apply (p_leaf_kind UO). rewrite <- (prefix_of_stop s r u) by (now apply p_literal_suffix). now constructor.
  - destruct (punct_more _ _ _ _ H) as [R|[(-> & -> & x & R)|[(NQ & -> & R)|R]]]; [now left|right; left; eauto|right; right; left; eauto|].
    do 4 right. intros u. apply (p_leaf_kind UO). now constructor.
  - destruct r as [|c r]; [now left|]. do 4 right. intros u. apply (p_leaf_kind UO). constructor. now apply ident_more.
  - do 4 right. intros u. pose proof (starts_with_len _ _ H). apply (p_leaf_kind UO). rewrite <- skipn_starts by assumption. constructor.
    now apply starts_with_app_l.
Qed.

(** ** Readings *)
Local Open Scope N_scope.
Lemma reads_fun a s ps qs : a + strlen s < two32 -> reads a s ps -> reads a s qs -> ps = qs.
Proof using UO.
  intros B H G.
  assert (T : in_text s a (mkcur s a)) by (exists []; split; [reflexivity|cbn; unfold strlen; cbn; lia]).
  pose proof (reads_scan UO s a B a s ps H (mkcur s a) T eq_refl eq_refl) as H'.
  pose proof (reads_scan UO s a B a s qs G (mkcur s a) T eq_refl eq_refl) as G'.
  exact (scan_functional _ _ H' _ G').
Qed.
Lemma reads_any a s : a + strlen s < two32 -> exists ps, reads a s ps.
Proof using UO.
  intros B. destruct (scan_total (mkcur s a)) as [ps H]. exists ps.
  assert (T : in_text s a (mkcur s a)) by (exists []; split; [reflexivity|cbn; unfold strlen; cbn; lia]).
  exact (scan_reads UO s a B (mkcur s a) ps H T).
Qed.
Definition opened (ps : list piece) : Prop := forall x d p y, ps = x ++ POpen d p :: y -> exists d' p', In (PClose d' p') y.
Lemma opened_tail p ps : opened (p :: ps) -> opened ps.
Proof using. intros O x d q y ->. exact (O (p :: x) d q y eq_refl). Qed.
Lemma reads_close_char a s ps : reads a s ps -> forall d p, In (PClose d p) ps -> exists c, In c [")"%ch; "]"%ch; "}"%ch] /\ In c s.
Proof using.
  induction 1 as [a s B|a w s d r ps Hw Hd H IH|a w s d r ps Hw Hd H IH|a w d r inner x ps Hw Hd H IH
                 |a w t r k ps Hw Hl H IH|a w s Hw Hs]; intros d' p' I; [destruct I|..]; destruct I as [E|I]; try discriminate; try now destruct I.
  - destruct (IH _ _ I) as (c & C & J). exists c. split; [exact C|]. destruct Hd as (_ & -> & _). rewrite !in_app_iff. auto.
  - destruct Hd as (D & ->). repeat (destruct D as [<-|D]; [eexists; (split; [|apply in_app_iff; right; left; reflexivity]); cbn; tauto|]). destruct D.
  - destruct (IH _ _ I) as (c & C & J). exists c. split; [exact C|]. destruct Hd as (_ & ->). rewrite !in_app_iff. auto.
  - destruct (IH _ _ I) as (c & C & J). exists c. split; [exact C|]. rewrite !in_app_iff. auto.
  - destruct (IH _ _ I) as (c & C & J). exists c. split; [exact C|]. rewrite !in_app_iff. auto.
Qed.
Definition ends_by (b : N) (p : piece) : Prop :=
  match p with PTok ts => Forall (fun t => hi (token_span t) <= b) ts | POpen _ q | PClose _ q => q + 1 <= b | PBad q => True end.

Definition keeps (a : N) (s : str) (ps qs : list piece) : Prop :=
  exists pre ks tl b y, ps = pre ++ map PTok ks /\ qs = pre ++ tl /\ (ks = [] \/ loose (a + strlen s) (concat ks)) /\
    reads b y tl /\ a <= b /\ Forall (ends_by b) pre.
Lemma keeps_cons p a s ps qs a' s' : keeps a' s' ps qs -> a + strlen s = a' + strlen s' -> a <= a' -> ends_by a' p ->
  keeps a s (p :: ps) (p :: qs).
Proof using.
  intros (pre & ks & tl & b & y & -> & -> & L & R & A & F) E Q P. exists (p :: pre), ks, tl, b, y.
  rewrite E. repeat split; auto; [lia|]. constructor; [|exact F].
  destruct p; cbn in *; try lia. eapply Forall_impl; [|exact P]. cbn. intros t. lia.
Qed.
Lemma reads_nil a : reads a [] [].
Proof using. apply reads_end. constructor. constructor. Qed.
Lemma ident_reading a r sym raw : p_ident_any r = Some ([], (sym, raw)) ->
  reads a r [PTok [TIdent sym raw (mkspan a (a + strlen r))]].
Proof using.
  intros H. apply p_ident_any_iff in H as (H1 & H2 & H3).
  assert (L : lexeme r [] (TIdent sym raw)).
  { constructor. destruct raw.
    - destruct H3 as [-> H3]. rewrite app_nil_r. now constructor.
    - destruct H3 as [-> H3]. rewrite app_nil_r. constructor; auto.
      intros [[_ (z & Z)]|[[_ (z & Z)]|[_ (z & Z)]]]; discriminate Z. }
  pose proof (reads_leaf a [] r [] (TIdent sym raw) []) as R. cbn [app] in R. rewrite app_nil_r in R.
  replace (a + strlen []) with a in R by (unfold strlen; cbn; lia). apply R; [constructor|exact L|apply reads_nil].
Qed.
Lemma slash_reading a : reads a (tag "/") [PTok [TPunct "/"%ch Alone (mkspan a (a + 1))]].
Proof using.
  pose proof (reads_leaf a [] (tag "/") [] (TPunct "/"%ch Alone) []) as R. cbn [app] in R.
  replace (a + strlen []) with a in R by (unfold strlen; cbn; lia). apply R; [constructor| |apply reads_nil].
  constructor. apply punct_alone; [cbn; tauto|discriminate|intros (z & Z); discriminate Z|intros (z & Z); discriminate Z|].
  intros (c & t & Z & _). discriminate Z.
Qed.
Lemma us_ident us : us <> [] -> Forall (fun c => c = "_"%ch) us -> ident_text us.
Proof using UO.
  intros N F. destruct us as [|c us]; [now elim N|]. inversion F; subst. exists "_"%ch, us. split; [reflexivity|]. split; [now left|].
  eapply Forall_impl; [|eassumption]. cbn. intros c ->. now rewrite (xid_continue_ascii U UO).
Qed.
Lemma sign_reading a c us : c = "+"%ch \/ c = "-"%ch -> Forall (fun c => c = "_"%ch) us ->
  reads a (c :: us) (PTok [TPunct c Alone (mkspan a (a + 1))] ::
    match us with [] => [] | _ => [PTok [TIdent us false (mkspan (a + 1) (a + 1 + strlen us))]] end).
Proof using UO.
  intros C F. assert (NS : ~ starts_punct us).
  { intros (d & t & -> & I & _). inversion F; subst. cbn in I. decompose [or] I; try discriminate; assumption. }
  pose proof (reads_leaf a [] [c] us (TPunct c Alone)) as R. cbn [app] in R.
  replace (a + strlen []) with a in R by (unfold strlen; cbn; lia). apply R; [constructor| |].
  - constructor. apply punct_alone.
    + destruct C as [-> | ->]; cbn; tauto.
    + destruct C as [-> | ->]; discriminate.
    + intros (z & Z). destruct C as [-> | ->]; discriminate Z.
    + intros (z & Z). destruct C as [-> | ->]; discriminate Z.
    + exact NS.
  - change (a + strlen [c]) with (a + 1). destruct us as [|d us]; [apply reads_nil|].
    apply ident_reading. apply p_ident_any_iff. split; [apply us_ident; [discriminate|exact F]|]. split; [intros ? ? Z; discriminate Z|].
    rewrite app_nil_r. split; [reflexivity|]. intros (z & Z). inversion F; subst. discriminate Z.
Qed.
Lemma strlen_app' (x y : str) : strlen (x ++ y) = strlen x + strlen y.
Proof using. unfold strlen. rewrite app_length. lia. Qed.

Lemma punct_text t r c sg : lexeme t r (TPunct c sg) -> t = [c].
Proof using.
  intros H. remember (TPunct c sg) as k eqn:E. apply (f_equal (fun f => f call_site)) in E.
  destruct H; cbn in E; try discriminate E. now inv E.
Qed.
Lemma reads_more a s ps : reads a s ps -> no_bad ps -> opened ps ->
  forall u qs, a + strlen (s ++ u) < two32 -> reads a (s ++ u) qs -> keeps a s ps qs.
Proof using UO.
  induction 1 as [a s B|a w s d r ps Hw Hd H IH|a w s d r ps Hw Hd H IH|a w d r inner x ps Hw Hd H IH
                 |a w t r k ps Hw Hl H IH|a w s Hw Hs]; intros NB OP u qs BD Q.
  - exists [], [], qs, a, (s ++ u). repeat split; auto. lia.
  - destruct Hd as (D & E & NE).
    assert (N2 : ~ begins (s ++ u) error_text).
    { intros (z & Z). destruct (OP [] d (a + strlen w) ps eq_refl) as (d' & p' & I).
      destruct (reads_close_char _ _ _ H _ _ I) as (c & C & J).
      assert (LE : (length s < length error_text)%nat).
      { destruct (Nat.lt_ge_cases (length s) (length error_text)) as [L|L]; [exact L|]. exfalso. apply NE.
        exists (skipn (length error_text) s). rewrite <- (firstn_skipn (length error_text) s) at 1. f_equal.
        apply (f_equal (firstn (length error_text))) in Z. rewrite !firstn_app in Z.
        replace (length error_text - length s)%nat with 0%nat in Z by lia. rewrite Nat.sub_diag, firstn_all in Z. cbn in Z.
        now rewrite !app_nil_r in Z. }
      assert (SE : s = firstn (length s) error_text).
      { apply (f_equal (firstn (length s))) in Z. rewrite !firstn_app, Nat.sub_diag, firstn_all in Z. cbn [firstn] in Z.
        rewrite app_nil_r in Z. rewrite Z at 1. replace (length s - length error_text)%nat with 0%nat by lia. cbn [firstn].
        now rewrite app_nil_r. }
      assert (J' : In c s) by (rewrite E; apply in_app_iff; now right).
      rewrite SE in J'. clear - C J' LE. cbn in LE.
      assert (K : In c (removelast error_text)).
      { change (removelast error_text) with (firstn 10 error_text).
        rewrite <- (firstn_skipn (length s) (firstn 10 error_text)), firstn_firstn.
        replace (Nat.min (length s) 10) with (length s) by lia. apply in_app_iff. now left. }
      cbn in C, K. decompose [or] C; subst; decompose [or] K; try discriminate; assumption. }
    destruct (reads_any (a + strlen w + 1) (r ++ u)) as (qs' & R').
    { rewrite !strlen_app' in BD. rewrite E, strlen_app' in BD. rewrite strlen_app'.
      assert (strlen (open_char d) = 1) by (cbn in D; decompose [or] D; subst; try reflexivity; contradiction). lia. }
    assert (L1 : strlen (open_char d) = 1) by (cbn in D; decompose [or] D; subst; try reflexivity; contradiction).
    assert (Q' : reads a ((w ++ s) ++ u) (POpen d (a + strlen w) :: qs')).
    { rewrite <- app_assoc. apply reads_open with (r := r ++ u); [exact Hw| |exact R']. split; [exact D|]. split; [|exact N2].
      rewrite E. now rewrite app_assoc. }
    rewrite (reads_fun _ _ _ _ BD Q Q').
    apply (keeps_cons _ a (w ++ s) ps qs' (a + strlen w + 1) r).
    + apply (IH (no_bad_tail _ _ NB) (opened_tail _ _ OP) u); [|exact R'].
      rewrite !strlen_app' in BD. rewrite E, strlen_app' in BD. rewrite strlen_app'. lia.
    + rewrite strlen_app', E, strlen_app'. lia.
    + lia.
    + cbn. lia.
  - destruct Hd as (D & E).
    assert (L1 : strlen (close_char d) = 1) by (cbn in D; decompose [or] D; subst; try reflexivity; contradiction).
    assert (BD' : a + strlen w + 1 + strlen (r ++ u) < two32).
    { rewrite !strlen_app' in BD. rewrite E, strlen_app' in BD. rewrite strlen_app'. lia. }
    destruct (reads_any (a + strlen w + 1) (r ++ u) BD') as (qs' & R').
    assert (Q' : reads a ((w ++ s) ++ u) (PClose d (a + strlen w) :: qs')).
    { rewrite <- app_assoc. apply reads_close with (r := r ++ u); [exact Hw| |exact R']. split; [exact D|]. rewrite E. now rewrite app_assoc. }
    rewrite (reads_fun _ _ _ _ BD Q Q').
    apply (keeps_cons _ a (w ++ s) ps qs' (a + strlen w + 1) r).
    + exact (IH (no_bad_tail _ _ NB) (opened_tail _ _ OP) u _ BD' R').
    + rewrite strlen_app', E, strlen_app'. lia.
    + lia.
    + cbn. lia.
  - assert (BD' : a + strlen w + strlen d + strlen (r ++ u) < two32).
    { rewrite !strlen_app' in BD. rewrite strlen_app'. lia. }
    assert (C : r = [] \/ doc_at d (r ++ u) inner x).
    { destruct Hd as [d r inner x L [R|(z & R)] NC|d r inner x L (z & R) NC|d r inner x L NC].
      - now left.
      - right. apply doc_at_line; auto. right. exists (z ++ u). now rewrite R.
      - right. apply doc_at_crlf; auto. exists (z ++ u). now rewrite R.
      - right. now apply doc_at_block. }
    destruct C as [->|C].
    + assert (ps = []) as -> by (eapply reads_fun; [|exact H|apply reads_nil]; rewrite strlen_app' in BD'; unfold strlen in *; cbn; lia).
      eexists [], [_], qs, a, _. split; [reflexivity|]. split; [reflexivity|]. split; [right|split; [exact Q|split; [lia|constructor]]].
      cbn [concat]. rewrite app_nil_r. rewrite app_nil_r, strlen_app', N.add_assoc. apply loose_doc.
    + destruct (reads_any _ _ BD') as (qs' & R').
      assert (Q' := reads_doc a w d (r ++ u) inner x qs' Hw C R'). rewrite <- !app_assoc in Q.
      rewrite (reads_fun a (w ++ d ++ r ++ u) _ _ ltac:(rewrite !strlen_app' in *; lia) Q Q').
      apply (keeps_cons _ a (w ++ d ++ r) ps qs' (a + strlen w + strlen d) r).
      * exact (IH (no_bad_tail _ _ NB) (opened_tail _ _ OP) u _ BD' R').
      * rewrite !strlen_app'. lia.
      * lia.
      * cbn. destruct inner; repeat constructor; cbn; lia.
  - assert (BD' : a + strlen w + strlen t + strlen (r ++ u) < two32).
    { rewrite !strlen_app' in BD. rewrite strlen_app'. lia. }
    assert (BR : a + strlen w + strlen t + strlen r < two32) by (rewrite strlen_app' in BD'; lia).
    assert (P := proj2 (p_leaf_iff UO (t ++ r) r k) (ex_intro _ t (conj eq_refl Hl))).
    set (p := a + strlen w) in *.
    assert (SH : forall ks, ps = map PTok ks -> loose (p + strlen t + strlen r) (k (mkspan p (p + strlen t)) :: concat ks) ->
      keeps a (w ++ t ++ r) (PTok [k (mkspan p (p + strlen t))] :: ps) qs).
    { intros ks -> L. exists [], ([k (mkspan p (p + strlen t))] :: ks), qs, a, ((w ++ t ++ r) ++ u).
      split; [reflexivity|]. split; [reflexivity|]. split; [right|split; [exact Q|split; [lia|constructor]]].
      cbn [concat app]. rewrite !strlen_app'. subst p. replace (a + (strlen w + (strlen t + strlen r))) with (a + strlen w + strlen t + strlen r) by lia. exact L. }
    destruct (leaf_more _ _ _ P) as [->|[([sym raw] & -> & I)|[(c & -> & ->)|[(tx & -> & c & us & -> & C & F)|S]]]].
    + apply (SH []).
      * eapply reads_fun; [|exact H|apply reads_nil]. exact BR.
      * cbn [concat]. apply loose_leaf.
        -- intros d ts sp E. inversion Hl; subst; discriminate E.
        -- replace (strlen []) with 0 by reflexivity. rewrite N.add_0_r. inversion Hl; subst; reflexivity.
    + assert (t = [SQUOTE]) as -> by exact (punct_text _ _ _ _ Hl).
      apply (SH [[TIdent sym raw (mkspan (p + 1) (p + 1 + strlen r))]]).
      * eapply reads_fun; [|exact H|]. exact BR. now apply ident_reading.
      * cbn [concat app]. change (strlen [SQUOTE]) with 1. apply loose_quote.
    + assert (t = [c]) as -> by exact (punct_text _ _ _ _ Hl).
      apply (SH [[TPunct "/"%ch Alone (mkspan (p + 1) (p + 1 + 1))]]).
      * eapply reads_fun; [|exact H|]. exact BR. apply slash_reading.
      * cbn [concat app]. change (strlen [c]) with 1. change (strlen (tag "/")) with 1. apply loose_slash. lia.
    + assert (E := reads_fun _ _ _ _ BR H (sign_reading (p + strlen t) c us C F)).
      destruct us as [|uc us].
      * apply (SH [[TPunct c Alone (mkspan (p + strlen t) (p + strlen t + 1))]]); [exact E|]. cbn [concat app].
        change (strlen [c]) with 1. now apply loose_sign.
      * apply (SH [[TPunct c Alone (mkspan (p + strlen t) (p + strlen t + 1))];
          [TIdent (uc :: us) false (mkspan (p + strlen t + 1) (p + strlen t + 1 + strlen (uc :: us)))]]); [exact E|]. cbn [concat app].
        replace (p + strlen t + strlen (c :: uc :: us)) with (p + strlen t + 1 + strlen (uc :: us)) by (unfold strlen; cbn [length]; lia).
        now apply loose_exponent.
    + specialize (S u). rewrite <- app_assoc in S. apply (p_leaf_iff UO) in S as (t' & E & Hl').
      apply app_inv_tail in E. subst t'.
      destruct (reads_any _ _ BD') as (qs' & R').
      assert (Q' := reads_leaf a w t (r ++ u) k qs' Hw Hl' R'). rewrite <- !app_assoc in Q.
      rewrite (reads_fun a (w ++ t ++ r ++ u) _ _ ltac:(rewrite !strlen_app' in *; lia) Q Q').
      apply (keeps_cons _ a (w ++ t ++ r) ps qs' (p + strlen t) r).
      * exact (IH (no_bad_tail _ _ NB) (opened_tail _ _ OP) u _ BD' R').
      * rewrite !strlen_app'. lia.
      * lia.
      * cbn. constructor; [|constructor]. inversion Hl; subst; cbn; lia.
  - exfalso. apply (NB (a + strlen w)). now left.
Qed.
End WithUnicode.

(** ** Trees *)
Local Open Scope N_scope.
Lemma tree_prefix x t : tree x t -> forall x' t', tree x' t' -> forall d b y d' b' y',
  x ++ PClose d b :: y = x' ++ PClose d' b' :: y' -> x = x' /\ t = t'.
Proof.
  induction 1 as [|k ps ts H IH|d1 a1 b1 p1 inner p2 ts H1 IH1 H2 IH2]; intros x' t' H' d b y d' b' y' E;
    destruct H' as [|k' ps' ts' H'|d1' a1' b1' p1' inner' p2' ts' H1' H2']; cbn in E; try discriminate E; auto.
  - injection E as -> E. destruct (IH _ _ H' _ _ _ _ _ _ E) as [-> ->]. auto.
  - injection E as -> -> E. rewrite <- !app_assoc in E. cbn in E.
    destruct (IH1 _ _ H1' _ _ _ _ _ _ E) as [-> ->]. apply app_inv_head in E. injection E as -> E.
    destruct (IH2 _ _ H2' _ _ _ _ _ _ E) as [-> ->]. auto.
Qed.
Lemma tree_split pre ts0 : tree pre ts0 -> forall q us, tree (pre ++ q) us -> exists us', us = ts0 ++ us' /\ tree q us'.
Proof.
  induction 1 as [|k ps ts H IH|d1 a1 b1 p1 inner p2 ts H1 IH1 H2 IH2]; intros q us T; [now exists us|..].
  - cbn in T. inversion T as [|k' ps' ts' T'|]; subst. destruct (IH _ _ T') as (us' & -> & T2). exists us'. now rewrite app_assoc.
  - cbn in T. inversion T as [| |d a b p1' inner' p2' ts' T1 T2]; subst. rewrite <- app_assoc in H3. cbn in H3.
    destruct (tree_prefix _ _ T1 _ _ H1 _ _ _ _ _ _ H3) as [-> ->]. apply app_inv_head in H3. injection H3 as -> ->.
    destruct (IH2 _ _ T2) as (us' & -> & T3). now exists us'.
Qed.
Lemma tree_close d b q us : ~ tree (PClose d b :: q) us.
Proof. intros T. inversion T. Qed.
Lemma tree_last p k ts : tree (p ++ [PTok k]) ts -> exists ts0, tree p ts0 /\ ts = ts0 ++ k.
Proof.
  remember (p ++ [PTok k]) as x eqn:E. intros T. revert p E.
  induction T as [|k' ps ts H IH|d1 a1 b1 p1 inner p2 ts H1 IH1 H2 IH2]; intros p E.
  - now destruct p.
  - destruct p as [|p0 p]; cbn in E.
    + injection E as -> ->. inversion H; subst. exists []. split; [constructor|]. now rewrite app_nil_r.
    + injection E as <- ->. destruct (IH _ eq_refl) as (ts0 & T0 & ->). exists (k' ++ ts0). split; [now constructor|now rewrite app_assoc].
  - destruct (exists_last (l := PClose d1 b1 :: p2) ltac:(discriminate)) as (y & z & Y).
    destruct p as [|p0 p]; cbn in E; [discriminate|]. injection E as <- E.
    rewrite Y, app_assoc in E. apply app_inj_tail in E as [<- ->].
    destruct y as [|y0 y]; cbn in Y; [discriminate|]. injection Y as <- ->.
    destruct (IH2 _ eq_refl) as (ts0 & T0 & ->). eexists. split; [exact (tree_group d1 a1 b1 p1 inner y ts0 H1 T0)|reflexivity].
Qed.
Lemma tree_toks ks : forall pre ts, tree (pre ++ map PTok ks) ts -> exists ts0, tree pre ts0 /\ ts = ts0 ++ concat ks.
Proof.
  induction ks as [|k ks IH] using rev_ind; intros pre ts T; cbn in T.
  - rewrite app_nil_r in T. exists ts. cbn. now rewrite app_nil_r.
  - rewrite map_app, app_assoc in T. destruct (tree_last _ _ _ T) as (ts1 & T1 & ->).
    destruct (IH _ _ T1) as (ts0 & T0 & ->). exists ts0. rewrite concat_app. cbn. now rewrite app_nil_r, app_assoc.
Qed.
Lemma app_cases {A} (x y z w : list A) : x ++ y = z ++ w -> (exists m, x = z ++ m /\ w = m ++ y) \/ (exists m, z = x ++ m /\ y = m ++ w).
Proof.
  revert z. induction x as [|a x IH]; intros z E; [right; now exists z|].
  destruct z as [|b z]; [left; now exists (a :: x)|]. cbn in E. injection E as -> E.
  destruct (IH _ E) as [(m & -> & ->)|(m & -> & ->)]; [left|right]; now exists m.
Qed.
Lemma tree_opened ps ts : tree ps ts -> opened ps.
Proof.
  induction 1 as [|k ps ts H IH|d1 a1 b1 p1 inner p2 ts H1 IH1 H2 IH2]; intros x d p y E.
  - now destruct x.
  - destruct x as [|x0 x]; cbn in E; [discriminate|]. injection E as <- E. exact (IH _ _ _ _ E).
  - destruct x as [|x0 x]; cbn in E.
    + injection E as <- <- <-. exists d1, b1. apply in_app_iff. right. now left.
    + injection E as <- E. destruct (app_cases _ _ _ _ E) as [(m & -> & M)|(m & -> & M)].
      * destruct m as [|m0 m]; [discriminate M|]. injection M as <- ->.
        destruct (IH1 x d p m eq_refl) as (d' & p' & I). exists d', p'. apply in_app_iff. now left.
      * destruct m as [|m0 m]; [discriminate M|]. injection M as <- ->. exact (IH2 m d p y eq_refl).
Qed.
Lemma wrong_close d b q p : ~ wrong (PClose d b :: q) p.
Proof.
  remember (PClose d b :: q) as x eqn:E. intros W. revert E.
  induction W as [| | | |ps1 ts ps2 p T W IH]; intros E; try discriminate E.
  destruct ps1 as [|z ps1]; [exact (IH E)|]. injection E as -> E. exact (tree_close _ _ _ _ T).
Qed.
Lemma wrong_split x p : wrong x p -> forall pre ts0 q, tree pre ts0 -> x = pre ++ q -> wrong q p.
Proof.
  induction 1 as [a ps|d a ps ts T|d a ps1 ts d' b ps2 T ND|d a ps b W IH|ps1 ts ps2 b T W IH]; intros pre ts0 q T0 E.
  - destruct T0; cbn in E; try discriminate E. subst. constructor.
  - destruct T0 as [|k ps0 ts0 T0|d1 a1 b1 p1 inner p2 ts0 T1 T2]; cbn in E; try discriminate E; [subst; now apply wrong_unclosed with ts|].
    injection E as <- <- ->. rewrite <- app_assoc in T. destruct (tree_split _ _ T1 _ _ T) as (us & _ & T3). now elim (tree_close _ _ _ _ T3).
  - destruct T0 as [|k ps0 ts0 T0|d1 a1 b1 p1 inner p2 ts0 T1 T2]; cbn in E; try discriminate E; [subst; now apply wrong_mismatch with ts|].
    injection E as <- <- E. rewrite <- app_assoc in E. cbn in E.
    destruct (tree_prefix _ _ T _ _ T1 _ _ _ _ _ _ E) as [-> _]. apply app_inv_head in E. injection E as -> _ _. now elim ND.
  - destruct T0 as [|k ps0 ts0 T0|d1 a1 b1 p1 inner p2 ts0 T1 T2]; cbn in E; try discriminate E; [subst; now apply wrong_inside|].
    injection E as <- <- ->. rewrite <- app_assoc in IH. pose proof (IH _ _ _ T1 eq_refl) as W'. now elim (wrong_close _ _ _ _ W').
  - destruct (app_cases _ _ _ _ E) as [(m & -> & ->)|(m & -> & ->)].
    + destruct (tree_split _ _ T0 _ _ T) as (us & _ & T3). now apply wrong_after with us.
    + destruct (tree_split _ _ T _ _ T0) as (us & _ & T3). exact (IH _ _ _ T3 eq_refl).
Qed.
Lemma wrong_top_split pre ts0 q p : tree pre ts0 -> wrong_top (pre ++ q) p -> wrong_top q p.
Proof.
  intros T0 W. remember (pre ++ q) as x eqn:E. destruct W as [x p W|ps1 ts d b ps2 T].
  - apply wrong_within. exact (wrong_split _ _ W _ _ _ T0 E).
  - destruct (app_cases _ _ _ _ E) as [(m & -> & ->)|(m & -> & M)].
    + destruct (tree_split _ _ T0 _ _ T) as (us & _ & T3). now apply wrong_stray with us.
    + destruct (tree_split _ _ T _ _ T0) as (us & _ & T3). destruct m as [|z m]; cbn in M.
      * subst. apply (wrong_stray [] []). constructor.
      * injection M as <- ->. now elim (tree_close _ _ _ _ T3).
Qed.
Definition placed (p : piece) : option N := match p with POpen _ q | PClose _ q | PBad q => Some q | PTok _ => None end.
Lemma wrong_placed x p : wrong x p -> exists z, In z x /\ placed z = Some p.
Proof.
  induction 1 as [a ps|d a ps ts T|d a ps1 ts d' b ps2 T ND|d a ps b W (z & I & P)|ps1 ts ps2 b T W (z & I & P)].
  - eexists. split; [now left|reflexivity].
  - eexists. split; [now left|reflexivity].
  - exists (PClose d' b). split; [right; apply in_app_iff; right; now left|reflexivity].
  - exists z. split; [now right|exact P].
  - exists z. split; [apply in_app_iff; now right|exact P].
Qed.
Lemma wrong_top_placed x p : wrong_top x p -> exists z, In z x /\ placed z = Some p.
Proof.
  destruct 1 as [x p W|ps1 ts d b ps2 T]; [now apply wrong_placed|].
  exists (PClose d b). split; [apply in_app_iff; right; now left|reflexivity].
Qed.
Lemma tree_ends b ps ts : tree ps ts -> Forall (ends_by b) ps -> Forall (fun t => hi (token_span t) <= b) ts.
Proof.
  induction 1 as [|k ps ts H IH|d1 a1 b1 p1 inner p2 ts H1 IH1 H2 IH2]; intros F; [constructor|..].
  - inversion F; subst. apply Forall_app. split; [assumption|auto].
  - inversion F as [|? ? _ F']; subst. apply Forall_app in F' as [_ F']. inversion F' as [|? ? E F2]; subst.
    constructor; [exact E|auto].
Qed.
Section Claims.
Context {U : unicode} (UO : unicode_ok U).
Lemma reads_placed_after a s ps : reads a s ps -> forall z p, In z ps -> placed z = Some p -> a <= p.
Proof.
  induction 1 as [a s B|a w s d r ps Hw Hd H IH|a w s d r ps Hw Hd H IH|a w d r inner x ps Hw Hd H IH
                 |a w t r k ps Hw Hl H IH|a w s Hw Hs]; intros z p I P; [destruct I|..]; destruct I as [<-|I]; cbn in P;
    try discriminate P; try (injection P as <-; lia); try (specialize (IH _ _ I P); lia). destruct I.
Qed.

Lemma bom_more start s u a x b y : s <> [] -> without_bom start s a x -> without_bom start (s ++ u) b y -> a = b /\ y = x ++ u.
Proof.
  intros N H G. destruct H as [t|t H].
  - cbn in G. inversion G; subst; [auto|]. exfalso. eapply H; reflexivity.
  - destruct t as [|c t]; [now elim N|]. cbn [app] in G. remember (c :: t ++ u) as z eqn:E. destruct G as [z|z G]; [|now subst].
    exfalso. injection E as <- _. now apply (H t).
Qed.
Lemma source_more start s u ps qs : start + strlen (s ++ u) < two32 -> reads_source start s ps -> reads_source start (s ++ u) qs ->
  no_bad ps -> opened ps ->
  exists pre ks tl b y, ps = pre ++ map PTok ks /\ qs = pre ++ tl /\ (ks = [] \/ loose (start + strlen s) (concat ks)) /\
    reads b y tl /\ Forall (ends_by b) pre.
Proof.
  intros B (a & x & W & R) (b & y & V & Q) NB OP. destruct s as [|c s].
  - exists [], [], qs, b, y. cbn. replace ps with (@nil piece); [now repeat split; auto|].
    assert (x = []) as -> by (inversion W; reflexivity).
    apply (reads_fun UO a []); [|apply reads_nil|exact R]. inversion W; subst. unfold strlen in *. cbn. lia.
  - destruct (bom_more start (c :: s) u a x b y) as [<- ->]; [discriminate|exact W|exact V|].
    assert (E : a + strlen x = start + strlen (c :: s)). { inversion W; subst; unfold strlen; cbn [length]; lia. }
    destruct (reads_more UO a x ps R NB OP u qs) as (pre & ks & tl & b' & y' & E1 & E2 & L & R' & _ & F); [|exact Q|].
    { rewrite strlen_app' in *. lia. }
    rewrite E in L. exists pre, ks, tl, b', y'. auto.
Qed.
Lemma append_kept : forall start s u ts us, start + strlen (s ++ u) < two32 ->
  token_stream_from_str start s = Ok (Lexed ts) -> token_stream_from_str start (s ++ u) = Ok (Lexed us) ->
  exists kept new, settled (start + strlen s) ts kept /\ us = kept ++ new.
Proof.
  intros start s u ts us B P Q.
  apply (parse_reads UO s start) in P as (ps & R & T); [|rewrite strlen_app' in B; lia].
  apply (parse_reads UO (s ++ u) start B) in Q as (qs & R' & T').
  destruct (source_more _ _ _ _ _ B R R' (tree_no_bad _ _ T) (tree_opened _ _ T)) as (pre & ks & tl & b & y & -> & -> & L & _ & _).
  destruct (tree_toks _ _ _ T) as (ts0 & T0 & ->). destruct (tree_split _ _ T0 _ _ T') as (us' & -> & _).
  exists ts0, us'. split; [|reflexivity]. exists (concat ks). split; [reflexivity|]. destruct L as [->|L]; [now left|now right].
Qed.
Lemma append_error : forall start s u ts sp, start + strlen (s ++ u) < two32 ->
  token_stream_from_str start s = Ok (Lexed ts) -> token_stream_from_str start (s ++ u) = Ok (LexError sp) ->
  exists kept, settled (start + strlen s) ts kept /\ Forall (fun t => hi (token_span t) <= lo sp) kept.
Proof.
  intros start s u ts sp B P Q.
  apply (parse_reads UO s start) in P as (ps & R & T); [|rewrite strlen_app' in B; lia].
  apply (parse_reads_error UO (s ++ u) start B) in Q as (qs & R' & W & _).
  destruct (source_more _ _ _ _ _ B R R' (tree_no_bad _ _ T) (tree_opened _ _ T)) as (pre & ks & tl & b & y & -> & -> & L & RT & F).
  destruct (tree_toks _ _ _ T) as (ts0 & T0 & ->). apply (wrong_top_split _ _ _ _ T0) in W.
  destruct (wrong_top_placed _ _ W) as (z & I & Z). pose proof (reads_placed_after _ _ _ RT _ _ I Z) as LE.
  exists ts0. split.
  - exists (concat ks). split; [reflexivity|]. destruct L as [->|L]; [now left|now right].
  - eapply Forall_impl; [|exact (tree_ends _ _ _ T0 F)]. cbn. intros t. lia.
Qed.
End Claims.

Lemma loose_three e ts : loose e ts -> (length ts <= 3)%nat.
Proof. destruct 1 as [| |?|?|?|?]; cbn; try lia. destruct inner; cbn; lia. Qed.
Lemma loose_last e ts : loose e ts -> exists x t, ts = x ++ [t] /\ hi (token_span t) = e.
Proof.
  destruct 1 as [t _ E|inner l a|s raw a|c a E|t c a b C E|t c us a b C F].
  - now exists [], t.
  - destruct inner; eexists (_ :: _), _; (split; [|]); [reflexivity|reflexivity|reflexivity|reflexivity].
  - eexists [_], _. now split.
  - eexists [_], _. now split.
  - eexists [_], _. now split.
  - eexists [_; _], _. now split.
Qed.
Section Corollaries.
Context {U : unicode} (UO : unicode_ok U).
Lemma append_three : forall start s u ts us, start + strlen (s ++ u) < two32 ->
  token_stream_from_str start s = Ok (Lexed ts) -> token_stream_from_str start (s ++ u) = Ok (Lexed us) ->
  exists kept changed new, ts = kept ++ changed /\ us = kept ++ new /\ (length changed <= 3)%nat.
Proof.
  intros start s u ts us B P Q. destruct (append_kept UO start s u ts us B P Q) as (kept & new & (changed & -> & C) & ->).
  exists kept, changed, new. split; [reflexivity|]. split; [reflexivity|].
  destruct C as [->|C]; [cbn; lia|exact (loose_three _ _ C)].
Qed.
Lemma append_apart : forall start s u ts us, start + strlen (s ++ u) < two32 ->
  token_stream_from_str start s = Ok (Lexed ts) -> token_stream_from_str start (s ++ u) = Ok (Lexed us) ->
  (forall x t, ts = x ++ [t] -> hi (token_span t) <> start + strlen s) -> exists new, us = ts ++ new.
Proof.
  intros start s u ts us B P Q N. destruct (append_kept UO start s u ts us B P Q) as (kept & new & (changed & -> & C) & ->).
  destruct C as [->|C]; [rewrite app_nil_r; eauto|]. exfalso.
  destruct (loose_last _ _ C) as (x & t & -> & E). apply (N (kept ++ x) t); [now rewrite app_assoc|exact E].
Qed.
End Corollaries.
Lemma append_examples :
  let P := @token_stream_from_str sample_unicode 0 in
  let n a b := TIdent (tag "n") false (mkspan a b) in
  (P (tag "n 1e+_") = Ok (Lexed [n 0 1; TLiteral (tag "1e") (mkspan 2 4); TPunct "+"%ch Alone (mkspan 4 5); TIdent (tag "_") false (mkspan 5 6)]) /\
   P (tag "n 1e+_" ++ tag "5") = Ok (Lexed [n 0 1; TLiteral (tag "1e+_5") (mkspan 2 7)])) /\
  (P (tag "n 1.5e-") = Ok (Lexed [n 0 1; TLiteral (tag "1.5e") (mkspan 2 6); TPunct "-"%ch Alone (mkspan 6 7)]) /\
   P (tag "n 1.5e-" ++ tag "3") = Ok (Lexed [n 0 1; TLiteral (tag "1.5e-3") (mkspan 2 8)])) /\
  (P (tag "n 'a") = Ok (Lexed [n 0 1; TPunct SQUOTE Joint (mkspan 2 3); TIdent (tag "a") false (mkspan 3 4)]) /\
   P (tag "n 'a" ++ tag "'") = Ok (Lexed [n 0 1; TLiteral (tag "'a'") (mkspan 2 5)])) /\
  (P (tag "n+/") = Ok (Lexed [n 0 1; TPunct "+"%ch Joint (mkspan 1 2); TPunct "/"%ch Alone (mkspan 2 3)]) /\
   P (tag "n+/" ++ tag "/ x") = Ok (Lexed [n 0 1; TPunct "+"%ch Alone (mkspan 1 2)])) /\
  (P (tag "n ///") = Ok (Lexed (n 0 1 :: doc_attribute false (tag """""") (mkspan 2 5))) /\
   P (tag "n ///" ++ tag "/") = Ok (Lexed [n 0 1])) /\
  (P (tag "n = b") = Ok (Lexed [n 0 1; TPunct "="%ch Alone (mkspan 2 3); TIdent (tag "b") false (mkspan 4 5)]) /\
   P (tag "n = b" ++ tag "'") = Ok (LexError (mkspan 4 4))).
Proof. vm_compute. repeat split. Qed.
