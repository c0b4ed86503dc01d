(** Third part of the cursor/char-list equivalence: string, byte and char literals. *)
From Verif Require Import Base BaseFacts Unicode Tokens Lexer PureLexer LexerEquiv LexerEquiv2.

Section WithUnicode.
Context {U : unicode}.

Lemma str_len_snoc' p c : str_len (p ++ [c]) = str_len p + len_utf8 c.
Proof. rewrite str_len_app. cbn. lia. Qed.

Lemma snoc_split (p : list N) c t : p ++ c :: t = (p ++ [c]) ++ t.
Proof. now rewrite <- app_assoc. Qed.

(** A backslash-newline restarts the loop on a new cursor. *)
Lemma newline_restart (F : cursor -> chars_it -> res cursor) esc ok input p c2 t2 :
  rest input = p ++ BACKSLASH :: c2 :: t2 -> (c2 = LF \/ c2 = CR) -> esc_shrinks esc ->
  (forall r input', suffix r t2 -> rest input' = r ->
     F input' (char_indices r) = lift_suffix input' (p_cooked esc ok r)) ->
  (let? c := advance input (str_len p + 1 + 1) in
   let? c := trailing_backslash c c2 in F c (char_indices (rest c)))
  = lift_suffix input
      match p_trail c2 t2 with Some r => p_cooked esc ok r | None => None end.
Proof.
  intros E Hc He H. pose proof (newline_step input p c2 t2 E Hc) as Hn.
  destruct (advance input (str_len p + 1 + 1)) as [c| | |]; cbn [bind] in *;
    try (rewrite Hn; destruct (p_trail c2 t2); cbn in *; congruence).
  rewrite Hn. destruct (p_trail c2 t2) as [r|] eqn:Et; cbn [lift bind]; [|reflexivity].
  apply p_trail_suffix in Et. rewrite rest_cur_of.
  rewrite H; auto. apply lift_suffix_trans.
  - rewrite E. apply suffix_trans with t2; auto. exists (p ++ [BACKSLASH; c2]). now rewrite <- app_assoc.
  - intros x Hx. eapply p_cooked_suffix; eauto.
Qed.

Lemma not_newline_cases (c : N) : (c = LF \/ c = CR) \/ (c =? LF)%N || (c =? CR)%N = false.
Proof. destruct (N.eqb_spec c LF), (N.eqb_spec c CR); cbn; auto. Qed.

Lemma cooked_string_loop_spec fuel input p q :
  rest input = p ++ q -> length q < fuel ->
  cooked_string_loop fuel input (str_len p, q)
  = lift_suffix input (p_cooked esc_str ok_any q).
Proof.
  revert fuel input p. induction q as [q IH] using str_ind_len; intros fuel input p E Hf.
  destruct fuel as [|fuel]; [lia|].
  rewrite p_cooked_eq by exact esc_str_shrinks. cbn [cooked_string_loop].
  assert (Hrec : forall p' r, rest input = p' ++ r -> suffix r q -> length r < length q ->
     cooked_string_loop fuel input (str_len p', r) = lift_suffix input (p_cooked esc_str ok_any r)).
  { intros p' r E' _ Hr. apply IH; [exact Hr|exact E'|lia]. }
  destruct q as [|c t]; cbn [ci_next]; [reflexivity|].
  destruct (N.eqb_spec c DQUOTE) as [->|].
  { apply close_quote_spec with (p := p); auto. }
  destruct (N.eqb_spec c CR) as [->|].
  { destruct t as [|c2 t']; cbn [ci_next]; [reflexivity|].
    destruct (N.eqb_spec c2 LF) as [->|]; [|reflexivity].
    rewrite <- !str_len_snoc'. apply Hrec; [now rewrite <- !app_assoc|auto|cbn; lia]. }
  destruct (N.eqb_spec c BACKSLASH) as [->|].
  { destruct t as [|c2 t2]; cbn [ci_next]; [reflexivity|].
    destruct (not_newline_cases c2) as [Hn|Hn].
    - replace ((c2 =? LF)%N || (c2 =? CR)%N) with true by (destruct Hn; subst c2; reflexivity).
      replace (c2 =? "x"%ch)%N with false by (destruct Hn; subst c2; reflexivity).
      replace (simple_escape0 c2) with false by (destruct Hn; subst c2; reflexivity).
      replace (c2 =? "u"%ch)%N with false by (destruct Hn; subst c2; reflexivity).
      rewrite (len_utf8_ascii BACKSLASH) by lia.
      apply (newline_restart (cooked_string_loop fuel)); auto using esc_str_shrinks.
      intros r input' Hr E'. apply (IH r) with (p := []); auto.
      + apply suffix_length in Hr. cbn; lia.
      + apply suffix_length in Hr. cbn in *; lia.
    - rewrite Hn. unfold esc_str.
      rewrite (len_utf8_ascii BACKSLASH) by lia.
      assert (Hre : forall r, suffix r t2 ->
        cooked_string_loop fuel input (str_len p + 1 + len_utf8 c2 + (str_len t2 - str_len r), r)
        = lift_suffix input (p_cooked esc_str ok_any r)).
      { intros r Hr. destruct (reindex input (p ++ [BACKSLASH; c2]) t2 r) as (p' & E' & El); auto.
        { now rewrite <- app_assoc. }
        rewrite str_len_app in El. cbn [str_len] in El. rewrite (len_utf8_ascii BACKSLASH) in El by lia.
        replace (str_len p + 1 + len_utf8 c2 + (str_len t2 - str_len r)) with (str_len p') by lia.
        apply Hrec; auto. apply suffix_length in Hr. cbn; lia. }
      destruct (c2 =? "x"%ch)%N.
      { rewrite backslash_x_char_spec. destruct (p_x_char t2) as [r|] eqn:Ex; [|reflexivity].
        cbn [lift_it bind]. apply Hre. now apply p_x_char_suffix. }
      destruct (simple_escape0 c2).
      { replace (str_len p + 1 + len_utf8 c2)
          with (str_len p + 1 + len_utf8 c2 + (str_len t2 - str_len t2)) by lia. auto. }
      destruct (c2 =? "u"%ch)%N; [|reflexivity].
      rewrite backslash_u_spec. destruct (p_u t2) as [[r v]|] eqn:Ex; [|reflexivity].
      cbn [lift_itu bind]. apply Hre. now apply p_u_suffix in Ex. }
  cbn [ok_any]. rewrite <- str_len_snoc'. apply Hrec; [now rewrite <- !app_assoc|auto|cbn; lia].
Qed.

Lemma cooked_string_spec c : cooked_string c = lift_suffix c (p_cooked esc_str ok_any (rest c)).
Proof.
  unfold cooked_string, char_indices. change 0 with (str_len []).
  apply cooked_string_loop_spec; [reflexivity|]. pose proof (length_le_str_len (rest c)). lia.
Qed.

Lemma cooked_c_string_loop_spec fuel input p q :
  rest input = p ++ q -> length q < fuel ->
  cooked_c_string_loop fuel input (str_len p, q)
  = lift_suffix input (p_cooked esc_c ok_nonnul q).
Proof.
  revert fuel input p. induction q as [q IH] using str_ind_len; intros fuel input p E Hf.
  destruct fuel as [|fuel]; [lia|].
  rewrite p_cooked_eq by exact esc_c_shrinks. cbn [cooked_c_string_loop].
  assert (Hrec : forall p' r, rest input = p' ++ r -> suffix r q -> length r < length q ->
     cooked_c_string_loop fuel input (str_len p', r) = lift_suffix input (p_cooked esc_c ok_nonnul r)).
  { intros p' r E' _ Hr. apply IH; [exact Hr|exact E'|lia]. }
  destruct q as [|c t]; cbn [ci_next]; [reflexivity|].
  destruct (N.eqb_spec c DQUOTE) as [->|].
  { apply close_quote_spec with (p := p); auto. }
  destruct (N.eqb_spec c CR) as [->|].
  { destruct t as [|c2 t']; cbn [ci_next]; [reflexivity|].
    destruct (N.eqb_spec c2 LF) as [->|]; [|reflexivity].
    rewrite <- !str_len_snoc'. apply Hrec; [now rewrite <- !app_assoc|auto|cbn; lia]. }
  destruct (N.eqb_spec c BACKSLASH) as [->|].
  { destruct t as [|c2 t2]; cbn [ci_next]; [reflexivity|].
    destruct (not_newline_cases c2) as [Hn|Hn].
    - replace ((c2 =? LF)%N || (c2 =? CR)%N) with true by (destruct Hn; subst c2; reflexivity).
      replace (c2 =? "x"%ch)%N with false by (destruct Hn; subst c2; reflexivity).
      replace (simple_escape_c c2) with false by (destruct Hn; subst c2; reflexivity).
      replace (c2 =? "u"%ch)%N with false by (destruct Hn; subst c2; reflexivity).
      rewrite (len_utf8_ascii BACKSLASH) by lia.
      apply (newline_restart (cooked_c_string_loop fuel)); auto using esc_c_shrinks.
      intros r input' Hr E'. apply (IH r) with (p := []); auto.
      + apply suffix_length in Hr. cbn; lia.
      + apply suffix_length in Hr. cbn in *; lia.
    - rewrite Hn. unfold esc_c.
      rewrite (len_utf8_ascii BACKSLASH) by lia.
      assert (Hre : forall r, suffix r t2 ->
        cooked_c_string_loop fuel input (str_len p + 1 + len_utf8 c2 + (str_len t2 - str_len r), r)
        = lift_suffix input (p_cooked esc_c ok_nonnul r)).
      { intros r Hr. destruct (reindex input (p ++ [BACKSLASH; c2]) t2 r) as (p' & E' & El); auto.
        { now rewrite <- app_assoc. }
        rewrite str_len_app in El. cbn [str_len] in El. rewrite (len_utf8_ascii BACKSLASH) in El by lia.
        replace (str_len p + 1 + len_utf8 c2 + (str_len t2 - str_len r)) with (str_len p') by lia.
        apply Hrec; auto. apply suffix_length in Hr. cbn; lia. }
      destruct (c2 =? "x"%ch)%N.
      { rewrite backslash_x_nonzero_spec. destruct (p_x_nonzero t2) as [r|] eqn:Ex; [|reflexivity].
        cbn [lift_it bind]. apply Hre. now apply p_x_nonzero_suffix. }
      destruct (simple_escape_c c2).
      { replace (str_len p + 1 + len_utf8 c2)
          with (str_len p + 1 + len_utf8 c2 + (str_len t2 - str_len t2)) by lia. auto. }
      destruct (c2 =? "u"%ch)%N; [|reflexivity].
      rewrite backslash_u_spec. destruct (p_u t2) as [[r v]|] eqn:Ex; [|reflexivity].
      cbn [lift_itu bind]. destruct (v =? NUL)%N; [reflexivity|].
      apply Hre. now apply p_u_suffix in Ex. }
  unfold ok_nonnul at 1. destruct (c =? NUL)%N; cbn [negb]; [reflexivity|].
  rewrite <- str_len_snoc'. apply Hrec; [now rewrite <- !app_assoc|auto|cbn; lia].
Qed.

Lemma cooked_c_string_spec c : cooked_c_string c = lift_suffix c (p_cooked esc_c ok_nonnul (rest c)).
Proof.
  unfold cooked_c_string, char_indices. change 0 with (str_len []).
  apply cooked_c_string_loop_spec; [reflexivity|]. pose proof (length_le_str_len (rest c)). lia.
Qed.

(** Byte strings iterate over bytes; a non-ASCII byte is rejected at once. *)
Lemma newline_restart_b (F : cursor -> bytes_it -> res cursor) esc ok input p c2 t2 :
  rest input = p ++ BACKSLASH :: c2 :: t2 -> (c2 = LF \/ c2 = CR) -> esc_shrinks esc ->
  (forall r input', suffix r t2 -> rest input' = r ->
     F input' (bytes_enum r) = lift_suffix input' (p_cooked esc ok r)) ->
  (let? c := advance input (str_len p + 1 + 1) in
   let? c := trailing_backslash c c2 in F c (bytes_enum (rest c)))
  = lift_suffix input
      match p_trail c2 t2 with Some r => p_cooked esc ok r | None => None end.
Proof.
  intros E Hc He H.
  apply (newline_restart (fun c it => F c (bytes_enum (snd it))) esc ok input p c2 t2); auto.
Qed.

Lemma cooked_byte_string_loop_spec fuel input p q :
  rest input = p ++ q -> length q < fuel ->
  cooked_byte_string_loop fuel input (str_len p, str_bytes q)
  = lift_suffix input (p_cooked esc_byte is_ascii q).
Proof.
  revert fuel input p. induction q as [q IH] using str_ind_len; intros fuel input p E Hf.
  destruct fuel as [|fuel]; [lia|].
  rewrite p_cooked_eq by exact esc_byte_shrinks. cbn [cooked_byte_string_loop].
  assert (Hrec : forall p' r, rest input = p' ++ r -> length r < length q ->
     cooked_byte_string_loop fuel input (str_len p', str_bytes r)
     = lift_suffix input (p_cooked esc_byte is_ascii r)).
  { intros p' r E' Hr. apply IH; [exact Hr|exact E'|lia]. }
  destruct q as [|c t]; [reflexivity|].
  destruct (first_byte_char c t) as (b & u & -> & Hb). cbn [be_next].
  destruct Hb as [(Hc & -> & ->)|(Hc & Hb)].
  2: { destruct (N.eqb_spec c DQUOTE); [lia|]. destruct (N.eqb_spec c CR); [lia|].
       destruct (N.eqb_spec c BACKSLASH); [lia|].
       destruct (N.eqb_spec b DQUOTE); [lia|]. destruct (N.eqb_spec b CR); [lia|].
       destruct (N.eqb_spec b BACKSLASH); [lia|].
       unfold is_ascii at 1 2.
       destruct (N.ltb_spec c 128); [lia|]. destruct (N.ltb_spec b 128); [lia|]. reflexivity. }
  destruct (N.eqb_spec c DQUOTE) as [->|].
  { apply close_quote_spec with (p := p); auto. }
  destruct (N.eqb_spec c CR) as [->|].
  { destruct t as [|c2 t']; [reflexivity|].
    destruct (first_byte_char c2 t') as (b2 & u & -> & Hb). cbn [be_next].
    destruct Hb as [(Hc2 & -> & ->)|(Hc2 & Hb)].
    - destruct (N.eqb_spec c2 LF) as [->|]; [|reflexivity].
      rewrite <- (str_len_snoc p CR), <- (str_len_snoc _ LF) by lia.
      apply Hrec; [now rewrite <- !app_assoc|cbn; lia].
    - destruct (N.eqb_spec c2 LF); [lia|]. destruct (N.eqb_spec b2 LF); [lia|]. reflexivity. }
  destruct (N.eqb_spec c BACKSLASH) as [->|].
  { destruct t as [|c2 t2]; [reflexivity|].
    destruct (first_byte_char c2 t2) as (b2 & u & -> & Hb). cbn [be_next].
    destruct Hb as [(Hc2 & -> & ->)|(Hc2 & Hb)].
    2: { unfold esc_byte, simple_escape0.
         repeat match goal with |- context [(?a =? ?b)%N] => destruct (N.eqb_spec a b); [lia|] end.
         reflexivity. }
    destruct (not_newline_cases c2) as [Hn|Hn].
    - replace ((c2 =? LF)%N || (c2 =? CR)%N) with true by (destruct Hn; subst c2; reflexivity).
      replace (c2 =? "x"%ch)%N with false by (destruct Hn; subst c2; reflexivity).
      replace (simple_escape0 c2) with false by (destruct Hn; subst c2; reflexivity).
      replace (S (str_len p) + 1) with (str_len p + 1 + 1) by lia.
      apply (newline_restart_b (cooked_byte_string_loop fuel)); auto using esc_byte_shrinks.
      intros r input' Hr E'. apply (IH r) with (p := []); auto.
      + apply suffix_length in Hr. cbn; lia.
      + apply suffix_length in Hr. cbn in *; lia.
    - rewrite Hn. unfold esc_byte.
      assert (Hre : forall r, suffix r t2 ->
        cooked_byte_string_loop fuel input
          (S (S (str_len p)) + (str_len t2 - str_len r), str_bytes r)
        = lift_suffix input (p_cooked esc_byte is_ascii r)).
      { intros r Hr. destruct (reindex input (p ++ [BACKSLASH; c2]) t2 r) as (p' & E' & El); auto.
        { now rewrite <- app_assoc. }
        rewrite str_len_app in El. cbn [str_len] in El. rewrite !len_utf8_ascii in El by lia.
        replace (S (S (str_len p)) + (str_len t2 - str_len r)) with (str_len p') by lia.
        apply Hrec; auto. apply suffix_length in Hr. cbn; lia. }
      destruct (c2 =? "x"%ch)%N.
      { rewrite backslash_x_byte_spec. destruct (p_x_byte t2) as [r|] eqn:Ex; [|reflexivity].
        cbn [lift_bit bind]. apply Hre. now apply p_x_byte_suffix. }
      destruct (simple_escape0 c2); [|reflexivity].
      replace (S (S (str_len p))) with (S (S (str_len p)) + (str_len t2 - str_len t2)) by lia. auto. }
  replace (is_ascii c) with true by (unfold is_ascii; symmetry; now apply N.ltb_lt).
  rewrite <- (str_len_snoc p c) by exact Hc. apply Hrec; [now rewrite <- !app_assoc|cbn; lia].
Qed.

Lemma cooked_byte_string_spec c :
  cooked_byte_string c = lift_suffix c (p_cooked esc_byte is_ascii (rest c)).
Proof.
  unfold cooked_byte_string, bytes_enum. change 0 with (str_len []).
  apply cooked_byte_string_loop_spec; [reflexivity|]. pose proof (length_le_str_len (rest c)). lia.
Qed.

(** *** Raw strings *)
Lemma p_delim_suffix n s m t : p_delim n s = Some (m, t) ->
  exists k, m = n + k /\ s = repeat "#"%ch k ++ DQUOTE :: t /\ (N.of_nat m <= 255)%N.
Proof.
  revert n. induction s as [|c s IH]; intros n; cbn [p_delim]; [discriminate|].
  destruct (N.eqb_spec c DQUOTE) as [->|].
  - destruct (N.ltb_spec 255 (N.of_nat n)); [discriminate|]. intros H'. inv H'.
    exists 0. rewrite Nat.add_0_r. auto.
  - destruct (N.eqb_spec c "#"%ch) as [->|]; [|discriminate]. intros H.
    apply IH in H as (k & -> & -> & Hk). exists (S k). cbn. rewrite <- plus_n_Sm. auto.
Qed.

Lemma str_len_repeat c n : (c < 128)%N -> str_len (repeat c n) = n.
Proof. intros H. induction n; cbn; [reflexivity|]. rewrite len_utf8_ascii by exact H. lia. Qed.

Lemma repeat_snoc (c : N) n t : repeat c n ++ c :: t = repeat c (S n) ++ t.
Proof. induction n; cbn in *; [reflexivity|]. now rewrite IHn. Qed.

Lemma delimiter_loop_spec input n s :
  rest input = repeat "#"%ch n ++ s ->
  delimiter_loop input n (str_bytes s)
  = match p_delim n s with Some (m, t) => Ok (cur_of input t, repeat "#"%ch m) | None => Reject end.
Proof.
  revert n. induction s as [|c s IH]; intros n E; [reflexivity|].
  destruct (first_byte_char c s) as (b & u & -> & Hb). cbn [delimiter_loop p_delim].
  destruct Hb as [(Hc & -> & ->)|(Hc & Hb)].
  2: { destruct (N.eqb_spec c DQUOTE); [lia|]. destruct (N.eqb_spec c "#"%ch); [lia|].
       destruct (N.eqb_spec b DQUOTE); [lia|]. destruct (N.eqb_spec b "#"%ch); [lia|]. reflexivity. }
  destruct (N.eqb_spec c DQUOTE) as [->|].
  - destruct (255 <? N.of_nat n)%N; [reflexivity|].
    rewrite (advance_app input (repeat "#"%ch n ++ [DQUOTE]) s).
    + cbn [bind]. rewrite (slice_to_eq _ (repeat "#"%ch n) (DQUOTE :: s)); auto.
      now rewrite str_len_repeat.
    + now rewrite <- app_assoc.
    + rewrite str_len_snoc, str_len_repeat by lia. lia.
  - destruct (N.eqb_spec c "#"%ch) as [->|]; [|reflexivity]. apply IH.
    rewrite E. apply repeat_snoc.
Qed.

Lemma p_raw_suffix ok d s r : p_raw ok d s = Some r -> suffix r s.
Proof.
  induction s as [s IH] using str_ind_len. destruct s as [|c t]; cbn [p_raw]; [discriminate|].
  destruct (_ && _); [intros H; inv H; auto|].
  destruct (c =? CR)%N.
  - destruct t as [|c2 t']; [discriminate|]. destruct (c2 =? LF)%N; [|discriminate].
    intros H. apply IH in H; [auto|cbn; lia].
  - destruct (ok c); [|discriminate]. intros H. apply IH in H; [auto|cbn; lia].
Qed.

(** [ok] does not distinguish non-ASCII bytes (or chars). *)
Definition ok_high (ok : N -> bool) : Prop :=
  (forall b, (128 <= b)%N -> ok b = true) \/ (forall b, (128 <= b)%N -> ok b = false).

Lemma raw_high ok input delim fuel i hb bs :
  Forall (fun b => (128 <= b)%N) hb -> (forall b, (128 <= b)%N -> ok b = true) ->
  raw_string_loop ok input delim (length hb + fuel) (i, hb ++ bs)
  = raw_string_loop ok input delim fuel (i + length hb, bs).
Proof.
  intros H Ho. revert i. induction H as [|b hb Hb Hh IH]; intros i; cbn [length app].
  - now rewrite Nat.add_0_r.
  - cbn [Nat.add raw_string_loop be_next].
    destruct (N.eqb_spec b CR); [lia|]. destruct (N.eqb_spec b DQUOTE); [lia|].
    rewrite (Ho b Hb). rewrite IH. do 2 f_equal. lia.
Qed.

Lemma raw_string_loop_spec ok input delim fuel p q :
  ok_high ok -> ascii_str delim ->
  rest input = p ++ q -> str_len q < fuel ->
  raw_string_loop ok input delim fuel (str_len p, str_bytes q)
  = lift_suffix input (p_raw ok delim q).
Proof.
  intros Ho Hd. revert fuel p. induction q as [q IH] using str_ind_len; intros fuel p E Hf.
  destruct q as [|c t].
  { destruct fuel; [lia|]. reflexivity. }
  cbn [str_len] in Hf.
  destruct (N.lt_ge_cases c 128) as [Hc|Hc].
  2: { cbn [p_raw]. destruct (N.eqb_spec c DQUOTE); [lia|]. destruct (N.eqb_spec c CR); [lia|].
       cbn [andb]. rewrite str_bytes_cons. destruct Ho as [Ho|Ho].
       - rewrite (Ho c Hc).
         replace fuel with (length (encode_utf8 c) + (fuel - len_utf8 c)) by (rewrite length_encode; lia).
         rewrite raw_high by auto using encode_high.
         rewrite length_encode, <- str_len_snoc'.
         apply IH; [cbn; lia|now rewrite <- app_assoc|lia].
       - rewrite (Ho c Hc). pose proof (encode_high c Hc) as Hf'.
         destruct (encode_nonempty c) as (b & u & Eb). rewrite Eb in *. inv Hf'.
         destruct fuel; [lia|]. cbn [app raw_string_loop be_next].
         destruct (N.eqb_spec b CR); [lia|]. destruct (N.eqb_spec b DQUOTE); [lia|].
         rewrite (Ho b) by assumption. reflexivity. }
  rewrite len_utf8_ascii in Hf by exact Hc.
  rewrite str_bytes_cons, encode_ascii by exact Hc. cbn [app].
  destruct fuel as [|fuel]; [lia|]. cbn [raw_string_loop be_next p_raw].
  assert (Hother :
    (if (c =? CR)%N then
       match be_next (S (str_len p), str_bytes t) with
       | Some (_, b2, bytes) =>
           if (b2 =? LF)%N then raw_string_loop ok input delim fuel bytes else Reject
       | None => Reject
       end
     else if ok c then raw_string_loop ok input delim fuel (S (str_len p), str_bytes t)
     else Reject)
    = lift_suffix input
      (if (c =? CR)%N then
        match t with
        | c2 :: t' => if (c2 =? LF)%N then p_raw ok delim t' else None
        | [] => None
        end
      else if ok c then p_raw ok delim t
      else None)).
  { destruct (N.eqb_spec c CR) as [->|].
    - destruct t as [|c2 t']; [reflexivity|].
      destruct (first_byte_char c2 t') as (b2 & u & -> & Hb). cbn [be_next].
      destruct Hb as [(Hc2 & -> & ->)|(Hc2 & Hb)].
      + destruct (N.eqb_spec c2 LF) as [->|]; [|reflexivity].
        rewrite <- (str_len_snoc p CR), <- (str_len_snoc _ LF) by lia.
        apply IH; [cbn; lia|now rewrite <- !app_assoc|].
        cbn [str_len] in Hf. pose proof (len_utf8_pos LF). lia.
      + destruct (N.eqb_spec c2 LF); [lia|]. destruct (N.eqb_spec b2 LF); [lia|]. reflexivity.
    - destruct (ok c); [|reflexivity]. rewrite <- (str_len_snoc p c) by exact Hc.
      apply IH; [cbn; lia|now rewrite <- app_assoc|lia]. }
  destruct (N.eqb_spec c DQUOTE) as [->|]; cbn [andb].
  - rewrite (slice_from_eq _ (p ++ [DQUOTE]) t); [|now rewrite <- app_assoc|rewrite str_len_snoc; lia].
    cbn [bind]. destruct (starts_with t delim) eqn:Es; [|exact Hother].
    apply starts_with_skipn in Es.
    rewrite (advance_app input (p ++ DQUOTE :: delim) (skipn (length delim) t)).
    + cbn [bind]. apply suffix_after. rewrite E.
      apply suffix_trans with t; [auto|]. exists (p ++ [DQUOTE]). now rewrite <- app_assoc.
    + rewrite <- app_assoc. cbn [app]. rewrite <- Es. exact E.
    + rewrite str_len_app. cbn [str_len]. rewrite (len_utf8_ascii DQUOTE) by lia. lia.
  - exact Hother.
Qed.

Lemma ascii_repeat c n : (c < 128)%N -> ascii_str (repeat c n).
Proof. intros H. induction n; constructor; auto. Qed.

Lemma raw_string_with_spec ok c :
  ok_high ok -> raw_string_with ok c = lift_suffix c (p_raw_with ok (rest c)).
Proof.
  intros Ho. unfold raw_string_with, p_raw_with, delimiter_of_raw_string.
  rewrite (delimiter_loop_spec c 0) by reflexivity.
  destruct (p_delim 0 (rest c)) as [[n t]|] eqn:Ed; cbn [bind]; [|reflexivity].
  rewrite rest_cur_of. unfold bytes_enum. change 0 with (str_len []).
  rewrite raw_string_loop_spec by (auto; try (apply ascii_repeat; lia); cbn; lia).
  apply p_delim_suffix in Ed as (k & -> & E & _). apply lift_suffix_trans.
  - rewrite E. exists (repeat "#"%ch k ++ [DQUOTE]). now rewrite <- app_assoc.
  - intros x Hx. now apply p_raw_suffix in Hx.
Qed.

Lemma p_raw_with_suffix ok s r : p_raw_with ok s = Some r -> suffix r s.
Proof.
  unfold p_raw_with. destruct (p_delim 0 s) as [[n t]|] eqn:Ed; [|discriminate].
  apply p_delim_suffix in Ed as (k & -> & -> & _). intros H. apply p_raw_suffix in H.
  apply suffix_trans with t; auto. exists (repeat "#"%ch k ++ [DQUOTE]). now rewrite <- app_assoc.
Qed.

Lemma p_raw_ext ok ok' d s : (forall c, ok c = ok' c) -> p_raw ok d s = p_raw ok' d s.
Proof.
  intros H. induction s as [s IH] using str_ind_len. destruct s as [|c t]; cbn [p_raw]; [reflexivity|].
  destruct (_ && _); [reflexivity|]. destruct (c =? CR)%N.
  - destruct t as [|c2 t']; [reflexivity|]. destruct (c2 =? LF)%N; [|reflexivity]. apply IH; cbn; lia.
  - rewrite H. destruct (ok' c); [|reflexivity]. apply IH; cbn; lia.
Qed.

(** *** Quoted literals *)
Lemma tag_lift (F : cursor -> res cursor) f c t (k : res cursor) :
  (forall c, F c = lift_suffix c (f (rest c))) ->
  (forall s r, f s = Some r -> suffix r s) ->
  if_ok (parse_tag c t) F k
  = if starts_with (rest c) t then lift_suffix c (f (skipn (length t) (rest c))) else k.
Proof.
  intros HF Hf. rewrite parse_tag_spec. destruct (starts_with (rest c) t); cbn [if_ok]; [|reflexivity].
  rewrite HF, rest_cur_of. apply lift_suffix_trans; auto.
Qed.

Lemma string_lit_spec c : string_lit c = lift_suffix c (q_string (rest c)).
Proof.
  unfold string_lit, q_string.
  rewrite (tag_lift _ (p_cooked esc_str ok_any)).
  - rewrite (tag_lift _ (p_raw_with ok_any)).
    + destruct (starts_with _ _); [reflexivity|]. destruct (starts_with _ _); reflexivity.
    + intros c'. apply (raw_string_with_spec ok_any). left. reflexivity.
    + intros s r. apply p_raw_with_suffix.
  - apply cooked_string_spec.
  - intros s r. apply p_cooked_suffix, esc_str_shrinks.
Qed.

Lemma byte_string_spec c : byte_string c = lift_suffix c (q_byte_string (rest c)).
Proof.
  unfold byte_string, q_byte_string.
  rewrite (tag_lift _ (p_cooked esc_byte is_ascii)).
  - rewrite (tag_lift _ (p_raw_with is_ascii)).
    + destruct (starts_with _ _); [reflexivity|]. destruct (starts_with _ _); reflexivity.
    + intros c'. apply raw_string_with_spec. right. intros b Hb. apply N.ltb_ge. exact Hb.
    + intros s r. apply p_raw_with_suffix.
  - apply cooked_byte_string_spec.
  - intros s r. apply p_cooked_suffix, esc_byte_shrinks.
Qed.

Lemma c_string_spec c : c_string c = lift_suffix c (q_c_string (rest c)).
Proof.
  unfold c_string, q_c_string.
  rewrite (tag_lift _ (p_cooked esc_c ok_nonnul)).
  - rewrite (tag_lift _ (p_raw_with ok_nonnul)).
    + destruct (starts_with _ _); [reflexivity|]. destruct (starts_with _ _); reflexivity.
    + intros c'. apply raw_string_with_spec. left. intros b Hb. unfold ok_nonnul.
      destruct (N.eqb_spec b NUL); [lia|reflexivity].
    + intros s r. apply p_raw_with_suffix.
  - apply cooked_c_string_spec.
  - intros s r. apply p_cooked_suffix, esc_c_shrinks.
Qed.

(** The closing quote after the unit, at any index. *)
Lemma close_squote input p r n :
  rest input = p ++ r -> n = str_len p ->
  (let? c := advance input n in let? c := parse_tag c (tag "'") in literal_suffix c)
  = lift_suffix input (closing_quote r).
Proof.
  intros E ->. rewrite (advance_app input p r) by auto. cbn [bind].
  rewrite parse_tag_spec, rest_cur_of, starts_with_single. destruct r as [|c t]; [reflexivity|].
  cbn [closing_quote]. rewrite N.eqb_sym. destruct (c =? SQUOTE)%N; [|reflexivity]. cbn [bind].
  cbn [length skipn]. rewrite cur_of_trans; [|rewrite E; auto|auto].
  apply suffix_after. rewrite E. exists (p ++ [c]). now rewrite <- app_assoc.
Qed.

Lemma closing_quote_suffix r x : closing_quote r = Some x -> suffix x r.
Proof.
  destruct r as [|c t]; cbn; [discriminate|]. destruct (_ =? _)%N; [|discriminate].
  intros H. inv H. auto.
Qed.
Lemma u_char_suffix s r : u_char s = Some r -> suffix r s.
Proof.
  destruct s as [|c t]; cbn [u_char]; [discriminate|]. destruct (_ =? _)%N.
  - intros H. apply esc_str_suffix in H as (a & b & -> & H). auto.
  - intros H. inv H. auto.
Qed.
Lemma u_byte_suffix s r : u_byte s = Some r -> suffix r s.
Proof.
  destruct s as [|c t]; cbn [u_byte]; [discriminate|]. destruct (_ =? _)%N.
  - intros H. apply esc_byte_suffix in H as (a & b & -> & H). auto.
  - destruct (is_ascii c); [|discriminate]. intros H. inv H. auto.
Qed.

Lemma suffix_split r s : suffix r s -> exists p, s = p ++ r /\ str_len p = str_len s - str_len r.
Proof. intros [p ->]. exists p. rewrite str_len_app. split; [reflexivity|lia]. Qed.

Lemma character_spec c : character c = lift_suffix c (q_char (rest c)).
Proof.
  unfold character, q_char. rewrite parse_tag_spec.
  destruct (starts_with (rest c) _); cbn [bind]; [|reflexivity].
  set (c1 := cur_of c _). set (s := skipn _ _) in *.
  assert (Hs : rest c1 = s) by reflexivity.
  transitivity (lift_suffix c1 (obind (u_char s) closing_quote)).
  2: { apply lift_suffix_trans; [unfold s; auto|]. intros x Hx.
       change (skipn 1 (rest c)) with s in Hx.
       destruct (u_char s) as [r|] eqn:Eu; [|discriminate]. apply u_char_suffix in Eu.
       apply closing_quote_suffix in Hx. now apply suffix_trans with r. }
  rewrite Hs. clearbody c1. clearbody s. clear c.
  assert (Hk : forall i r, suffix r s -> i = str_len s - str_len r ->
    match ci_next (i, r) with
    | None => Reject
    | Some ((idx, _), _) =>
      let? c := advance c1 idx in
      let? c := parse_tag c (tag "'") in
      literal_suffix c
    end = lift_suffix c1 (closing_quote r)).
  { intros i r Hr ->. destruct r as [|x t]; [reflexivity|]. cbn [ci_next].
    apply suffix_split in Hr as (p & E & El).
    apply close_squote with (p := p); [now rewrite Hs|now rewrite El]. }
  unfold char_indices, u_char. destruct s as [|ch t]; cbn [ci_next]; [reflexivity|].
  destruct (ch =? BACKSLASH)%N.
  - destruct t as [|c2 t2]; cbn [ci_next esc_str obind]; [reflexivity|].
    assert (Hk' : forall r, suffix r t2 ->
      match ci_next (0 + len_utf8 ch + len_utf8 c2 + (str_len t2 - str_len r), r) with
      | None => Reject
      | Some ((idx, _), _) =>
        let? c := advance c1 idx in
        let? c := parse_tag c (tag "'") in
        literal_suffix c
      end = lift_suffix c1 (closing_quote r)).
    { intros r Hr. apply Hk; auto. apply suffix_str_len in Hr. cbn [str_len]. lia. }
    destruct (c2 =? "x"%ch)%N eqn:Ex.
    + rewrite backslash_x_char_spec. destruct (p_x_char t2) as [r|] eqn:E; [|reflexivity].
      cbn [lift_it bind obind]. apply Hk'. now apply p_x_char_suffix.
    + destruct (c2 =? "u"%ch)%N eqn:Eu.
      * replace (simple_escape0 c2) with false
          by (apply N.eqb_eq in Eu as ->; reflexivity).
        rewrite backslash_u_spec. destruct (p_u t2) as [[r v]|] eqn:E; [|reflexivity].
        cbn [lift_itu bind obind]. apply Hk'. now apply p_u_suffix in E.
      * destruct (simple_escape0 c2); [|reflexivity]. cbn [bind obind].
        replace (0 + len_utf8 ch + len_utf8 c2) with (0 + len_utf8 ch + len_utf8 c2 + (str_len t2 - str_len t2)) by lia.
        apply Hk'. auto.
  - cbn [bind obind]. apply Hk; [auto|]. cbn [str_len]. lia.
Qed.

Lemma not_boundary s n p c t :
  s = p ++ c :: t -> str_len p < n < str_len p + len_utf8 c -> is_char_boundary s n = false.
Proof.
  intros -> H. unfold is_char_boundary.
  destruct (split_at (p ++ c :: t) n) as [[a b]|] eqn:E; [|reflexivity].
  apply split_at_inv in E as [E ->]. exfalso. revert a b E H.
  induction p as [|x p IH]; intros a b E H; cbn [app] in E.
  - destruct a as [|y a]; [cbn in H; lia|]. inv E. cbn in H. lia.
  - destruct a as [|y a]; [cbn in H; lia|]. inv E. cbn [str_len] in H. apply (IH a b); [assumption|lia].
Qed.

Lemma boundary s p t : s = p ++ t -> is_char_boundary s (str_len p) = true.
Proof. intros ->. unfold is_char_boundary. now rewrite split_at_app. Qed.

Lemma byte_lit_spec c : byte_lit c = lift_suffix c (q_byte (rest c)).
Proof.
  unfold byte_lit, q_byte. rewrite parse_tag_spec.
  destruct (starts_with (rest c) _); cbn [bind]; [|reflexivity].
  set (c1 := cur_of c _). set (s := skipn _ _) in *.
  assert (Hs : rest c1 = s) by reflexivity.
  transitivity (lift_suffix c1 (obind (u_byte s) closing_quote)).
  2: { apply lift_suffix_trans; [unfold s; auto|]. intros x Hx.
       change (skipn 2 (rest c)) with s in Hx.
       destruct (u_byte s) as [r|] eqn:Eu; [|discriminate]. apply u_byte_suffix in Eu.
       apply closing_quote_suffix in Hx. now apply suffix_trans with r. }
  rewrite Hs. clearbody c1. clearbody s. clear c.
  assert (Hk : forall i r, suffix r s -> i = str_len s - str_len r ->
    match be_next (i, str_bytes r) with
    | None => Reject
    | Some ((offset, _), _) =>
      if negb (is_char_boundary s offset) then Reject
      else
      let? c := advance c1 offset in
      let? c := parse_tag c (tag "'") in
      literal_suffix c
    end = lift_suffix c1 (closing_quote r)).
  { intros i r Hr ->. destruct r as [|x t]; [reflexivity|].
    apply suffix_split in Hr as (p & E & El).
    destruct (first_byte_char x t) as (b & u & -> & _). cbn [be_next].
    rewrite <- El. rewrite (boundary s p (x :: t)) by exact E. cbn [negb].
    apply close_squote with (p := p); [now rewrite Hs|reflexivity]. }
  unfold bytes_enum, u_byte. destruct s as [|ch t]; [reflexivity|].
  destruct (N.lt_ge_cases ch 128) as [Hc|Hc].
  2: { destruct (N.eqb_spec ch BACKSLASH); [lia|].
       replace (is_ascii ch) with false by (symmetry; apply N.ltb_ge; exact Hc). cbn [obind].
       rewrite str_bytes_cons. pose proof (encode_high ch Hc) as Hh.
       pose proof (length_encode ch) as Hl.
       assert (2 <= len_utf8 ch) by (unfold len_utf8; destruct (N.ltb_spec ch 128); [lia|];
         repeat destruct (_ <? _)%N; lia).
       destruct (encode_utf8 ch) as [|b0 [|b1 u]]; cbn in Hl; [lia|lia|].
       inv Hh. cbn [app be_next]. destruct (N.eqb_spec b0 BACKSLASH); [lia|]. cbn [bind be_next].
       rewrite (not_boundary (ch :: t) 1 [] ch t); [reflexivity|reflexivity|cbn; lia]. }
  rewrite str_bytes_cons, encode_ascii by exact Hc. cbn [app be_next].
  destruct (ch =? BACKSLASH)%N.
  - destruct t as [|c2 t2]; [reflexivity|].
    destruct (first_byte_char c2 t2) as (b & u & -> & Hb). cbn [be_next esc_byte].
    destruct Hb as [(Hc2 & -> & ->)|(Hc2 & Hb)].
    2: { unfold simple_escape0.
         repeat match goal with |- context [(?a =? ?b)%N] => destruct (N.eqb_spec a b); [lia|] end.
         reflexivity. }
    assert (Hk' : forall r, suffix r t2 ->
      match be_next (2 + (str_len t2 - str_len r), str_bytes r) with
      | None => Reject
      | Some ((idx, _), _) =>
        if negb (is_char_boundary (ch :: c2 :: t2) idx) then Reject
        else
        let? c := advance c1 idx in
        let? c := parse_tag c (tag "'") in
        literal_suffix c
      end = lift_suffix c1 (closing_quote r)).
    { intros r Hr. apply Hk; auto. apply suffix_str_len in Hr. cbn [str_len].
      rewrite !len_utf8_ascii by assumption. lia. }
    destruct (c2 =? "x"%ch)%N eqn:Ex.
    + rewrite backslash_x_byte_spec. destruct (p_x_byte t2) as [r|] eqn:E; [|reflexivity].
      cbn [lift_bit bind obind]. apply Hk'. now apply p_x_byte_suffix.
    + destruct (simple_escape0 c2); [|reflexivity]. cbn [bind obind].
      replace 2 with (2 + (str_len t2 - str_len t2)) by lia. apply Hk'. auto.
  - replace (is_ascii ch) with true by (symmetry; apply N.ltb_lt; exact Hc).
    cbn [bind obind]. apply Hk; [auto|]. cbn [str_len]. rewrite len_utf8_ascii by exact Hc. lia.
Qed.

End WithUnicode.
