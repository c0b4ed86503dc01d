(** Second half of the cursor/char-list equivalence: identifiers, literals, puncts. *)
From Verif Require Import Base BaseFacts Unicode Tokens Lexer PureLexer LexerEquiv.

Section WithUnicode.
Context {U : unicode}.

Lemma str_len_snoc p c : (c < 128)%N -> str_len (p ++ [c]) = S (str_len p).
Proof. intros H. rewrite str_len_app. cbn. rewrite len_utf8_ascii by exact H. lia. Qed.

(** *** Identifiers *)
Lemma p_continue_app s : s = snd (p_continue s) ++ fst (p_continue s).
Proof.
  induction s as [|c t IH]; cbn [p_continue]; [reflexivity|].
  destruct (is_ident_continue c); [|reflexivity].
  destruct (p_continue t) as [r x]. cbn [fst snd app] in *. now f_equal.
Qed.

Lemma p_ident_not_raw_app s r x : p_ident_not_raw s = Some (r, x) -> s = x ++ r.
Proof.
  unfold p_ident_not_raw. destruct s as [|c t]; [discriminate|].
  destruct (is_ident_start c); [|discriminate].
  pose proof (p_continue_app t) as H. destruct (p_continue t) as [r' x'].
  cbn [fst snd] in H. intros E. rewrite H. inversion E. reflexivity.
Qed.

Lemma ident_end_spec len p chars :
  len = str_len (p ++ chars) ->
  ident_end len (str_len p) chars = str_len (p ++ snd (p_continue chars)).
Proof.
  revert p. induction chars as [|c t IH]; intros p E; cbn [ident_end p_continue].
  - cbn. exact E.
  - destruct (is_ident_continue c); cbn [negb].
    + replace (str_len p + len_utf8 c) with (str_len (p ++ [c])) by (rewrite str_len_app; cbn; lia).
      rewrite IH by (rewrite <- app_assoc; exact E).
      destruct (p_continue t). cbn [snd]. now rewrite <- app_assoc.
    + cbn. now rewrite app_nil_r.
Qed.

Lemma ident_not_raw_spec c : ident_not_raw c = lift2 c (p_ident_not_raw (rest c)).
Proof.
  unfold ident_not_raw, char_indices, p_ident_not_raw.
  destruct (rest c) as [|ch t] eqn:E; cbn [ci_next]; [reflexivity|].
  destruct (is_ident_start ch); [|reflexivity].
  change (0 + len_utf8 ch) with (len_utf8 ch).
  replace (len_utf8 ch) with (str_len [ch]) by (cbn; lia).
  rewrite ident_end_spec by reflexivity.
  pose proof (p_continue_app t) as H. destruct (p_continue t) as [r x]. cbn [fst snd] in *.
  assert (E' : rest c = ([ch] ++ x) ++ r) by (rewrite E, H; reflexivity).
  rewrite (advance_app c ([ch] ++ x) r) by auto. cbn [bind].
  rewrite <- E, E', slice_to_app. reflexivity.
Qed.

Lemma p_ident_not_raw_suffix s r x : p_ident_not_raw s = Some (r, x) -> suffix r s.
Proof. intros H. apply p_ident_not_raw_app in H as ->. auto. Qed.

Lemma ident_any_spec c : wfc c -> ident_any c = lift2 c (p_ident_any (rest c)).
Proof.
  intros Hw. unfold ident_any, p_ident_any, cstarts.
  destruct (starts_with (rest c) _) eqn:E.
  - rewrite (advance_app c (tag "r#") (skipn 2 (rest c))); [|now apply starts_with_skipn in E|reflexivity].
    cbn [bind]. rewrite ident_not_raw_spec, rest_cur_of.
    destruct (p_ident_not_raw (skipn 2 (rest c))) as [[r x]|] eqn:E2; cbn [lift2 bind]; [|reflexivity].
    cbn [negb]. destruct (cannot_be_raw x); [reflexivity|]. cbn [lift2].
    rewrite cur_of_trans; auto. now apply p_ident_not_raw_suffix in E2.
  - rewrite advance0 by exact Hw. cbn [bind]. rewrite ident_not_raw_spec.
    destruct (p_ident_not_raw (rest c)) as [[r x]|]; reflexivity.
Qed.

Lemma p_ident_any_suffix s r x : p_ident_any s = Some (r, x) -> suffix r s.
Proof.
  unfold p_ident_any. destruct (starts_with s _).
  - destruct (p_ident_not_raw (skipn 2 s)) as [[r' x']|] eqn:E; [|discriminate].
    destruct (cannot_be_raw x'); [discriminate|]. intros H. inv H.
    apply p_ident_not_raw_suffix in E. eapply suffix_trans; [exact E|auto].
  - destruct (p_ident_not_raw s) as [[r' x']|] eqn:E; [|discriminate].
    intros H. inv H. now apply p_ident_not_raw_suffix in E.
Qed.

Lemma ident_spec c : wfc c -> ident c = lift2 c (p_ident (rest c)).
Proof.
  intros Hw. unfold ident, p_ident.
  change (cstarts c) with (starts_with (rest c)).
  destruct (existsb _ _); [reflexivity|]. now apply ident_any_spec.
Qed.

Lemma literal_suffix_spec c : wfc c -> literal_suffix c = Ok (cur_of c (p_suffix (rest c))).
Proof.
  intros Hw. unfold literal_suffix, p_suffix. rewrite ident_not_raw_spec.
  destruct (p_ident_not_raw (rest c)) as [[r x]|]; cbn [lift2 if_ok]; [reflexivity|].
  now rewrite cur_of_self.
Qed.

Lemma p_suffix_suffix s : suffix (p_suffix s) s.
Proof.
  unfold p_suffix. destruct (p_ident_not_raw s) as [[r x]|] eqn:E; [|auto].
  now apply p_ident_not_raw_suffix in E.
Qed.
Local Hint Resolve p_suffix_suffix : core.

Lemma suffix_after c r :
  suffix r (rest c) -> literal_suffix (cur_of c r) = Ok (cur_of c (p_suffix r)).
Proof.
  intros H. rewrite literal_suffix_spec by auto. rewrite rest_cur_of, cur_of_trans; auto.
Qed.

Lemma word_break_spec c : wfc c -> word_break c = lift c (p_word_break (rest c)).
Proof.
  intros Hw. unfold word_break, p_word_break, first_char.
  destruct (rest c) as [|ch t] eqn:E; cbn [lift].
  - rewrite <- E, cur_of_self by exact Hw. reflexivity.
  - destruct (is_ident_continue ch); cbn [lift]; [reflexivity|].
    rewrite <- E, cur_of_self by exact Hw. reflexivity.
Qed.

(** *** Escapes *)
Definition lift_it (i : nat) (s : str) (o : option str) : res chars_it :=
  match o with Some r => Ok (i + (str_len s - str_len r), r) | None => Reject end.
Definition lift_bit (i : nat) (s : str) (o : option str) : res bytes_it :=
  match o with Some r => Ok (i + (str_len s - str_len r), str_bytes r) | None => Reject end.

Lemma is_hex_ascii c : is_hex_digit c = true -> (c < 128)%N.
Proof. unfold is_hex_digit, between. lia. Qed.

Lemma backslash_x_char_spec i s : backslash_x_char (i, s) = lift_it i s (p_x_char s).
Proof.
  unfold backslash_x_char, p_x_char. destruct s as [|a s]; cbn [ci_next]; [reflexivity|].
  destruct (between "0"%ch a "7"%ch) eqn:Ea.
  - destruct s as [|b t]; cbn [ci_next]; [reflexivity|]. cbn [andb].
    destruct (is_hex_digit b); [|reflexivity]. cbn [lift_it str_len]. do 2 f_equal; lia.
  - destruct s; reflexivity.
Qed.

Lemma backslash_x_nonzero_spec i s : backslash_x_nonzero (i, s) = lift_it i s (p_x_nonzero s).
Proof.
  unfold backslash_x_nonzero, p_x_nonzero. destruct s as [|a s]; cbn [ci_next]; [reflexivity|].
  destruct (is_hex_digit a) eqn:Ea.
  - destruct s as [|b t]; cbn [ci_next]; [reflexivity|]. cbn [andb].
    destruct (is_hex_digit b); [|reflexivity]. cbn [andb].
    destruct (_ && _); cbn [negb lift_it str_len]; [reflexivity|]. do 2 f_equal; lia.
  - destruct s; reflexivity.
Qed.

Lemma backslash_x_byte_spec i s : backslash_x_byte (i, str_bytes s) = lift_bit i s (p_x_byte s).
Proof.
  unfold backslash_x_byte, p_x_byte. destruct s as [|a s]; [reflexivity|].
  destruct (first_byte_char a s) as (x & u & -> & Ha). cbn [be_next].
  destruct Ha as [(Ha & -> & ->)|(Ha & Hx)].
  2: { destruct (is_hex_digit x) eqn:E; [apply is_hex_ascii in E; lia|].
       destruct (is_hex_digit a) eqn:E'; [apply is_hex_ascii in E'; lia|].
       destruct s; reflexivity. }
  destruct (is_hex_digit a) eqn:Ea; [|destruct s; reflexivity].
  destruct s as [|b t]; [reflexivity|].
  destruct (first_byte_char b t) as (x & u & -> & Hb). cbn [be_next andb].
  destruct Hb as [(Hb & -> & ->)|(Hb & Hx)].
  2: { destruct (is_hex_digit x) eqn:E; [apply is_hex_ascii in E; lia|].
       destruct (is_hex_digit b) eqn:E'; [apply is_hex_ascii in E'; lia|]. reflexivity. }
  destruct (is_hex_digit b); [|reflexivity]. cbn [lift_bit str_len].
  rewrite !len_utf8_ascii by assumption. do 2 f_equal; lia.
Qed.

Definition lift_itu (i : nat) (s : str) (o : option (str * char)) : res (chars_it * char) :=
  match o with Some (r, c) => Ok ((i + (str_len s - str_len r), r), c) | None => Reject end.

Lemma p_u_loop_suffix s v n r c : p_u_loop s v n = Some (r, c) -> suffix r s.
Proof.
  revert v n. induction s as [|ch t IH]; intros v n; cbn [p_u_loop]; [discriminate|].
  destruct (is_hex_digit ch).
  - destruct (n =? 6); [discriminate|]. eauto.
  - destruct (_ && _); [eauto|]. destruct (_ && _); [|discriminate].
    destruct (char_from_u32 v); [|discriminate]. intros H. inv H. auto.
Qed.

Lemma backslash_u_loop_spec i s v n :
  backslash_u_loop i s v n = lift_itu i s (p_u_loop s v n).
Proof.
  revert i v n. induction s as [|ch t IH]; intros i v n; cbn [backslash_u_loop p_u_loop]; [reflexivity|].
  assert (Hrec : forall v n, backslash_u_loop (i + len_utf8 ch) t v n
                 = lift_itu i (ch :: t) (p_u_loop t v n)).
  { intros v' n'. rewrite IH. destruct (p_u_loop t v' n') as [[r c]|] eqn:E; [|reflexivity].
    cbn [lift_itu str_len]. apply p_u_loop_suffix, suffix_str_len in E. do 3 f_equal. lia. }
  destruct (is_hex_digit ch).
  - destruct (n =? 6); [reflexivity|]. apply Hrec.
  - destruct (_ && _); [apply Hrec|]. destruct (_ && _); [|reflexivity].
    destruct (char_from_u32 v); [|reflexivity]. cbn [ok_or bind lift_itu str_len]. do 3 f_equal. lia.
Qed.

Lemma backslash_u_spec i s : backslash_u (i, s) = lift_itu i s (p_u s).
Proof.
  unfold backslash_u, p_u. destruct s as [|c t]; cbn [ci_next]; [reflexivity|].
  destruct (_ =? _)%N; [|reflexivity]. rewrite backslash_u_loop_spec.
  destruct (p_u_loop t 0 0) as [[r x]|] eqn:E; [|reflexivity].
  apply p_u_loop_suffix, suffix_str_len in E. cbn [lift_itu str_len]. do 3 f_equal. lia.
Qed.

Lemma p_u_suffix s r c : p_u s = Some (r, c) -> suffix r s.
Proof.
  unfold p_u. destruct s as [|x t]; [discriminate|]. destruct (_ =? _)%N; [|discriminate].
  intros H. apply p_u_loop_suffix in H. auto.
Qed.

Lemma p_x_char_suffix s r : p_x_char s = Some r -> suffix r s.
Proof.
  destruct s as [|a [|b t]]; cbn; try discriminate. destruct (_ && _); [|discriminate].
  intros H. inv H. auto.
Qed.
Lemma p_x_byte_suffix s r : p_x_byte s = Some r -> suffix r s.
Proof.
  destruct s as [|a [|b t]]; cbn; try discriminate. destruct (_ && _); [|discriminate].
  intros H. inv H. auto.
Qed.
Lemma p_x_nonzero_suffix s r : p_x_nonzero s = Some r -> suffix r s.
Proof.
  destruct s as [|a [|b t]]; cbn; try discriminate. destruct (_ && _); [|discriminate].
  intros H. inv H. auto.
Qed.

(** An escape consumes at least its letter. *)
Lemma esc_str_suffix s r : esc_str s = Some r -> exists c t, s = c :: t /\ suffix r t.
Proof.
  unfold esc_str. destruct s as [|c t]; [discriminate|]. intros H. exists c, t. split; [reflexivity|].
  destruct (_ =? _)%N; [now apply p_x_char_suffix in H|].
  destruct (simple_escape0 c); [inv H; auto|].
  destruct (_ =? _)%N; [|discriminate]. destruct (p_u t) as [[r' x]|] eqn:E; [|discriminate].
  inv H. now apply p_u_suffix in E.
Qed.
Lemma esc_byte_suffix s r : esc_byte s = Some r -> exists c t, s = c :: t /\ suffix r t.
Proof.
  unfold esc_byte. destruct s as [|c t]; [discriminate|]. intros H. exists c, t. split; [reflexivity|].
  destruct (_ =? _)%N; [now apply p_x_byte_suffix in H|].
  destruct (simple_escape0 c); [inv H; auto|discriminate].
Qed.
Lemma esc_c_suffix s r : esc_c s = Some r -> exists c t, s = c :: t /\ suffix r t.
Proof.
  unfold esc_c. destruct s as [|c t]; [discriminate|]. intros H. exists c, t. split; [reflexivity|].
  destruct (_ =? _)%N; [now apply p_x_nonzero_suffix in H|].
  destruct (simple_escape_c c); [inv H; auto|].
  destruct (_ =? _)%N; [|discriminate]. destruct (p_u t) as [[r' x]|] eqn:E; [|discriminate].
  destruct (_ =? _)%N; [discriminate|]. inv H. now apply p_u_suffix in E.
Qed.

(** *** Backslash-newline *)
Lemma is_trail_ws_ascii b : is_trail_ws b = true -> (b < 128)%N.
Proof. unfold is_trail_ws. lia. Qed.

Lemma p_trail_suffix last s r : p_trail last s = Some r -> suffix r s.
Proof.
  revert last. induction s as [s IH] using str_ind_len; intros last.
  destruct s as [|c t]; cbn [p_trail]; [discriminate|].
  destruct (last =? CR)%N.
  - destruct (c =? LF)%N; [|discriminate]. destruct t as [|b t']; [discriminate|].
    destruct (is_trail_ws b).
    + intros H. apply IH in H; [auto|cbn; lia].
    + intros H. inv H. auto.
  - destruct (is_trail_ws c).
    + intros H. apply IH in H; [auto|cbn; lia].
    + intros H. inv H. auto.
Qed.

Lemma trailing_loop_spec input fuel last p q :
  rest input = p ++ q -> length q < fuel ->
  trailing_backslash_loop input fuel last (str_len p, str_bytes q)
  = lift input (p_trail last q).
Proof.
  revert last p fuel. induction q as [q IH] using str_ind_len; intros last p fuel E Hf.
  destruct fuel as [|fuel]; [lia|].
  (* the common part: look at the next byte *)
  assert (Hstep : forall p q', rest input = p ++ q' -> suffix q' q ->
    match be_next (str_len p, str_bytes q') with
    | Some (offset, b, ws) =>
        if (b =? SPACE)%N || (b =? TAB)%N || (b =? LF)%N || (b =? CR)%N
        then trailing_backslash_loop input fuel b ws
        else advance input offset
    | None => Reject
    end = lift input match q' with [] => None | c :: t => if is_trail_ws c then p_trail c t else Some q' end).
  { intros p' q' E' Hs. destruct q' as [|c t]; [reflexivity|].
    destruct (first_byte_char c t) as (b & u & -> & Hb). cbn [be_next].
    change ((b =? SPACE)%N || (b =? TAB)%N || (b =? LF)%N || (b =? CR)%N) with (is_trail_ws b).
    destruct Hb as [(Hb & -> & ->)|(Hc & Hb)].
    - destruct (is_trail_ws c).
      + replace (S (str_len p')) with (str_len (p' ++ [c]))
          by (rewrite str_len_app; cbn; rewrite len_utf8_ascii by exact Hb; lia).
        apply suffix_length in Hs. cbn [length] in Hs.
        apply IH; [lia | now rewrite <- app_assoc | lia].
      + cbn [lift]. now apply advance_app with (p := p').
    - destruct (is_trail_ws b) eqn:E1; [apply is_trail_ws_ascii in E1; lia|].
      destruct (is_trail_ws c) eqn:E2; [apply is_trail_ws_ascii in E2; lia|].
      cbn [lift]. now apply advance_app with (p := p'). }
  cbn [trailing_backslash_loop].
  destruct q as [|c t].
  { cbn [str_bytes be_next flat_map p_trail lift]. destruct (last =? CR)%N; reflexivity. }
  cbn [p_trail]. destruct (last =? CR)%N.
  - destruct (first_byte_char c t) as (b & u & -> & Hb). cbn [be_next].
    destruct Hb as [(Hb & -> & ->)|(Hc & Hb)].
    + destruct (N.eqb_spec c LF) as [->|]; cbn [negb]; [|reflexivity].
      replace (S (str_len p)) with (str_len (p ++ [LF]))
          by (now rewrite str_len_snoc).
      apply Hstep; [now rewrite <- app_assoc|auto].
    + destruct (N.eqb_spec b LF); [lia|]. destruct (N.eqb_spec c LF); [lia|]. reflexivity.
  - apply (Hstep p (c :: t)); auto.
Qed.

Lemma trailing_backslash_spec input last :
  trailing_backslash input last = lift input (p_trail last (rest input)).
Proof.
  unfold trailing_backslash, bytes_enum. change 0 with (str_len []).
  apply trailing_loop_spec; [reflexivity|].
  pose proof (length_le_str_len (rest input)). lia.
Qed.

(** *** Cooked strings *)
Definition esc_shrinks (esc : str -> option str) : Prop :=
  forall s r, esc s = Some r -> exists c t, s = c :: t /\ suffix r t.

Lemma p_cooked_fuel_suffix esc ok n s r :
  esc_shrinks esc -> p_cooked_fuel esc ok n s = Some r -> suffix r s.
Proof.
  intros He. revert s. induction n as [|n IH]; intros s; cbn [p_cooked_fuel]; [discriminate|].
  destruct s as [|c t]; [discriminate|].
  destruct (c =? DQUOTE)%N; [intros H; inv H; auto|].
  destruct (c =? CR)%N.
  - destruct t as [|c2 t']; [discriminate|]. destruct (c2 =? LF)%N; [|discriminate]. auto.
  - destruct (c =? BACKSLASH)%N.
    + destruct t as [|c2 t2]; [discriminate|]. destruct (_ || _).
      * destruct (p_trail c2 t2) as [r'|] eqn:E; [|discriminate].
        intros H. apply IH in H. apply p_trail_suffix in E. do 2 apply suffix_cons.
        now apply suffix_trans with r'.
      * destruct (esc (c2 :: t2)) as [r'|] eqn:E; [|discriminate]. intros H. apply IH in H.
        apply He in E as (x & y & Exy & E). inv Exy. do 2 apply suffix_cons.
        now apply suffix_trans with r'.
    + destruct (ok c); [|discriminate]. auto.
Qed.

Lemma p_cooked_fuel_enough esc ok n m s :
  esc_shrinks esc -> length s < n -> length s < m ->
  p_cooked_fuel esc ok n s = p_cooked_fuel esc ok m s.
Proof.
  intros He. revert m s. induction n as [|n IH]; intros m s Hn Hm; [lia|].
  destruct m as [|m]; [lia|]. cbn [p_cooked_fuel].
  destruct s as [|c t]; [reflexivity|]. cbn [length] in *.
  destruct (c =? DQUOTE)%N; [reflexivity|].
  destruct (c =? CR)%N.
  - destruct t as [|c2 t']; [reflexivity|]. destruct (c2 =? LF)%N; [|reflexivity].
    cbn [length] in *. apply IH; lia.
  - destruct (c =? BACKSLASH)%N.
    + destruct t as [|c2 t2]; [reflexivity|]. cbn [length] in *. destruct (_ || _).
      * destruct (p_trail c2 t2) as [r'|] eqn:E; [|reflexivity].
        apply p_trail_suffix, suffix_length in E. apply IH; lia.
      * destruct (esc (c2 :: t2)) as [r'|] eqn:E; [|reflexivity].
        apply He in E as (x & y & Exy & E). inv Exy. apply suffix_length in E. apply IH; lia.
    + destruct (ok c); [|reflexivity]. apply IH; lia.
Qed.

(** Unfolding equation. *)
Lemma p_cooked_eq esc ok s : esc_shrinks esc ->
  p_cooked esc ok s =
  match s with
  | [] => None
  | c :: t =>
      if (c =? DQUOTE)%N then Some t
      else if (c =? CR)%N then
        match t with
        | c2 :: t' => if (c2 =? LF)%N then p_cooked esc ok t' else None
        | [] => None
        end
      else if (c =? BACKSLASH)%N then
        match t with
        | [] => None
        | c2 :: t2 =>
            if (c2 =? LF)%N || (c2 =? CR)%N then
              match p_trail c2 t2 with Some r => p_cooked esc ok r | None => None end
            else match esc t with Some r => p_cooked esc ok r | None => None end
        end
      else if ok c then p_cooked esc ok t
      else None
  end.
Proof.
  intros He. unfold p_cooked at 1. cbn [p_cooked_fuel].
  assert (H : forall r, length r < length s ->
     p_cooked_fuel esc ok (length s) r = p_cooked esc ok r)
    by (intros r Hr; apply p_cooked_fuel_enough; auto; lia).
  destruct s as [|c t]; [reflexivity|].
  destruct (c =? DQUOTE)%N; [reflexivity|].
  destruct (c =? CR)%N.
  - destruct t as [|c2 t']; [reflexivity|]. destruct (c2 =? LF)%N; [|reflexivity].
    apply H. cbn; lia.
  - destruct (c =? BACKSLASH)%N.
    + destruct t as [|c2 t2]; [reflexivity|]. destruct (_ || _).
      * destruct (p_trail c2 t2) as [r'|] eqn:E; [|reflexivity].
        apply p_trail_suffix, suffix_length in E. apply H. cbn; lia.
      * destruct (esc (c2 :: t2)) as [r'|] eqn:E; [|reflexivity].
        apply He in E as (x & y & Exy & E). inv Exy. apply suffix_length in E. apply H. cbn; lia.
    + destruct (ok c); [|reflexivity]. apply H. cbn; lia.
Qed.

Lemma p_cooked_suffix esc ok s r :
  esc_shrinks esc -> p_cooked esc ok s = Some r -> suffix r s.
Proof. intros He. now apply p_cooked_fuel_suffix. Qed.

Definition lift_suffix (c : cursor) (o : option str) : res cursor :=
  lift c (omap p_suffix o).

Lemma lift_suffix_trans c r o :
  suffix r (rest c) -> (forall x, o = Some x -> suffix x r) ->
  lift_suffix (cur_of c r) o = lift_suffix c o.
Proof.
  intros H Ho. destruct o as [x|]; [|reflexivity]. cbn.
  rewrite cur_of_trans; auto. eapply suffix_trans; [|apply Ho; reflexivity]. auto.
Qed.

Lemma close_quote_spec input p q n :
  rest input = p ++ DQUOTE :: q -> n = str_len p + 1 ->
  (let? input := advance input n in literal_suffix input) = lift_suffix input (Some q).
Proof.
  intros E ->. rewrite (advance_app input (p ++ [DQUOTE]) q);
    [|now rewrite <- app_assoc|rewrite str_len_app; reflexivity].
  cbn [bind]. apply suffix_after. rewrite E. exists (p ++ [DQUOTE]). now rewrite <- app_assoc.
Qed.

(** Continue a loop at the suffix [r] of [q], [rest input = p ++ q]. *)
Lemma reindex (input : cursor) p q r :
  rest input = p ++ q -> suffix r q ->
  exists p', rest input = p' ++ r /\ str_len p + (str_len q - str_len r) = str_len p'.
Proof.
  intros E [x ->]. exists (p ++ x). split; [now rewrite <- app_assoc|].
  rewrite !str_len_app. lia.
Qed.

Lemma len1 (c d : N) : c = d -> (d < 128)%N -> len_utf8 c = 1.
Proof. intros ->. apply len_utf8_ascii. Qed.

(** Text of the kind [esc]/[ok]: restart after backslash-newline. *)
Lemma newline_step (input : cursor) p c2 t2 :
  rest input = p ++ BACKSLASH :: c2 :: t2 -> (c2 = LF \/ c2 = CR) ->
  (let? c := advance input (str_len p + 1 + 1) in trailing_backslash c c2)
  = lift input (p_trail c2 t2).
Proof.
  intros E Hc.
  rewrite (advance_app input (p ++ [BACKSLASH; c2]) t2); [|now rewrite <- app_assoc|].
  2: { rewrite str_len_app. cbn. rewrite !len_utf8_ascii by (destruct Hc; subst; lia). lia. }
  cbn [bind]. rewrite trailing_backslash_spec, rest_cur_of.
  destruct (p_trail c2 t2) as [r|] eqn:Et; [|reflexivity]. cbn [lift].
  apply p_trail_suffix in Et.
  rewrite cur_of_trans; auto. rewrite E. exists (p ++ [BACKSLASH; c2]). now rewrite <- app_assoc.
Qed.

Lemma esc_str_shrinks : esc_shrinks esc_str. Proof. exact esc_str_suffix. Qed.
Lemma esc_byte_shrinks : esc_shrinks esc_byte. Proof. exact esc_byte_suffix. Qed.
Lemma esc_c_shrinks : esc_shrinks esc_c. Proof. exact esc_c_suffix. Qed.

End WithUnicode.
