(** The cursor level lexer never panics, never runs out of fuel, and computes
    what PureLexer.v says. *)
From Verif Require Import Base BaseFacts Unicode Tokens Lexer PureLexer.

(** *** Cursors *)
Definition lift (c : cursor) (o : option str) : res cursor :=
  match o with Some r => Ok (cur_of c r) | None => Reject end.
Definition lift2 {A} (c : cursor) (o : option (str * A)) : res (cursor * A) :=
  match o with Some (r, a) => Ok (cur_of c r, a) | None => Reject end.

Lemma advance_app c p r n :
  rest c = p ++ r -> n = str_len p -> advance c n = Ok (cur_of c r).
Proof.
  intros E ->. unfold advance, cur_of. rewrite E, split_at_app, app_length.
  do 3 f_equal. lia.
Qed.

Lemma rest_cur_of c r : rest (cur_of c r) = r. Proof. reflexivity. Qed.

Lemma cur_of_trans c r r' :
  suffix r (rest c) -> suffix r' r -> cur_of (cur_of c r) r' = cur_of c r'.
Proof.
  intros [p E] [q E']. unfold cur_of. cbn [rest off]. rewrite wrap32_add_l.
  f_equal. f_equal. rewrite E, E', !app_length. lia.
Qed.

Definition wfc (c : cursor) : Prop := (off c < two32)%N.

Lemma cur_of_self c : wfc c -> cur_of c (rest c) = c.
Proof.
  intros H. unfold cur_of. rewrite Nat.sub_diag, N.add_0_r, wrap32_small by exact H.
  destruct c; reflexivity.
Qed.
Lemma wfc_cur_of c r : wfc (cur_of c r). Proof. apply wrap32_lt. Qed.
Global Hint Resolve wfc_cur_of : core.

Lemma advance0 c : wfc c -> advance c 0 = Ok c.
Proof.
  intros H. rewrite (advance_app c [] (rest c)) by reflexivity.
  now rewrite cur_of_self.
Qed.

Definition ascii_str (p : list N) : Prop := Forall (fun c => (c < 128)%N) p.
Lemma str_len_ascii p : ascii_str p -> str_len p = length p.
Proof. induction 1 as [|c p Hc Hp IH]; cbn; [reflexivity|]. rewrite len_utf8_ascii by exact Hc. lia. Qed.

(** Tags: consuming an ASCII tag. *)
Lemma parse_tag_spec c t :
  parse_tag c t = if starts_with (rest c) t then Ok (cur_of c (skipn (length t) (rest c))) else Reject.
Proof.
  unfold parse_tag, cstarts. destruct (starts_with (rest c) t) eqn:E; [|reflexivity].
  apply starts_with_skipn in E. now apply advance_app with (p := t).
Qed.

Lemma skipn_suffix n (s : str) : suffix (skipn n s) s.
Proof. exists (firstn n s). symmetry. apply firstn_skipn. Qed.
Global Hint Resolve skipn_suffix : core.

(** *** Line comments *)
Lemma p_line_spec s : s = snd (p_line s) ++ fst (p_line s) \/
  exists t, fst (p_line s) = LF :: t /\ s = snd (p_line s) ++ CR :: fst (p_line s).
Proof.
  induction s as [|c t IH]; cbn [p_line]; [left; reflexivity|].
  destruct (N.eqb_spec c LF) as [->|]; [left; reflexivity|].
  destruct (N.eqb_spec c CR) as [->|]; cbn [andb].
  - destruct (starts_with t [LF]) eqn:E.
    + right. rewrite starts_with_single in E. destruct t as [|d t]; [discriminate|].
      apply N.eqb_eq in E as <-. exists t. cbn. auto.
    + destruct (p_line t) as [r x]; cbn [fst snd] in *.
      destruct IH as [->|(u & -> & ->)]; cbn [app]; [left; reflexivity|right; exists u; auto].
  - destruct (p_line t) as [r x]; cbn [fst snd] in *.
    destruct IH as [->|(u & -> & ->)]; cbn [app]; [left; reflexivity|right; exists u; auto].
Qed.

Lemma p_line_suffix s : suffix (fst (p_line s)) s.
Proof.
  destruct (p_line_spec s) as [E|(t & _ & E)]; rewrite E at 2; eauto.
  exists (snd (p_line s) ++ [CR]). now rewrite <- app_assoc.
Qed.

Lemma take_until_newline_loop_spec input p chars :
  rest input = p ++ chars ->
  take_until_newline_loop input (str_len p) chars
  = Ok (cur_of input (fst (p_line chars)), p ++ snd (p_line chars)).
Proof.
  revert p. induction chars as [|c t IH]; intros p E; cbn [take_until_newline_loop p_line].
  - rewrite app_nil_r in E. rewrite (advance_app _ p []) by (rewrite ?app_nil_r; congruence).
    cbn. now rewrite E, app_nil_r.
  - assert (E' : rest input = (p ++ [c]) ++ t) by (now rewrite <- app_assoc).
    assert (El : str_len (p ++ [c]) = str_len p + len_utf8 c) by (rewrite str_len_app; cbn; lia).
    destruct (N.eqb_spec c LF) as [->|].
    + rewrite (advance_app _ p (LF :: t)) by auto. cbn [bind].
      rewrite E, slice_to_app. cbn. now rewrite app_nil_r.
    + destruct (N.eqb_spec c CR) as [->|].
      * rewrite (slice_from_eq _ (p ++ [CR]) t) by (auto; rewrite El; reflexivity).
        cbn [bind andb]. destruct (starts_with t [LF]).
        -- rewrite (advance_app _ (p ++ [CR]) t) by (auto; rewrite El; reflexivity).
           cbn [bind]. rewrite E, slice_to_app. cbn. now rewrite app_nil_r.
        -- specialize (IH _ E'). rewrite El in IH. rewrite IH.
           destruct (p_line t). cbn. now rewrite <- app_assoc.
      * cbn [andb]. specialize (IH _ E'). rewrite El in IH. rewrite IH.
        destruct (p_line t). cbn. now rewrite <- app_assoc.
Qed.

Lemma take_until_newline_spec input :
  take_until_newline_or_eof input
  = Ok (cur_of input (fst (p_line (rest input))), snd (p_line (rest input))).
Proof. apply (take_until_newline_loop_spec input []). reflexivity. Qed.

(** *** Block comments *)
Lemma p_block_suffix d s r : p_block d s = Some r -> suffix r s /\ length r + 2 <= length s.
Proof.
  remember (length s) as n eqn:En. revert s d r En.
  induction n as [n IH] using lt_wf_ind; intros s d r -> H.
  destruct s as [|a [|b t]]; try discriminate. cbn [p_block] in H.
  destruct (_ && _) in H.
  - apply (IH (length t)) in H as [H1 H2]; [split; [auto|cbn; lia]|cbn; lia|reflexivity].
  - destruct (_ && _) in H.
    + destruct d as [|[|d]]; try discriminate.
      * inv H. split; [auto|cbn; lia].
      * apply (IH (length t)) in H as [H1 H2]; [split; [auto|cbn; lia]|cbn; lia|reflexivity].
    + change (p_block d (b :: t) = Some r) in H.
      apply (IH (length (b :: t))) in H as [H1 H2]; [split; [auto|cbn in *; lia]|cbn; lia|reflexivity].
Qed.

Lemma block_high input fuel depth i hb bs :
  Forall (fun b => (128 <= b)%N) hb -> 1 <= fuel ->
  block_comment_loop input (length hb + fuel) depth i (hb ++ bs)
  = block_comment_loop input fuel depth (i + length hb) bs.
Proof.
  intros H Hf. revert i. induction H as [|b hb Hb Hh IH]; intros i; cbn [length app].
  - now rewrite Nat.add_0_r.
  - cbn [Nat.add block_comment_loop].
    destruct (hb ++ bs) as [|b1 t] eqn:E.
    + apply app_eq_nil in E as [-> ->]. destruct fuel; [lia|]. reflexivity.
    + destruct (N.eqb_spec b "/"%ch); [lia|]. destruct (N.eqb_spec b "*"%ch); [lia|].
      cbn [andb]. rewrite IH. f_equal; lia.
Qed.

Lemma block_comment_loop_spec input fuel depth p q :
  rest input = p ++ q -> str_len q < fuel -> 1 <= depth ->
  block_comment_loop input fuel depth (str_len p) (str_bytes q)
  = match p_block depth q with
    | Some r => Ok (cur_of input r, prefix_of (rest input) r)
    | None => Reject
    end.
Proof.
  remember (length q) as n eqn:En. revert q p depth fuel En.
  induction n as [n IH] using lt_wf_ind; intros q p depth fuel -> E Hf Hd.
  destruct q as [|a q].
  { destruct fuel; [lia|]. reflexivity. }
  rewrite str_bytes_cons. cbn [str_len] in Hf.
  destruct (N.lt_ge_cases a 128) as [Ha|Ha].
  2: { (* multi-byte *)
    replace fuel with (length (encode_utf8 a) + (fuel - len_utf8 a))
      by (rewrite length_encode; lia).
    rewrite block_high by (auto using encode_high; lia).
    rewrite length_encode.
    replace (str_len p + len_utf8 a) with (str_len (p ++ [a])) by (rewrite str_len_app; cbn; lia).
    rewrite (IH (length q)); [| cbn; lia | reflexivity | now rewrite <- app_assoc | lia | lia].
    cbn [p_block]. destruct q as [|b t]; [reflexivity|].
    destruct (N.eqb_spec a "/"%ch); [lia|]. destruct (N.eqb_spec a "*"%ch); [lia|]. reflexivity. }
  rewrite encode_ascii by exact Ha. rewrite len_utf8_ascii in Hf by exact Ha. cbn [app].
  destruct fuel as [|fuel]; [lia|].
  destruct q as [|b t]; [reflexivity|].
  assert (E1 : rest input = (p ++ [a]) ++ b :: t) by (now rewrite <- app_assoc).
  assert (El : str_len (p ++ [a]) = str_len p + 1)
    by (rewrite str_len_app; cbn; rewrite len_utf8_ascii by exact Ha; lia).
  destruct (first_byte_char b t) as (b1 & u & Eb & Hb).
  cbn [block_comment_loop]. rewrite Eb.
  assert (Hstep : block_comment_loop input fuel depth (str_len p + 1) (b1 :: u)
    = match p_block depth (b :: t) with
      | Some r => Ok (cur_of input r, prefix_of (rest input) r)
      | None => Reject end).
  { rewrite <- Eb, <- El. apply (IH (length (b :: t))); auto; cbn [length str_len] in *; lia. }
  change (p_block depth (a :: b :: t)) with
    (if (a =? "/"%ch)%N && (b =? "*"%ch)%N then p_block (S depth) t
     else if (a =? "*"%ch)%N && (b =? "/"%ch)%N then
        match depth with O => None | S O => Some t | S d => p_block d t end
     else p_block depth (b :: t)).
  destruct Hb as [(Hb & -> & ->)|(Hb & Hb1)].
  2: { destruct (N.eqb_spec b1 "*"%ch); [lia|]. destruct (N.eqb_spec b1 "/"%ch); [lia|].
       destruct (N.eqb_spec b "*"%ch); [lia|]. destruct (N.eqb_spec b "/"%ch); [lia|].
       rewrite !andb_false_r. exact Hstep. }
  assert (E2 : rest input = (p ++ [a; b]) ++ t) by (now rewrite <- app_assoc).
  assert (El2 : str_len (p ++ [a; b]) = str_len p + 2)
    by (rewrite str_len_app; cbn; rewrite !len_utf8_ascii by assumption; lia).
  cbn [str_len] in Hf. pose proof (len_utf8_pos b).
  destruct ((a =? "/"%ch)%N && (b =? "*"%ch)%N).
  - rewrite <- El2. apply (IH (length t)); auto; cbn [length] in *; lia.
  - destruct ((a =? "*"%ch)%N && (b =? "/"%ch)%N); [|exact Hstep].
    destruct depth as [|[|d]]; [lia| |].
    + rewrite (advance_app _ (p ++ [a; b]) t) by auto. cbn [bind].
      rewrite (slice_to_eq _ (p ++ [a; b]) t) by auto. cbn [bind]. unfold prefix_of.
      rewrite E2, app_length, Nat.add_sub. rewrite firstn_app, Nat.sub_diag, firstn_all, app_nil_r.
      reflexivity.
    + rewrite <- El2. apply (IH (length t)); auto; cbn [length] in *; lia.
Qed.

Lemma block_comment_spec input :
  block_comment input =
  if starts_with (rest input) (tag "/*") then
    match p_block 0 (rest input) with
    | Some r => Ok (cur_of input r, prefix_of (rest input) r)
    | None => Reject
    end
  else Reject.
Proof.
  unfold block_comment, cstarts. destruct (starts_with (rest input) _) eqn:E; [|reflexivity].
  cbn [negb]. apply starts_with_spec in E as [t E].
  rewrite E at 1 2. cbn [app]. rewrite !str_bytes_cons, !encode_ascii by lia. cbn [app].
  cbn [block_comment_loop str_len]. cbn [N.eqb andb]. rewrite !len_utf8_ascii by lia.
  change (0 + 2) with (str_len (tag "/*")).
  rewrite (block_comment_loop_spec input _ _ (tag "/*") t) by (auto; cbn; lia).
  replace (p_block 0 (rest input)) with (p_block 1 t) by (rewrite E; reflexivity). reflexivity.
Qed.

(** *** Whitespace *)
Lemma p_skip1_shorter s r : p_skip1 s = Some r -> suffix r s /\ length r < length s.
Proof.
  unfold p_skip1. destruct s as [|c t]; [discriminate|].
  destruct (line_comment_start _) eqn:E1.
  - intros H. assert (Hr : fst (p_line (c :: t)) = r) by congruence. clear H. subst r.
    split; [apply p_line_suffix|]. unfold line_comment_start in E1. apply andb_prop in E1 as [E1 _].
    apply andb_prop in E1 as [E1 _]. apply starts_with_spec in E1 as [u E1]. rewrite E1.
    cbn [app p_line]. cmpc. destruct (p_line u) as [a b] eqn:Eu. cbn.
    pose proof (suffix_length _ _ (p_line_suffix u)). rewrite Eu in H. cbn in H. lia.
  - destruct (starts_with _ _) eqn:E2.
    + intros H. assert (Hr : skipn 4 (c :: t) = r) by congruence. clear H. subst r.
      split; [apply skipn_suffix|].
      apply starts_with_spec in E2 as [u E2]. rewrite E2. cbn. lia.
    + destruct (block_comment_start _).
      * intros H. apply p_block_suffix in H as [H1 H2]. split; [exact H1|lia].
      * destruct (is_whitespace c); [|discriminate]. intros H. inv H. split; [auto|cbn; lia].
Qed.

Lemma p_skip_fuel_enough n m s : length s <= n -> length s <= m -> p_skip_fuel n s = p_skip_fuel m s.
Proof.
  revert m s. induction n as [|n IH]; intros m s Hn Hm.
  - destruct s; [|cbn in Hn; lia]. destruct m; reflexivity.
  - destruct m as [|m].
    + destruct s; [|cbn in Hm; lia]. reflexivity.
    + cbn [p_skip_fuel]. destruct (p_skip1 s) as [r|] eqn:E; [|reflexivity].
      apply p_skip1_shorter in E as [_ E]. apply IH; lia.
Qed.

(** Unfolding equation. *)
Lemma p_skip_eq s : p_skip s = match p_skip1 s with Some r => p_skip r | None => s end.
Proof.
  unfold p_skip. rewrite (p_skip_fuel_enough (length s) (S (length s))) by lia.
  cbn [p_skip_fuel]. destruct (p_skip1 s) as [r|] eqn:E; [|reflexivity].
  apply p_skip1_shorter in E as [_ E]. apply p_skip_fuel_enough; lia.
Qed.

Lemma str_ind_len (P : str -> Prop) :
  (forall s, (forall r, length r < length s -> P r) -> P s) -> forall s, P s.
Proof. intros H s. induction s as [s IH] using (induction_ltof1 _ (@length N)). apply H. exact IH. Qed.

Lemma p_skip_suffix s : suffix (p_skip s) s.
Proof.
  induction s as [s IH] using str_ind_len. rewrite p_skip_eq.
  destruct (p_skip1 s) as [r|] eqn:E; [|auto].
  apply p_skip1_shorter in E as [H1 H2]. apply suffix_trans with r; auto.
Qed.
Global Hint Resolve p_skip_suffix : core.

Lemma p_skip_fixed s : p_skip1 (p_skip s) = None.
Proof.
  induction s as [s IH] using str_ind_len. rewrite p_skip_eq.
  destruct (p_skip1 s) as [r|] eqn:E; [|auto].
  apply IH. apply p_skip1_shorter in E as [H1 H2]. exact H2.
Qed.

Lemma not_slash_comment c t : c <> "/"%ch ->
  line_comment_start (c :: t) = false /\ starts_with (c :: t) (tag "/**/") = false
  /\ block_comment_start (c :: t) = false.
Proof.
  intros H. unfold line_comment_start, block_comment_start. cbn [starts_with].
  destruct (N.eqb_spec "/"%ch c); [congruence|]. auto.
Qed.

Lemma skip_whitespace_spec s fuel :
  wfc s -> length (rest s) < fuel ->
  skip_whitespace_loop fuel s = Ok (cur_of s (p_skip (rest s))).
Proof.
  remember (length (rest s)) as n eqn:En. revert s fuel En.
  induction n as [n IH] using lt_wf_ind; intros s fuel -> Hw Hf.
  destruct fuel as [|fuel]; [lia|]. cbn [skip_whitespace_loop].
  destruct (rest s) as [|c t] eqn:Es.
  { cbn. rewrite <- Es. now rewrite cur_of_self. }
  destruct (first_byte_char c t) as (b & u & -> & Hb).
  assert (Hrec : forall r, p_skip1 (c :: t) = Some r ->
     skip_whitespace_loop fuel (cur_of s r) = Ok (cur_of s (p_skip (c :: t)))).
  { intros r Hr. rewrite (p_skip_eq (c :: t)), Hr. apply p_skip1_shorter in Hr as [H1 H2].
    rewrite (IH (length r)); [ | lia | reflexivity | auto | cbn [length] in *; lia].
    rewrite cur_of_trans; auto; now rewrite Es. }
  assert (Hstop : p_skip1 (c :: t) = None -> Ok s = Ok (cur_of s (p_skip (c :: t)))).
  { intros H. rewrite p_skip_eq, H, <- Es. now rewrite cur_of_self. }
  destruct (N.eqb_spec c "/"%ch) as [Hc|Hc].
  - destruct Hb as [(_ & -> & _)|(Hb & _)]; [|lia].
    rewrite (proj2 (N.eqb_eq c "/"%ch) Hc).
    change (cstarts s) with (starts_with (rest s)). rewrite Es.
    fold (line_comment_start (c :: t)). fold (block_comment_start (c :: t)).
    unfold p_skip1 in Hrec, Hstop.
    destruct (line_comment_start (c :: t)).
    + rewrite take_until_newline_spec, Es. cbn [bind]. now apply Hrec.
    + destruct (starts_with (c :: t) (tag "/**/")) eqn:E2.
      * rewrite (advance_app s (tag "/**/") (skipn 4 (c :: t))); [|rewrite Es; now apply starts_with_skipn in E2|reflexivity].
        cbn [bind]. now apply Hrec.
      * destruct (block_comment_start (c :: t)) eqn:E3.
        -- rewrite block_comment_spec, Es.
           unfold block_comment_start in E3. apply andb_prop in E3 as [E3 _].
           apply andb_prop in E3 as [E3 _]. rewrite E3.
           destruct (p_block 0 (c :: t)) as [r|] eqn:E4; cbn [if_ok]; auto.
        -- subst c. cbn. cbn in Hstop. auto.
  - destruct (not_slash_comment c t Hc) as (E1 & E2 & E3).
    unfold p_skip1 in Hrec, Hstop. rewrite E1, E2, E3 in Hrec, Hstop.
    destruct Hb as [(Hc' & -> & _)|(Hc' & Hb)].
    + rewrite (proj2 (N.eqb_neq c "/"%ch) Hc).
      assert (Hws : is_whitespace c = ((c =? SPACE)%N || between 9 c 13))
        by (unfold is_whitespace, is_white_space, between; lia).
      rewrite <- Hws. destruct (is_whitespace c).
      * rewrite (advance_app s [c] t) by (auto; cbn; now rewrite len_utf8_ascii).
        cbn [bind]. auto.
      * unfold is_ascii. destruct (N.ltb_spec c 128); [auto|lia].
    + destruct (N.eqb_spec b "/"%ch); [lia|].
      destruct (N.eqb_spec b SPACE); [lia|]. cbn [orb].
      destruct (between 9 b 13) eqn:Eb; [unfold between in Eb; lia|].
      unfold is_ascii. destruct (N.ltb_spec b 128); [lia|].
      unfold first_char. rewrite Es. cbn [unwrap bind].
      destruct (is_whitespace c); auto.
      rewrite (advance_app s [c] t) by (auto; cbn; lia). cbn [bind]. auto.
Qed.

Lemma skip_whitespace_eq s : wfc s -> skip_whitespace s = Ok (cur_of s (p_skip (rest s))).
Proof.
  intros H. apply skip_whitespace_spec; auto. pose proof (length_le_str_len (rest s)). lia.
Qed.
