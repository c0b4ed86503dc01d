(** Bounds on the number of steps: strings and character literals. *)
From Verif Require Import Base BaseFacts Unicode Tokens Lexer PureLexer LexerEquiv LexerEquiv2.
From Verif Require Import Timed TimedErase TimedBounds.

Section WithUnicode.
Context {U : unicode}.

Notation left20 := (fun c : cursor => 20 * len c).

(** The end of a string: the quote and the suffix. *)
Lemma w_close input n h :
  20 * (len input - n) + n + 14 <= h -> n <= len input ->
  within left20 h (let! input := t_advance input n in t_literal_suffix input).
Proof.
  intros H Hn. wstep. eapply w_weaken; [apply w_suffix|lia|intros; cbv beta; lia].
Qed.
(** A line continuation restarts the scan. *)
Lemma w_restart input n last h (f : cursor -> timed cursor) :
  n <= len input -> n + 20 * (len input - n) + 45 <= h ->
  (forall c, within left20 (20 * len c + 30) (f c)) ->
  within left20 h (let! input := t_advance input n in
                   let! input := t_trailing_backslash input last in f input).
Proof.
  intros Hn H Hf. wstep. eapply w_bind; [apply w_trail|lia|].
  intros c'' E. cbv beta. eapply w_weaken; [apply Hf|lia|intros; cbv beta; lia].
Qed.

Lemma w_cooked_loop fuel input i t :
  i + str_len t = len input ->
  within left20 (20 * str_len t + 3 * i + 30) (t_cooked_string_loop fuel input (i, t)).
Proof.
  revert input i t. induction fuel as [|fuel IH]; intros input i t E; cbn [t_cooked_string_loop];
    [apply w_fuel|].
  wstep. destruct t as [|ch t]; cbn [ci_next]; [wstep|]. cbn [str_len] in *.
  pose proof (len_utf8_pos ch).
  destruct (N.eqb_spec ch DQUOTE) as [->|]; [change (len_utf8 DQUOTE) with 1 in *; apply w_close; lia|].
  assert (Hn : forall i' t' h, i' + str_len t' = len input -> 20 * str_len t' + 3 * i' + 30 <= h ->
    within left20 h (t_cooked_string_loop fuel input (i', t'))).
  { intros i' t' h E1 E2. eapply w_weaken; [apply IH; exact E1|lia|intros; cbv beta; lia]. }
  destruct (ch =? CR)%N.
  { wstep. destruct t as [|c2 t]; cbn [ci_next]; [wstep|]. cbn [str_len] in *. pose proof (len_utf8_pos c2).
    destruct (c2 =? LF)%N; [|wstep]. apply Hn; lia. }
  destruct (N.eqb_spec ch BACKSLASH) as [->|]; [|apply Hn; lia].
  change (len_utf8 BACKSLASH) with 1 in *.
  wstep. destruct t as [|c2 t]; cbn [ci_next]; [wstep|]. cbn [str_len] in *. pose proof (len_utf8_pos c2).
  destruct (c2 =? "x"%ch)%N.
  { unfold t_backslash_x_char. wstep. destruct x as [i' t']. apply x_char_len in H1. apply Hn; lia. }
  destruct (simple_escape0 c2); [apply Hn; lia|].
  destruct (c2 =? "u"%ch)%N.
  { destruct (u_cost (i + 1 + len_utf8 c2) t) as [W1 W2].
    eapply w_bind; [exact W1|lia|]. intros [[i' t'] c] Eu. apply W2 in Eu. cbn [fst snd].
    apply Hn; lia. }
  destruct (N.eqb_spec c2 LF) as [->|]; [|destruct (N.eqb_spec c2 CR) as [->|]]; cbn [orb].
  - change (len_utf8 LF) with 1 in *. apply w_restart; [lia|lia|].
    intros c. unfold char_indices. eapply w_weaken; [apply IH; reflexivity|unfold len; lia|intros; cbv beta; unfold len; lia].
  - change (len_utf8 CR) with 1 in *. apply w_restart; [lia|lia|].
    intros c. unfold char_indices. eapply w_weaken; [apply IH; reflexivity|unfold len; lia|intros; cbv beta; unfold len; lia].
  - wstep.
Qed.
Lemma w_cooked c : within left20 (20 * len c + 30) (t_cooked_string c).
Proof.
  unfold t_cooked_string, char_indices.
  eapply w_weaken; [apply w_cooked_loop; reflexivity|unfold len; lia|intros; cbv beta; unfold len; lia].
Qed.

Lemma w_cooked_c_loop fuel input i t :
  i + str_len t = len input ->
  within left20 (20 * str_len t + 3 * i + 30) (t_cooked_c_string_loop fuel input (i, t)).
Proof.
  revert input i t. induction fuel as [|fuel IH]; intros input i t E; cbn [t_cooked_c_string_loop];
    [apply w_fuel|].
  wstep. destruct t as [|ch t]; cbn [ci_next]; [wstep|]. cbn [str_len] in *.
  pose proof (len_utf8_pos ch).
  destruct (N.eqb_spec ch DQUOTE) as [->|]; [change (len_utf8 DQUOTE) with 1 in *; apply w_close; lia|].
  assert (Hn : forall i' t' h, i' + str_len t' = len input -> 20 * str_len t' + 3 * i' + 30 <= h ->
    within left20 h (t_cooked_c_string_loop fuel input (i', t'))).
  { intros i' t' h E1 E2. eapply w_weaken; [apply IH; exact E1|lia|intros; cbv beta; lia]. }
  destruct (ch =? CR)%N.
  { wstep. destruct t as [|c2 t]; cbn [ci_next]; [wstep|]. cbn [str_len] in *. pose proof (len_utf8_pos c2).
    destruct (c2 =? LF)%N; [|wstep]. apply Hn; lia. }
  destruct (N.eqb_spec ch BACKSLASH) as [->|]; [|destruct (ch =? NUL)%N; [wstep|apply Hn; lia]].
  change (len_utf8 BACKSLASH) with 1 in *.
  wstep. destruct t as [|c2 t]; cbn [ci_next]; [wstep|]. cbn [str_len] in *. pose proof (len_utf8_pos c2).
  destruct (c2 =? "x"%ch)%N.
  { unfold t_backslash_x_nonzero. wstep. destruct x as [i' t']. apply x_nonzero_len in H1. apply Hn; lia. }
  destruct (simple_escape_c c2); [apply Hn; lia|].
  destruct (c2 =? "u"%ch)%N.
  { destruct (u_cost (i + 1 + len_utf8 c2) t) as [W1 W2].
    eapply w_bind; [exact W1|lia|]. intros [[i' t'] c] Eu. apply W2 in Eu. cbn [fst snd].
    destruct (c =? NUL)%N; [wstep|]. apply Hn; lia. }
  destruct (N.eqb_spec c2 LF) as [->|]; [|destruct (N.eqb_spec c2 CR) as [->|]]; cbn [orb].
  - change (len_utf8 LF) with 1 in *. apply w_restart; [lia|lia|].
    intros c. unfold char_indices. eapply w_weaken; [apply IH; reflexivity|unfold len; lia|intros; cbv beta; unfold len; lia].
  - change (len_utf8 CR) with 1 in *. apply w_restart; [lia|lia|].
    intros c. unfold char_indices. eapply w_weaken; [apply IH; reflexivity|unfold len; lia|intros; cbv beta; unfold len; lia].
  - wstep.
Qed.
Lemma w_cooked_c c : within left20 (20 * len c + 30) (t_cooked_c_string c).
Proof.
  unfold t_cooked_c_string, char_indices.
  eapply w_weaken; [apply w_cooked_c_loop; reflexivity|unfold len; lia|intros; cbv beta; unfold len; lia].
Qed.

Lemma w_cooked_byte_loop fuel input i t :
  i + length t = len input ->
  within left20 (20 * length t + 3 * i + 30) (t_cooked_byte_string_loop fuel input (i, t)).
Proof.
  revert input i t. induction fuel as [|fuel IH]; intros input i t E; cbn [t_cooked_byte_string_loop];
    [apply w_fuel|].
  wstep. destruct t as [|ch t]; cbn [be_next]; [wstep|]. cbn [length] in *.
  destruct (N.eqb_spec ch DQUOTE) as [->|]; [apply w_close; lia|].
  assert (Hn : forall i' t' h, i' + length t' = len input -> 20 * length t' + 3 * i' + 30 <= h ->
    within left20 h (t_cooked_byte_string_loop fuel input (i', t'))).
  { intros i' t' h E1 E2. eapply w_weaken; [apply IH; exact E1|lia|intros; cbv beta; lia]. }
  destruct (ch =? CR)%N.
  { wstep. destruct t as [|c2 t]; cbn [be_next]; [wstep|]. cbn [length] in *.
    destruct (c2 =? LF)%N; [|wstep]. apply Hn; lia. }
  destruct (N.eqb_spec ch BACKSLASH) as [->|]; [|destruct (is_ascii ch); [apply Hn; lia|wstep]].
  wstep. destruct t as [|c2 t]; cbn [be_next]; [wstep|]. cbn [length] in *.
  destruct (c2 =? "x"%ch)%N.
  { unfold t_backslash_x_byte. wstep. destruct x as [i' t'].
    match goal with H : backslash_x_byte _ = _ |- _ => apply x_byte_len in H end. apply Hn; lia. }
  destruct (simple_escape0 c2); [apply Hn; lia|].
  destruct (_ || _); [|wstep].
  apply w_restart; [lia|lia|].
  intros c. unfold bytes_enum.
  eapply w_weaken; [apply IH|rewrite length_str_bytes; unfold len; lia|];
    rewrite length_str_bytes; [reflexivity|unfold len; intros; cbv beta; lia].
Qed.
Lemma w_cooked_byte c : within left20 (20 * len c + 30) (t_cooked_byte_string c).
Proof.
  unfold t_cooked_byte_string, bytes_enum.
  eapply w_weaken; [apply w_cooked_byte_loop|rewrite length_str_bytes; unfold len; lia|];
    rewrite length_str_bytes; [reflexivity|unfold len; intros; cbv beta; lia].
Qed.

(** *** Raw strings *)
Lemma skipn_step {A} (b : A) t i l : b :: t = skipn i l -> t = skipn (S i) l.
Proof.
  revert l. induction i as [|i IH]; intros l E; [destruct l; [discriminate|now injection E]|].
  destruct l as [|x l]; [discriminate|]. now apply IH.
Qed.
Lemma delim_cost input i bs :
  i + length bs = len input ->
  within (fun x => 20 * len (fst x)) (20 * length bs + 3 * i + 10) (t_delimiter_loop input i bs).
Proof.
  revert i. induction bs as [|b t IH]; intros i E; cbn [t_delimiter_loop length] in *; wstep; [wstep|].
  destruct (b =? DQUOTE)%N.
  - destruct (_ <? _)%N; [wstep|]. wstep. wstep. wstep. cbn [fst]. lia.
  - destruct (_ =? _)%N; [|wstep]. eapply w_weaken; [apply IH; lia|lia|intros; cbv beta; lia].
Qed.
Lemma delim_hashes input i bs c d :
  bs = skipn i (str_bytes (rest input)) ->
  Forall (fun b => b = "#"%ch) (firstn i (str_bytes (rest input))) ->
  delimiter_loop input i bs = Ok (c, d) -> Forall (fun b => b = "#"%ch) d.
Proof.
  revert i. induction bs as [|b t IH]; intros i E F; cbn [delimiter_loop]; [discriminate|].
  assert (Et : t = skipn (S i) (str_bytes (rest input))).
  { now apply skipn_step in E. }
  destruct (b =? DQUOTE)%N.
  - destruct (_ <? _)%N; [discriminate|]. destruct (advance _ _); try discriminate. cbn [bind].
    destruct (slice_to (rest input) i) as [d'| | |] eqn:Ed; try discriminate. cbn [bind].
    intros H. injection H as _ <-. unfold slice_to in Ed.
    destruct (split_at (rest input) i) as [[p r]|] eqn:Es; [|discriminate]. injection Ed as <-.
    apply split_at_inv in Es as [Es ->]. rewrite Es, str_bytes_app in F.
    rewrite <- length_str_bytes, firstn_app, firstn_all, Nat.sub_diag, app_nil_r in F.
    clear -F. induction p as [|x p IH]; [constructor|]. rewrite str_bytes_cons in F.
    apply Forall_app in F as [F1 F2]. constructor; [|now apply IH].
    destruct (N.lt_ge_cases x 128) as [Hx|Hx].
    + rewrite encode_ascii in F1 by exact Hx. now inversion F1.
    + pose proof (encode_high x Hx) as Fh. destruct (encode_nonempty x) as (b & u & Eb).
      rewrite Eb in *. inversion F1. inversion Fh. lia.
  - destruct (N.eqb_spec b "#"%ch) as [->|]; [|discriminate]. apply IH; [exact Et|].
    assert (En : nth_error (str_bytes (rest input)) i = Some "#"%ch).
    { rewrite <- (firstn_skipn i (str_bytes (rest input))), <- E.
      rewrite nth_error_app2 by apply firstn_le_length.
      replace (i - length (firstn i (str_bytes (rest input)))) with 0; [reflexivity|].
      rewrite firstn_length. assert (i < length (str_bytes (rest input))); [|lia].
      assert (length (skipn i (str_bytes (rest input))) = S (length t)) by (rewrite <- E; reflexivity).
      rewrite skipn_length in *. lia. }
    clear -F En. revert i F En. generalize (str_bytes (rest input)). intros l.
    induction l as [|x l IHl]; intros [|i] F En; cbn in *; try discriminate.
    + injection En as ->. constructor; auto.
    + inversion F; subst. constructor; auto.
Qed.

Fixpoint hashes (bs : list N) : nat :=
  match bs with b :: t => if (b =? "#"%ch)%N then S (hashes t) else 0 | [] => 0 end.
Lemma hashes_le bs : hashes bs <= length bs.
Proof. induction bs as [|b t IH]; cbn; [lia|]. destruct (_ =? _)%N; lia. Qed.
Lemma common_hashes s d :
  Forall (fun b => b = "#"%ch) d -> common s d <= hashes (str_bytes s) /\ common s d <= length d.
Proof.
  intros F. revert s. induction F as [|x d -> F IH]; intros [|y s]; cbn [common length]; try lia.
  destruct (N.eqb_spec y "#"%ch) as [->|]; [|lia].
  rewrite str_bytes_cons, encode_ascii by lia. cbn [app hashes]. specialize (IH s).
  change ("#"%ch =? "#"%ch)%N with true. cbv iota. lia.
Qed.

Lemma w_raw_loop ok input delim fuel i bs :
  Forall (fun b => b = "#"%ch) delim -> bs = skipn i (str_bytes (rest input)) ->
  i + length bs = len input ->
  within left20 (20 * length bs - hashes bs + 3 * i + 40) (t_raw_string_loop ok input delim fuel (i, bs)).
Proof.
  intros F. revert i bs. induction fuel as [|fuel IH]; intros i bs Eb E;
    cbn [t_raw_string_loop]; [apply w_fuel|].
  pose proof (hashes_le bs). wstep. destruct bs as [|b t]; cbn [be_next]; [wstep|].
  assert (Et : t = skipn (S i) (str_bytes (rest input))).
  { now apply skipn_step in Eb. }
  assert (Hn : forall i' t' h, t' = skipn i' (str_bytes (rest input)) -> i' + length t' = len input ->
    20 * length t' - hashes t' + 3 * i' + 40 <= h ->
    within left20 h (t_raw_string_loop ok input delim fuel (i', t'))).
  { intros i' t' h E1 E2 E3. eapply w_weaken; [apply IH; assumption|lia|intros; cbv beta; lia]. }
  cbn [length] in *. pose proof (hashes_le t).
  set (h0 := 20 * length t - hashes t + 3 * i + 50).
  assert (Ho : forall h, h0 <= h -> within left20 h
    (if (b =? CR)%N then
       charge 1
         match be_next (S i, t) with
         | Some ((_, b2), bytes) =>
             if (b2 =? LF)%N then t_raw_string_loop ok input delim fuel bytes else reject
         | None => reject
         end
     else if ok b then t_raw_string_loop ok input delim fuel (S i, t) else reject)).
  { intros h Hh. subst h0. destruct (b =? CR)%N.
    - wstep. destruct t as [|b2 t2]; cbn [be_next]; [wstep|].
      destruct (N.eqb_spec b2 LF) as [->|]; [|wstep]. cbn [length hashes] in *.
      pose proof (hashes_le t2). change (LF =? "#"%ch)%N with false in *. cbv iota in *.
      apply Hn; [|lia|lia].
      now apply skipn_step in Et.
    - destruct (ok b); [|wstep]. apply Hn; [exact Et|lia|lia]. }
  cbn [hashes] in *. destruct (N.eqb_spec b DQUOTE) as [->|Hb].
  - change (DQUOTE =? "#"%ch)%N with false in *. cbv iota in *.
    apply w_wk; [lia|]. intros after Ea.
    assert (Ht : t = str_bytes after).
    { unfold slice_from in Ea. destruct (split_at (rest input) (i + 1)) as [[p r]|] eqn:Es; [|discriminate].
      injection Ea as ->. apply split_at_inv in Es as [Es El]. rewrite Et, Es, str_bytes_app.
      rewrite skipn_app, skipn_all2 by (rewrite length_str_bytes; lia).
      replace (S i - length (str_bytes p)) with 0 by (rewrite length_str_bytes; lia). reflexivity. }
    destruct (common_hashes after delim F) as [C1 C2]. rewrite <- Ht in C1.
    wstep. destruct (starts_with after delim) eqn:Ew.
    + assert (Hd : str_len delim + str_len (skipn (length delim) after) = str_len after).
      { apply starts_with_skipn in Ew. rewrite Ew at 2. now rewrite str_len_app. }
      assert (El : length t = str_len after) by (rewrite Ht; apply length_str_bytes).
      pose proof (length_le_str_len delim).
      apply w_close; lia.
    + apply Ho. subst h0. lia.
  - destruct (N.eqb_spec b "#"%ch) as [->|]; apply Ho; subst h0; lia.
Qed.
Lemma w_raw ok c : within left20 (20 * len c + 60) (t_raw_string_with ok c).
Proof.
  unfold t_raw_string_with, t_delimiter_of_raw_string.
  eapply w_bind; [apply delim_cost; rewrite length_str_bytes; reflexivity|rewrite length_str_bytes; unfold len; lia|].
  rewrite length_str_bytes. intros [c' d] E. cbn [fst].
  assert (F : Forall (fun b => b = "#"%ch) d).
  { pose proof (er_delim_loop c 0 (str_bytes (rest c))) as Er. unfold erases in Er. rewrite E in Er.
    symmetry in Er. apply delim_hashes in Er; [exact Er|reflexivity|constructor]. }
  unfold bytes_enum. pose proof (hashes_le (str_bytes (rest c'))).
  eapply w_weaken; [apply w_raw_loop; [exact F|reflexivity|]| |];
    rewrite length_str_bytes in *; fold (len c') in *; fold (len c); [reflexivity|lia|intros; cbv beta; lia].
Qed.

(** *** The literals in quotes *)
Lemma w_tag {B} c t h (left : B -> nat) f e :
  2 * str_len t + 2 <= h ->
  (forall c', starts_with (rest c) t = true -> len c = str_len t + len c' ->
     within left (h - (2 * str_len t + 2)) (f c')) ->
  (starts_with (rest c) t = false -> within left (h - (str_len t + 1)) e) ->
  within left h (t_if_ok (t_parse_tag c t) f e).
Proof.
  intros H1 H2 H3. unfold t_parse_tag, cstarts. destruct (starts_with (rest c) t).
  - unfold t_advance. destruct (advance c (str_len t)) as [c'| | |] eqn:E; cbn.
    + apply advance_len in E. apply w_charge; [lia|].
      replace (h - S (str_len t + S (str_len t))) with (h - (2 * str_len t + 2)) by lia. now apply H2.
    + unfold advance in E. destruct (split_at _ _) as [[? ?]|]; discriminate.
    + unfold within. cbn. lia.
    + unfold within. cbn. lia.
  - cbn. apply w_charge; [lia|].
    replace (h - S (str_len t + 0)) with (h - (str_len t + 1)) by lia. now apply H3.
Qed.

Lemma w_string c : within left20 (20 * len c + 70) (t_string_lit c).
Proof.
  unfold t_string_lit. apply w_tag; cbn [str_len]; [change (len_utf8 DQUOTE) with 1; lia| |];
    change (len_utf8 DQUOTE) with 1; intros.
  - eapply w_weaken; [apply w_cooked|lia|intros; cbv beta; lia].
  - apply w_tag; cbn [str_len]; change (len_utf8 "r"%ch) with 1; [lia| |intros; apply w_reject].
    intros. unfold t_raw_string. eapply w_weaken; [apply w_raw|lia|intros; cbv beta; lia].
Qed.
Lemma w_byte_string c : within left20 (20 * len c + 70) (t_byte_string c).
Proof.
  unfold t_byte_string. apply w_tag; change (str_len (tag "b""")) with 2; [lia| |]; intros.
  - eapply w_weaken; [apply w_cooked_byte|lia|intros; cbv beta; lia].
  - apply w_tag; change (str_len (tag "br")) with 2; [lia| |intros; apply w_reject].
    intros. unfold t_raw_byte_string. eapply w_weaken; [apply w_raw|lia|intros; cbv beta; lia].
Qed.
Lemma w_c_string c : within left20 (20 * len c + 70) (t_c_string c).
Proof.
  unfold t_c_string. apply w_tag; change (str_len (tag "c""")) with 2; [lia| |]; intros.
  - eapply w_weaken; [apply w_cooked_c|lia|intros; cbv beta; lia].
  - apply w_tag; change (str_len (tag "cr")) with 2; [lia| |intros; apply w_reject].
    intros. unfold t_raw_c_string. eapply w_weaken; [apply w_raw|lia|intros; cbv beta; lia].
Qed.

Lemma w_parse_tag c t h (left : cursor -> nat) :
  2 * str_len t + 2 <= h -> (forall c', len c = str_len t + len c' -> 2 * str_len t + 2 + left c' <= h) ->
  within left h (t_parse_tag c t).
Proof.
  intros H1 H2. unfold t_parse_tag. wstep. destruct (cstarts c t); [|wstep].
  wstep. match goal with H : len c = _ + len ?c' |- _ => specialize (H2 c' H) end. lia.
Qed.
Lemma w_quote_tail c n h :
  n <= len c -> n + 20 * (len c - n) + 25 <= h ->
  within left20 h (let! c := t_advance c n in let! c := t_parse_tag c (tag "'") in t_literal_suffix c).
Proof.
  intros H0 H. wstep. eapply w_bind with (mid := left20) (h0 := 20 * len c' + 4).
  - apply w_parse_tag; change (str_len (tag "'")) with 1; intros; cbv beta; lia.
  - lia.
  - intros c'' _. cbv beta. eapply w_weaken; [apply w_suffix|lia|intros; cbv beta; lia].
Qed.
Lemma w_byte_lit c : within left20 (20 * len c + 60) (t_byte_lit c).
Proof.
  unfold t_byte_lit. eapply w_bind with (mid := left20) (h0 := 20 * len c + 6).
  - apply w_parse_tag; change (str_len (tag "b'")) with 2; intros; cbv beta; lia.
  - lia.
  - intros c' _. cbv beta.
    apply w_bind with (mid := fun _ => 20 * len c' + 47) (h0 := 20 * len c' + 54); [|lia|].
    + wstep. destruct (be_next _) as [[[? b] it]|]; [|wstep].
      destruct (b =? BACKSLASH)%N; [|wstep].
      destruct (be_next it) as [[[? b2] it2]|]; [|wstep].
      destruct (b2 =? "x"%ch)%N; [unfold t_backslash_x_byte; wstep|].
      destruct (simple_escape0 b2); wstep.
    + intros it _. wstep. destruct (be_next it) as [[[o ?] ?]|]; [|wstep].
      destruct (is_char_boundary (rest c') o) eqn:Eb; cbn [negb]; [|wstep].
      unfold is_char_boundary in Eb. destruct (split_at (rest c') o) as [[p r]|] eqn:Es; [|discriminate].
      apply split_at_inv in Es as [Es ->].
      apply w_quote_tail; unfold len; rewrite Es, str_len_app; lia.
Qed.
Lemma w_character c : within left20 (20 * len c + 60) (t_character c).
Proof.
  unfold t_character. eapply w_bind with (mid := left20) (h0 := 20 * len c + 4).
  - apply w_parse_tag; change (str_len (tag "'")) with 1; intros; cbv beta; lia.
  - lia.
  - intros c' _. cbv beta.
    set (m := charge 3 _).
    assert (Hm : within (fun it => 20 * str_len (snd it) + 30 + 2 * fst it) (20 * len c' + 50) m
      /\ (forall i t, fst m = Ok (i, t) -> i + str_len t = len c')).
    { subst m. unfold char_indices, len. destruct (rest c') as [|ch t]; cbn [ci_next str_len];
        [split; [wstep; wstep|discriminate]|].
      pose proof (len_utf8_pos ch).
      destruct (ch =? BACKSLASH)%N.
      2: { split; [wstep; wstep; cbn [fst snd]; lia|]. intros i t' E. injection E as <- <-. lia. }
      destruct t as [|c2 t]; cbn [ci_next str_len]; [split; [wstep; wstep|discriminate]|].
      pose proof (len_utf8_pos c2).
      destruct (c2 =? "x"%ch)%N.
      { unfold t_backslash_x_char. split.
        - wstep. wstep. destruct a as [i' t']. match goal with E : backslash_x_char _ = _ |- _ => apply x_char_len in E end.
          cbn [fst snd]. lia.
        - cbn [charge work fst]. intros i' t' E. apply x_char_len in E. lia. }
      destruct (c2 =? "u"%ch)%N.
      { destruct (u_cost (0 + len_utf8 ch + len_utf8 c2) t) as [W1 W2]. split.
        - wstep. eapply w_bind; [exact W1|lia|]. intros [[i' t'] x] Eu. apply W2 in Eu. wstep.
          cbn [fst snd]. lia.
        - intros i' t'. destruct (t_backslash_u _) as [[[[i2 t2] x]| | |] k]; cbn in *; try discriminate.
          intros E. injection E as -> ->. specialize (W2 i' t' x eq_refl). lia. }
      destruct (simple_escape0 c2).
      - split; [wstep; wstep; cbn [fst snd]; lia|]. intros i t' E. injection E as <- <-. lia.
      - split; [wstep; wstep|discriminate]. }
    destruct Hm as [W1 W2]. eapply w_bind; [exact W1|lia|].
    intros [i t] E. apply W2 in E. cbn [fst snd]. wstep.
    destruct t as [|ch t]; cbn [ci_next str_len] in *; [wstep|]. pose proof (len_utf8_pos ch).
    apply w_quote_tail; lia.
Qed.

End WithUnicode.
