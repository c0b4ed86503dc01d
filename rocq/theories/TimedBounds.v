(** Bounds on the number of steps of the lexer's parts. *)
From Verif Require Import Base BaseFacts Unicode Tokens Lexer PureLexer LexerEquiv LexerEquiv2.
From Verif Require Import Timed TimedErase.

(** With [have] steps at hand, [m] does not run out, and leaves [left] of its result. *)
Definition within {A} (left : A -> nat) (have : nat) (m : timed A) : Prop :=
  match fst m with Ok a => snd m + left a <= have | _ => snd m <= have end.

Lemma w_ret {A} (left : A -> nat) h a : left a <= h -> within left h (ret a).
Proof. intros H. exact H. Qed.
Lemma w_reject {A} (left : A -> nat) h : within left h reject.
Proof. unfold within. cbn. lia. Qed.
Lemma w_panic {A} (left : A -> nat) h : within left h panic.
Proof. unfold within. cbn. lia. Qed.
Lemma w_fuel {A} (left : A -> nat) h : within left h no_fuel.
Proof. unfold within. cbn. lia. Qed.
Lemma w_charge {A} (left : A -> nat) h n m :
  n <= h -> within left (h - n) m -> within left h (charge n m).
Proof. unfold within, charge. cbn. destruct (fst m); lia. Qed.
Lemma w_work {A} (left : A -> nat) h n r :
  n <= h -> (forall a, r = Ok a -> n + left a <= h) -> within left h (work n r).
Proof. unfold within, work. cbn. intros H1 H2. destruct r; auto. Qed.
Lemma w_bind {A B} (mid : A -> nat) (left : B -> nat) h0 h m f :
  within mid h0 m -> h0 <= h ->
  (forall x, fst m = Ok x -> within left (mid x + (h - h0)) (f x)) ->
  within left h (tbind m f).
Proof.
  unfold within. destruct m as [[a| | |] k]; cbn; intros H1 H2 H3; try lia.
  specialize (H3 a eq_refl). destruct (fst (f a)); lia.
Qed.
Lemma w_if_ok {A B} (mid : A -> nat) (left : B -> nat) h0 h m f e :
  within mid h0 m -> h0 <= h ->
  (forall x, fst m = Ok x -> within left (mid x + (h - h0)) (f x)) ->
  (fst m = Reject -> within left (h - snd m) e) ->
  within left h (t_if_ok m f e).
Proof.
  unfold within. destruct m as [[a| | |] k]; cbn; intros H1 H2 H3 H4; try lia.
  - specialize (H3 a eq_refl). destruct (fst (f a)); lia.
  - specialize (H4 eq_refl). destruct (fst e); lia.
Qed.
Lemma w_weaken {A} (left left' : A -> nat) h h' m :
  within left h m -> h <= h' -> (forall x, fst m = Ok x -> left' x <= left x + (h' - h)) ->
  within left' h' m.
Proof.
  unfold within. destruct (fst m) as [a| | |]; intros H1 H2 H3; try lia.
  specialize (H3 a eq_refl). lia.
Qed.

Definition len (c : cursor) : nat := str_len (rest c).

Lemma advance_len c n c' : advance c n = Ok c' -> len c = n + len c'.
Proof.
  unfold advance, len. destruct (split_at (rest c) n) as [[p r]|] eqn:E; [|discriminate].
  intros H. injection H as <-. apply split_at_inv in E as [-> ->]. cbn. now rewrite str_len_app.
Qed.
Lemma slice_to_len s n p : slice_to s n = Ok p -> str_len p = n.
Proof.
  unfold slice_to. destruct (split_at s n) as [[a b]|] eqn:E; [|discriminate].
  intros H. injection H as <-. now apply split_at_inv in E as [_ ->].
Qed.
Lemma slice_from_len s n r : slice_from s n = Ok r -> n + str_len r = str_len s.
Proof.
  unfold slice_from. destruct (split_at s n) as [[a b]|] eqn:E; [|discriminate].
  intros H. injection H as <-. apply split_at_inv in E as [-> ->]. rewrite str_len_app. lia.
Qed.

Lemma fst_advance c n : fst (t_advance c n) = advance c n. Proof. reflexivity. Qed.
Lemma fst_work {A} n (r : res A) : fst (work n r) = r. Proof. reflexivity. Qed.

Lemma w_adv {B} c n h (left : B -> nat) f :
  S n <= h -> (forall c', len c = n + len c' -> within left (h - S n) (f c')) ->
  within left h (tbind (t_advance c n) f).
Proof.
  intros H1 H3. apply w_bind with (mid := fun _ => 0) (h0 := S n); [|lia|].
  - apply w_work; intros; lia.
  - intros c' E. rewrite fst_advance in E. apply H3. now apply advance_len.
Qed.
Lemma w_advance (left : cursor -> nat) c n h :
  S n <= h -> (forall c', len c = n + len c' -> S n + left c' <= h) ->
  within left h (t_advance c n).
Proof.
  intros H1 H2. apply w_work; [exact H1|]. intros c' E. apply advance_len in E. auto.
Qed.
Lemma w_wk {A B} n (r : res A) h (left : B -> nat) f :
  n <= h -> (forall x, r = Ok x -> within left (h - n) (f x)) ->
  within left h (tbind (work n r) f).
Proof.
  intros H1 H3. apply w_bind with (mid := fun _ => 0) (h0 := n); [|lia|].
  - apply w_work; intros; lia.
  - intros c' E. rewrite fst_work in E. now apply H3.
Qed.

(** Structure first, arithmetic at the leaves. *)
Ltac facts := repeat match goal with
  | H : slice_to _ _ = Ok _ |- _ => apply slice_to_len in H
  | H : slice_from _ _ = Ok _ |- _ => apply slice_from_len in H
  end.
Ltac wstep := cbv beta; lazymatch goal with
  | |- within _ _ (charge _ _) => apply w_charge; [try lia|]
  | |- within _ _ reject => apply w_reject
  | |- within _ _ panic => apply w_panic
  | |- within _ _ no_fuel => apply w_fuel
  | |- within _ _ (ret _) => apply w_ret; try lia
  | |- within _ _ (tbind (t_advance _ _) _) => apply w_adv; [try lia|intros ? ?]
  | |- within _ _ (t_advance _ _) => apply w_advance; [try lia|intros ? ?; try lia]
  | |- within _ _ (tbind (work _ _) _) => apply w_wk; [try lia|intros ? ?; facts]
  | |- within _ _ (work _ _) => apply w_work; [try lia|intros ? ?; facts; try lia]
  end.

(** *** Comments and blanks *)
Definition text_left (x : cursor * str) : nat := 20 * len (fst x) + 2 * str_len (snd x).
Lemma text_left_eq c s : text_left (c, s) = 20 * len c + 2 * str_len s.
Proof. reflexivity. Qed.

Lemma w_take_loop input i chars :
  i + str_len chars = len input ->
  within text_left (20 * str_len chars + 3 * i + 10) (t_take_until_newline_loop input i chars).
Proof.
  revert i. induction chars as [|ch t IH]; intros i E; cbn [t_take_until_newline_loop str_len] in *.
  - fold (len input). repeat wstep. rewrite text_left_eq. fold (len input). lia.
  - pose proof (len_utf8_pos ch). specialize (IH (i + len_utf8 ch)).
    destruct (ch =? LF)%N.
    + repeat wstep. rewrite text_left_eq. lia.
    + destruct (N.eqb_spec ch CR) as [->|].
      * do 3 wstep. change (len_utf8 CR) with 1 in *. destruct (starts_with _ _).
        -- repeat wstep. rewrite text_left_eq. lia.
        -- eapply w_weaken; [apply IH; lia|lia|intros; cbv beta; lia].
      * wstep. eapply w_weaken; [apply IH; lia|lia|intros; cbv beta; lia].
Qed.
Lemma w_take input : within text_left (20 * len input + 10) (t_take_until_newline_or_eof input).
Proof.
  unfold t_take_until_newline_or_eof.
  eapply w_weaken; [apply w_take_loop; reflexivity|unfold len; lia|intros; cbv beta; lia].
Qed.

Lemma w_block_loop input fuel depth i bs :
  i + length bs = len input ->
  within text_left (20 * length bs + 3 * i + 10) (t_block_comment_loop input fuel depth i bs).
Proof.
  revert depth i bs. induction fuel as [|fuel IH]; intros depth i bs E;
    cbn [t_block_comment_loop]; [apply w_fuel|].
  wstep. destruct bs as [|b0 [|b1 t]]; try wstep. cbn [length] in *.
  destruct (_ && _); [eapply w_weaken; [apply IH; lia|lia|intros; cbv beta; lia]|].
  destruct (_ && _).
  - destruct depth as [|[|d]]; [wstep| |eapply w_weaken; [apply IH; lia|lia|intros; cbv beta; lia]].
    repeat wstep. rewrite text_left_eq. lia.
  - eapply w_weaken; [apply IH; cbn [length]; lia|cbn [length]; lia|intros; cbn [length]; lia].
Qed.
Lemma w_block input : within text_left (20 * len input + 13) (t_block_comment input).
Proof.
  unfold t_block_comment. wstep. destruct (negb _); [wstep|].
  eapply w_weaken; [apply w_block_loop|rewrite length_str_bytes; unfold len; lia|];
    rewrite length_str_bytes; [reflexivity|unfold len; intros; cbv beta; lia].
Qed.

Lemma suffix_shorter r s : suffix r s -> length r < length s -> str_len r < str_len s.
Proof.
  intros [p ->] H. rewrite app_length in H. rewrite str_len_app.
  pose proof (length_le_str_len p). lia.
Qed.

(** A comment that is opened and not closed is scanned in vain. *)
Definition unclosed (s : str) : bool :=
  block_comment_start s && match p_block 0 s with Some _ => false | None => true end.
Definition skip_left (c : cursor) : nat := if unclosed (rest c) then 0 else 80 * len c.

Lemma w_skip_loop fuel s : within skip_left (80 * len s + 100) (t_skip_whitespace_loop fuel s).
Proof.
  revert s. induction fuel as [|fuel IH]; intros s; cbn [t_skip_whitespace_loop]; [apply w_fuel|].
  wstep.
  assert (Hs : forall n, n <= 100 -> within skip_left (80 * len s + 100 - n) (ret s)).
  { intros n Hn. wstep. unfold skip_left. destruct (unclosed _); lia. }
  assert (Hn : forall s' h, len s' < len s -> 80 * len s + 50 <= h -> within skip_left h (t_skip_whitespace_loop fuel s')).
  { intros s' h H1 H2. eapply w_weaken; [apply IH|lia|intros; cbv beta; lia]. }
  destruct (rest s) as [|c t] eqn:Es; [apply Hs; lia|].
  destruct (first_byte_char c t) as (b & u & -> & Hb).
  assert (Hws : forall n, n <= 40 -> within skip_left (80 * len s + 100 - 1 - n)
    (charge 3
      (if (b =? SPACE)%N || between 0x09 b 0x0d then
         let! s' := t_advance s 1 in t_skip_whitespace_loop fuel s'
       else if is_ascii b then ret s
       else
         let! ch := work 1 (unwrap (first_char s)) in
         if is_whitespace ch then
           let! s' := t_advance s (len_utf8 ch) in t_skip_whitespace_loop fuel s'
         else ret s))).
  { intros n H. wstep. destruct (_ || _).
    - wstep. apply Hn; lia.
    - destruct (is_ascii b); [rewrite <- !Nat.sub_add_distr; apply Hs; lia|]. wstep.
      destruct (is_whitespace x); [|rewrite <- !Nat.sub_add_distr; apply Hs; lia].
      pose proof (len_utf8_pos x). assert (len_utf8 x <= 4) by (unfold len_utf8; repeat destruct (_ <? _)%N; lia).
      wstep. apply Hn; lia. }
  destruct (N.eqb_spec b "/"%ch) as [->|_].
  2: { specialize (Hws 0). rewrite Nat.sub_0_r in Hws. apply Hws. lia. }
  wstep. change (cstarts s) with (starts_with (rest s)). rewrite Es.
  fold (line_comment_start (c :: t)). fold (block_comment_start (c :: t)).
  destruct (line_comment_start (c :: t)) eqn:E1.
  - eapply w_bind; [apply w_take|lia|]. intros [c' x] E. cbv beta.
    pose proof (er_take' s) as Er. unfold erases in Er. rewrite E, take_until_newline_spec in Er.
    injection Er as -> _.
    assert (len (cur_of s (fst (p_line (rest s)))) < len s).
    { unfold len. cbn [rest cur_of]. rewrite Es.
      destruct (p_skip1_shorter (c :: t) (fst (p_line (c :: t)))) as [H1 H2].
      - unfold p_skip1. now rewrite E1.
      - now apply suffix_shorter. }
    rewrite text_left_eq. eapply w_weaken; [apply IH|lia|intros; cbv beta; lia].
  - destruct (starts_with (c :: t) (tag "/**/")).
    + wstep. apply Hn; lia.
    + destruct (block_comment_start (c :: t)) eqn:E3; [|apply Hws; lia].
      pose proof (er_block s) as Er. unfold erases in Er. rewrite block_comment_spec, Es in Er.
      pose proof E3 as E4. unfold block_comment_start in E4. apply andb_prop in E4 as [E4 _].
      apply andb_prop in E4 as [E4 _]. rewrite E4 in Er.
      pose proof (w_block s) as Hb'. unfold within in Hb'. rewrite Er in Hb'.
      eapply w_if_ok; [apply w_block|lia| |].
      * intros [c' x] E. rewrite E in Er. cbv beta.
        destruct (p_block 0 (c :: t)) as [r|] eqn:Ep; [|discriminate].
        injection Er as -> _. apply p_block_suffix in Ep as [H1 H2].
        assert (len (cur_of s r) < len s)
          by (unfold len; cbn [rest cur_of]; rewrite Es; apply suffix_shorter; [exact H1|lia]).
        rewrite text_left_eq. eapply w_weaken; [apply IH|lia|intros; cbv beta; lia].
      * intros E. rewrite E in Er. destruct (p_block 0 (c :: t)) as [r|] eqn:Ep; [discriminate|].
        wstep. unfold skip_left, unclosed. rewrite Es, E3, Ep. cbn [andb]. lia.
Qed.
Lemma w_skip s : within skip_left (80 * len s + 100) (t_skip_whitespace s).
Proof. apply w_skip_loop. Qed.

Section WithUnicode.
Context {U : unicode}.

(** *** Identifiers *)
Lemma ident_end_cost n i chars :
  i + str_len chars = n ->
  exists e, fst (t_ident_end n i chars) = Ok e /\ i <= e <= n
            /\ snd (t_ident_end n i chars) <= 2 * (e - i) + 2.
Proof.
  revert i. induction chars as [|ch t IH]; intros i E; cbn [t_ident_end str_len] in *.
  - exists n. cbn. repeat split; lia.
  - pose proof (len_utf8_pos ch). destruct (negb _).
    + exists i. cbn. repeat split; lia.
    + destruct (IH (i + len_utf8 ch)) as (e & H1 & H2 & H3); [lia|].
      exists e. cbn [charge fst snd]. repeat split; [exact H1|lia|lia|lia].
Qed.
Lemma w_ident_not_raw c : within text_left (20 * len c + 12) (t_ident_not_raw c).
Proof.
  unfold t_ident_not_raw. unfold char_indices. destruct (rest c) as [|ch t] eqn:E; cbn [ci_next].
  { wstep. wstep. }
  assert (El : len c = len_utf8 ch + str_len t) by (unfold len; now rewrite E).
  pose proof (len_utf8_pos ch). wstep. destruct (is_ident_start ch); [|wstep].
  destruct (ident_end_cost (str_len (ch :: t)) (0 + len_utf8 ch) t) as (e & H1 & H2 & H3); [reflexivity|].
  destruct (t_ident_end _ _ _) as [r k]. cbn [fst snd] in H1, H3. subst r. cbn [tbind str_len] in *.
  do 3 wstep. wstep. rewrite text_left_eq. lia.
Qed.
(** A failed attempt is short. *)
Lemma ident_not_raw_reject c :
  fst (t_ident_not_raw c) = Reject -> snd (t_ident_not_raw c) = 2.
Proof.
  intros H. pose proof (er_ident_not_raw c) as Er. unfold erases in Er.
  rewrite ident_not_raw_spec in Er. rewrite H in Er. unfold p_ident_not_raw in Er.
  unfold t_ident_not_raw, char_indices. destruct (rest c) as [|ch t]; cbn [ci_next]; [reflexivity|].
  destruct (is_ident_start ch); [|reflexivity].
  destruct (p_continue t). discriminate.
Qed.
Lemma w_suffix c : within (fun c' => 20 * len c') (20 * len c + 12) (t_literal_suffix c).
Proof.
  unfold t_literal_suffix. eapply w_if_ok; [apply w_ident_not_raw|lia| |].
  - intros [c' s] _. wstep. rewrite text_left_eq. lia.
  - intros H. apply ident_not_raw_reject in H. rewrite H. wstep.
Qed.
Lemma w_ident_any c :
  within (fun x => 20 * len (fst x)) (20 * len c + 45) (t_ident_any c).
Proof.
  unfold t_ident_any. wstep. wstep; [destruct (cstarts _ _); lia|].
  eapply w_bind; [apply w_ident_not_raw|destruct (cstarts _ _); lia|].
  intros [c'' s] _. cbv beta. rewrite text_left_eq.
  destruct (cstarts _ _); cbn [negb] in *.
  - wstep. destruct (cannot_be_raw s); [wstep|].
    apply w_work; [lia|]. intros a Ea. injection Ea as <-. cbn [fst]. lia.
  - apply w_work; [lia|]. intros a Ea. injection Ea as <-. cbn [fst]. lia.
Qed.
Lemma ident_any_reject c :
  fst (t_ident_any c) = Reject -> snd (t_ident_any c) <= 20 * len c + 45.
Proof. intros H. pose proof (w_ident_any c) as W. unfold within in W. now rewrite H in W. Qed.

(** *** Escapes *)
Lemma x_char_len i t i' t' :
  backslash_x_char (i, t) = Ok (i', t') -> i' + str_len t' = i + str_len t /\ i + 2 <= i'.
Proof.
  unfold backslash_x_char. destruct t as [|a t]; [discriminate|]. cbn [ci_next str_len].
  destruct (between _ _ _); [|discriminate]. destruct t as [|b t]; [discriminate|]. cbn [ci_next str_len].
  destruct (is_hex_digit b); [|discriminate]. intros H. injection H as <- <-.
  pose proof (len_utf8_pos a). pose proof (len_utf8_pos b). lia.
Qed.
Lemma x_nonzero_len i t i' t' :
  backslash_x_nonzero (i, t) = Ok (i', t') -> i' + str_len t' = i + str_len t /\ i + 2 <= i'.
Proof.
  unfold backslash_x_nonzero. destruct t as [|a t]; [discriminate|]. cbn [ci_next str_len].
  destruct (is_hex_digit a); [|discriminate]. destruct t as [|b t]; [discriminate|]. cbn [ci_next str_len].
  destruct (is_hex_digit b); [|discriminate]. destruct (_ && _); [discriminate|].
  intros H. injection H as <- <-.
  pose proof (len_utf8_pos a). pose proof (len_utf8_pos b). lia.
Qed.
Lemma x_byte_len i t i' t' :
  backslash_x_byte (i, t) = Ok (i', t') -> i' + length t' = i + length t /\ i + 2 <= i'.
Proof.
  unfold backslash_x_byte. destruct t as [|a t]; [discriminate|]. cbn [be_next length].
  destruct (is_hex_digit a); [|discriminate]. destruct t as [|b t]; [discriminate|]. cbn [be_next length].
  destruct (is_hex_digit b); [|discriminate]. intros H. injection H as <- <-. lia.
Qed.
Lemma u_loop_cost i t v n :
  within (fun x => 4 * str_len (snd (fst x))) (4 * str_len t + 4) (t_backslash_u_loop i t v n)
  /\ (forall i' t' c, fst (t_backslash_u_loop i t v n) = Ok ((i', t'), c) ->
        i' + str_len t' = i + str_len t /\ i <= i').
Proof.
  revert i v n. induction t as [|ch t IH]; intros i v n; cbn [t_backslash_u_loop str_len].
  { split; [wstep; wstep|discriminate]. }
  pose proof (len_utf8_pos ch).
  destruct (is_hex_digit ch).
  { destruct (n =? 6); [split; [wstep; wstep|discriminate]|].
    destruct (IH (i + len_utf8 ch) (v * 16 + hex_value ch)%N (S n)) as [H1 H2]. split.
    - wstep. eapply w_weaken; [exact H1|lia|intros; cbv beta; lia].
    - intros i' t' c E. apply H2 in E. lia. }
  destruct (_ && _).
  { destruct (IH (i + len_utf8 ch) v n) as [H1 H2]. split.
    - wstep. eapply w_weaken; [exact H1|lia|intros; cbv beta; lia].
    - intros i' t' c E. apply H2 in E. lia. }
  destruct (_ && _); [|split; [wstep; wstep|discriminate]].
  split.
  - wstep. wstep. wstep. cbn [fst snd]. lia.
  - intros i' t' c. cbn. destruct (char_from_u32 v); cbn; [|discriminate].
    intros E. injection E as <- <- <-. lia.
Qed.
Lemma u_cost i t :
  within (fun x => 4 * str_len (snd (fst x))) (4 * str_len t + 5) (t_backslash_u (i, t))
  /\ (forall i' t' c, fst (t_backslash_u (i, t)) = Ok ((i', t'), c) ->
        i' + str_len t' = i + str_len t /\ i <= i').
Proof.
  unfold t_backslash_u. destruct t as [|ch t]; cbn [ci_next str_len].
  { split; [wstep; wstep|discriminate]. }
  destruct (_ =? _)%N; [|split; [wstep; wstep|discriminate]].
  destruct (u_loop_cost (i + len_utf8 ch) t 0 0) as [H1 H2]. split.
  - wstep. eapply w_weaken; [exact H1|lia|intros; cbv beta; lia].
  - intros i' t' c E. apply H2 in E. lia.
Qed.

Lemma w_trail_loop input fuel last i bs :
  i + length bs = len input ->
  within (fun c => 20 * len c) (20 * length bs + 3 * i + 10)
    (t_trailing_backslash_loop input fuel last (i, bs)).
Proof.
  revert last i bs. induction fuel as [|fuel IH]; intros last i bs E;
    cbn [t_trailing_backslash_loop]; [apply w_fuel|].
  assert (Hstep : forall i bs h, i + length bs = len input -> 20 * length bs + 3 * i + 6 <= h ->
    within (fun c => 20 * len c) h
      (charge 1
        match be_next (i, bs) with
        | Some ((offset, b), ws) =>
            if (b =? SPACE)%N || (b =? TAB)%N || (b =? LF)%N || (b =? CR)%N then
              t_trailing_backslash_loop input fuel b ws
            else t_advance input offset
        | None => reject
        end)).
  { intros j l h Ej Eh. wstep. destruct l as [|b l]; cbn [be_next]; [wstep|].
    cbn [length] in *. destruct (_ || _).
    - eapply w_weaken; [apply IH; lia|lia|intros; cbv beta; lia].
    - wstep. }
  wstep. destruct (last =? CR)%N; [|apply Hstep; lia].
  wstep. destruct bs as [|b bs]; cbn [be_next]; [wstep|]. cbn [length] in *.
  destruct (negb _); [wstep|]. apply Hstep; lia.
Qed.
Lemma w_trail input last :
  within (fun c => 20 * len c) (20 * len input + 10) (t_trailing_backslash input last).
Proof.
  unfold t_trailing_backslash, bytes_enum.
  eapply w_weaken; [apply w_trail_loop|rewrite length_str_bytes; unfold len; lia|];
    rewrite length_str_bytes; [reflexivity|unfold len; intros; cbv beta; lia].
Qed.
End WithUnicode.
