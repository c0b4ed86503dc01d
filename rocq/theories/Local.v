(** * A lexeme is recognised the same without the text after it.

    Stable.v shows that a lexeme read alone is read the same in front of a stop
    character.  Here is the converse: if the lexer reads [a] off [a ++ r] then it
    reads all of [a] when [a] stands alone. *)
From Verif Require Import Base BaseFacts Unicode Tokens Lexer PureLexer.
From Verif Require Import LexerEquiv LexerEquiv2 LexerEquiv3 LexerEquiv4 Grammar Stable Trivia.
From Verif Require Import SpecText Comments Fallback SpecTree Spans.

Section WithUnicode.
Context {U : unicode}.
Context (UO : unicode_ok U).

Definition local (e : str -> option str) : Prop :=
  forall a r b, e (a ++ r) = Some (b ++ r) -> e a = Some b.

Lemma too_short (b r s : str) : suffix (b ++ r) s -> length s < length r -> False.
Proof. intros H Hl. apply suffix_length in H. rewrite app_length in H. lia. Qed.

Lemma app_tail_eq (b r t : str) : b ++ r = t -> length t = length r -> b = [].
Proof. intros <- H. rewrite app_length in H. destruct b; [reflexivity|cbn in H; lia]. Qed.

(** *** Escapes *)
Lemma p_x_local (p : str -> option str) (ok : N -> N -> bool) :
  (forall s, p s = match s with a :: b :: t => if ok a b then Some t else None | _ => None end) -> local p.
Proof.
  intros E a r b H. rewrite E in *. destruct a as [|x [|y a]]; cbn [app] in H.
  - destruct r as [|x [|y r]]; try discriminate. destruct (ok x y); [|discriminate].
    exfalso. injection H as H. apply (f_equal (@length _)) in H. rewrite app_length in H. cbn in H. lia.
  - destruct r as [|y r]; try discriminate. destruct (ok x y); [|discriminate].
    exfalso. injection H as H. apply (f_equal (@length _)) in H. rewrite app_length in H. cbn in H. lia.
  - destruct (ok x y); [|discriminate]. injection H as H. apply app_inv_tail in H. now subst.
Qed.
Lemma p_x_char_local : local p_x_char.
Proof. apply p_x_local with (fun a b => between "0"%ch a "7"%ch && is_hex_digit b). reflexivity. Qed.
Lemma p_x_byte_local : local p_x_byte.
Proof. apply p_x_local with (fun a b => is_hex_digit a && is_hex_digit b). reflexivity. Qed.
Lemma p_x_nonzero_local : local p_x_nonzero.
Proof.
  apply p_x_local with (fun a b => is_hex_digit a && is_hex_digit b && negb ((a =? "0"%ch)%N && (b =? "0"%ch)%N)).
  reflexivity.
Qed.
Lemma p_u_loop_shorter s v n r c : p_u_loop s v n = Some (r, c) -> length r < length s.
Proof.
  revert v n. induction s as [|ch t IH]; intros v n H; cbn in *; [discriminate|].
  destruct (is_hex_digit ch); [destruct (n =? 6); [discriminate|apply IH in H; lia]|].
  destruct (_ && _); [apply IH in H; lia|]. destruct (_ && _); [|discriminate].
  destruct (char_from_u32 v); [|discriminate]. inv H. lia.
Qed.
Lemma p_u_loop_local a r b c : forall v n, p_u_loop (a ++ r) v n = Some (b ++ r, c) -> p_u_loop a v n = Some (b, c).
Proof.
  induction a as [|ch t IH]; intros v n H.
  - apply p_u_loop_shorter in H. cbn in H. rewrite app_length in H. lia.
  - cbn in *. destruct (is_hex_digit ch); [destruct (n =? 6); [discriminate|auto]|].
    destruct (_ && _); [auto|]. destruct (_ && _); [|discriminate].
    destruct (char_from_u32 v); [|discriminate]. injection H as H ->. apply app_inv_tail in H. now subst.
Qed.
Lemma p_u_local a r b c : p_u (a ++ r) = Some (b ++ r, c) -> p_u a = Some (b, c).
Proof.
  destruct a as [|ch t]; cbn [app]; intros H.
  - destruct r as [|ch r]; cbn in H; [discriminate|]. destruct (_ =? _)%N; [|discriminate].
    apply p_u_loop_shorter in H. rewrite app_length in H. cbn in H. lia.
  - cbn in *. destruct (_ =? _)%N; [|discriminate]. now apply p_u_loop_local in H.
Qed.
Lemma esc_local_nil e : esc_shrinks e -> forall r b, e r = Some (b ++ r) -> False.
Proof.
  intros He r b H. apply He in H as (c & t & -> & Hs). eapply too_short; [exact Hs|]. cbn. lia.
Qed.
Lemma esc_str_local : local esc_str.
Proof.
  intros [|c t] r b H. { exfalso. eapply esc_local_nil; [exact esc_str_shrinks|exact H]. }
  cbn in *. destruct (_ =? _)%N; [now apply p_x_char_local in H|].
  destruct (simple_escape0 c). { injection H as H. apply app_inv_tail in H. now subst. }
  destruct (_ =? _)%N; [|discriminate]. destruct (p_u (t ++ r)) as [[x v]|] eqn:E; [|discriminate].
  injection H as ->. apply p_u_local in E. now rewrite E.
Qed.
Lemma esc_byte_local : local esc_byte.
Proof.
  intros [|c t] r b H. { exfalso. eapply esc_local_nil; [exact esc_byte_shrinks|exact H]. }
  cbn in *. destruct (_ =? _)%N; [now apply p_x_byte_local in H|].
  destruct (simple_escape0 c); [|discriminate]. injection H as H. apply app_inv_tail in H. now subst.
Qed.
Lemma esc_c_local : local esc_c.
Proof.
  intros [|c t] r b H. { exfalso. eapply esc_local_nil; [exact esc_c_shrinks|exact H]. }
  cbn in *. destruct (_ =? _)%N; [now apply p_x_nonzero_local in H|].
  destruct (simple_escape_c c). { injection H as H. apply app_inv_tail in H. now subst. }
  destruct (_ =? _)%N; [|discriminate]. destruct (p_u (t ++ r)) as [[x v]|] eqn:E; [|discriminate].
  destruct (v =? NUL)%N eqn:Ev; [discriminate|].
  injection H as ->. apply p_u_local in E. now rewrite E, Ev.
Qed.
Lemma p_trail_local a r b : forall l, b <> [] -> p_trail l (a ++ r) = Some (b ++ r) -> p_trail l a = Some b.
Proof.
  induction a as [a IH] using str_ind_len. intros l Hb H. destruct a as [|c t].
  { exfalso. apply p_trail_suffix in H. cbn in H. apply suffix_length in H. rewrite app_length in H.
    destruct b; [congruence|cbn in H; lia]. }
  cbn [app p_trail] in *. destruct (l =? CR)%N.
  - destruct (c =? LF)%N; [|discriminate]. destruct t as [|b' t']; cbn [app] in H.
    + destruct r as [|x r']; [discriminate|]. exfalso. destruct (is_trail_ws x).
      * apply p_trail_suffix in H. eapply too_short; [exact H|]. cbn. lia.
      * injection H as H. apply (f_equal (@length _)) in H. rewrite app_length in H.
        destruct b; [congruence|cbn in H; lia].
    + destruct (is_trail_ws b').
      * apply (IH t') in H; auto. cbn. lia.
      * injection H as H. change (b' :: t' ++ r) with ((b' :: t') ++ r) in H. apply app_inv_tail in H. now subst.
  - destruct (is_trail_ws c).
    + apply (IH t) in H; auto.
    + injection H as H. change (c :: t ++ r) with ((c :: t) ++ r) in H. apply app_inv_tail in H. now subst.
Qed.

(** *** Quoted bodies *)
Lemma p_cooked_shorter esc ok : esc_shrinks esc -> forall s r, p_cooked esc ok s = Some r ->
  suffix r s /\ length r < length s.
Proof.
  intros He. apply (str_ind_len (fun s => forall r, p_cooked esc ok s = Some r -> suffix r s /\ length r < length s)).
  intros s IH r H. split; [eapply p_cooked_suffix; eauto|]. rewrite p_cooked_eq in H by exact He.
  destruct s as [|c t]; [discriminate|]. cbn [length] in *.
  destruct (c =? DQUOTE)%N; [inv H; lia|]. destruct (c =? CR)%N.
  { destruct t as [|c2 t']; [discriminate|]. destruct (c2 =? LF)%N; [|discriminate].
    apply IH in H as [_ H]; cbn in *; lia. }
  destruct (c =? BACKSLASH)%N.
  { destruct t as [|c2 t2]; [discriminate|]. destruct (_ || _).
    - destruct (p_trail c2 t2) as [r'|] eqn:E; [|discriminate].
      apply p_trail_suffix in E. apply suffix_length in E. apply IH in H as [_ H]; cbn in *; lia.
    - destruct (esc (c2 :: t2)) as [r'|] eqn:E; [|discriminate].
      apply He in E as (c3 & t3 & E & Hs). inv E. apply suffix_length in Hs.
      apply IH in H as [_ H]; cbn in *; lia. }
  destruct (ok c); [|discriminate]. apply IH in H as [_ H]; cbn in *; lia.
Qed.

(** A remainder from which [b ++ r] is reached ends in [r]. *)
Lemma split_tail (b r z s : str) : suffix (b ++ r) z -> suffix z s -> length r <= length z ->
  exists z', z = z' ++ r.
Proof. intros [p ->] _ _. exists (p ++ b). now rewrite app_assoc. Qed.

Lemma p_cooked_local esc ok : esc_shrinks esc -> local esc -> local (p_cooked esc ok).
Proof.
  intros Hs Hl a. induction a as [a IH] using str_ind_len. intros r b H.
  destruct a as [|c t].
  { exfalso. apply p_cooked_shorter in H as [_ H]; [|exact Hs]. cbn in H. rewrite app_length in H. lia. }
  rewrite p_cooked_eq in * by exact Hs. cbn [app] in H.
  destruct (c =? DQUOTE)%N. { injection H as H. apply app_inv_tail in H. now subst. }
  destruct (c =? CR)%N.
  { destruct t as [|c2 t']; cbn [app] in H.
    - exfalso. destruct r as [|x r']; [discriminate|]. destruct (x =? LF)%N; [|discriminate].
      apply p_cooked_shorter in H as [_ H]; [|exact Hs]. rewrite app_length in H. cbn in H. lia.
    - destruct (c2 =? LF)%N; [|discriminate]. apply IH in H; auto. cbn. lia. }
  destruct (c =? BACKSLASH)%N.
  { destruct t as [|c2 t2]; cbn [app] in H.
    - exfalso. destruct r as [|x r']; [discriminate|]. destruct (_ || _).
      + destruct (p_trail x r') as [z|] eqn:E; [|discriminate].
        apply p_trail_suffix in E. apply suffix_length in E.
        apply p_cooked_shorter in H as [_ H]; [|exact Hs]. rewrite app_length in H. cbn in H. lia.
      + destruct (esc (x :: r')) as [z|] eqn:E; [|discriminate].
        apply Hs in E as (c3 & t3 & E & Hsf). inv E. apply suffix_length in Hsf.
        apply p_cooked_shorter in H as [_ H]; [|exact Hs]. rewrite app_length in H. cbn in H. lia.
    - destruct (_ || _).
      + destruct (p_trail c2 (t2 ++ r)) as [z|] eqn:E; [|discriminate].
        pose proof (p_cooked_shorter _ _ Hs _ _ H) as [[p ->] Hlt].
        destruct p as [|x p]. { rewrite app_nil_l in Hlt. lia. }
        rewrite app_assoc in E, H. apply p_trail_local in E; [|discriminate]. rewrite E.
        apply IH in H; auto. apply p_trail_suffix in E. apply suffix_length in E. cbn in *. lia.
      + destruct (esc (c2 :: t2 ++ r)) as [z|] eqn:E; [|discriminate].
        pose proof (p_cooked_shorter _ _ Hs _ _ H) as [[p ->] Hlt].
        rewrite app_assoc in E, H. change (c2 :: t2 ++ r) with ((c2 :: t2) ++ r) in E. apply Hl in E. rewrite E.
        apply IH in H; auto. apply Hs in E as (c3 & t3 & E & Hsf). inv E. apply suffix_length in Hsf. cbn in *. lia. }
  destruct (ok c); [|discriminate]. apply IH in H; auto.
Qed.

Lemma p_delim_shorter n s m t : p_delim n s = Some (m, t) -> length t < length s /\ suffix t s.
Proof.
  revert n. induction s as [|c u IH]; intros n H; cbn in *; [discriminate|].
  destruct (c =? DQUOTE)%N.
  { destruct (_ <? _)%N; [discriminate|]. inv H. split; [lia|auto]. }
  destruct (_ =? _)%N; [|discriminate]. apply IH in H as [H1 H2]. split; [lia|auto].
Qed.
Lemma p_delim_local a r b m : forall n, p_delim n (a ++ r) = Some (m, b ++ r) -> p_delim n a = Some (m, b).
Proof.
  induction a as [|c t IH]; intros n H.
  - apply p_delim_shorter in H as [H _]. cbn in H. rewrite app_length in H. lia.
  - cbn in *. destruct (c =? DQUOTE)%N.
    { destruct (_ <? _)%N; [discriminate|]. injection H as -> H. apply app_inv_tail in H. now subst. }
    destruct (_ =? _)%N; [auto|discriminate].
Qed.
Lemma p_raw_shorter ok d s r : p_raw ok d s = Some r -> length r + length d < length s.
Proof.
  revert r. induction s as [s IH] using str_ind_len. intros r H. destruct s as [|c t]; [discriminate|]. cbn [p_raw] in H.
  destruct (starts_with t d) eqn:E.
  - destruct (c =? DQUOTE)%N; cbn [andb] in H.
    { injection H as <-. rewrite skipn_length. apply starts_with_len in E. cbn. lia. }
    destruct (c =? CR)%N.
    + destruct t as [|c2 t']; [discriminate|]. destruct (_ =? _)%N; [|discriminate].
      apply IH in H; cbn in *; lia.
    + destruct (ok c); [|discriminate]. apply IH in H; cbn in *; lia.
  - rewrite andb_false_r in H. destruct (c =? CR)%N.
    + destruct t as [|c2 t']; [discriminate|]. destruct (_ =? _)%N; [|discriminate].
      apply IH in H; cbn in *; lia.
    + destruct (ok c); [|discriminate]. apply IH in H; cbn in *; lia.
Qed.
Lemma p_raw_local ok d : local (p_raw ok d).
Proof.
  intros a. induction a as [a IH] using str_ind_len. intros r b H.
  pose proof (p_raw_shorter _ _ _ _ H) as Hlen. rewrite !app_length in Hlen.
  destruct a as [|c t]; [cbn in Hlen; lia|]. cbn [app p_raw length] in *.
  rewrite starts_with_app_long in H by lia.
  destruct ((c =? DQUOTE)%N && starts_with t d) eqn:E.
  { rewrite skipn_starts in H by lia. injection H as H. apply app_inv_tail in H. now subst. }
  destruct (c =? CR)%N.
  { destruct t as [|c2 t']; cbn [app] in H.
    - exfalso. destruct r as [|x r']; [discriminate|]. destruct (x =? LF)%N; [|discriminate].
      apply p_raw_shorter in H. rewrite app_length in H. cbn in H. lia.
    - destruct (c2 =? LF)%N; [|discriminate]. apply IH in H; [exact H|cbn; lia]. }
  destruct (ok c); [|discriminate]. apply IH in H; auto.
Qed.
Lemma p_raw_with_local ok : local (p_raw_with ok).
Proof.
  intros a r b H. unfold p_raw_with in *. destruct (p_delim 0 (a ++ r)) as [[n z]|] eqn:E; [|discriminate].
  pose proof (p_raw_suffix _ _ _ _ H) as [p ->]. rewrite app_assoc in E, H.
  apply p_delim_local in E. rewrite E. now apply p_raw_local in H.
Qed.
Lemma p_raw_with_shorter ok s r : p_raw_with ok s = Some r -> length r < length s.
Proof.
  unfold p_raw_with. destruct (p_delim 0 s) as [[n z]|] eqn:E; [|discriminate]. intros H.
  apply p_raw_shorter in H. apply p_delim_shorter in E as [E _]. lia.
Qed.

(** A tag followed by a local lexer. *)
Lemma tagged_local (e : str -> option str) a r b t :
  (forall s x, e s = Some x -> length x < length s) -> local e ->
  starts_with (a ++ r) t = true -> e (skipn (length t) (a ++ r)) = Some (b ++ r) ->
  starts_with a t = true /\ e (skipn (length t) a) = Some b.
Proof.
  intros Hlt Hl Hs H. pose proof (Hlt _ _ H) as Hlen. rewrite skipn_length, !app_length in Hlen.
  assert (Ha : length t <= length a) by lia.
  rewrite starts_with_app_long in Hs by exact Ha. rewrite skipn_starts in H by exact Ha. apply Hl in H. auto.
Qed.
Lemma starts_with_false a r t : starts_with (a ++ r) t = false -> starts_with a t = false.
Proof.
  intros H. destruct (starts_with a t) eqn:E; [|reflexivity]. now rewrite starts_with_app_l in H.
Qed.
Lemma cooked_lt esc ok : esc_shrinks esc -> forall s r, p_cooked esc ok s = Some r -> length r < length s.
Proof. intros He s r H. now apply p_cooked_shorter in H as [_ H]. Qed.

Lemma two_forms_local e1 e2 t1 t2 :
  (forall s x, e1 s = Some x -> length x < length s) -> local e1 ->
  (forall s x, e2 s = Some x -> length x < length s) -> local e2 ->
  local (fun s => if starts_with s t1 then e1 (skipn (length t1) s)
                  else if starts_with s t2 then e2 (skipn (length t2) s) else None).
Proof.
  intros S1 L1 S2 L2 a r b H. destruct (starts_with (a ++ r) t1) eqn:E1.
  - apply (tagged_local e1) in H as [-> ->]; auto.
  - rewrite (starts_with_false _ _ _ E1). destruct (starts_with (a ++ r) t2) eqn:E2; [|discriminate].
    apply (tagged_local e2) in H as [-> ->]; auto.
Qed.
Lemma q_string_local : local q_string.
Proof.
  apply (two_forms_local (p_cooked esc_str ok_any) (p_raw_with ok_any) (tag """") (tag "r")).
  - apply cooked_lt, esc_str_shrinks.
  - apply p_cooked_local; [apply esc_str_shrinks|apply esc_str_local].
  - apply p_raw_with_shorter.
  - apply p_raw_with_local.
Qed.
Lemma q_byte_string_local : local q_byte_string.
Proof.
  apply (two_forms_local (p_cooked esc_byte is_ascii) (p_raw_with is_ascii) (tag "b""") (tag "br")).
  - apply cooked_lt, esc_byte_shrinks.
  - apply p_cooked_local; [apply esc_byte_shrinks|apply esc_byte_local].
  - apply p_raw_with_shorter.
  - apply p_raw_with_local.
Qed.
Lemma q_c_string_local : local q_c_string.
Proof.
  apply (two_forms_local (p_cooked esc_c ok_nonnul) (p_raw_with ok_nonnul) (tag "c""") (tag "cr")).
  - apply cooked_lt, esc_c_shrinks.
  - apply p_cooked_local; [apply esc_c_shrinks|apply esc_c_local].
  - apply p_raw_with_shorter.
  - apply p_raw_with_local.
Qed.

Lemma unit_local u : (forall s x, u s = Some x -> suffix x s) -> local u -> local (fun s => obind (u s) closing_quote).
Proof.
  intros Hs Hl a r b H. destruct (u (a ++ r)) as [z|] eqn:E; [|discriminate]. cbn in H.
  destruct z as [|q z]; [discriminate|]. cbn in H. destruct (N.eqb_spec q SQUOTE) as [->|]; [|discriminate].
  injection H as ->. change (SQUOTE :: b ++ r) with ((SQUOTE :: b) ++ r) in E. apply Hl in E. rewrite E. reflexivity.
Qed.
Lemma u_byte_local : local u_byte.
Proof.
  intros [|c t] r b H.
  - exfalso. cbn in H. destruct r as [|c r]; [discriminate|]. cbn in H. destruct (_ =? _)%N.
    + apply esc_byte_shrinks in H as (c2 & t2 & -> & Hs). eapply too_short; [exact Hs|]. cbn. lia.
    + destruct (is_ascii c); [|discriminate]. injection H as H. apply (f_equal (@length _)) in H.
      rewrite app_length in H. cbn in H. lia.
  - cbn in *. destruct (_ =? _)%N; [now apply esc_byte_local in H|]. destruct (is_ascii c); [|discriminate].
    injection H as H. apply app_inv_tail in H. now subst.
Qed.
Lemma u_char_local : local u_char.
Proof.
  intros [|c t] r b H.
  - exfalso. cbn in H. destruct r as [|c r]; [discriminate|]. cbn in H. destruct (_ =? _)%N.
    + apply esc_str_shrinks in H as (c2 & t2 & -> & Hs). eapply too_short; [exact Hs|]. cbn. lia.
    + injection H as H. apply (f_equal (@length _)) in H. rewrite app_length in H. cbn in H. lia.
  - cbn in *. destruct (_ =? _)%N; [now apply esc_str_local in H|].
    injection H as H. apply app_inv_tail in H. now subst.
Qed.
Lemma unit_shorter u : (forall s x, u s = Some x -> suffix x s) ->
  forall s r, obind (u s) closing_quote = Some r -> length r < length s.
Proof.
  intros Hs s r H. destruct (u s) as [z|] eqn:E; [|discriminate]. apply Hs, suffix_length in E. cbn in H.
  destruct z as [|q z]; [discriminate|]. cbn in H. destruct (_ =? _)%N; [|discriminate]. inv H. cbn in E. lia.
Qed.
Lemma one_form_local e t :
  (forall s x, e s = Some x -> length x < length s) -> local e ->
  local (fun s => if starts_with s t then e (skipn (length t) s) else None).
Proof.
  intros S1 L1 a r b H. destruct (starts_with (a ++ r) t) eqn:E1; [|discriminate].
  apply (tagged_local e) in H as [-> ->]; auto.
Qed.
Lemma q_byte_local : local q_byte.
Proof.
  apply (one_form_local (fun s => obind (u_byte s) closing_quote) (tag "b'")).
  - apply unit_shorter, u_byte_suffix.
  - apply unit_local; [apply u_byte_suffix|apply u_byte_local].
Qed.
Lemma q_char_local : local q_char.
Proof.
  apply (one_form_local (fun s => obind (u_char s) closing_quote) (tag "'")).
  - apply unit_shorter, u_char_suffix.
  - apply unit_local; [apply u_char_suffix|apply u_char_local].
Qed.
Lemma p_quoted_local : local p_quoted.
Proof.
  intros a r b H. apply p_quoted_intro. apply p_quoted_cases in H as [H|[H|[H|[H|H]]]].
  - left. now apply q_string_local in H.
  - right; left. now apply q_byte_string_local in H.
  - right; right; left. now apply q_c_string_local in H.
  - right; right; right; left. now apply q_byte_local in H.
  - right; right; right; right. now apply q_char_local in H.
Qed.
Lemma p_quoted_none a r : p_quoted (a ++ r) = None -> p_quoted a = None.
Proof. intros H. destruct (p_quoted a) eqn:E; [|reflexivity]. now rewrite (p_quoted_app _ r _ E) in H. Qed.

(** *** Numbers *)
Lemma same_length (b r : str) : suffix (b ++ r) r -> b = [].
Proof. intros H. apply suffix_length in H. rewrite app_length in H. destruct b; [reflexivity|cbn in H; lia]. Qed.

Lemma p_continue_split s r x : p_continue s = (r, x) -> s = x ++ r.
Proof.
  revert r x. induction s as [|c t IH]; intros r x H; cbn in H; [now inv H|].
  destruct (is_ident_continue c); [|now inv H]. destruct (p_continue t) as [r' x'] eqn:E. inv H.
  cbn. f_equal. now apply IH.
Qed.
Lemma p_continue_local a r b x : p_continue (a ++ r) = (b ++ r, x) -> p_continue a = (b, x).
Proof.
  revert x. induction a as [|c t IH]; intros x H; cbn [app p_continue] in *.
  - assert (E := p_continue_split _ _ _ H).
    assert (Hl := f_equal (@length _) E). rewrite !app_length in Hl.
    destruct x; [|cbn in Hl; lia]. destruct b; [reflexivity|cbn in Hl; lia].
  - destruct (is_ident_continue c).
    + destruct (p_continue (t ++ r)) as [r' x'] eqn:E. inv H. now rewrite (IH x').
    + injection H as H <-. change (c :: t ++ r) with ((c :: t) ++ r) in H. apply app_inv_tail in H. now subst.
Qed.
Lemma p_suffix_local a r b : p_suffix (a ++ r) = b ++ r -> p_suffix a = b.
Proof.
  intros H. destruct a as [|c t].
  - pose proof (p_suffix_suffix r) as Hs. cbn in H. rewrite H in Hs. apply same_length in Hs. now subst.
  - unfold p_suffix in *. cbn in *. destruct (is_ident_start c).
    + destruct (p_continue (t ++ r)) as [r' x'] eqn:E. subst r'. apply p_continue_local in E. now rewrite E.
    + change (c :: t ++ r) with ((c :: t) ++ r) in H. now apply app_inv_tail in H.
Qed.

Lemma p_mantissa_nil_local r b hd d e : p_mantissa r hd = Some (d, e, b ++ r) -> d = hd /\ e = false /\ b = [].
Proof.
  intros H. pose proof (p_mantissa_asuffix _ _ _ _ _ H) as Hs. apply asuffix_suffix, same_length in Hs. subst b.
  cbn [app] in H. destruct r as [|c t]; cbn in H; [inv H; auto|].
  assert (Hno : forall q, p_mantissa t q = Some (d, e, c :: t) -> False).
  { intros q Hq. apply p_mantissa_asuffix, asuffix_suffix, suffix_length in Hq. cbn in Hq. lia. }
  destruct (_ || _); [now apply Hno in H|]. destruct (_ =? _)%N.
  - destruct hd; [inv H; auto|]. destruct t as [|c2 t']; [now apply Hno in H|].
    destruct (_ || _); [discriminate|now apply Hno in H].
  - destruct (_ || _); [|inv H; auto]. exfalso. injection H as _ _ H.
    apply (f_equal (@length _)) in H. cbn in H. lia.
Qed.
Lemma p_mantissa_local a r b : forall hd d e,
  p_mantissa (a ++ r) hd = Some (d, e, b ++ r) -> p_mantissa a hd = Some (d, e, b).
Proof.
  induction a as [|c t IH]; intros hd d e H.
  - apply p_mantissa_nil_local in H as (-> & -> & ->). reflexivity.
  - cbn [app p_mantissa] in *. destruct (_ || _); [auto|]. destruct (c =? "."%ch)%N.
    + destruct hd. { injection H as <- <- H. change (c :: t ++ r) with ((c :: t) ++ r) in H. apply app_inv_tail in H. now subst. }
      destruct t as [|c2 t']; cbn [app] in H.
      * apply (IH true). cbn [app]. destruct r as [|c2 r']; [exact H|]. destruct (_ || is_ident_start _); [discriminate|exact H].
      * destruct (_ || is_ident_start _); [discriminate|]. apply IH in H. exact H.
    + destruct (_ || _).
      * injection H as <- <- H. apply app_inv_tail in H. now subst.
      * injection H as <- <- H. change (c :: t ++ r) with ((c :: t) ++ r) in H. apply app_inv_tail in H. now subst.
Qed.
Lemma p_mantissa_end_local a r b : forall hd, p_mantissa_end (a ++ r) hd = b ++ r -> p_mantissa_end a hd = b.
Proof.
  induction a as [|c t IH]; intros hd H.
  - cbn [app] in H. pose proof (p_mantissa_end_asuffix r hd) as Hs. rewrite H in Hs.
    apply asuffix_suffix, same_length in Hs. now subst.
  - cbn [app p_mantissa_end] in *. destruct (_ || _); [auto|]. destruct (_ =? _)%N; [destruct hd|].
    + change (c :: t ++ r) with ((c :: t) ++ r) in H. now apply app_inv_tail in H.
    + auto.
    + change (c :: t ++ r) with ((c :: t) ++ r) in H. now apply app_inv_tail in H.
Qed.
Lemma p_exponent_nil_local r b x y : p_exponent r x y = Some (b ++ r) -> y = true /\ b = [].
Proof.
  intros H. pose proof (p_exponent_asuffix _ _ _ _ H) as Hs. apply asuffix_suffix, same_length in Hs. subst b.
  cbn [app] in H. split; [|reflexivity]. destruct r as [|c t]; cbn in H; [destruct y; [reflexivity|discriminate]|].
  assert (Hno : forall q q', p_exponent t q q' = Some (c :: t) -> False).
  { intros q q' Hq. apply p_exponent_asuffix, asuffix_suffix, suffix_length in Hq. cbn in Hq. lia. }
  destruct (_ || _).
  - destruct y; [reflexivity|]. destruct x; [discriminate|now apply Hno in H].
  - destruct (is_dec_digit c); [now apply Hno in H|]. destruct (_ =? _)%N; [now apply Hno in H|].
    destruct y; [reflexivity|discriminate].
Qed.
Lemma p_exponent_local a r b : forall x y, p_exponent (a ++ r) x y = Some (b ++ r) -> p_exponent a x y = Some b.
Proof.
  induction a as [|c t IH]; intros x y H.
  - apply p_exponent_nil_local in H as [-> ->]. reflexivity.
  - cbn [app p_exponent] in *. destruct (_ || _).
    + destruct y.
      * injection H as H. change (c :: t ++ r) with ((c :: t) ++ r) in H. apply app_inv_tail in H. now subst.
      * destruct x; [discriminate|auto].
    + destruct (is_dec_digit c); [auto|]. destruct (_ =? _)%N; [auto|]. destruct y; [|discriminate].
      injection H as H. change (c :: t ++ r) with ((c :: t) ++ r) in H. apply app_inv_tail in H. now subst.
Qed.
Lemma p_exponent_value s : forall x, p_exponent s x true <> None.
Proof.
  induction s as [|c t IH]; intros x; cbn; [discriminate|].
  destruct (_ || _); [discriminate|]. destruct (is_dec_digit c); [apply IH|]. destruct (_ =? _)%N; [apply IH|discriminate].
Qed.
Lemma p_exponent_more a r : forall x y, p_exponent a x y <> None -> p_exponent (a ++ r) x y <> None.
Proof.
  induction a as [|c t IH]; intros x y H; cbn [app p_exponent] in *.
  - destruct y; [apply p_exponent_value|congruence].
  - destruct (_ || _).
    + destruct y; [discriminate|]. destruct x; [congruence|auto].
    + destruct (is_dec_digit c); [auto|]. destruct (_ =? _)%N; [auto|]. destruct y; [discriminate|congruence].
Qed.
Lemma p_mantissa_exp_after t r z : forall hd d,
  p_mantissa (t ++ r) hd = Some (d, true, z) -> p_mantissa_end (t ++ r) hd = r -> p_mantissa t hd = Some (d, false, []).
Proof.
  induction t as [|c t IH]; intros hd d Hm He.
  - cbn [app] in *. destruct r as [|c u]; [discriminate|]. cbn [p_mantissa p_mantissa_end] in *.
    assert (Hno : forall q, p_mantissa_end u q = c :: u -> False).
    { intros q Hq. pose proof (p_mantissa_end_asuffix u q) as Hs. rewrite Hq in Hs.
      apply asuffix_suffix, suffix_length in Hs. cbn in Hs. lia. }
    destruct (_ || _); [now apply Hno in He|]. destruct (_ =? _)%N.
    { destruct hd; [discriminate|now apply Hno in He]. }
    destruct (_ || _); now inv Hm.
  - cbn [app p_mantissa p_mantissa_end] in *. destruct (_ || _); [auto|]. destruct (_ =? _)%N.
    + destruct hd; [discriminate|]. destruct t as [|c2 t']; cbn [app] in *.
      * apply (IH true); [|exact He]. cbn [app]. destruct r as [|c2 r']; [exact Hm|].
        destruct (_ || is_ident_start _); [discriminate|exact Hm].
      * destruct (_ || is_ident_start _); [discriminate|]. now apply IH.
    + exfalso. apply (f_equal (@length _)) in He. cbn in He. rewrite app_length in He. lia.
Qed.
Lemma p_float_digits_local : local p_float_digits.
Proof.
  intros a r b H. destruct a as [|c t].
  { exfalso. cbn [app] in H. destruct r as [|c t]; [discriminate|]. cbn [p_float_digits] in H.
    destruct (is_dec_digit c); [|discriminate].
    assert (Hlt : suffix (b ++ c :: t) t); [|eapply too_short; [exact Hlt|cbn; lia]].
    destruct (p_mantissa t false) as [[[d e] z]|] eqn:Em; [|discriminate].
    apply p_mantissa_asuffix, asuffix_suffix in Em.
    destruct (negb _); [discriminate|]. destruct e; [|inv H; exact Em].
    destruct (p_exponent z false false) as [q|] eqn:Ee.
    - inv H. apply p_exponent_asuffix, asuffix_suffix in Ee. eapply suffix_trans; eauto.
    - destruct d; [|discriminate]. injection H as H. rewrite <- H. apply asuffix_suffix, p_mantissa_end_asuffix. }
  cbn [app p_float_digits] in *. destruct (is_dec_digit c); [|discriminate].
  destruct (p_mantissa (t ++ r) false) as [[[d e] z]|] eqn:Em; [|discriminate].
  destruct (negb _) eqn:En; [discriminate|]. destruct e.
  - destruct (p_exponent z false false) as [q|] eqn:Ee.
    + inv H. pose proof (p_exponent_asuffix _ _ _ _ Ee) as Hs. apply asuffix_suffix in Hs as [w ->].
      rewrite app_assoc in Em, Ee. apply p_mantissa_local in Em. apply p_exponent_local in Ee.
      now rewrite Em, En, Ee.
    + destruct d; [|discriminate]. injection H as H.
      pose proof (p_mantissa_end_exp _ _ _ _ Em) as (k & Ek & _). rewrite H in Ek.
      destruct b as [|k' b'].
      * (* the exponent letter belongs to the text after the literal *)
        cbn [app] in Ek. subst r.
        now rewrite (p_mantissa_exp_after _ _ _ _ _ Em H).
      * injection Ek as -> <-. apply p_mantissa_local in Em. rewrite Em, En.
        destruct (p_exponent b' false false) eqn:Eb.
        { exfalso. eapply p_exponent_more; [|exact Ee]. congruence. }
        now rewrite (p_mantissa_end_local _ _ _ _ H).
  - inv H. apply p_mantissa_local in Em. now rewrite Em, En.
Qed.

Lemma p_number_tail_local a r : p_number_tail (a ++ r) = Some r -> p_number_tail a = Some [].
Proof.
  intros H. destruct a as [|c t]; [reflexivity|]. cbn [app p_number_tail] in *.
  destruct (is_ident_start c).
  - apply p_word_break_eq in H. symmetry in H.
    assert (E : p_suffix (c :: t) = []) by (now apply (p_suffix_local (c :: t) r [])).
    now rewrite E.
  - apply p_word_break_eq in H. exfalso. apply (f_equal (@length _)) in H. cbn in H. rewrite app_length in H. lia.
Qed.
Lemma p_float_local a r : p_float (a ++ r) = Some r -> p_float a = Some [].
Proof.
  unfold p_float. intros H. destruct (p_float_digits (a ++ r)) as [z|] eqn:E; [|discriminate]. cbn in H.
  pose proof (p_number_tail_suffix _ _ H) as [w ->]. apply p_float_digits_local in E. rewrite E. cbn.
  eapply p_number_tail_local; eauto.
Qed.
Lemma p_digits_loop_nil_local base r b e e' :
  p_digits_loop base r e = Some (b ++ r, e') -> e' = e /\ b = [].
Proof.
  intros H. pose proof (p_digits_loop_asuffix _ _ _ _ _ H) as Hs. apply asuffix_suffix, same_length in Hs. subst b.
  cbn [app] in H. split; [|reflexivity]. destruct r as [|c t]; cbn in H; [inv H; auto|].
  assert (Hno : forall q, p_digits_loop base t q = Some (c :: t, e') -> False).
  { intros q Hq. apply p_digits_loop_asuffix, asuffix_suffix, suffix_length in Hq. cbn in Hq. lia. }
  destruct (between _ _ _). { destruct (_ <=? _)%N; [discriminate|now apply Hno in H]. }
  destruct (between _ _ _). { destruct (_ <=? _)%N; [now inv H|now apply Hno in H]. }
  destruct (between _ _ _). { destruct (_ <=? _)%N; [now inv H|now apply Hno in H]. }
  destruct (_ =? _)%N; [|now inv H]. destruct (_ && _); [discriminate|now apply Hno in H].
Qed.
Lemma p_digits_loop_local base a r b e' : forall e,
  p_digits_loop base (a ++ r) e = Some (b ++ r, e') -> p_digits_loop base a e = Some (b, e').
Proof.
  induction a as [|c t IH]; intros e H.
  - apply p_digits_loop_nil_local in H as [-> ->]. reflexivity.
  - assert (Hend : forall x, Some (c :: t ++ r, x) = Some (b ++ r, e') -> Some (c :: t, x) = Some (b, e')).
    { intros x E. injection E as E ->. change (c :: t ++ r) with ((c :: t) ++ r) in E. apply app_inv_tail in E. now subst. }
    cbn [app p_digits_loop] in *. destruct (between _ _ _). { destruct (_ <=? _)%N; [discriminate|auto]. }
    destruct (between _ _ _). { destruct (_ <=? _)%N; [auto|auto]. }
    destruct (between _ _ _). { destruct (_ <=? _)%N; [auto|auto]. }
    destruct (_ =? _)%N; [|auto]. destruct (_ && _); [discriminate|auto].
Qed.
Lemma p_base_local_prefix a r n (t : str) b e : starts_with (a ++ r) t = true -> length t = 2 ->
  p_digits_loop n (skipn 2 (a ++ r)) true = Some (b ++ r, e) -> starts_with a t = true /\ skipn 2 (a ++ r) = skipn 2 a ++ r.
Proof.
  intros Hs Ht H. apply p_digits_loop_asuffix, asuffix_suffix, suffix_length in H.
  pose proof (starts_with_len _ _ Hs) as Hl. rewrite skipn_length, !app_length in *.
  rewrite starts_with_app_long in Hs by lia. split; [exact Hs|]. apply skipn_starts. lia.
Qed.
Lemma p_digits_local : local p_digits.
Proof.
  intros a r b H. unfold p_digits, p_base in *.
  assert (Hdo : forall n u, match p_digits_loop n (u ++ r) true with Some (x, false) => Some x | _ => None end = Some (b ++ r) ->
    match p_digits_loop n u true with Some (x, false) => Some x | _ => None end = Some b).
  { intros n u Hu. destruct (p_digits_loop n (u ++ r) true) as [[x [|]]|] eqn:E; [discriminate| |discriminate].
    inv Hu. apply p_digits_loop_local in E. now rewrite E. }
  assert (Hpre : forall n t, length t = 2 -> starts_with (a ++ r) t = true ->
    match p_digits_loop n (skipn 2 (a ++ r)) true with Some (x, false) => Some x | _ => None end = Some (b ++ r) ->
    starts_with a t = true /\ match p_digits_loop n (skipn 2 a) true with Some (x, false) => Some x | _ => None end = Some b).
  { intros n t Ht Hs Hm. destruct (p_digits_loop n (skipn 2 (a ++ r)) true) as [[x [|]]|] eqn:E; [discriminate| |discriminate].
    inv Hm. pose proof (p_base_local_prefix _ _ _ _ _ _ Hs Ht E) as [H1 H2]. split; [exact H1|].
    rewrite H2 in E. apply p_digits_loop_local in E. now rewrite E. }
  destruct (starts_with (a ++ r) (tag "0x")) eqn:E1. { apply Hpre with (t := tag "0x") in H as [-> H]; auto. }
  rewrite (starts_with_false _ _ _ E1).
  destruct (starts_with (a ++ r) (tag "0o")) eqn:E2. { apply Hpre with (t := tag "0o") in H as [-> H]; auto. }
  rewrite (starts_with_false _ _ _ E2).
  destruct (starts_with (a ++ r) (tag "0b")) eqn:E3. { apply Hpre with (t := tag "0b") in H as [-> H]; auto. }
  rewrite (starts_with_false _ _ _ E3). auto.
Qed.
Lemma p_int_local a r : p_int (a ++ r) = Some r -> p_int a = Some [].
Proof.
  unfold p_int. intros H. destruct (p_digits (a ++ r)) as [z|] eqn:E; [|discriminate]. cbn in H.
  pose proof (p_number_tail_suffix _ _ H) as [w ->]. apply p_digits_local in E. rewrite E. cbn.
  eapply p_number_tail_local; eauto.
Qed.

(** *** An integer standing alone is not a float *)
Definition cont_head (s : str) : Prop := match s with [] => True | c :: _ => is_ident_continue c = false end.

Lemma p_number_tail_end s r : p_number_tail s = Some r -> cont_head r.
Proof.
  intros H. destruct s as [|c t]; cbn in H; [inv H; exact I|].
  assert (Hw : forall u, p_word_break u = Some r -> cont_head r).
  { intros u Hu. pose proof (p_word_break_eq _ _ Hu) as ->. destruct u as [|x u]; cbn in *; [exact I|].
    destruct (is_ident_continue x); [discriminate|reflexivity]. }
  destruct (is_ident_start c); [exact (Hw _ H)|exact (Hw (c :: t) H)].
Qed.
Lemma dec_continue c : is_dec_digit c = true -> is_ident_continue c = true.
Proof using UO.
  intros H. unfold is_ident_continue. rewrite (xid_continue_ascii _ UO) by (now apply dec_ascii). rewrite H.
  now rewrite orb_true_r.
Qed.
Lemma us_continue : is_ident_continue "_"%ch = true.
Proof using UO. unfold is_ident_continue. now rewrite (xid_continue_ascii _ UO). Qed.
Lemma start_continue c : is_ident_start c = true -> is_ident_continue c = true.
Proof using UO.
  unfold is_ident_start. destruct (N.eqb_spec c "_"%ch) as [->|_]; [intros _; apply us_continue|].
  cbn [orb]. apply (xid_start_continue _ UO).
Qed.
Lemma hex_continue c : between "a"%ch c "f"%ch = true \/ between "A"%ch c "F"%ch = true -> is_ident_continue c = true.
Proof using UO.
  intros H. unfold is_ident_continue. rewrite (xid_continue_ascii _ UO); unfold ascii_letter, between in *; lia.
Qed.
Lemma p_digits_loop_chars base s e r e' : p_digits_loop base s e = Some (r, e') ->
  exists p, s = p ++ r /\ Forall (fun c => is_ident_continue c = true) p.
Proof using UO.
  revert e. induction s as [|c t IH]; intros e H; cbn [p_digits_loop] in H.
  - inv H. exists []. auto.
  - assert (Hc : forall q, is_ident_continue c = true -> p_digits_loop base t q = Some (r, e') ->
      exists p, c :: t = p ++ r /\ Forall (fun c => is_ident_continue c = true) p).
    { intros q Hc Hq. apply IH in Hq as (p & -> & Hp). exists (c :: p). auto. }
    assert (Hend : forall q, Some (c :: t, q) = Some (r, e') ->
      exists p, c :: t = p ++ r /\ Forall (fun c => is_ident_continue c = true) p).
    { intros q Hq. inv Hq. exists []. auto. }
    destruct (between "0"%ch c "9"%ch) eqn:B1.
    { destruct (_ <=? _)%N; [discriminate|]. eapply Hc; [|exact H]. now apply dec_continue. }
    destruct (between "a"%ch c "f"%ch) eqn:B2.
    { destruct (_ <=? _)%N; [eauto|]. eapply Hc; [|exact H]. apply hex_continue. auto. }
    destruct (between "A"%ch c "F"%ch) eqn:B3.
    { destruct (_ <=? _)%N; [eauto|]. eapply Hc; [|exact H]. apply hex_continue. auto. }
    destruct (N.eqb_spec c "_"%ch) as [->|]; [|eauto].
    destruct (_ && _); [discriminate|]. eapply Hc; [|exact H]. apply us_continue.
Qed.
Lemma p_digits_chars s r : p_digits s = Some r ->
  exists p, s = p ++ r /\ Forall (fun c => is_ident_continue c = true) p.
Proof using UO.
  intros H. unfold p_digits, p_base in H.
  assert (Hp : forall k n, is_ident_continue k = true -> starts_with s ["0"%ch; k] = true ->
    match p_digits_loop n (skipn 2 s) true with Some (r, false) => Some r | _ => None end = Some r ->
    exists p, s = p ++ r /\ Forall (fun c => is_ident_continue c = true) p).
  { intros k n Hk Hs Hm. destruct (p_digits_loop n (skipn 2 s) true) as [[x [|]]|] eqn:E; [discriminate| |discriminate].
    inv Hm. apply starts_with_cons in Hs as (u & -> & Hs). apply starts_with_cons in Hs as (u' & -> & _).
    cbn [skipn] in E. apply p_digits_loop_chars in E as (p & -> & Hp). exists ("0"%ch :: k :: p).
    split; [reflexivity|]. constructor; [|auto]. now apply dec_continue. }
  assert (Hl : forall k, ascii_letter k = true -> is_ident_continue k = true).
  { intros k Hk. unfold is_ident_continue. rewrite (xid_continue_ascii _ UO); [now rewrite Hk|].
    unfold ascii_letter, between in Hk. lia. }
  destruct (starts_with s (tag "0x")) eqn:E1. { eapply Hp; [|exact E1|exact H]. now apply Hl. }
  destruct (starts_with s (tag "0o")) eqn:E2. { eapply Hp; [|exact E2|exact H]. now apply Hl. }
  destruct (starts_with s (tag "0b")) eqn:E3. { eapply Hp; [|exact E3|exact H]. now apply Hl. }
  destruct (p_digits_loop 10 s true) as [[x [|]]|] eqn:E; [discriminate| |discriminate].
  inv H. now apply p_digits_loop_chars in E.
Qed.
Lemma p_int_chars a : p_int a = Some [] -> Forall (fun c => is_ident_continue c = true) a.
Proof using UO.
  unfold p_int. destruct (p_digits a) as [z|] eqn:E; [|discriminate]. intros H. cbn in H.
  apply p_digits_chars in E as (p & -> & Hp). apply Forall_app. split; [exact Hp|].
  destruct z as [|c t]; [constructor|]. cbn [p_number_tail] in H. destruct (is_ident_start c) eqn:Es.
  - apply p_word_break_eq in H. unfold p_suffix in H. cbn in H. rewrite Es in H.
    destruct (p_continue t) as [r x] eqn:Ec. subst r. constructor; [now apply start_continue|].
    pose proof (p_continue_shape _ _ _ Ec) as [Hx _].
    apply p_continue_split in Ec. rewrite app_nil_r in Ec. now subst t.
  - apply p_word_break_eq in H. discriminate.
Qed.
Lemma p_mantissa_nodot t : Forall (fun c => is_ident_continue c = true) t -> forall d e z,
  p_mantissa t false = Some (d, e, z) -> d = false.
Proof using UO.
  intros Ht. induction Ht as [|c t Hc Ht IH]; intros d e z H; cbn [p_mantissa] in H; [now inv H|].
  destruct (_ || _); [eauto|]. destruct (N.eqb_spec c "."%ch) as [->|].
  - exfalso. unfold is_ident_continue in Hc. rewrite (xid_continue_ascii _ UO) in Hc; [discriminate Hc|reflexivity].
  - destruct (_ || _); now inv H.
Qed.
Lemma p_mantissa_exp_app t r : forall hd d z,
  p_mantissa t hd = Some (d, true, z) -> p_mantissa (t ++ r) hd = Some (d, true, z ++ r).
Proof.
  induction t as [|c t IH]; intros hd d z H; cbn [app p_mantissa] in *; [discriminate|].
  destruct (_ || _); [auto|]. destruct (_ =? _)%N.
  - destruct hd; [discriminate|]. destruct t as [|c2 t']; [discriminate|]. cbn [app].
    destruct (_ || is_ident_start _); [discriminate|]. apply (IH true) in H. exact H.
  - destruct (_ || _); inv H. reflexivity.
Qed.
Lemma p_exponent_cont_app s r z : cont_head r -> forall x y,
  p_exponent s x y = Some z -> p_exponent (s ++ r) x y = Some (z ++ r).
Proof using UO.
  intros Hr. induction s as [|c t IH]; intros x y H; cbn [app p_exponent] in *.
  - destruct y; [|discriminate]. inv H. destruct r as [|c t]; [reflexivity|]. cbn [p_exponent app].
    destruct (_ || _); [reflexivity|]. cbn in Hr. destruct (is_dec_digit c) eqn:Ed.
    { now rewrite dec_continue in Hr. }
    destruct (N.eqb_spec c "_"%ch) as [->|]; [now rewrite us_continue in Hr|reflexivity].
  - destruct (_ || _).
    + destruct y; [now inv H|]. destruct x; [discriminate|auto].
    + destruct (is_dec_digit c); [auto|]. destruct (_ =? _)%N; [auto|]. destruct y; [now inv H|discriminate].
Qed.
Lemma p_continue_cont_app s r y x : cont_head r -> p_continue s = (y, x) -> p_continue (s ++ r) = (y ++ r, x).
Proof.
  intros Hr. revert y x. induction s as [|c t IH]; intros y x H; cbn [app p_continue] in *.
  - inv H. destruct r as [|c t]; [reflexivity|]. cbn in *. now rewrite Hr.
  - destruct (is_ident_continue c); [|now inv H].
    destruct (p_continue t) as [r' x'] eqn:E. inv H. now rewrite (IH _ _ eq_refl).
Qed.
Lemma p_number_tail_cont_app s r z : cont_head r -> p_number_tail s = Some z -> p_number_tail (s ++ r) = Some (z ++ r).
Proof using UO.
  intros Hr H. destruct s as [|c t].
  - inv H. cbn [app]. destruct r as [|c t]; [reflexivity|]. cbn in *.
    destruct (is_ident_start c) eqn:Es; [now rewrite start_continue in Hr|]. now rewrite Hr.
  - cbn [app p_number_tail] in *. destruct (is_ident_start c) eqn:Es.
    + unfold p_suffix in *. cbn in *. rewrite Es in *. destruct (p_continue t) as [y x] eqn:Ec.
      rewrite (p_continue_cont_app _ _ _ _ Hr Ec). destruct y as [|k y]; cbn in *.
      * inv H. destruct r as [|k r]; [reflexivity|]. cbn in *. now rewrite Hr.
      * destruct (is_ident_continue k); [discriminate|]. now inv H.
    + cbn in *. destruct (is_ident_continue c); [discriminate|]. now inv H.
Qed.
Lemma p_int_not_float a r : p_int (a ++ r) = Some r -> p_float (a ++ r) = None -> p_float a = None.
Proof using UO.
  intros Hi Hf. pose proof (p_int_local _ _ Hi) as Ha. pose proof (p_int_chars _ Ha) as Hc.
  assert (Hr : cont_head r).
  { unfold p_int in Hi. destruct (p_digits (a ++ r)); [|discriminate]. now apply p_number_tail_end in Hi. }
  destruct (p_float a) as [w|] eqn:E; [|reflexivity]. exfalso. unfold p_float in *.
  destruct (p_float_digits a) as [z|] eqn:Ed; [|discriminate]. cbn in E.
  enough (Hz : p_float_digits (a ++ r) = Some (z ++ r)).
  { rewrite Hz in Hf. cbn in Hf. now rewrite (p_number_tail_cont_app _ _ _ Hr E) in Hf. }
  destruct a as [|c t]; [discriminate|]. cbn [app p_float_digits] in *. destruct (is_dec_digit c); [|discriminate].
  destruct (p_mantissa t false) as [[[d e] y]|] eqn:Em; [|discriminate].
  apply Forall_inv_tail in Hc. pose proof (p_mantissa_nodot _ Hc _ _ _ Em) as ->.
  destruct e; [|discriminate]. cbn in *. rewrite (p_mantissa_exp_app _ r _ _ _ Em). cbn.
  destruct (p_exponent y false false) as [q|] eqn:Ee; [|discriminate]. inv Ed.
  now rewrite (p_exponent_cont_app _ _ _ Hr _ _ Ee).
Qed.

(** A literal lexeme, standing alone, is a literal. *)
Lemma p_literal_local a r : p_literal (a ++ r) = Some r -> p_literal a = Some [].
Proof using UO.
  intros H. unfold p_literal in *. apply orelse_some in H as [H|[Hq H]].
  - destruct (p_quoted (a ++ r)) as [z|] eqn:E; [|discriminate]. cbn in H. injection H as H.
    pose proof (p_suffix_suffix z) as Hs. rewrite H in Hs. destruct Hs as [w ->].
    apply p_quoted_local in E. rewrite E. cbn. f_equal. now apply (p_suffix_local w r []).
  - destruct (p_quoted (a ++ r)) as [z|] eqn:E; [discriminate|]. rewrite (p_quoted_none _ _ E). cbn.
    apply orelse_some in H as [H|[Hf H]].
    + rewrite (p_float_local _ _ H). reflexivity.
    + rewrite (p_int_not_float _ _ H Hf), (p_int_local _ _ H). reflexivity.
Qed.


End WithUnicode.
