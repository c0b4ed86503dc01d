(** * Facts about the source map: binary search, lines, byte offsets. *)
From Verif Require Import Base BaseFacts Unicode Tokens Lexer Fallback SourceMap SpecMap.

(** ** Both implementations of the binary search meet its contract *)
Section Search.
Context {A : Type} (f : A -> res comparison) (g : A -> comparison) (xs : list A).
Hypothesis Hf : forall x, In x xs -> f x = Ok (g x).
Hypothesis Hsorted : sorted_for g xs.

Lemma search_old_ok fuel left right : right - left < fuel -> left <= right -> right <= length xs ->
  (forall j x, nth_error xs j = Some x -> (j < left -> g x = Lt) /\ (right <= j -> g x = Gt)) ->
  match search_old f xs fuel left right with
  | Ok (inl i) => exists x, nth_error xs i = Some x /\ g x = Eq
  | Ok (inr i) => i <= length xs /\
      forall j x, nth_error xs j = Some x -> (j < i -> g x = Lt) /\ (i <= j -> g x = Gt)
  | _ => False
  end.
Proof.
  revert left right. induction fuel as [|fuel IH]; intros left right Hfu Hlr Hr Hin; [lia|].
  cbn [search_old]. destruct (left <? right) eqn:E.
  - apply Nat.ltb_lt in E. set (mid := left + (right - left) / 2).
    assert (Hm : left <= mid /\ mid < right).
    { unfold mid. pose proof (Nat.div_lt (right - left) 2 ltac:(lia) ltac:(lia)). lia. }
    destruct (nth_error xs mid) as [x|] eqn:Ex; [|apply nth_error_None in Ex; lia].
    cbn [unwrap bind]. rewrite (Hf x (nth_error_In _ _ Ex)). cbn [bind].
    destruct (g x) eqn:Eg.
    + exists x. auto.
    + apply IH; try lia. intros j y Hy. split; [intros Hj|apply (Hin j y Hy)].
      destruct (Nat.eq_dec j mid) as [->|Hne]; [congruence|].
      pose proof (Hsorted j mid y x ltac:(lia) Hy Ex) as H. rewrite Eg in H. destruct (g y); cbn in H; auto; lia.
    + apply IH; try lia. intros j y Hy. split; [apply (Hin j y Hy)|intros Hj].
      destruct (Nat.eq_dec j mid) as [->|Hne]; [congruence|].
      pose proof (Hsorted mid j x y ltac:(lia) Ex Hy) as H. rewrite Eg in H. destruct (g y); cbn in H; auto; lia.
  - apply Nat.ltb_ge in E. replace right with left in * by lia. split; [lia|exact Hin].
Qed.
Lemma search_new_ok fuel base size : size < fuel -> 1 <= size -> base + size <= length xs ->
  (forall x, nth_error xs base = Some x -> 0 < base -> g x <> Gt) ->
  (forall j x, nth_error xs j = Some x -> base + size <= j -> g x = Gt) ->
  match search_new f xs fuel base size with
  | Ok (inl i) => exists x, nth_error xs i = Some x /\ g x = Eq
  | Ok (inr i) => i <= length xs /\
      forall j x, nth_error xs j = Some x -> (j < i -> g x = Lt) /\ (i <= j -> g x = Gt)
  | _ => False
  end.
Proof.
  revert base size. induction fuel as [|fuel IH]; intros base size Hfu Hs Hl Hb Hg; [lia|].
  cbn [search_new]. destruct (1 <? size) eqn:E.
  - apply Nat.ltb_lt in E. set (half := size / 2).
    assert (Hh : 1 <= half /\ half < size).
    { unfold half. pose proof (Nat.div_lt size 2 ltac:(lia) ltac:(lia)).
      pose proof (Nat.div_le_mono 2 size 2 ltac:(lia) ltac:(lia)) as H1. change (2 / 2) with 1 in H1. lia. }
    assert (Hh2 : base + (size - half) >= base + half).
    { unfold half. pose proof (Nat.mul_div_le size 2 ltac:(lia)). lia. }
    destruct (nth_error xs (base + half)) as [x|] eqn:Ex; [|apply nth_error_None in Ex; lia].
    cbn [unwrap bind]. rewrite (Hf x (nth_error_In _ _ Ex)). cbn [bind].
    assert (Hcase : g x = Gt \/ g x <> Gt) by (destruct (g x); auto; right; discriminate).
    destruct Hcase as [Hgt|Hle].
    + rewrite Hgt. apply IH; try lia; [exact Hb|]. intros j y Hy Hj.
      destruct (Nat.eq_dec j (base + half)) as [->|Hne]; [congruence|].
      pose proof (Hsorted (base + half) j x y ltac:(lia) Ex Hy) as H. rewrite Hgt in H.
      destruct (g y); cbn in H; auto; lia.
    + replace (match g x with Gt => base | _ => base + half end) with (base + half) by (destruct (g x); congruence).
      apply IH; try lia.
      * intros y Hy _. congruence.
      * intros j y Hy Hj. apply (Hg j y Hy). lia.
  - apply Nat.ltb_ge in E. assert (size = 1) by lia. subst size.
    destruct (nth_error xs base) as [x|] eqn:Ex; [|apply nth_error_None in Ex; lia].
    cbn [unwrap bind]. rewrite (Hf x (nth_error_In _ _ Ex)). cbn [bind]. destruct (g x) eqn:Eg.
    + exists x. auto.
    + split; [lia|]. intros j y Hy. split; intros Hj; [|apply (Hg j y Hy); lia].
      destruct (Nat.eq_dec j base) as [->|Hne]; [congruence|].
      pose proof (Hsorted j base y x ltac:(lia) Hy Ex) as H. rewrite Eg in H. destruct (g y); cbn in H; auto; lia.
    + assert (base = 0) by (destruct base; [reflexivity|exfalso; apply (Hb x eq_refl ltac:(lia)); exact Eg]).
      subst base. split; [lia|]. intros j y Hy. split; intros Hj; [lia|].
      destruct j as [|j]; [congruence|]. apply (Hg (S j) y Hy). lia.
Qed.
End Search.
Lemma std_old_ok : search_ok std_old.
Proof.
  intros A f g xs Hf Hs. apply (search_old_ok f g xs Hf Hs); try lia.
  intros j x Hx. assert (j < length xs) by (apply nth_error_Some; congruence). lia.
Qed.
Lemma std_new_ok : search_ok std_new.
Proof.
  intros A f g xs Hf Hs. destruct xs as [|a xs].
  - cbn. split; [lia|]. intros [|j] x Hx; discriminate Hx.
  - assert (Hl : 1 <= length (a :: xs)) by (cbn; lia).
    cbn [std_new binary_search_by]. apply (search_new_ok f g (a :: xs) Hf Hs); try lia.
    intros j x Hx. assert (j < length (a :: xs)) by (apply nth_error_Some; congruence). lia.
Qed.

(** ** Lines *)
Lemma line_starts_app s t n : line_starts (s ++ t) n = line_starts s n ++ line_starts t (n + length s).
Proof.
  revert n. induction s as [|c s IH]; intros n; cbn [app line_starts length].
  - now rewrite Nat.add_0_r.
  - rewrite IH. replace (n + 1 + length s) with (n + Datatypes.S (length s)) by lia.
    destruct (c =? LF)%N; reflexivity.
Qed.
Lemma line_starts_range s n x : In x (line_starts s n) -> n < x <= n + length s.
Proof.
  revert n. induction s as [|c s IH]; intros n; cbn [line_starts length]; [intros []|].
  destruct (c =? LF)%N; [intros [<-|H]|intros H]; try lia; apply IH in H; lia.
Qed.
Lemma line_starts_length s n : length (line_starts s n) = newlines s.
Proof.
  revert n. induction s as [|c s IH]; intros n; cbn [line_starts]; [reflexivity|].
  unfold newlines in *. cbn [count_occ]. destruct (c =? LF)%N eqn:E; destruct (N.eq_dec c LF) as [H|H]; try lia.
  - cbn [length]. now rewrite IH.
  - apply IH.
Qed.
Lemma line_starts_last s n k : since_newline k s <= k + length s /\
  last (line_starts s n) (n - k) + since_newline k s = Nat.max n k + length s \/ n < k.
Proof.
  revert n k. induction s as [|c s IH]; intros n k; cbn [line_starts since_newline length].
  - cbn [last]. destruct (Nat.lt_ge_cases n k); [right; lia|left; lia].
  - destruct (Nat.lt_ge_cases n k) as [H|H]; [right; exact H|left].
    destruct (c =? LF)%N eqn:E; destruct (N.eq_dec c LF) as [Hc|Hc]; try lia.
    + destruct (IH (n + 1) 0) as [[H1 H2]|H1]; [|lia]. split; [lia|].
      assert (Hl : forall d, last (n + 1 :: line_starts s (n + 1)) d = last (line_starts s (n + 1)) (n + 1 - 0)).
      { intros d. destruct (line_starts s (n + 1)) as [|y ys] eqn:Ey; [cbn; lia|].
        change (last (n + 1 :: y :: ys) d) with (last (y :: ys) d).
        clear. revert y. induction ys as [|z ys IH]; intros y; [reflexivity|]. apply (IH z). }
      rewrite Hl. lia.
    + destruct (IH (n + 1) (k + 1)) as [[H1 H2]|H1]; [|lia]. split; [lia|].
      replace (n + 1 - (k + 1)) with (n - k) in H2 by lia. lia.
Qed.
Lemma line_starts_sorted s n : forall i j x y, i < j ->
  nth_error (line_starts s n) i = Some x -> nth_error (line_starts s n) j = Some y -> x < y.
Proof.
  revert n. induction s as [|c s IH]; intros n i j x y Hij; cbn [line_starts].
  - destruct i; discriminate.
  - destruct (c =? LF)%N; [|apply IH; exact Hij].
    destruct j as [|j]; [lia|]. destruct i as [|i]; cbn [nth_error]; intros Hx Hy.
    + injection Hx as <-. apply nth_error_In, line_starts_range in Hy. lia.
    + apply (IH (n + 1) i j); auto. lia.
Qed.
Definition starts (t : str) : list nat := 0 :: line_starts t 0.
Lemma starts_sorted t i j x y : i < j -> nth_error (starts t) i = Some x -> nth_error (starts t) j = Some y -> x < y.
Proof.
  intros Hij Hx Hy. destruct j as [|j]; [lia|]. destruct i as [|i]; cbn in Hx, Hy.
  - injection Hx as <-. apply nth_error_In, line_starts_range in Hy. lia.
  - apply (line_starts_sorted t 0 i j); auto. lia.
Qed.
(** Line starts up to [a] are those of the first [a] characters. *)
Lemma starts_split t a : a <= length t ->
  starts t = starts (firstn a t) ++ line_starts (skipn a t) a.
Proof.
  intros Ha. unfold starts. rewrite <- (firstn_skipn a t) at 1. rewrite line_starts_app.
  rewrite firstn_length_le by exact Ha. reflexivity.
Qed.
Lemma last_cons {A} (x : A) l d : last (x :: l) d = last l x.
Proof.
  revert x d. induction l as [|y l IH]; intros x d; [reflexivity|].
  change (last (x :: y :: l) d) with (last (y :: l) d). now rewrite !IH.
Qed.
Lemma nth_error_last {A} (l : list A) d : l <> [] -> nth_error l (length l - 1) = Some (last l d).
Proof.
  induction l as [|x l IH]; [congruence|]. intros _. destruct l as [|y l]; [reflexivity|].
  cbn [length]. replace (Datatypes.S (Datatypes.S (length l)) - 1) with (Datatypes.S (length (y :: l) - 1)) by (cbn; lia).
  cbn [nth_error]. rewrite IH by congruence. reflexivity.
Qed.
(** The line start before [a]. *)
Lemma line_start_before t a : a <= length t ->
  exists l, nth_error (starts t) (newlines (firstn a t)) = Some l /\ l + since_newline 0 (firstn a t) = a /\
  (forall j x, nth_error (starts t) j = Some x -> (j <= newlines (firstn a t) -> x <= l) /\ (newlines (firstn a t) < j -> a < x)).
Proof.
  intros Ha. pose proof (starts_split t a Ha) as Hs. set (p := firstn a t) in *.
  assert (Hp : length p = a) by (apply firstn_length_le; exact Ha).
  assert (Hlen : length (starts p) = Datatypes.S (newlines p)) by (unfold starts; cbn [length]; now rewrite line_starts_length).
  exists (last (starts p) 0). repeat split.
  - rewrite Hs, nth_error_app1 by lia. replace (newlines p) with (length (starts p) - 1) by lia.
    apply nth_error_last. discriminate.
  - unfold starts. rewrite last_cons. destruct (line_starts_last p 0 0) as [[_ H]|H]; [|lia].
    cbn [Nat.sub] in H. lia.
  - intros Hj. assert (Hl : nth_error (starts t) (newlines p) = Some (last (starts p) 0)).
    { rewrite Hs, nth_error_app1 by lia. replace (newlines p) with (length (starts p) - 1) by lia.
      apply nth_error_last. discriminate. }
    destruct (Nat.eq_dec j (newlines p)) as [->|Hne]; [assert (x = last (starts p) 0) by congruence; lia|].
    pose proof (starts_sorted t j (newlines p) x _ ltac:(lia) H Hl). lia.
  - intros Hj. rewrite Hs, nth_error_app2 in H by lia.
    apply nth_error_In, line_starts_range in H. lia.
Qed.

Lemma skipn_twice {A} m n (l : list A) : skipn m (skipn n l) = skipn (n + m) l.
Proof.
  revert l. induction n as [|n IH]; intros l; [reflexivity|].
  destruct l as [|x l]; [now rewrite !skipn_nil|]. cbn [skipn Nat.add]. apply IH.
Qed.

Section Files.
Context {S : std_search} (HS : search_ok S).

Record file_ok (b : N) (t : str) (f : file) : Prop := mkfile_ok {
  fo_text : source_text f = t;
  fo_span : fspan f = mkspan b (b + N.of_nat (length t));
  fo_lines : lines f = starts t;
  fo_cache : Forall (fun e => fst e <= length t /\ snd e = str_len (firstn (fst e) t)) (byte_cache f)
}.

Lemma offset_ok b t f a : file_ok b t f -> a <= length t -> (b + N.of_nat (length t) < two32)%N ->
  offset_line_column f (b + N.of_nat a) = Ok (line_column_at t a).
Proof using HS.
  intros [Ht Hsp Hl _] Ha Hfit. unfold offset_line_column, span_within. rewrite Hsp, Hl. cbn [lo hi].
  rewrite wrap32_small by lia.
  replace ((b <=? b + N.of_nat a) && (b + N.of_nat a <=? b + N.of_nat (length t)))%N with true by lia.
  cbn [negb]. replace (b + N.of_nat a <? b)%N with false by lia.
  replace (N.to_nat (b + N.of_nat a - b)) with a by lia.
  destruct (line_start_before t a Ha) as (l & Hn & Hc & Hall). unfold line_column_at.
  set (n := newlines (firstn a t)) in *.
  assert (Hb : n < length (starts t)) by (apply nth_error_Some; congruence).
  pose proof (HS nat (fun l => Ok (Nat.compare l a)) (fun l => Nat.compare l a) (starts t) (fun _ _ => eq_refl)) as H.
  destruct (binary_search_by _ _) as [[i|i]| | |] eqn:E; cbn [bind];
    try (exfalso; apply H; intros i j x y Hij Hx Hy; pose proof (starts_sorted t i j x y Hij Hx Hy);
         destruct (Nat.compare_spec x a), (Nat.compare_spec y a); cbn; lia).
  - destruct H as (x & Hx & Heq).
    { intros i' j x y Hij Hx Hy. pose proof (starts_sorted t i' j x y Hij Hx Hy).
      destruct (Nat.compare_spec x a), (Nat.compare_spec y a); cbn; lia. }
    apply Nat.compare_eq in Heq as ->.
    assert (i = n /\ l = a) as [-> ->].
    { destruct (Nat.lt_trichotomy i n) as [Hi|[->|Hi]].
      - pose proof (starts_sorted t i n a l Hi Hx Hn). lia.
      - split; [reflexivity|congruence].
      - apply (proj2 (Hall i a Hx)) in Hi. lia. }
    f_equal. f_equal; lia.
  - destruct H as [Hi Hj].
    { intros i' j x y Hij Hx Hy. pose proof (starts_sorted t i' j x y Hij Hx Hy).
      destruct (Nat.compare_spec x a), (Nat.compare_spec y a); cbn; lia. }
    assert (i = 1 + n) as ->.
    { destruct (Nat.lt_trichotomy i (1 + n)) as [H|[H|H]]; [|exact H|].
      - pose proof (proj2 (Hj n l Hn) ltac:(lia)) as Hg. apply Nat.compare_gt_iff in Hg. lia.
      - destruct (nth_error (starts t) (1 + n)) as [x|] eqn:Ex.
        + pose proof (proj1 (Hj _ x Ex) H) as Hg. apply Nat.compare_lt_iff in Hg.
          pose proof (proj2 (Hall _ x Ex) ltac:(lia)). lia.
        + apply nth_error_None in Ex. lia. }
    change (1 + n =? 0) with false. cbn match. replace (1 + n - 1) with n by lia. rewrite Hn. cbn [unwrap bind].
    replace (a <? l) with false by lia. f_equal. f_equal; lia.
Qed.

(** ** Byte offsets *)
Lemma last_at_most_spec m k : match last_at_most m k with
  | Some e => In e m /\ fst e <= k /\ (forall e', In e' m -> fst e' <= k -> fst e' <= fst e)
  | None => forall e', In e' m -> k < fst e'
  end.
Proof.
  induction m as [|[a b] m IH]; cbn [last_at_most]; [intros e' []|].
  destruct (last_at_most m k) as [[a' b']|].
  - destruct IH as (H1 & H2 & H3). destruct ((a <=? k) && (a' <? a)) eqn:E; cbn [fst] in *.
    + split; [now left|]. split; [lia|]. intros e' [<-|H] Hk; cbn [fst]; [lia|]. specialize (H3 e' H Hk). lia.
    + split; [now right|]. split; [lia|]. intros e' [<-|H] Hk; cbn [fst] in *; [lia|]. specialize (H3 e' H Hk). lia.
  - destruct (a <=? k) eqn:E; cbn [fst].
    + split; [now left|]. split; [lia|]. intros e' [<-|H] Hk; cbn [fst]; [lia|]. specialize (IH e' H). lia.
    + intros e' [<-|H]; cbn [fst]; [lia|]. apply (IH e' H).
Qed.
Lemma first_at_least_spec m k : match first_at_least m k with
  | Some e => In e m /\ k <= fst e
  | None => True
  end.
Proof.
  induction m as [|[a b] m IH]; cbn [first_at_least]; [exact I|].
  destruct (first_at_least m k) as [[a' b']|].
  - destruct IH as (H1 & H2). destruct ((k <=? a) && (a <? a')) eqn:E; cbn [fst] in *.
    + split; [now left|lia].
    + split; [now right|lia].
  - destruct (k <=? a) eqn:E; cbn [fst]; [|exact I]. split; [now left|lia].
Qed.
Lemma indices_length s n : length (indices n s) = length s.
Proof. revert n. induction s as [|c s IH]; intros n; cbn; [reflexivity|]. now rewrite IH. Qed.
Lemma indices_nth s n k : k < length s -> nth_error (indices n s) k = Some (n + str_len (firstn k s)).
Proof.
  revert n k. induction s as [|c s IH]; intros n k Hk; cbn [length] in Hk; [lia|].
  destruct k as [|k]; cbn [indices nth_error firstn str_len]; [f_equal; lia|].
  rewrite IH by lia. f_equal. lia.
Qed.
Lemma nth_error_rev {A} (l : list A) k : k < length l -> nth_error (rev l) k = nth_error l (length l - 1 - k).
Proof.
  intros Hk. destruct l as [|d l0]; [cbn in Hk; lia|]. set (l := d :: l0) in *.
  rewrite (nth_error_nth' (rev l) d) by (rewrite rev_length; exact Hk).
  rewrite (nth_error_nth' l d) by lia. rewrite rev_nth by exact Hk. do 2 f_equal. lia.
Qed.
Lemma str_len_firstn_split t p a : p <= a -> a <= length t ->
  str_len (firstn a t) = str_len (firstn p t) + str_len (firstn (a - p) (skipn p t)).
Proof.
  intros Hp Ha. rewrite <- str_len_app. f_equal.
  rewrite <- (firstn_skipn p t) at 1. rewrite firstn_app, firstn_firstn, firstn_length_le by lia.
  f_equal. f_equal. lia.
Qed.
Lemma cache_insert_ok t c a : Forall (fun e => fst e <= length t /\ snd e = str_len (firstn (fst e) t)) c ->
  a <= length t ->
  Forall (fun e => fst e <= length t /\ snd e = str_len (firstn (fst e) t)) (cache_insert c a (str_len (firstn a t))).
Proof.
  intros Hc Ha. constructor; [split; [exact Ha|reflexivity]|]. rewrite Forall_forall in *.
  intros e He. apply filter_In in He as [He _]. exact (Hc e He).
Qed.
Lemma byte_ok b t f a : file_ok b t f -> a <= length t ->
  exists f', byte f (b + N.of_nat a) = Ok (f', str_len (firstn a t)) /\ file_ok b t f'.
Proof.
  intros Hf Ha. pose proof Hf as [Ht Hsp Hl Hc]. unfold byte.
  assert (Hlo : lo (fspan f) = b) by (rewrite Hsp; reflexivity). rewrite Hlo.
  replace (b + N.of_nat a <? b)%N with false by lia. replace (N.to_nat (b + N.of_nat a - b)) with a by lia.
  pose proof (last_at_most_spec (byte_cache f) a) as Hlast.
  set (e := match last_at_most (byte_cache f) a with Some e => e | None => (0, 0) end).
  assert (He : fst e <= a /\ snd e = str_len (firstn (fst e) t) /\ (forall e', In e' (byte_cache f) -> fst e' = a -> fst e = a)).
  { unfold e. rewrite Forall_forall in Hc. destruct (last_at_most (byte_cache f) a) as [e0|].
    - destruct Hlast as (H1 & H2 & H3). split; [exact H2|]. split; [apply (Hc e0 H1)|].
      intros e' He' Hx. specialize (H3 e' He' ltac:(lia)). lia.
    - cbn [fst snd]. split; [lia|]. split; [reflexivity|]. intros e' He' Hx. specialize (Hlast e' He'). lia. }
  clearbody e. destruct e as [p bp]. cbn [fst snd] in He. destruct He as (Hpa & -> & Hsame).
  destruct (p =? a) eqn:Epa.
  { apply Nat.eqb_eq in Epa as ->. exists f. auto. }
  apply Nat.eqb_neq in Epa.
  assert (Hfw : (let? rest := slice_from (source_text f) (str_len (firstn p t)) in
        match nth_error (indices 0 rest) (a - p) with
        | Some i => Ok (str_len (firstn p t) + i)
        | None => Ok (str_len (source_text f))
        end) = Ok (str_len (firstn a t))).
  { rewrite Ht. rewrite (slice_from_eq t (firstn p t) (skipn p t)) by (rewrite ?firstn_skipn; reflexivity).
    cbn [bind]. destruct (Nat.eq_dec a (length t)) as [->|Hne].
    - rewrite (proj2 (nth_error_None (indices 0 (skipn p t)) (length t - p))).
      + rewrite firstn_all. reflexivity.
      + rewrite indices_length, skipn_length. lia.
    - rewrite indices_nth by (rewrite skipn_length; lia). rewrite (str_len_firstn_split t p a) by lia.
      f_equal. }
  assert (Hres : (let? byte_offset :=
        match first_at_least (byte_cache f) a with
        | Some (next_char_index, next_byte_offset) =>
            if next_char_index - a <? a - p then
              if next_char_index <? a + 1 then Panic
              else
                let? before := slice_to (source_text f) next_byte_offset in
                unwrap (nth_error (rev (indices 0 before)) (next_char_index - a - 1))
            else (let? rest := slice_from (source_text f) (str_len (firstn p t)) in
              match nth_error (indices 0 rest) (a - p) with
              | Some i => Ok (str_len (firstn p t) + i)
              | None => Ok (str_len (source_text f))
              end)
        | None => (let? rest := slice_from (source_text f) (str_len (firstn p t)) in
              match nth_error (indices 0 rest) (a - p) with
              | Some i => Ok (str_len (firstn p t) + i)
              | None => Ok (str_len (source_text f))
              end)
        end in
      Ok (mkfile (source_text f) (fspan f) (lines f) (cache_insert (byte_cache f) a byte_offset), byte_offset))
      = Ok (mkfile (source_text f) (fspan f) (lines f) (cache_insert (byte_cache f) a (str_len (firstn a t))), str_len (firstn a t))).
  { rewrite Hfw. pose proof (first_at_least_spec (byte_cache f) a) as Hfirst.
    destruct (first_at_least (byte_cache f) a) as [[q bq]|]; [|reflexivity].
    destruct Hfirst as [Hin Hq]. cbn [fst] in Hq.
    destruct (q - a <? a - p); [|reflexivity].
    assert (q <> a) by (intros ->; apply Epa; apply (Hsame _ Hin); reflexivity).
    replace (q <? a + 1) with false by lia.
    rewrite Forall_forall in Hc. destruct (Hc _ Hin) as [Hqt Hbq]. cbn [fst snd] in Hqt, Hbq. subst bq.
    rewrite Ht, (slice_to_eq t (firstn q t) (skipn q t)) by (rewrite ?firstn_skipn; reflexivity).
    cbn [bind]. rewrite nth_error_rev by (rewrite indices_length, firstn_length_le; lia).
    rewrite indices_length, firstn_length_le by lia. replace (q - 1 - (q - a - 1)) with a by lia.
    rewrite indices_nth by (rewrite firstn_length_le; lia). rewrite firstn_firstn, Nat.min_l by lia.
    reflexivity. }
  eexists. split; [exact Hres|]. constructor; cbn [source_text fspan lines byte_cache]; auto.
  apply cache_insert_ok; assumption.
Qed.
Lemma byte_range_ok b t f x y : file_ok b t f -> x <= length t -> y <= length t ->
  exists f', byte_range f (mkspan (b + N.of_nat x) (b + N.of_nat y)) =
    Ok (f', (str_len (firstn x t), str_len (firstn y t))) /\ file_ok b t f'.
Proof.
  intros Hf Hx Hy. unfold byte_range. cbn [lo hi].
  destruct (byte_ok b t f x Hf Hx) as (f1 & -> & Hf1). cbn [bind].
  destruct (byte_ok b t f1 y Hf1 Hy) as (f2 & -> & Hf2). cbn [bind]. exists f2. auto.
Qed.
Lemma source_text_ok b t f x y : file_ok b t f -> x <= y -> y <= length t ->
  exists f', file_source_text f (mkspan (b + N.of_nat x) (b + N.of_nat y)) =
    Ok (f', text_between t x y) /\ file_ok b t f'.
Proof.
  intros Hf Hx Hy. unfold file_source_text.
  destruct (byte_range_ok b t f x y Hf ltac:(lia) Hy) as (f1 & -> & Hf1). cbn [bind].
  rewrite (fo_text _ _ _ Hf1).
  rewrite (slice_eq t (firstn x t) (text_between t x y) (skipn y t)).
  - cbn [bind]. exists f1. auto.
  - unfold text_between. rewrite <- (firstn_skipn x t) at 1. f_equal.
    rewrite <- (firstn_skipn (y - x) (skipn x t)) at 1. f_equal. rewrite skipn_twice. f_equal. lia.
  - reflexivity.
  - f_equal. unfold text_between. rewrite <- (firstn_skipn x t) at 1. rewrite firstn_app, firstn_firstn, firstn_length_le by lia.
    rewrite Nat.min_r by lia. f_equal.
Qed.
End Files.
