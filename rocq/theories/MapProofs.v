(** * Histories on the source map agree with their specification. *)
From Verif Require Import Base BaseFacts Unicode Tokens Lexer PureLexer LexerEquiv4 SpecTree Spans Shift LexProofs.
From Verif Require Import Fallback SourceMap SpecMap MapFacts.
From Verif Require Import SpecLex.

(** ** Numbering of texts *)
Lemma start_of_0 ts : start_of ts 0 = 0%N.
Proof. destruct ts; reflexivity. Qed.
Lemma start_of_step ts i t : nth_error ts i = Some t ->
  start_of ts (Datatypes.S i) = (start_of ts i + N.of_nat (length t) + 1)%N.
Proof.
  revert i. induction ts as [|u ts IH]; intros i Hi; [destruct i; discriminate|].
  destruct i as [|i]; cbn [nth_error] in Hi.
  - injection Hi as ->. cbn [start_of]. rewrite start_of_0. lia.
  - change (start_of (u :: ts) (Datatypes.S (Datatypes.S i))) with (N.of_nat (length u) + 1 + start_of ts (Datatypes.S i))%N.
    cbn [start_of]. rewrite (IH i Hi). lia.
Qed.
Lemma start_of_mono ts i j : i <= j -> (start_of ts i <= start_of ts j)%N.
Proof.
  revert i j. induction ts as [|u ts IH]; intros i j Hij; [reflexivity|].
  destruct i as [|i]; [rewrite start_of_0; lia|]. destruct j as [|j]; [lia|].
  cbn [start_of]. specialize (IH i j ltac:(lia)). lia.
Qed.
Lemma start_of_lt ts i j t : nth_error ts i = Some t -> i < j ->
  (start_of ts i + N.of_nat (length t) < start_of ts j)%N.
Proof.
  intros Hi Hij. pose proof (start_of_mono ts (Datatypes.S i) j ltac:(lia)) as H.
  rewrite (start_of_step ts i t Hi) in H. lia.
Qed.
Lemma start_of_app ts us i : i <= length ts -> start_of (ts ++ us) i = start_of ts i.
Proof.
  revert i. induction ts as [|u ts IH]; intros i Hi; cbn [length app] in *.
  - replace i with 0 by lia. rewrite start_of_0. reflexivity.
  - destruct i as [|i]; [reflexivity|]. cbn [start_of]. rewrite IH by lia. reflexivity.
Qed.
Lemma total_app ts u : total (ts ++ [u]) = (total ts + N.of_nat (length u) + 1)%N.
Proof.
  unfold total. rewrite app_length. cbn [length]. rewrite Nat.add_1_r.
  rewrite (start_of_step (ts ++ [u]) (length ts) u).
  - rewrite start_of_app by lia. reflexivity.
  - rewrite nth_error_app2, Nat.sub_diag by lia. reflexivity.
Qed.
Lemma end_in_total ts i t : nth_error ts i = Some t -> (start_of ts i + N.of_nat (length t) < total ts)%N.
Proof.
  intros Hi. apply start_of_lt with (t := t); [exact Hi|]. apply nth_error_Some. congruence.
Qed.
Lemma span_at_app ts us p : pfile p <= length ts -> span_at (ts ++ us) p = span_at ts p.
Proof. intros H. unfold span_at. rewrite start_of_app by exact H. reflexivity. Qed.
Lemma valid_app ts us p : valid_place ts p -> valid_place (ts ++ us) p.
Proof.
  intros (t & H & Hab). exists t. split; [|exact Hab]. rewrite nth_error_app1; [exact H|]. apply nth_error_Some. congruence.
Qed.
Lemma valid_file ts p : valid_place ts p -> pfile p < length ts.
Proof. intros (t & H & _). apply nth_error_Some. congruence. Qed.

(** A valid place is determined by its span. *)
Lemma span_at_inj ts p q : valid_place ts p -> valid_place ts q -> span_at ts p = span_at ts q -> p = q.
Proof.
  intros (t & Ht & Hp) (u & Hu & Hq) H. unfold span_at in H. injection H as H1 H2.
  destruct p as [i a b], q as [j c d]; cbn [pfile pfrom pto] in *.
  destruct (Nat.lt_trichotomy i j) as [Hij|[->|Hij]].
  - pose proof (start_of_lt ts i j t Ht Hij). lia.
  - f_equal; lia.
  - pose proof (start_of_lt ts j i u Hu Hij). lia.
Qed.

(** ** The invariant *)
Fixpoint files_ok (b : N) (ts : list str) (m : source_map) : Prop :=
  match ts, m with
  | [], [] => True
  | t :: ts, f :: m => file_ok b t f /\ files_ok (b + N.of_nat (length t) + 1) ts m
  | _, _ => False
  end.
Lemma files_ok_nth b ts m i t : files_ok b ts m -> nth_error ts i = Some t ->
  exists f, nth_error m i = Some f /\ file_ok (b + start_of ts i) t f.
Proof.
  revert b m i. induction ts as [|u ts IH]; intros b [|f m] i Hok Hi; cbn [files_ok] in Hok; try (destruct i; discriminate); [easy|].
  destruct Hok as [Hf Hok]. destruct i as [|i]; cbn [nth_error start_of] in *.
  - injection Hi as ->. exists f. rewrite N.add_0_r. auto.
  - destruct (IH _ m i Hok Hi) as (f' & Hn & Hf'). exists f'. split; [exact Hn|].
    replace (b + (N.of_nat (length u) + 1 + start_of ts i))%N with (b + N.of_nat (length u) + 1 + start_of ts i)%N by lia.
    exact Hf'.
Qed.
Lemma files_ok_length b ts m : files_ok b ts m -> length m = length ts.
Proof.
  revert b m. induction ts as [|u ts IH]; intros b [|f m] Hok; cbn [files_ok] in Hok; try easy.
  cbn [length]. f_equal. exact (IH _ m (proj2 Hok)).
Qed.
Lemma files_ok_update b ts m i t f : files_ok b ts m -> nth_error ts i = Some t ->
  file_ok (b + start_of ts i) t f -> files_ok b ts (update m i f).
Proof.
  revert b m i. induction ts as [|u ts IH]; intros b [|g m] i Hok Hi Hf; cbn [files_ok] in Hok; try (destruct i; discriminate); [easy|].
  destruct Hok as [Hg Hok]. destruct i as [|i]; cbn [nth_error start_of update files_ok] in *.
  - injection Hi as ->. rewrite N.add_0_r in Hf. auto.
  - split; [exact Hg|]. apply IH; [exact Hok|exact Hi|].
    replace (b + N.of_nat (length u) + 1 + start_of ts i)%N with (b + (N.of_nat (length u) + 1 + start_of ts i))%N by lia.
    exact Hf.
Qed.
Lemma files_ok_app b ts m u f : files_ok b ts m -> file_ok (b + total ts) u f -> files_ok b (ts ++ [u]) (m ++ [f]).
Proof.
  unfold total. revert b m. induction ts as [|t ts IH]; intros b [|g m] Hok Hf; cbn [files_ok length start_of app] in *; try easy.
  - rewrite N.add_0_r in Hf. auto.
  - split; [exact (proj1 Hok)|]. apply IH; [exact (proj2 Hok)|].
    replace (b + N.of_nat (length t) + 1 + start_of ts (length ts))%N with (b + (N.of_nat (length t) + 1 + start_of ts (length ts)))%N by lia.
    exact Hf.
Qed.

Section WithSearch.
Context {S : std_search} (HS : search_ok S).

Lemma find_ok ts m p : files_ok 0 ts m -> valid_place ts p -> find m (span_at ts p) = Ok (pfile p).
Proof using HS.
  intros Hok (t & Ht & Hab & Hb). destruct p as [i a b]; cbn [pfile pfrom pto] in *.
  unfold find, span_at. cbn [pfile pfrom pto lo hi].
  set (l := (start_of ts i + N.of_nat a)%N). set (h := (start_of ts i + N.of_nat b)%N).
  set (g := fun f : file => if (hi (fspan f) <? l)%N then Lt else if (h <? lo (fspan f))%N then Gt else Eq).
  assert (Hg : forall j f, nth_error m j = Some f ->
    (j < i -> g f = Lt) /\ (i < j -> g f = Gt) /\ (j = i -> g f = Eq /\ span_within f (mkspan l h) = true)).
  { intros j f Hj.
    destruct (nth_error ts j) as [u|] eqn:Eu.
    2:{ apply nth_error_None in Eu. rewrite <- (files_ok_length 0 ts m Hok) in Eu.
        apply nth_error_None in Eu. congruence. }
    destruct (files_ok_nth 0 ts m j u Hok Eu) as (f' & Hj' & Hf). replace f' with f in * by congruence.
    pose proof (fo_span _ _ _ Hf) as Hsp. unfold g, span_within. rewrite Hsp. cbn [lo hi]. rewrite N.add_0_l.
    split; [|split].
    - intros Hlt. pose proof (start_of_lt ts j i u Eu Hlt). replace (_ <? l)%N with true by lia. reflexivity.
    - intros Hlt. pose proof (start_of_lt ts i j t Ht Hlt).
      replace (_ <? l)%N with false by lia. replace (h <? _)%N with true by lia. reflexivity.
    - intros ->. replace u with t in * by congruence.
      replace (_ <? l)%N with false by lia. replace (h <? _)%N with false by lia. split; [reflexivity|lia]. }
  pose proof (HS file (fun f =>
    if (hi (fspan f) <? l)%N then Ok Lt
    else if (h <? lo (fspan f))%N then Ok Gt
    else if span_within f (mkspan l h) then Ok Eq else Panic) g m) as H.
  assert (Hfun : forall x, In x m ->
    (if (hi (fspan x) <? l)%N then Ok Lt
    else if (h <? lo (fspan x))%N then Ok Gt
    else if span_within x (mkspan l h) then Ok Eq else Panic) = Ok (g x)).
  { intros x Hx. apply In_nth_error in Hx as (j & Hj). destruct (Hg j x Hj) as (H1 & H2 & H3).
    unfold g in *. destruct (hi (fspan x) <? l)%N; [reflexivity|]. destruct (h <? lo (fspan x))%N; [reflexivity|].
    destruct (Nat.lt_trichotomy j i) as [Hji|[Hji|Hji]].
    - discriminate (H1 Hji).
    - destruct (H3 Hji) as [_ ->]. reflexivity.
    - discriminate (H2 Hji). }
  specialize (H Hfun).
  assert (Hsort : sorted_for g m).
  { intros j k x y Hjk Hx Hy. destruct (Hg j x Hx) as (H1 & H2 & H3), (Hg k y Hy) as (H4 & H5 & H6).
    destruct (Nat.lt_trichotomy j i) as [Hji|[Hji|Hji]].
    - rewrite (H1 Hji). cbn. lia.
    - rewrite (proj1 (H3 Hji)), (H5 ltac:(lia)). cbn. lia.
    - rewrite (H2 Hji), (H5 ltac:(lia)). lia. }
  specialize (H Hsort).
  destruct (files_ok_nth 0 ts m i t Hok Ht) as (fi & Hfi & _).
  destruct (binary_search_by _ m) as [[k|k]| | |]; try easy; cbn [bind].
  - destruct H as (x & Hx & Hxe). destruct (Hg k x Hx) as (H1 & H2 & H3).
    destruct (Nat.lt_trichotomy k i) as [Hji|[->|Hji]]; [|reflexivity|].
    + rewrite (H1 Hji) in Hxe. discriminate.
    + rewrite (H2 Hji) in Hxe. discriminate.
  - destruct H as [_ H]. specialize (H i fi Hfi). destruct (Hg i fi Hfi) as (_ & _ & H3).
    destruct (H3 eq_refl) as [He _]. destruct (Nat.lt_ge_cases i k) as [Hik|Hik].
    + rewrite (proj1 H Hik) in He. discriminate.
    + rewrite (proj2 H Hik) in He. discriminate.
Qed.
Lemma fileinfo_ok ts m p : files_ok 0 ts m -> valid_place ts p ->
  exists f t, fileinfo m (span_at ts p) = Ok f /\ nth_error ts (pfile p) = Some t /\ file_ok (start_of ts (pfile p)) t f.
Proof using HS.
  intros Hok Hp. unfold fileinfo. rewrite (find_ok ts m p Hok Hp). cbn [bind].
  destruct Hp as (t & Ht & _). destruct (files_ok_nth 0 ts m _ t Hok Ht) as (f & Hf & Hfo).
  rewrite Hf. cbn [unwrap]. exists f, t. auto.
Qed.
Lemma start_ok ts m p t : files_ok 0 ts m -> (total ts <= two32)%N -> valid_place ts p -> nth_error ts (pfile p) = Some t ->
  span_start m (span_at ts p) = Ok (line_column_at t (pfrom p)).
Proof using HS.
  intros Hok Hfit Hp Ht. unfold span_start. destruct (fileinfo_ok ts m p Hok Hp) as (f & t' & Hf & Ht' & Hfo).
  rewrite Hf. cbn [bind]. replace t' with t in * by congruence.
  destruct Hp as (t'' & Ht'' & Hab & Hb). replace t'' with t in * by congruence.
  unfold span_at. cbn [lo]. apply (offset_ok HS); [exact Hfo|lia|]. pose proof (end_in_total ts _ t Ht). lia.
Qed.
Lemma end_ok ts m p t : files_ok 0 ts m -> (total ts <= two32)%N -> valid_place ts p -> nth_error ts (pfile p) = Some t ->
  span_end m (span_at ts p) = Ok (line_column_at t (pto p)).
Proof using HS.
  intros Hok Hfit Hp Ht. unfold span_end. destruct (fileinfo_ok ts m p Hok Hp) as (f & t' & Hf & Ht' & Hfo).
  rewrite Hf. cbn [bind]. replace t' with t in * by congruence.
  destruct Hp as (t'' & Ht'' & Hab & Hb). replace t'' with t in * by congruence.
  unfold span_at. cbn [hi]. apply (offset_ok HS); [exact Hfo|lia|]. pose proof (end_in_total ts _ t Ht). lia.
Qed.
Lemma with_file_ok {A} ts m p t (k : file -> res (file * A)) x : files_ok 0 ts m -> valid_place ts p ->
  nth_error ts (pfile p) = Some t ->
  (forall f, file_ok (start_of ts (pfile p)) t f -> exists f', k f = Ok (f', x) /\ file_ok (start_of ts (pfile p)) t f') ->
  exists m', with_file m (span_at ts p) k = Ok (m', x) /\ files_ok 0 ts m'.
Proof using HS.
  intros Hok Hp Ht Hk. unfold with_file. rewrite (find_ok ts m p Hok Hp). cbn [bind].
  destruct (files_ok_nth 0 ts m _ t Hok Ht) as (f & Hf & Hfo). rewrite Hf. cbn [unwrap bind].
  destruct (Hk f Hfo) as (f' & -> & Hfo'). cbn [bind]. eexists. split; [reflexivity|].
  apply (files_ok_update 0 ts m _ t f' Hok Ht). exact Hfo'.
Qed.
Lemma is_call_site_at ts p : nth_error ts 0 = Some [] -> valid_place ts p ->
  is_call_site (span_at ts p) = (pfile p =? 0).
Proof.
  intros H0 (t & Ht & Hab & Hb). unfold is_call_site, span_at. cbn [lo hi].
  destruct (pfile p) as [|i].
  - replace t with (@nil N) in * by congruence. cbn [length] in Hb. rewrite start_of_0. cbn [Nat.eqb]. lia.
  - pose proof (start_of_lt ts 0 (Datatypes.S i) [] H0 ltac:(lia)). cbn [Nat.eqb]. lia.
Qed.
Lemma byte_range_at ts m p t : files_ok 0 ts m -> nth_error ts 0 = Some [] -> valid_place ts p ->
  nth_error ts (pfile p) = Some t ->
  exists m', span_byte_range m (span_at ts p) = Ok (m', (byte_at t (pfrom p), byte_at t (pto p))) /\ files_ok 0 ts m'.
Proof using HS.
  intros Hok H0 Hp Ht. unfold span_byte_range. rewrite (is_call_site_at ts p H0 Hp).
  unfold byte_at. rewrite !length_str_bytes.
  destruct (pfile p =? 0) eqn:E.
  - apply Nat.eqb_eq in E. exists m. split; [|exact Hok]. rewrite E in Ht. replace t with (@nil N) by congruence.
    rewrite !firstn_nil. reflexivity.
  - apply (with_file_ok ts m p t _ _ Hok Hp Ht). intros f Hf.
    destruct Hp as (t' & Ht' & Hab & Hb). replace t' with t in * by congruence.
    apply byte_range_ok; [exact Hf|lia|lia].
Qed.
Lemma source_text_at ts m p t : files_ok 0 ts m -> nth_error ts 0 = Some [] -> valid_place ts p ->
  nth_error ts (pfile p) = Some t ->
  exists m', span_source_text m (span_at ts p) =
    Ok (m', if pfile p =? 0 then None else Some (text_between t (pfrom p) (pto p))) /\ files_ok 0 ts m'.
Proof using HS.
  intros Hok H0 Hp Ht. unfold span_source_text. rewrite (is_call_site_at ts p H0 Hp).
  destruct (pfile p =? 0) eqn:E; [exists m; auto|].
  destruct (with_file_ok ts m p t (fun f => file_source_text f (span_at ts p)) (text_between t (pfrom p) (pto p)) Hok Hp Ht)
    as (m' & -> & Hok').
  - intros f Hf. destruct Hp as (t' & Ht' & Hab & Hb). replace t' with t in * by congruence.
    apply source_text_ok; [exact Hf|lia|lia].
  - cbn [bind]. exists m'. auto.
Qed.
Lemma file_at ts m p : files_ok 0 ts m -> valid_place ts p -> span_file m (span_at ts p) = Ok (file_name (pfile p)).
Proof using HS.
  intros Hok Hp. unfold span_file, filepath. rewrite (find_ok ts m p Hok Hp). cbn [bind].
  destruct (pfile p); reflexivity.
Qed.
Lemma join_at ts m p q : files_ok 0 ts m -> valid_place ts p -> valid_place ts q ->
  span_join m (span_at ts p) (span_at ts q) = Ok (option_map (span_at ts) (join_place p q)).
Proof using HS.
  intros Hok Hp Hq. unfold span_join. destruct (fileinfo_ok ts m p Hok Hp) as (f & t & -> & Ht & Hf). cbn [bind].
  destruct Hp as (t' & Ht' & Hp1 & Hp2). replace t' with t in * by congruence. destruct Hq as (u & Hu & Hq1 & Hq2).
  unfold span_within. rewrite (fo_span _ _ _ Hf). unfold join_place, span_at. cbn [lo hi].
  destruct p as [i a b], q as [j c d]; cbn [pfile pfrom pto] in *.
  destruct (Nat.eq_dec i j) as [->|Hne].
  - replace u with t in * by congruence.
    replace ((start_of ts j <=? start_of ts j + N.of_nat c) && (start_of ts j + N.of_nat d <=? start_of ts j + N.of_nat (length t)))%N
      with true by lia.
    cbn [option_map pfile pfrom pto]. do 2 f_equal. f_equal; lia.
  - destruct (Nat.lt_ge_cases i j) as [H|H].
    + pose proof (start_of_lt ts i j t Ht H).
      replace (_ && _) with false by lia. reflexivity.
    + pose proof (start_of_lt ts j i u Hu ltac:(lia)).
      replace (_ && _) with false by lia. reflexivity.
Qed.
Lemma join_valid ts p q r : valid_place ts p -> valid_place ts q -> join_place p q = Some r -> valid_place ts r.
Proof.
  intros (t & Ht & Hp) (u & Hu & Hq). unfold join_place. destruct (Nat.eq_dec _ _) as [E|]; [|discriminate].
  intros [= <-]. exists t. cbn [pfile pfrom pto]. rewrite <- E in Hu. replace u with t in * by congruence.
  split; [exact Ht|lia].
Qed.

(** Ranges of [subspan]. *)
Lemma try_u32_spec n : try_u32 n = if (n <? two32)%N then Some n else None.
Proof. reflexivity. Qed.
Lemma subspan_spec sp s e : (lo sp <= hi sp)%N -> (hi sp < two32)%N ->
  subspan sp s e =
  let len := (hi sp - lo sp)%N in
  if ((range_start s <=? range_end len e) && (range_end len e <=? len))%N
  then Some (mkspan (lo sp + range_start s) (lo sp + range_end len e)) else None.
Proof.
  intros Hsp Hfit. destruct sp as [l h]; cbn [lo hi] in *. cbn zeta.
  assert (Hs : forall (k : N -> option span),
    (forall x, (h < x)%N -> k x = None) ->
    obind' (match s with
          | Included n => obind' (try_u32 n) (fun n => checked_add l n)
          | Excluded n => obind' (try_u32 n) (fun n =>
                            obind' (checked_add l n) (fun x => checked_add x 1))
          | Unbounded => Some l
          end) k = k (l + range_start s)%N).
  { intros k Hk. destruct s as [n|n|]; cbn [range_start]; [| |now rewrite N.add_0_r].
    - unfold checked_add, try_u32. destruct (n <? two32)%N eqn:E; cbn [obind'].
      + destruct (l + n <? two32)%N eqn:E2; cbn [obind']; [reflexivity|]. symmetry. apply Hk. lia.
      + symmetry. apply Hk. lia.
    - unfold checked_add, try_u32. destruct (n <? two32)%N eqn:E; cbn [obind'].
      + destruct (l + n <? two32)%N eqn:E2; cbn [obind'].
        * destruct (l + n + 1 <? two32)%N eqn:E3; cbn [obind']; [f_equal; lia|]. symmetry. apply Hk. lia.
        * symmetry. apply Hk. lia.
      + symmetry. apply Hk. lia. }
  assert (He : forall (k : N -> option span),
    (forall x, (h < x)%N -> k x = None) ->
    obind' (match e with
          | Included n => obind' (try_u32 n) (fun n =>
                            obind' (checked_add l n) (fun x => checked_add x 1))
          | Excluded n => obind' (try_u32 n) (fun n => checked_add l n)
          | Unbounded => Some h
          end) k = k (l + range_end (h - l) e)%N).
  { intros k Hk. destruct e as [n|n|]; cbn [range_end]; [| |cbn [obind']; f_equal; lia].
    - unfold checked_add, try_u32. destruct (n <? two32)%N eqn:E; cbn [obind'].
      + destruct (l + n <? two32)%N eqn:E2; cbn [obind'].
        * destruct (l + n + 1 <? two32)%N eqn:E3; cbn [obind']; [f_equal; lia|]. symmetry. apply Hk. lia.
        * symmetry. apply Hk. lia.
      + symmetry. apply Hk. lia.
    - unfold checked_add, try_u32. destruct (n <? two32)%N eqn:E; cbn [obind'].
      + destruct (l + n <? two32)%N eqn:E2; cbn [obind']; [reflexivity|]. symmetry. apply Hk. lia.
      + symmetry. apply Hk. lia. }
  assert (Hkk : forall x y, (h < y)%N -> (if ((x <=? y) && (y <=? h))%N then Some (mkspan x y) else None) = None).
  { intros x y Hy. replace ((x <=? y) && (y <=? h))%N with false by lia. reflexivity. }
  unfold subspan. cbn [lo hi]. rewrite Hs.
  - rewrite He by (intros x Hx; apply Hkk; exact Hx).
    replace ((range_start s <=? range_end (h - l) e) && (range_end (h - l) e <=? h - l))%N
      with ((l + range_start s <=? l + range_end (h - l) e) && (l + range_end (h - l) e <=? h))%N by lia.
    reflexivity.
  - intros x Hx. rewrite He by (intros y Hy; apply Hkk; exact Hy).
    destruct ((x <=? l + range_end (h - l) e) && (l + range_end (h - l) e <=? h))%N eqn:E; [lia|reflexivity].
Qed.
Lemma span_at_fits ts p : (total ts <= two32)%N -> valid_place ts p ->
  (lo (span_at ts p) <= hi (span_at ts p))%N /\ (hi (span_at ts p) < two32)%N.
Proof.
  intros Hfit (t & Ht & Hab & Hb). unfold span_at. cbn [lo hi]. pose proof (end_in_total ts _ t Ht). lia.
Qed.
Lemma subspan_at ts p s e : (total ts <= two32)%N -> valid_place ts p ->
  subspan (span_at ts p) s e = option_map (span_at ts) (sub_place p s e).
Proof.
  intros Hfit Hp. destruct (span_at_fits ts p Hfit Hp) as [H1 H2]. rewrite subspan_spec by assumption.
  destruct Hp as (t & Ht & Hab & Hb). unfold sub_place, span_at in *. cbn [lo hi] in *. cbn zeta.
  replace (start_of ts (pfile p) + N.of_nat (pto p) - (start_of ts (pfile p) + N.of_nat (pfrom p)))%N
    with (N.of_nat (pto p - pfrom p)) by lia.
  destruct (_ && _)%N; [|reflexivity]. cbn [option_map pfile pfrom pto]. do 2 f_equal; lia.
Qed.
Lemma sub_valid ts p s e q : valid_place ts p -> sub_place p s e = Some q -> valid_place ts q.
Proof.
  intros (t & Ht & Hab & Hb). unfold sub_place. cbn zeta. destruct (_ && _)%N eqn:E; [|discriminate].
  intros [= <-]. exists t. cbn [pfile pfrom pto]. split; [exact Ht|]. lia.
Qed.
Lemma first_at ts p : (total ts <= two32)%N -> valid_place ts p -> sp_first_byte (span_at ts p) = span_at ts (first_place p).
Proof.
  intros Hfit Hp. destruct (span_at_fits ts p Hfit Hp) as [H1 H2]. unfold sp_first_byte, first_place, span_at in *.
  cbn [lo hi pfile pfrom pto] in *. f_equal; lia.
Qed.
Lemma last_at ts p : valid_place ts p -> sp_last_byte (span_at ts p) = span_at ts (last_place p).
Proof.
  intros (t & Ht & Hab & Hb). unfold sp_last_byte, last_place, span_at. cbn [lo hi pfile pfrom pto]. f_equal. lia.
Qed.
Lemma first_valid ts p : valid_place ts p -> valid_place ts (first_place p).
Proof. intros (t & Ht & Hab & Hb). exists t. unfold first_place. cbn [pfile pfrom pto]. split; [exact Ht|lia]. Qed.
Lemma last_valid ts p : valid_place ts p -> valid_place ts (last_place p).
Proof. intros (t & Ht & Hab & Hb). exists t. unfold last_place. cbn [pfile pfrom pto]. split; [exact Ht|lia]. Qed.

(** ** Parsing *)
Lemma files_ok_last b ts m : files_ok b ts m -> ts <> [] ->
  exists f m', rev m = f :: m' /\ (hi (fspan f) + 1 = b + total ts)%N.
Proof.
  intros Hok Hne. destruct (exists_last Hne) as (ts' & t & ->).
  assert (Hl : length m = Datatypes.S (length ts')) by (rewrite (files_ok_length _ _ _ Hok), app_length; cbn; lia).
  assert (Hm : m <> []) by (intros ->; discriminate Hl).
  destruct (exists_last Hm) as (m' & f & ->). rewrite app_length in Hl. cbn [length] in Hl.
  destruct (files_ok_nth b (ts' ++ [t]) (m' ++ [f]) (length ts') t Hok) as (f' & Hf' & Hfo).
  { rewrite nth_error_app2, Nat.sub_diag by lia. reflexivity. }
  rewrite nth_error_app2 in Hf' by lia. replace (length ts' - length m') with 0 in Hf' by lia. injection Hf' as <-.
  exists f, (rev m'). split; [apply rev_app_distr|]. rewrite (fo_span _ _ _ Hfo). cbn [hi].
  rewrite total_app, start_of_app by lia. unfold total. lia.
Qed.
Lemma add_file_ok ts m src : files_ok 0 ts m -> ts <> [] -> (total ts + N.of_nat (length src) + 1 <= two32)%N ->
  exists m', add_file m src = Ok (m', mkspan (total ts) (total ts + N.of_nat (length src))) /\
    files_ok 0 (ts ++ [src]) m'.
Proof.
  intros Hok Hne Hfit. destruct (files_ok_last 0 ts m Hok Hne) as (f & m' & Hr & Hh).
  unfold add_file, lines_offsets, next_start_pos. rewrite Hr. unfold add_u32. rewrite Hh, N.add_0_l.
  replace (total ts <? two32)%N with true by lia. cbn [bind]. rewrite wrap32_small by lia.
  replace (total ts + N.of_nat (length src) <? two32)%N with true by lia. cbn [bind].
  eexists. split; [reflexivity|]. apply files_ok_app; [exact Hok|]. constructor; cbn [source_text fspan lines byte_cache]; auto.
Qed.

Lemma tree_spans_shift k t : tree_spans (shift k t) = map (shift_span k) (tree_spans t).
Proof.
  induction t as [d ts sp IH|s r sp|c s sp|r sp] using token_nested_ind; try reflexivity.
  cbn [shift tree_spans token_span map]. f_equal.
  induction IH as [|t ts Ht _ IHts]; [reflexivity|]. cbn [map flat_map]. rewrite map_app, Ht, IHts. reflexivity.
Qed.
Lemma lexed_spans_shift k l : lexed_spans (shift_lexed k l) = map (shift_span k) (lexed_spans l).
Proof.
  destruct l as [ts|sp]; [|reflexivity]. cbn [shift_lexed lexed_spans].
  induction ts as [|t ts IH]; [reflexivity|]. cbn [map flat_map]. rewrite map_app, IH, tree_spans_shift. reflexivity.
Qed.
Lemma tree_spans_occurs t : forall sp ts, In t ts -> In sp (tree_spans t) -> exists u, occurs u ts /\ token_span u = sp.
Proof.
  induction t as [d inner s IH|sy r s|c x s|r s] using token_nested_ind; intros sp ts Hin [<-|Hsp];
    try (eexists; split; [apply occurs_here; exact Hin|reflexivity]); try (destruct Hsp; fail).
  apply in_flat_map in Hsp as (t & Ht & Hsp). rewrite Forall_forall in IH.
  destruct (IH t Ht sp inner Ht Hsp) as (u & Hu & Hus). exists u. split; [|exact Hus].
  eapply occurs_inside; eassumption.
Qed.

Section WithUnicode.
Context {U : unicode}.
Lemma parsed_spans_inside src l sp : (strlen src < two32)%N -> token_stream_from_str 0 src = Ok l ->
  In sp (lexed_spans l) -> (lo sp <= hi sp)%N /\ (hi sp <= N.of_nat (length src))%N.
Proof.
  intros Hfit Hl Hin. destruct l as [ts|e]; cbn [lexed_spans] in Hin.
  - apply in_flat_map in Hin as (t & Ht & Hsp). destruct (tree_spans_occurs t sp ts Ht Hsp) as (u & Hu & <-).
    pose proof (spans_inside U src 0 ltac:(lia) ts u Hl Hu) as H. unfold strlen in H. lia.
  - destruct Hin as [<-|[]]. pose proof (error_in_text src 0 ltac:(lia) e Hl) as H. unfold strlen in H. lia.
Qed.

(** ** The simulation *)
Record related (st : state) (s : spec) : Prop := mkrelated {
  rel_files : files_ok 0 (texts s) (smap st);
  rel_fit : (total (texts s) <= two32)%N;
  rel_first : nth_error (texts s) 0 = Some [];
  rel_pool : pool st = map (span_at (texts s)) (places s);
  rel_valid : Forall (valid_place (texts s)) (places s)
}.
Lemma related_initial : related initial spec_initial.
Proof.
  constructor; cbn [texts places spec_initial initial smap pool map files_ok fresh_map]; auto; try easy.
  split; [|exact I]. constructor; cbn [source_text fspan lines byte_cache]; auto.
Qed.
Lemma related_map st s m : related st s -> files_ok 0 (texts s) m -> related (mkstate m (pool st)) s.
Proof. intros [? ? ? ? ?] H. constructor; auto. Qed.
Lemma related_more st s o : related st s -> match o with Some p => valid_place (texts s) p | None => True end ->
  forall st' x s' y, made st (option_map (span_at (texts s)) o) = (st', x) -> spec_made s o = (s', y) ->
  related st' s' /\ x = y /\ texts s' = texts s.
Proof.
  intros Hr Hp st' x s' y H1 H2. destruct o as [p|]; cbn in H1, H2; injection H1 as <- <-; injection H2 as <- <-; auto.
  split; [|auto]. destruct Hr as [H3 H4 H5 H6 H7]. constructor; cbn [smap pool texts places]; auto.
  - rewrite map_app, H6. reflexivity.
  - apply Forall_app. auto.
Qed.
Lemma span_at_place_in ts src sp : span_at (ts ++ [src]) (place_in (length ts) sp) = shift_span (total ts) sp.
Proof.
  unfold span_at, place_in, shift_span. cbn [pfile pfrom pto]. rewrite start_of_app by lia. fold (total ts).
  rewrite !N2Nat.id. f_equal; lia.
Qed.
Lemma texts_nonempty st s : related st s -> texts s <> [].
Proof. intros [_ _ H _ _] E. rewrite E in H. discriminate. Qed.
Lemma related_add st s src m new pl : related st s ->
  files_ok 0 (texts s ++ [src]) m -> (total (texts s) + N.of_nat (length src) + 1 <= two32)%N ->
  new = map (span_at (texts s ++ [src])) pl -> Forall (valid_place (texts s ++ [src])) pl ->
  related (mkstate m (pool st ++ new)) (mkspec (texts s ++ [src]) (places s ++ pl)).
Proof.
  intros [H1 H2 H3 H4 H5] Hm Hfit -> Hpl. constructor; cbn [smap pool texts places]; auto.
  - rewrite total_app. exact Hfit.
  - rewrite nth_error_app1; [exact H3|]. apply nth_error_Some. congruence.
  - rewrite map_app, H4. f_equal. apply map_ext_in. intros p Hp. rewrite Forall_forall in H5.
    symmetry. apply span_at_app. pose proof (valid_file _ _ (H5 p Hp)). lia.
  - apply Forall_app. split; [|exact Hpl]. eapply Forall_impl; [|exact H5]. intros p. apply valid_app.
Qed.
Lemma parse_step st s src : related st s -> (total (texts s) + N.of_nat (length src) + 1 <= two32)%N ->
  exists st', step st (OParse src) = Ok (st', Nothing) /\ related st' (fst (spec_step s (OParse src))).
Proof.
  intros Hr Hfit. cbn [step spec_step fst]. unfold parse.
  destruct (add_file_ok (texts s) (smap st) src (rel_files _ _ Hr) (texts_nonempty _ _ Hr) Hfit) as (m' & -> & Hm).
  cbn [bind lo].
  destruct (from_str_shift 0 (total (texts s)) src) as (l & Hl & Hl2).
  { unfold strlen. lia. }
  rewrite N.add_0_l in Hl2. rewrite Hl2. cbn [bind]. eexists. split; [reflexivity|].
  apply related_add; auto.
  - unfold parse_places. rewrite Hl, lexed_spans_shift, map_map. apply map_ext. intros sp. symmetry. apply span_at_place_in.
  - unfold parse_places. rewrite Hl. rewrite Forall_map, Forall_forall. intros sp Hsp.
    destruct (parsed_spans_inside src l sp ltac:(unfold strlen; lia) Hl Hsp) as [H1 H2].
    exists src. unfold place_in. cbn [pfile pfrom pto]. rewrite nth_error_app2, Nat.sub_diag by lia.
    split; [reflexivity|]. lia.
Qed.
Lemma call_site_valid ts : nth_error ts 0 = Some [] -> valid_place ts call_site_place /\ span_at ts call_site_place = call_site.
Proof.
  intros H. split; [exists []; cbn; auto|]. unfold span_at. cbn [pfile pfrom pto call_site_place]. rewrite start_of_0. reflexivity.
Qed.
Lemma literal_step st s src : related st s -> (total (texts s) + N.of_nat (length src) + 1 <= two32)%N ->
  exists st', step st (OLiteral src) = Ok (st', Nothing) /\ related st' (fst (spec_step s (OLiteral src))).
Proof.
  intros Hr Hfit. cbn [step spec_step fst]. unfold parse_literal.
  destruct (add_file_ok (texts s) (smap st) src (rel_files _ _ Hr) (texts_nonempty _ _ Hr) Hfit) as (m' & -> & Hm).
  cbn [bind lo]. rewrite literal_from_str_spec by lia. cbn [bind].
  assert (H0 : nth_error (texts s ++ [src]) 0 = Some []).
  { pose proof (rel_first _ _ Hr). rewrite nth_error_app1; [assumption|]. apply nth_error_Some. congruence. }
  destruct (call_site_valid _ H0) as [Hv Hc].
  eexists. split; [reflexivity|]. apply related_add; auto; unfold literal_place;
    rewrite literal_from_str_spec by reflexivity; destruct (p_literal_from_str src) as [repr|]; cbn [map lit_span].
  - rewrite wrap32_small by lia. unfold span_at. cbn [pfile pfrom pto]. rewrite start_of_app by lia.
    fold (total (texts s)). do 2 f_equal. lia.
  - rewrite Hc. reflexivity.
  - constructor; [|constructor]. exists src. cbn [pfile pfrom pto]. rewrite nth_error_app2, Nat.sub_diag by lia.
    split; [reflexivity|lia].
  - constructor; [exact Hv|constructor].
Qed.

Definition used_after (used : N) (o : op) : N :=
  match o with
  | OParse src | OLiteral src => used + N.of_nat (length src) + 1
  | OInvalidate => 1
  | _ => used
  end.
Lemma pool_nth st s i : related st s ->
  nth_error (pool st) i = option_map (span_at (texts s)) (nth_error (places s) i).
Proof.
  intros Hr. rewrite (rel_pool _ _ Hr). destruct (nth_error (places s) i) as [p|] eqn:E; cbn [option_map].
  - apply map_nth_error. exact E.
  - apply nth_error_None. rewrite map_length. apply nth_error_None. exact E.
Qed.
Lemma place_valid st s i p : related st s -> nth_error (places s) i = Some p -> valid_place (texts s) p.
Proof.
  intros Hr Hi. pose proof (rel_valid _ _ Hr) as H. rewrite Forall_forall in H. apply H. eapply nth_error_In. exact Hi.
Qed.
Lemma text_of_nth s p : valid_place (texts s) p -> nth_error (texts s) (pfile p) = Some (text_of s p).
Proof. intros (t & Ht & _). rewrite Ht. unfold text_of. f_equal. symmetry. apply nth_error_nth. exact Ht. Qed.
Lemma step_ok st s o : related st s -> (used_after (total (texts s)) o <= two32)%N ->
  exists st' x, step st o = Ok (st', x) /\ snd (spec_step s o) = x /\ related st' (fst (spec_step s o)) /\
    total (texts (fst (spec_step s o))) = used_after (total (texts s)) o.
Proof using HS.
  intros Hr Hfit.
  pose proof (rel_files _ _ Hr) as Hfiles. pose proof (rel_fit _ _ Hr) as Htot. pose proof (rel_first _ _ Hr) as H0.
  Local Ltac at_place Hr i p Ep Hp Ht :=
    match type of Hr with related ?st ?s =>
      unfold on, spec_on; rewrite (pool_nth st s i Hr); destruct (nth_error (places s) i) as [p|] eqn:Ep; cbn [option_map];
      [|eexists _, _; split; [reflexivity|]; cbn [fst snd used_after]; now auto];
      pose proof (place_valid st s i p Hr Ep) as Hp; pose proof (text_of_nth s p Hp) as Ht
    end.
  Local Ltac use_more Hr o H :=
    match type of Hr with related ?st ?s =>
      let st' := fresh "st" in let x := fresh "x" in let s' := fresh "s" in let y := fresh "y" in
      let E1 := fresh "E" in let E2 := fresh "E" in
      destruct (made st (option_map (span_at (texts s)) o)) as [st' x] eqn:E1;
      destruct (spec_made s o) as [s' y] eqn:E2;
      destruct (related_more st s o Hr H st' x s' y E1 E2) as (? & -> & Htx);
      exists st', y; cbn [fst snd]; rewrite Htx; auto
    end.
  destruct o as [src|src| |i j|i a b|i|i|i|i|i|i|i|].
  - destruct (parse_step st s src Hr Hfit) as (st' & E & Hr'). exists st', Nothing.
    split; [exact E|]. split; [reflexivity|]. split; [exact Hr'|]. cbn [spec_step fst texts used_after]. apply total_app.
  - destruct (literal_step st s src Hr Hfit) as (st' & E & Hr'). exists st', Nothing.
    split; [exact E|]. split; [reflexivity|]. split; [exact Hr'|]. cbn [spec_step fst texts used_after]. apply total_app.
  - cbn [step spec_step fst snd used_after]. eexists _, _. split; [reflexivity|]. split; [reflexivity|]. split; [|reflexivity].
    destruct (call_site_valid _ H0) as [Hv Hc]. destruct Hr as [H1 H2 H3 H4 H5].
    constructor; cbn [smap pool texts places]; auto.
    + rewrite map_app, H4. cbn [map]. rewrite Hc. reflexivity.
    + apply Forall_app. auto.
  - cbn [step spec_step used_after]. at_place Hr i p Ep Hp Ht. at_place Hr j q Ej Hq Hu.
    rewrite (join_at _ _ p q Hfiles Hp Hq). cbn [bind].
    assert (H : match join_place p q with Some r => valid_place (texts s) r | None => True end).
    { destruct (join_place p q) as [r|] eqn:E; [|exact I]. exact (join_valid _ p q r Hp Hq E). }
    use_more Hr (join_place p q) H.
  - cbn [step spec_step used_after]. at_place Hr i p Ep Hp Ht. rewrite (subspan_at _ p a b Htot Hp).
    assert (H : match sub_place p a b with Some r => valid_place (texts s) r | None => True end).
    { destruct (sub_place p a b) as [r|] eqn:E; [|exact I]. exact (sub_valid _ p a b r Hp E). }
    use_more Hr (sub_place p a b) H.
  - cbn [step spec_step used_after]. at_place Hr i p Ep Hp Ht. rewrite (first_at _ p Htot Hp).
    change (Some (span_at (texts s) (first_place p))) with (option_map (span_at (texts s)) (Some (first_place p))).
    assert (H : match Some (first_place p) with Some r => valid_place (texts s) r | None => True end) by exact (first_valid _ p Hp).
    use_more Hr (Some (first_place p)) H.
  - cbn [step spec_step used_after]. at_place Hr i p Ep Hp Ht. rewrite (last_at _ p Hp).
    change (Some (span_at (texts s) (last_place p))) with (option_map (span_at (texts s)) (Some (last_place p))).
    assert (H : match Some (last_place p) with Some r => valid_place (texts s) r | None => True end) by exact (last_valid _ p Hp).
    use_more Hr (Some (last_place p)) H.
  - cbn [step spec_step used_after]. at_place Hr i p Ep Hp Ht. rewrite (start_ok _ _ p _ Hfiles Htot Hp Ht). cbn [bind].
    eexists _, _. split; [reflexivity|]. cbn [fst snd]. auto.
  - cbn [step spec_step used_after]. at_place Hr i p Ep Hp Ht. rewrite (end_ok _ _ p _ Hfiles Htot Hp Ht). cbn [bind].
    eexists _, _. split; [reflexivity|]. cbn [fst snd]. auto.
  - cbn [step spec_step used_after]. at_place Hr i p Ep Hp Ht.
    destruct (byte_range_at _ _ p _ Hfiles H0 Hp Ht) as (m' & -> & Hm). cbn [bind].
    eexists _, _. split; [reflexivity|]. cbn [fst snd]. auto using related_map.
  - cbn [step spec_step used_after]. at_place Hr i p Ep Hp Ht.
    destruct (source_text_at _ _ p _ Hfiles H0 Hp Ht) as (m' & -> & Hm). cbn [bind].
    eexists _, _. split; [reflexivity|]. cbn [fst snd]. auto using related_map.
  - cbn [step spec_step used_after]. at_place Hr i p Ep Hp Ht. rewrite (file_at _ _ p Hfiles Hp). cbn [bind].
    eexists _, _. split; [reflexivity|]. cbn [fst snd]. auto.
  - cbn [step spec_step used_after fst snd]. eexists _, _. split; [reflexivity|]. split; [reflexivity|]. split; [|reflexivity].
    destruct Hr as [H1 H2 H3 H4 H5]. constructor; cbn [smap pool texts places]; auto.
    + destruct (texts s) as [|t ts]; [discriminate|]. injection H3 as ->. destruct (smap st) as [|f m]; [destruct H1|].
      cbn [files_ok invalidate firstn] in *. split; [exact (proj1 H1)|exact I].
    + rewrite H4. clear H4. induction (places s) as [|p ps IH]; [reflexivity|]. inversion H5 as [|? ? Hp Hps]; subst.
      cbn [map filter]. rewrite (is_call_site_at _ p H3 Hp). destruct (pfile p =? 0) eqn:E; [|exact (IH Hps)].
      cbn [map]. f_equal; [|exact (IH Hps)]. apply Nat.eqb_eq in E. unfold span_at. rewrite E, !start_of_0. reflexivity.
    + rewrite Forall_forall in *. intros p Hp. apply filter_In in Hp as [Hp E]. apply Nat.eqb_eq in E.
      destruct (H5 p Hp) as (t & Ht & Hb). exists t. rewrite E in *. split; [|exact Hb]. cbn. congruence.
Qed.
Lemma room_cons used o os : room used (o :: os) -> (used <= two32)%N -> (used_after used o <= two32)%N /\ room (used_after used o) os.
Proof. intros H Hu. destruct o; cbn [room used_after] in *; auto. split; [discriminate|exact H]. Qed.
Lemma run_ok os : forall st s, related st s -> room (total (texts s)) os ->
  exists st', run st os = Ok (st', snd (spec_run s os)) /\ related st' (fst (spec_run s os)).
Proof using HS.
  induction os as [|o os IH]; intros st s Hr Hroom; [exists st; auto|].
  destruct (room_cons _ _ _ Hroom (rel_fit _ _ Hr)) as [Hu Hroom'].
  destruct (step_ok st s o Hr Hu) as (st' & x & E & Hx & Hr' & Htot).
  cbn [run spec_run]. rewrite E. cbn [bind]. destruct (spec_step s o) as [s' y]. cbn [fst snd] in *. subst y.
  rewrite <- Htot in Hroom'. destruct (IH st' s' Hr' Hroom') as (st'' & -> & Hr''). cbn [bind].
  destruct (spec_run s' os) as [s'' ys]. exists st''. auto.
Qed.
Lemma history os : room 1 os ->
  exists st, run initial os = Ok (st, snd (spec_run spec_initial os)).
Proof using HS.
  intros H. destruct (run_ok os initial spec_initial related_initial H) as (st & E & _). exists st. exact E.
Qed.
Lemma reached_related os st s : reached os st s -> related st s.
Proof using HS.
  intros (Hroom & xs & ys & Hrun & Hspec). destruct (run_ok os initial spec_initial related_initial Hroom) as (st' & E & Hr).
  rewrite Hspec in *. cbn [fst snd] in *. congruence.
Qed.
End WithUnicode.
End WithSearch.
