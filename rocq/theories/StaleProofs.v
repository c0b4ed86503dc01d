(** * Caught panics and foreign spans do not disturb the source map. *)
From Coq Require Import Lia.
From Verif Require Import Base BaseFacts Unicode Tokens Lexer SourceMap SpecMap MapFacts MapProofs MapRelease FullProofs.
From Verif Require Import MapCaught SpecStale SpecTree.
From Verif Require CheckedLexer CheckedProofs.
Import ListNotations.

(** ** The two searches *)
Lemma old_strict {A} (f : A -> res comparison) xs fuel : forall l r, r - l < fuel -> r <= length xs ->
  match search_old f xs fuel l r with
  | Ok (inl i) => exists x, nth_error xs i = Some x /\ f x = Ok Eq
  | Ok (inr _) => True
  | Reject => exists x, In x xs /\ f x = Reject
  | Panic => exists x, In x xs /\ f x = Panic
  | Fuel => exists x, In x xs /\ f x = Fuel
  end.
Proof.
  induction fuel as [|fuel IH]; intros l r H1 H2; [lia|]. cbn [search_old].
  destruct (Nat.ltb_spec l r) as [L|L]; [|exact I]. cbv zeta.
  assert (D : (r - l) / 2 < r - l) by (apply Nat.div_lt; lia). set (k := (r - l) / 2) in *.
  destruct (nth_error xs (l + k)) as [x|] eqn:E; [|apply nth_error_None in E; lia].
  cbn [unwrap bind]. pose proof (nth_error_In _ _ E) as HI.
  destruct (f x) as [[| |]| | |] eqn:F; cbn [bind]; eauto; apply IH; lia.
Qed.
Lemma new_strict {A} (f : A -> res comparison) xs fuel : forall b n, n < fuel -> 1 <= n -> b + n <= length xs ->
  match search_new f xs fuel b n with
  | Ok (inl i) => exists x, nth_error xs i = Some x /\ f x = Ok Eq
  | Ok (inr _) => True
  | Reject => exists x, In x xs /\ f x = Reject
  | Panic => exists x, In x xs /\ f x = Panic
  | Fuel => exists x, In x xs /\ f x = Fuel
  end.
Proof.
  induction fuel as [|fuel IH]; intros b n H1 H2 H3; [lia|]. cbn [search_new].
  destruct (Nat.ltb_spec 1 n) as [L|L]; cbv zeta.
  - assert (D : n / 2 < n) by (apply Nat.div_lt; lia).
    assert (D1 : 1 <= n / 2) by (apply Nat.div_le_lower_bound; lia). set (k := n / 2) in *.
    destruct (nth_error xs (b + k)) as [x|] eqn:E; [|apply nth_error_None in E; lia].
    cbn [unwrap bind]. pose proof (nth_error_In _ _ E) as HI.
    destruct (f x) as [[| |]| | |] eqn:F; cbn [bind]; eauto; apply IH; lia.
  - destruct (nth_error xs b) as [x|] eqn:E; [|apply nth_error_None in E; lia].
    cbn [unwrap bind]. pose proof (nth_error_In _ _ E) as HI.
    destruct (f x) as [[| |]| | |] eqn:F; cbn [bind]; eauto.
Qed.
Lemma std_old_strict : search_strict std_old.
Proof. intros A f xs. apply (old_strict f xs); lia. Qed.
Lemma std_new_strict : search_strict std_new.
Proof.
  intros A f xs. cbn [std_new binary_search_by]. destruct xs as [|a xs]; [exact I|].
  apply (new_strict f (a :: xs)); cbn [length]; lia.
Qed.

Section Caught.
Context {U : unicode} {S : std_search} (HS : search_ok S) (HT : search_strict S).

(** ** Any span *)
Lemma files_nth b ts m i f : files_ok b ts m -> nth_error m i = Some f ->
  exists t, nth_error ts i = Some t /\ file_ok (b + start_of ts i) t f.
Proof.
  intros Hok Hf. destruct (nth_error ts i) as [t|] eqn:E.
  - destruct (files_ok_nth b ts m i t Hok E) as (f' & Hf' & H). rewrite Hf in Hf'. injection Hf' as <-. eauto.
  - apply nth_error_None in E. rewrite <- (files_ok_length b ts m Hok) in E. apply nth_error_None in E. congruence.
Qed.
Lemma find_any ts m sp : files_ok 0 ts m -> (lo sp <= hi sp)%N ->
  (exists p, valid_place ts p /\ sp = span_at ts p) \/ find m sp = Panic.
Proof.
  intros Hok Hsp. unfold find. match goal with |- context [binary_search_by ?f m] => pose proof (HT _ f m) as H end.
  cbv beta in H. destruct (binary_search_by _ m) as [[i|i]| | |]; cbn [bind]; [|now right| |now right|].
  - destruct H as (f & Hf & E). left.
    destruct (hi (fspan f) <? lo sp)%N; [discriminate|]. destruct (hi sp <? lo (fspan f))%N; [discriminate|].
    destruct (span_within f sp) eqn:W; [|discriminate].
    destruct (files_nth 0 ts m i f Hok Hf) as (t & Ht & Hfo). unfold span_within in W.
    rewrite (fo_span _ _ _ Hfo) in W. cbn [lo hi] in W. apply andb_prop in W as [W1 W2].
    apply N.leb_le in W1, W2. rewrite N.add_0_l in W1, W2. set (b := start_of ts i) in *.
    exists (mkplace i (N.to_nat (lo sp - b)) (N.to_nat (hi sp - b))). unfold valid_place, span_at. cbn [pfile pfrom pto]. fold b.
    split.
    + exists t. split; [exact Ht|]. split; lia.
    + destruct sp as [l h]. cbn [lo hi] in *. f_equal; lia.
  - destruct H as (f & _ & E). destruct (_ <? _)%N; [discriminate|]. destruct (_ <? _)%N; [discriminate|]. destruct span_within; discriminate.
  - destruct H as (f & _ & E). destruct (_ <? _)%N; [discriminate|]. destruct (_ <? _)%N; [discriminate|]. destruct span_within; discriminate.
Qed.

(** ** What is answered is answered as before *)
Lemma byte_left_ok f ch f' x : byte f ch = Ok (f', x) -> byte_left f ch = (f', Some x).
Proof. unfold byte_left. now intros ->. Qed.
Lemma range_left_ok f sp f' r : byte_range f sp = Ok (f', r) -> byte_range_left f sp = (f', Some r).
Proof.
  unfold byte_range, byte_range_left. destruct (byte f (lo sp)) as [[f1 a]| | |] eqn:E1; cbn [bind]; try discriminate.
  rewrite (byte_left_ok _ _ _ _ E1). destruct (byte f1 (hi sp)) as [[f2 b]| | |] eqn:E2; cbn [bind]; try discriminate.
  rewrite (byte_left_ok _ _ _ _ E2). intros H. now injection H as <- <-.
Qed.
Lemma text_left_ok f sp f' s : file_source_text f sp = Ok (f', s) -> source_text_left f sp = (f', Some s).
Proof.
  unfold file_source_text, source_text_left. destruct (byte_range f sp) as [[f1 [a b]]| | |] eqn:E1; cbn [bind]; try discriminate.
  rewrite (range_left_ok _ _ _ _ E1). destruct slice; cbn [bind]; try discriminate. intros H. now injection H as <- <-.
Qed.
Lemma with_left_ok {A} m sp (k : file -> res (file * A)) k' m' x :
  (forall f f' a, k f = Ok (f', a) -> k' f = (f', Some a)) -> with_file m sp k = Ok (m', x) ->
  with_file_left m sp k' = (m', Some x).
Proof.
  intros K. unfold with_file, with_file_left. destruct (find m sp) as [i| | |]; cbn [bind]; try discriminate.
  destruct (nth_error m i) as [f|]; cbn [unwrap bind]; [|discriminate].
  destruct (k f) as [[f' a]| | |] eqn:E; cbn [bind]; try discriminate. rewrite (K _ _ _ E). intros H. now injection H as <- <-.
Qed.
Lemma range_of_ok m sp m' x : span_byte_range m sp = Ok (m', x) -> byte_range_of m sp = (m', Answer (Range x)).
Proof.
  unfold span_byte_range, byte_range_of. destruct is_call_site; [intros H; now injection H as <- <-|].
  intros H. rewrite (with_left_ok _ _ _ (fun f => byte_range_left f sp) _ _ (fun f f' a => range_left_ok f sp f' a) H). reflexivity.
Qed.
Lemma text_of_ok m sp m' x : span_source_text m sp = Ok (m', x) -> source_text_of m sp = (m', Answer (Text x)).
Proof.
  unfold span_source_text, source_text_of. destruct is_call_site; [intros H; now injection H as <- <-|].
  destruct (with_file m sp _) as [[m1 s]| | |] eqn:H; cbn [bind]; try discriminate.
  rewrite (with_left_ok _ _ _ (fun f => source_text_left f sp) _ _ (fun f f' a => text_left_ok f sp f' a) H).
  intros E. now injection E as <- <-.
Qed.
Lemma own_ok st o st' x : short o -> step st o = Ok (st', x) -> own_step st o = (st', Answer x).
Proof.
  intros Hs H. destruct o as [src|src| | | | | | | |i|i| | ]; cbn [own_step]; try (rewrite H; reflexivity).
  - cbn [step short] in *. fold (strlen src) in Hs. rewrite <- (CheckedProofs.checked_parse _ src Hs) in H.
    unfold CheckedLexer.parse in H. unfold parse_left. destruct (add_file _ _) as [[m sp]| | |]; cbn [bind] in H; try discriminate H.
    destruct (CheckedLexer.token_stream_from_str _ _); cbn [bind] in H; try discriminate H. now injection H as <- <-.
  - cbn [step short] in *. fold (strlen src) in Hs. rewrite <- (CheckedProofs.checked_parse_literal _ src Hs) in H.
    unfold CheckedLexer.parse_literal in H. unfold literal_left. destruct (add_file _ _) as [[m sp]| | |]; cbn [bind] in H; try discriminate H.
    destruct (CheckedLexer.literal_from_str _ _); cbn [bind] in H; try discriminate H. now injection H as <- <-.
  - cbn [step] in H. unfold on in H. destruct nth_error as [a|]; [|now injection H as <- <-].
    destruct span_byte_range as [[m r]| | |] eqn:E; cbn [bind] in H; try discriminate H. rewrite (range_of_ok _ _ _ _ E). now injection H as <- <-.
  - cbn [step] in H. unfold on in H. destruct nth_error as [a|]; [|now injection H as <- <-].
    destruct span_source_text as [[m r]| | |] eqn:E; cbn [bind] in H; try discriminate H. rewrite (text_of_ok _ _ _ _ E). now injection H as <- <-.
Qed.

(** ** Queries about any span *)
Lemma ask_any st s q sp : related st s -> (lo sp <= hi sp)%N ->
  exists m x, ask (smap st) q sp = (m, x) /\ files_ok 0 (texts s) m /\
    ((exists p, valid_place (texts s) p /\ sp = span_at (texts s) p /\ answer_at s p q x) \/
     ((forall p, valid_place (texts s) p -> sp <> span_at (texts s) p) /\ x = Panicked /\ m = smap st)).
Proof.
  intros Hr Hsp. pose proof (rel_files _ _ Hr) as Hok. pose proof (rel_fit _ _ Hr) as Hfit. pose proof (rel_first _ _ Hr) as H0.
  destruct (find_any _ _ _ Hok Hsp) as [(p & Hp & ->)|Hf].
  - pose proof (text_of_nth s p Hp) as Ht. destruct q; cbn [ask answer_at]; unfold shared.
    + rewrite (start_ok HS _ _ _ _ Hok Hfit Hp Ht). eexists _, _. split; [reflexivity|]. split; [exact Hok|]. left. exists p. auto.
    + rewrite (end_ok HS _ _ _ _ Hok Hfit Hp Ht). eexists _, _. split; [reflexivity|]. split; [exact Hok|]. left. exists p. auto.
    + destruct (byte_range_at HS _ _ _ _ Hok H0 Hp Ht) as (m' & E & Hm). rewrite (range_of_ok _ _ _ _ E).
      eexists _, _. split; [reflexivity|]. split; [exact Hm|]. left. exists p. auto.
    + destruct (source_text_at HS _ _ _ _ Hok H0 Hp Ht) as (m' & E & Hm). rewrite (text_of_ok _ _ _ _ E).
      eexists _, _. split; [reflexivity|]. split; [exact Hm|]. left. exists p. auto.
    + rewrite (file_at HS _ _ _ Hok Hp). eexists _, _. split; [reflexivity|]. split; [exact Hok|]. left. exists p. auto.
    + unfold span_join. destruct (fileinfo_ok HS _ _ _ Hok Hp) as (f & t & -> & Ht' & Hfo). cbn [bind].
      rewrite Ht in Ht'. injection Ht' as <-.
      eexists _, _. split; [reflexivity|]. split; [exact Hok|]. left. exists p. split; [exact Hp|]. split; [reflexivity|].
      unfold span_within. rewrite (fo_span _ _ _ Hfo). cbn [lo hi]. now destruct (_ && _).
  - exists (smap st), Panicked. split; [|split; [exact Hok|]].
    + assert (C : is_call_site sp = false).
      { destruct (is_call_site sp) eqn:C; [|reflexivity]. exfalso. unfold is_call_site in C. apply andb_prop in C as [C1 C2].
        apply N.eqb_eq in C1, C2. assert (E : sp = call_site) by (destruct sp as [l h]; cbn [lo hi] in *; now subst).
        destruct (call_site_valid _ H0) as [Hv Hc]. rewrite E, <- Hc, (find_ok HS _ _ _ Hok Hv) in Hf. discriminate. }
      destruct q; cbn [ask]; unfold shared, span_start, span_end, span_file, filepath, span_join, fileinfo, byte_range_of, source_text_of, with_file_left;
        rewrite ?C, Hf; reflexivity.
    + right. split; [|auto]. intros p Hp ->. rewrite (find_ok HS _ _ _ Hok Hp) in Hf. discriminate.
Qed.

(** ** Histories *)
Lemma fits_used used o : (used <= two32)%N -> fits_after used o = true <-> (used_after used o <= two32)%N.
Proof. intros H. destruct o; cbn [fits_after used_after]; rewrite ?N.leb_le; split; auto; intros; unfold two32; lia. Qed.
Lemma caught_ok cs : Forall span_in_order cs -> Forall short (own_ops cs) -> forall st s, related st s ->
  own_answers cs (snd (caught_run st cs)) = snd (caught_spec s (own_ops cs)).
Proof.
  induction cs as [|c cs IH]; intros Hc Hs st s Hr; [reflexivity|]. apply Forall_cons_iff in Hc as [Hc Hcs].
  destruct c as [o|q sp]; cbn [own_ops] in *.
  - apply Forall_cons_iff in Hs as [Ho Hs]. cbn [caught_run caught_step caught_spec]. unfold caught_spec_step.
    destruct (fits_after (total (texts s)) o) eqn:F.
    + apply (fits_used _ _ (rel_fit _ _ Hr)) in F. destruct (step_ok HS st s o Hr F) as (st' & x & E & Ex & Hr' & _).
      rewrite (own_ok _ _ _ _ Ho E). destruct (spec_step s o) as [s' y]. cbn [fst snd] in *. subst y.
      specialize (IH Hcs Hs st' s' Hr'). destruct (caught_run st' cs), (caught_spec s' (own_ops cs)). cbn [snd own_answers] in *.
      now rewrite IH.
    + assert (L : (two32 < used_after (total (texts s)) o)%N).
      { apply N.lt_nge. intros L. apply (fits_used _ _ (rel_fit _ _ Hr)) in L. congruence. }
      assert (E : own_step st o = (st, Panicked)).
      { pose proof (texts_nonempty _ _ Hr). pose proof (rel_files _ _ Hr).
        destruct o; cbn [fits_after] in F; try discriminate F; cbn [own_step used_after short] in *; unfold parse_left, literal_left;
          now rewrite (add_file_full (texts s)). }
      rewrite E. specialize (IH Hcs Hs st s Hr). destruct (caught_run st cs), (caught_spec s (own_ops cs)). cbn [snd own_answers] in *.
      now rewrite IH.
  - cbn [caught_run caught_step]. destruct (ask_any st s q sp Hr Hc) as (m & x & E & Hm & _). rewrite E.
    specialize (IH Hcs Hs _ s (related_map st s m Hr Hm)). destruct (caught_run _ cs). cbn [snd own_answers] in *. exact IH.
Qed.
Theorem caught_history cs : Forall span_in_order cs -> Forall short (own_ops cs) ->
  own_answers cs (snd (caught_run initial cs)) = snd (caught_spec spec_initial (own_ops cs)).
Proof. intros A B. apply caught_ok; auto. apply related_initial. Qed.
Theorem any_span os st s q sp : reached os st s -> (lo sp <= hi sp)%N ->
  (exists p, valid_place (texts s) p /\ sp = span_at (texts s) p /\ answer_at s p q (snd (ask (smap st) q sp))) \/
  ((forall p, valid_place (texts s) p -> sp <> span_at (texts s) p) /\ ask (smap st) q sp = (smap st, Panicked)).
Proof.
  intros H Hsp. apply (reached_related HS) in H. destruct (ask_any st s q sp H Hsp) as (m & x & E & _ & [K|(A & -> & ->)]).
  - left. rewrite E. exact K.
  - right. rewrite E. auto.
Qed.
End Caught.
