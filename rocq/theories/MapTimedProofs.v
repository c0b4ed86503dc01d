(** * The cost of span queries. *)
From Coq Require Import Sorting.Sorted.
From Verif Require Import Base BaseFacts Unicode Tokens Lexer Fallback LitNew SourceMap SpecMap MapFacts MapProofs Timed MapTimed SpecMapTimed.

(** ** The same results *)
Lemma fst_charge {A} n (m : timed A) : fst (charge n m) = fst m.
Proof. reflexivity. Qed.
Lemma fst_tbind {A B} (m : timed A) (k : A -> timed B) r j : fst m = r -> (forall a, fst (k a) = j a) ->
  fst (tbind m k) = bind r j.
Proof. intros <- H. destruct m as [[a| | |] n]; cbn; auto. Qed.
Lemma t_nth_fst {A} (l : list A) n : fst (t_nth l n) = Ok (nth_error l n).
Proof. revert n. induction l as [|x l IH]; intros [|n]; cbn; auto. Qed.
Lemma t_nth_cost {A} (l : list A) n : snd (t_nth l n) <= n + 1.
Proof. revert n. induction l as [|x l IH]; intros [|n]; cbn; try lia. specialize (IH n). lia. Qed.
Section Same.
Context {S : std_search}.
Lemma t_byte_same f ch : fst (t_byte f ch) = byte f ch.
Proof.
  unfold t_byte, byte. destruct (ch <? lo (fspan f))%N; [reflexivity|].
  destruct (match last_at_most _ _ with Some e => e | None => (0, 0) end) as [p bp].
  destruct (p =? _); [reflexivity|].
  assert (F : fst (let! rest := work 0 (slice_from (source_text f) bp) in
        let! r := t_nth (indices 0 rest) (N.to_nat (ch - lo (fspan f)) - p) in
        match r with
        | Some i => ret (bp + i)
        | None => ret (str_len (source_text f))
        end) = let? rest := slice_from (source_text f) bp in
        match nth_error (indices 0 rest) (N.to_nat (ch - lo (fspan f)) - p) with
        | Some i => Ok (bp + i)
        | None => Ok (str_len (source_text f))
        end).
  { apply fst_tbind; [reflexivity|]. intros rest.
    erewrite fst_tbind; [|apply t_nth_fst|intros a; reflexivity]. cbn [bind]. now destruct (nth_error _ _). }
  apply fst_tbind; [|reflexivity].
  destruct (first_at_least _ _) as [[q bq]|]; [|exact F].
  destruct (_ <? _); [|exact F]. destruct (_ <? _); [reflexivity|].
  apply fst_tbind; [reflexivity|]. intros before.
  erewrite fst_tbind; [|apply t_nth_fst|intros a; reflexivity]. reflexivity.
Qed.
Lemma t_byte_range_same f sp : fst (t_byte_range f sp) = byte_range f sp.
Proof.
  unfold t_byte_range, byte_range. apply fst_tbind; [apply t_byte_same|]. intros [f' a].
  apply fst_tbind; [apply t_byte_same|]. now intros [f'' b].
Qed.
Lemma t_file_source_text_same f sp : fst (t_file_source_text f sp) = file_source_text f sp.
Proof.
  unfold t_file_source_text, file_source_text. apply fst_tbind; [apply t_byte_range_same|]. intros [f' [a b]].
  apply fst_tbind; [reflexivity|]. reflexivity.
Qed.
Lemma t_with_file_same {A} m sp (k : file -> timed (file * A)) j : (forall f, fst (k f) = j f) ->
  fst (t_with_file m sp k) = with_file m sp j.
Proof.
  intros H. unfold t_with_file, with_file. apply fst_tbind; [reflexivity|]. intros i.
  apply fst_tbind; [reflexivity|]. intros f. apply fst_tbind; [apply H|]. now intros [f' a].
Qed.
Lemma t_span_byte_range_same m sp : fst (t_span_byte_range m sp) = span_byte_range m sp.
Proof.
  unfold t_span_byte_range, span_byte_range. destruct (is_call_site sp); [reflexivity|].
  apply t_with_file_same. intros f. apply t_byte_range_same.
Qed.
Lemma t_span_source_text_same m sp : fst (t_span_source_text m sp) = span_source_text m sp.
Proof.
  unfold t_span_source_text, span_source_text. destruct (is_call_site sp); [reflexivity|].
  apply fst_tbind; [|now intros [m' s]]. apply t_with_file_same. intros f. apply t_file_source_text_same.
Qed.
Context {U : unicode}.
Lemma t_step_same st o : fst (t_step st o) = step st o.
Proof.
  destruct o; try reflexivity; unfold t_step, step, t_on, on; destruct (nth_error (pool st) i); try reflexivity.
  - apply fst_tbind; [apply t_span_byte_range_same|]. now intros [m x].
  - apply fst_tbind; [apply t_span_source_text_same|]. now intros [m x].
Qed.
Lemma t_run_same st os : fst (t_run st os) = run st os.
Proof.
  revert st. induction os as [|o os IH]; intros st; [reflexivity|]. cbn [t_run run].
  apply fst_tbind; [apply t_step_same|]. intros [st' x]. apply fst_tbind; [apply IH|]. now intros [st'' xs].
Qed.
End Same.

(** ** One position *)
Definition kn (f : file) (x : nat) : Prop := x = 0 \/ In x (map fst (byte_cache f)).
Lemma first_least m k : match first_at_least m k with
  | Some e => forall e', In e' m -> k <= fst e' -> fst e <= fst e'
  | None => forall e', In e' m -> fst e' < k
  end.
Proof.
  induction m as [|[a b] m IH]; cbn [first_at_least]; [intros e' []|].
  pose proof (first_at_least_spec m k) as G.
  destruct (first_at_least m k) as [[a' b']|].
  - destruct ((k <=? a) && (a <? a')) eqn:E; cbn [fst] in *; intros e' [<-|H] Hk; cbn [fst] in *; try lia;
    specialize (IH e' H Hk); lia.
  - destruct (k <=? a) eqn:E; cbn [fst].
    + intros e' [<-|H] Hk; cbn [fst]; [lia|]. specialize (IH e' H). lia.
    + intros e' [<-|H]; cbn [fst]; [lia|]. exact (IH e' H).
Qed.
Lemma snd_tbind {A B} (m : timed A) (k : A -> timed B) n c : snd m <= n -> (forall a, snd (k a) <= c) ->
  snd (tbind m k) <= n + c.
Proof. intros H K. destruct m as [[a| | |] x]; cbn in *; [specialize (K a)|..]; lia. Qed.
Lemma t_byte_cost b t f a : file_ok b t f -> a <= length t ->
  exists f', t_byte f (b + N.of_nat a) = (Ok (f', str_len (firstn a t)), snd (t_byte f (b + N.of_nat a))) /\ file_ok b t f' /\
  ((kn f a /\ f' = f /\ snd (t_byte f (b + N.of_nat a)) = 0) \/
   (~ kn f a /\ (forall x, kn f' x <-> x = a \/ kn f x) /\
    forall x, kn f x -> snd (t_byte f (b + N.of_nat a)) <= 1 + distance a x)).
Proof.
  intros F A. destruct (byte_ok b t f a F A) as (f' & E & F'). exists f'.
  rewrite <- t_byte_same in E. split; [destruct (t_byte f (b + N.of_nat a)); cbn in *; congruence|].
  split; [exact F'|]. revert E. unfold t_byte.
  assert (L : lo (fspan f) = b) by (rewrite (fo_span _ _ _ F); reflexivity). rewrite L.
  replace (b + N.of_nat a <? b)%N with false by lia. replace (N.to_nat (b + N.of_nat a - b)) with a by lia.
  pose proof (last_at_most_spec (byte_cache f) a) as P. pose proof (first_least (byte_cache f) a) as Q.
  pose proof (first_at_least_spec (byte_cache f) a) as Q1.
  set (e := match last_at_most (byte_cache f) a with Some e => e | None => (0, 0) end).
  assert (K : fst e <= a /\ kn f (fst e) /\ forall x, kn f x -> x <= a -> x <= fst e).
  { unfold e, kn. destruct (last_at_most (byte_cache f) a) as [e0|].
    - destruct P as (P1 & P2 & P3). split; [exact P2|]. split; [right; now apply in_map|].
      intros x [->|X] Y; [lia|]. apply in_map_iff in X as (e1 & <- & X). now apply P3.
    - split; [cbn; lia|]. split; [now left|]. intros x [->|X] Y; [cbn; lia|].
      apply in_map_iff in X as (e1 & <- & X). specialize (P e1 X). lia. }
  clearbody e. destruct e as [p bp]. cbn [fst snd] in K. destruct K as (K1 & K2 & K3).
  destruct (p =? a) eqn:PA.
  { apply Nat.eqb_eq in PA as ->. intros E. left. cbn [ret fst snd] in *. injection E as <- _. auto. }
  apply Nat.eqb_neq in PA. intros E. right.
  assert (NK : ~ kn f a) by (intros X; specialize (K3 a X); lia).
  split; [exact NK|]. split.
  - match type of E with fst (tbind ?m _) = _ => destruct m as [[bo| | |] n]; try discriminate E end.
    cbn [tbind charge ret fst] in E. injection E as <- _. intros x. unfold kn, cache_insert. cbn [byte_cache map fst].
    split.
    + intros [->|[->|X]]; [now right; left|now left|]. right. right.
      apply in_map_iff in X as (e1 & <- & X). apply filter_In in X as [X _]. now apply in_map.
    + intros [->|[->|X]]; [now right; left|now left|]. right. right.
      apply in_map_iff in X as (e1 & <- & X). apply in_map. apply filter_In. split; [exact X|].
      apply negb_true_iff, Nat.eqb_neq. intros Y. apply NK. right. rewrite <- Y. now apply in_map.
  - intros x X.
    assert (FW : forall c, c <= a - p -> forall r, snd (let! rest := work 0 (slice_from (source_text f) bp) in
        let! r := t_nth (indices 0 rest) (a - p) in
        match r with
        | Some i => ret (bp + i)
        | None => ret (str_len (source_text f))
        end) = r -> r <= 1 + (a - p)).
    { intros _ _ r <-. replace (1 + (a - p)) with (0 + ((a - p + 1) + 0)) by lia. apply snd_tbind; [cbn; lia|].
      intros rest. apply snd_tbind; [apply t_nth_cost|]. intros [i|]; cbn; lia. }
    specialize (FW 0 ltac:(lia) _ eq_refl).
    assert (G : forall n, snd (match first_at_least (byte_cache f) a with
        | Some (q, bq) =>
            if q - a <? a - p then
              if q <? a + 1 then panic
              else
                let! before := work 0 (slice_to (source_text f) bq) in
                let! r := t_nth (rev (indices 0 before)) (q - a - 1) in
                work 0 (unwrap r)
            else let! rest := work 0 (slice_from (source_text f) bp) in
        let! r := t_nth (indices 0 rest) (a - p) in
        match r with
        | Some i => ret (bp + i)
        | None => ret (str_len (source_text f))
        end
        | None => let! rest := work 0 (slice_from (source_text f) bp) in
        let! r := t_nth (indices 0 rest) (a - p) in
        match r with
        | Some i => ret (bp + i)
        | None => ret (str_len (source_text f))
        end
        end) = n -> n <= 1 + distance a x).
    { intros n <-. unfold distance. destruct (first_at_least (byte_cache f) a) as [[q bq]|].
      - cbn [fst] in Q, Q1. assert (XX : x <= p \/ q <= x).
        { destruct (Nat.le_gt_cases x a) as [Y|Y]; [left; auto|right].
          destruct X as [->|X]; [lia|]. apply in_map_iff in X as (e1 & <- & X). apply (Q e1 X). lia. }
        assert (q <> a) by (intros ->; apply NK; right; apply in_map_iff; exists (a, bq); tauto).
        destruct (q - a <? a - p) eqn:C.
        + replace (q <? a + 1) with false by lia.
          apply Nat.le_trans with (0 + ((q - a - 1 + 1) + 0)); [|lia]. apply snd_tbind; [cbn; lia|].
          intros before. apply snd_tbind; [apply t_nth_cost|]. intros r. cbn; lia.
        + eapply Nat.le_trans; [exact FW|]. lia.
      - assert (x <= p).
        { destruct (Nat.le_gt_cases x a) as [Y|Y]; [auto|].
          destruct X as [->|X]; [lia|]. apply in_map_iff in X as (e1 & <- & X). specialize (Q e1 X). lia. }
        eapply Nat.le_trans; [exact FW|]. lia. }
    specialize (G _ eq_refl). rewrite <- (Nat.add_0_r (1 + distance a x)). apply snd_tbind; [exact G|].
    intros bo. cbn. lia.
Qed.

(** ** What a text may still cost *)
Definition phi (n : nat) : nat := n * Nat.log2 n.
Lemma phi_split a b : phi a + phi b + Nat.min a b <= phi (a + b).
Proof.
  assert (H : forall a b, a <= b -> phi a + phi b + a <= phi (a + b)).
  { clear. intros a b L. unfold phi. destruct a as [|a']; [cbn; lia|]. remember (S a') as a eqn:Ea.
    assert (Nat.log2 a + 1 <= Nat.log2 (a + b)).
    { replace (Nat.log2 a + 1) with (Nat.log2 (2 * a)) by (rewrite Nat.log2_double by lia; lia). apply Nat.log2_le_mono. lia. }
    assert (Nat.log2 b <= Nat.log2 (a + b)) by (apply Nat.log2_le_mono; lia). nia. }
  destruct (Nat.le_ge_cases a b) as [L|L].
  - rewrite Nat.min_l by lia. auto.
  - rewrite Nat.min_r by lia. rewrite (Nat.add_comm a b). specialize (H b a L). lia.
Qed.
Section Gaps.
Variable len : nat.
Fixpoint up (p : nat) (l : list nat) : Prop :=
  match l with [] => p <= len | x :: l => p <= x /\ up x l end.
Fixpoint psi (p : nat) (l : list nat) : nat :=
  match l with [] => phi (len - p) + (len - p) | x :: l => phi (x - p) + psi x l end.
Fixpoint insert (c : nat) (l : list nat) : list nat :=
  match l with [] => [c] | x :: l => if c <=? x then c :: x :: l else x :: insert c l end.
Lemma insert_in c l x : In x (insert c l) <-> x = c \/ In x l.
Proof.
  induction l as [|y l IH]; cbn; [intuition|]. destruct (c <=? y); cbn; [intuition|]. rewrite IH. intuition.
Qed.
Lemma insert_up c l : forall p, up p l -> p <= c -> c <= len -> up p (insert c l).
Proof.
  induction l as [|y l IH]; intros p H P C; cbn [insert up] in *; [auto|]. destruct (c <=? y) eqn:E; cbn [up].
  - intuition lia.
  - split; [lia|]. apply IH; [tauto|lia|lia].
Qed.
Lemma insert_psi c l n : forall p, up p l -> p <= c -> c <= len ->
  (forall x, x = p \/ In x l -> n <= distance c x) -> n + psi p (insert c l) <= psi p l.
Proof.
  induction l as [|y l IH]; intros p H P C N; cbn [insert up psi] in *.
  - specialize (N p (or_introl eq_refl)). unfold distance in N. pose proof (phi_split (c - p) (len - c)) as Q.
    replace (c - p + (len - c)) with (len - p) in Q by lia. lia.
  - destruct (c <=? y) eqn:E; cbn [psi].
    + pose proof (N p (or_introl eq_refl)) as N1. pose proof (N y (or_intror (or_introl eq_refl))) as N2.
      unfold distance in *. pose proof (phi_split (c - p) (y - c)) as Q.
      replace (c - p + (y - c)) with (y - p) in Q by lia. lia.
    + assert (n + psi y (insert c l) <= psi y l); [|lia]. apply IH; [tauto|lia|lia|].
      intros x [->|X]; apply N; cbn; auto.
Qed.
End Gaps.

Definition credit (t : str) (f : file) (n : nat) : Prop :=
  exists l, up (length t) 0 l /\ (forall x, kn f x <-> x = 0 \/ In x l) /\ psi (length t) 0 l <= n.
Lemma credit_fresh t f : byte_cache f = [] -> credit t f (allowance t).
Proof.
  intros E. exists []. split; [cbn; lia|]. split.
  - unfold kn. rewrite E. reflexivity.
  - cbn. unfold allowance, phi. rewrite Nat.sub_0_r. lia.
Qed.
Lemma t_byte_credit b t f a n : file_ok b t f -> a <= length t -> credit t f n ->
  exists f' c n', t_byte f (b + N.of_nat a) = (Ok (f', str_len (firstn a t)), c) /\ file_ok b t f' /\ credit t f' n' /\ c + n' <= n + 1.
Proof.
  intros F A (l & L1 & L2 & L3). destruct (t_byte_cost b t f a F A) as (f' & E & F' & [(K & -> & Z)|(K & K1 & K2)]).
  - exists f, 0, n. rewrite Z in E. split; [exact E|]. split; [exact F'|]. split; [now exists l|lia].
  - set (c := snd (t_byte f (b + N.of_nat a))) in *. exists f', c, (n - (c - 1)). split; [exact E|]. split; [exact F'|].
    assert (P : c - 1 + psi (length t) 0 (insert a l) <= psi (length t) 0 l).
    { apply insert_psi; [exact L1|lia|exact A|]. intros x X. specialize (K2 x (proj2 (L2 x) X)). lia. }
    split; [|lia]. exists (insert a l). split; [apply insert_up; [exact L1|lia|exact A]|]. split; [|lia].
    intros x. rewrite K1, insert_in, L2. intuition.
Qed.
(** ** Both ends *)
Lemma t_byte_range_credit b t f x y n : file_ok b t f -> x <= length t -> y <= length t -> credit t f n ->
  exists f' r c n', t_byte_range f (mkspan (b + N.of_nat x) (b + N.of_nat y)) = (Ok (f', r), c) /\ file_ok b t f' /\ credit t f' n' /\ c + n' <= n + 2.
Proof.
  intros F X Y C. destruct (t_byte_credit b t f x n F X C) as (f1 & c1 & n1 & E1 & F1 & C1 & L1).
  destruct (t_byte_credit b t f1 y n1 F1 Y C1) as (f2 & c2 & n2 & E2 & F2 & C2 & L2).
  unfold t_byte_range. cbn [lo hi]. rewrite E1. cbn [tbind]. rewrite E2. cbn [tbind charge ret fst snd].
  eexists f2, _, (c1 + (c2 + 0)), n2. split; [reflexivity|]. split; [exact F2|]. split; [exact C2|]. lia.
Qed.

(** ** The whole map *)
Fixpoint credits (ts : list str) (m : source_map) (n : nat) : Prop :=
  match ts, m with
  | [], [] => True
  | t :: ts, f :: m => exists a b, credit t f a /\ credits ts m b /\ a + b <= n
  | _, _ => False
  end.
Lemma credits_nth ts m n i t f : credits ts m n -> nth_error ts i = Some t -> nth_error m i = Some f ->
  exists a b, credit t f a /\ a + b <= n /\ forall f' a', credit t f' a' -> credits ts (update m i f') (a' + b).
Proof.
  revert m n i. induction ts as [|u ts IH]; intros [|g m] n [|i] C T F; cbn [nth_error credits update] in *; try discriminate; try easy.
  - injection T as ->. injection F as ->. destruct C as (a & b & C1 & C2 & L). exists a, b. split; [exact C1|]. split; [exact L|].
    intros f' a' C'. exists a', b. auto.
  - destruct C as (a & b & C1 & C2 & L). destruct (IH m b i C2 T F) as (a1 & b1 & D1 & D2 & D3).
    exists a1, (a + b1). split; [exact D1|]. split; [lia|]. intros f' a' C'. exists a, (a' + b1). split; [exact C1|].
    split; [auto|lia].
Qed.
Lemma credits_app ts m n t f a : credits ts m n -> credit t f a -> credits (ts ++ [t]) (m ++ [f]) (n + a).
Proof.
  revert m n. induction ts as [|u ts IH]; intros [|g m] n C D; cbn [app credits] in *; try easy.
  - exists a, 0. split; [exact D|]. split; [exact I|lia].
  - destruct C as (x & y & C1 & C2 & L). exists x, (y + a). split; [exact C1|]. split; [auto|lia].
Qed.
Lemma credits_more ts m n n' : credits ts m n -> n <= n' -> credits ts m n'.
Proof. destruct ts, m; cbn; auto. intros (a & b & A & B & L) L'. exists a, b. split; [exact A|]. split; [exact B|lia]. Qed.

Section Histories.
Context {S : std_search} (HS : search_ok S) {U : unicode}.

Lemma t_with_file_credit {A} ts m p t n (k : file -> timed (file * A)) : files_ok 0 ts m -> valid_place ts p ->
  nth_error ts (pfile p) = Some t -> credits ts m n ->
  (forall f a, file_ok (start_of ts (pfile p)) t f -> credit t f a -> exists f' r c a', k f = (Ok (f', r), c) /\
    file_ok (start_of ts (pfile p)) t f' /\ credit t f' a' /\ c + a' <= a + 2) ->
  exists m' r c n', t_with_file m (span_at ts p) k = (Ok (m', r), c) /\ credits ts m' n' /\ c + n' <= n + 2.
Proof using HS.
  intros F P T C K. unfold t_with_file. rewrite (find_ok HS ts m p F P). cbn [tbind work].
  destruct (files_ok_nth 0 ts m _ t F T) as (f & Nf & Ff). rewrite Nf. cbn [unwrap tbind].
  destruct (credits_nth ts m n _ t f C T Nf) as (a & b & C1 & C2 & C3).
  destruct (K f a Ff C1) as (f' & r & c & a' & E & F' & C' & L). rewrite E. cbn [tbind charge ret fst snd].
  eexists _, r, (0 + (0 + (c + 0))), (a' + b). split; [reflexivity|]. split; [apply C3, C'|]. lia.
Qed.
Lemma t_range_credit ts m p n : files_ok 0 ts m -> nth_error ts 0 = Some [] -> valid_place ts p -> credits ts m n ->
  exists m' r c n', t_span_byte_range m (span_at ts p) = (Ok (m', r), c) /\ credits ts m' n' /\ c + n' <= n + 2.
Proof using HS.
  intros F Z P C. unfold t_span_byte_range. destruct (is_call_site _).
  - exists m, (0, 0), 0, n. split; [reflexivity|]. split; [exact C|lia].
  - destruct P as (t & T & P1 & P2). eapply (t_with_file_credit ts m p t n); [exact F|now exists t|exact T|exact C|].
    intros f a Ff Cf. apply t_byte_range_credit; [exact Ff|lia|lia|exact Cf].
Qed.
Lemma t_text_credit ts m p n : files_ok 0 ts m -> nth_error ts 0 = Some [] -> valid_place ts p -> credits ts m n ->
  exists m' r c n', t_span_source_text m (span_at ts p) = (Ok (m', r), c) /\ credits ts m' n' /\ c + n' <= n + 2.
Proof using HS.
  intros F Z P C. unfold t_span_source_text. destruct (is_call_site _).
  - exists m, None, 0, n. split; [reflexivity|]. split; [exact C|lia].
  - assert (exists m' r c n', t_with_file m (span_at ts p) (fun f => t_file_source_text f (span_at ts p)) = (Ok (m', r), c) /\
      credits ts m' n' /\ c + n' <= n + 2) as (m' & r & c & n' & E & C' & L).
    { destruct P as (t & T & P1 & P2). eapply (t_with_file_credit ts m p t n); [exact F|now exists t|exact T|exact C|].
      intros f a Ff Cf. destruct (t_byte_range_credit _ t f (pfrom p) (pto p) a Ff ltac:(lia) ltac:(lia) Cf) as (f' & r & c & n' & E & F' & C' & L).
      pose proof (t_file_source_text_same f (span_at ts p)) as Y.
      destruct (source_text_ok _ t f (pfrom p) (pto p) Ff P1 P2) as (f2 & Y2 & _).
      change (mkspan _ _) with (span_at ts p) in Y2. rewrite Y2 in Y. unfold t_file_source_text in *.
      change (mkspan _ _) with (span_at ts p) in E. rewrite E in *. cbn [tbind] in *. destruct r as [a1 b1].
      destruct (slice (source_text f') a1 b1) as [x| | |]; try discriminate Y. cbn [tbind work charge ret fst snd].
      exists f', x, (c + (0 + 0)), n'. split; [reflexivity|]. split; [exact F'|]. split; [exact C'|lia]. }
    rewrite E. cbn [tbind charge ret fst snd]. exists m', (Some r), (c + 0), n'. split; [reflexivity|]. split; [exact C'|lia].
Qed.
Definition op_budget (o : op) : nat := match o with OParse src | OLiteral src => allowance src | _ => 0 end.
Definition op_query (o : op) : nat := if is_query o then 2 else 0.
Lemma budget_cons o os : budget (o :: os) = op_budget o + budget os.
Proof. now destruct o. Qed.
Lemma queries_cons o os : 2 * queries (o :: os) = op_query o + 2 * queries os.
Proof. unfold queries, op_query. cbn [filter]. destruct (is_query o); cbn [length]; lia. Qed.
Lemma snd_step st s o n st' x : related st s -> credits (texts s) (smap st) n -> step st o = Ok (st', x) ->
  exists n', credits (texts (fst (spec_step s o))) (smap st') n' /\ snd (t_step st o) + n' <= n + op_budget o + op_query o.
Proof using HS.
  intros R C E. pose proof R as [R1 R2 R3 R4 R5].
  assert (Keep : forall s', texts s' = texts s -> smap st' = smap st -> snd (t_step st o) = 0 ->
    exists n', credits (texts s') (smap st') n' /\ snd (t_step st o) + n' <= n + op_budget o + op_query o).
  { intros s' -> -> ->. exists n. split; [exact C|lia]. }
  assert (Pool : forall i sp, nth_error (pool st) i = Some sp -> exists p, nth_error (places s) i = Some p /\ sp = span_at (texts s) p /\ valid_place (texts s) p).
  { intros i sp N. rewrite R4, nth_error_map in N. destruct (nth_error (places s) i) as [p|] eqn:Np; [|discriminate].
    injection N as <-. exists p. split; [reflexivity|]. split; [reflexivity|].
    rewrite Forall_forall in R5. apply R5. eapply nth_error_In, Np. }
  assert (Add : forall src m sp, add_file (smap st) src = Ok (m, sp) -> credits (texts s ++ [src]) m (n + allowance src)).
  { intros src m sp A. unfold add_file in A. destruct (lines_offsets src) as [len ls].
    destruct (next_start_pos (smap st)) as [l| | |]; try discriminate A. cbn [bind] in A.
    destruct (add_u32 l _) as [h| | |]; try discriminate A. cbn [bind] in A. injection A as <- _.
    apply credits_app; [exact C|]. now apply credit_fresh. }
  destruct o; cbn [step op_budget op_query is_query] in *.
  - unfold parse in E. destruct (add_file (smap st) src) as [[m sp]| | |] eqn:A; try discriminate E. cbn [bind] in E.
    destruct (token_stream_from_str _ _) as [l| | |]; try discriminate E. cbn [bind] in E. injection E as <- _.
    exists (n + allowance src). split; [exact (Add _ _ _ A)|]. cbn. lia.
  - unfold parse_literal in E. destruct (add_file (smap st) src) as [[m sp]| | |] eqn:A; try discriminate E. cbn [bind] in E.
    destruct (literal_from_str _ _) as [l| | |]; try discriminate E. cbn [bind] in E. injection E as <- _.
    exists (n + allowance src). split; [exact (Add _ _ _ A)|]. cbn. lia.
  - injection E as <- _. now apply Keep.
  - apply Keep; [|unfold on in E|reflexivity].
    + cbn [spec_step]. unfold spec_on. destruct (nth_error (places s) i) as [p|]; [|reflexivity].
      destruct (nth_error (places s) j) as [q|]; [|reflexivity]. unfold spec_made. now destruct (join_place p q).
    + destruct (nth_error (pool st) i) as [a|]; [|now injection E as <- _].
      destruct (nth_error (pool st) j) as [b|]; [|now injection E as <- _].
      destruct (span_join (smap st) a b) as [r| | |]; try discriminate E. cbn [bind] in E. unfold made in E. destruct r; now injection E as <- _.
  - apply Keep; [|unfold on in E|reflexivity].
    + cbn [spec_step]. unfold spec_on. destruct (nth_error (places s) i) as [p|]; [|reflexivity].
      unfold spec_made. now destruct (sub_place p start fin).
    + destruct (nth_error (pool st) i) as [a|]; [|now injection E as <- _]. unfold made in E. destruct (subspan a start fin); now injection E as <- _.
  - apply Keep; [|unfold on in E|reflexivity].
    + cbn [spec_step]. unfold spec_on. now destruct (nth_error (places s) i) as [p|].
    + destruct (nth_error (pool st) i) as [a|]; now injection E as <- _.
  - apply Keep; [|unfold on in E|reflexivity].
    + cbn [spec_step]. unfold spec_on. now destruct (nth_error (places s) i) as [p|].
    + destruct (nth_error (pool st) i) as [a|]; now injection E as <- _.
  - apply Keep; [|unfold on in E|reflexivity].
    + cbn [spec_step]. unfold spec_on. now destruct (nth_error (places s) i) as [p|].
    + destruct (nth_error (pool st) i) as [a|]; [|now injection E as <- _].
      destruct (span_start (smap st) a) as [r| | |]; try discriminate E. now injection E as <- _.
  - apply Keep; [|unfold on in E|reflexivity].
    + cbn [spec_step]. unfold spec_on. now destruct (nth_error (places s) i) as [p|].
    + destruct (nth_error (pool st) i) as [a|]; [|now injection E as <- _].
      destruct (span_end (smap st) a) as [r| | |]; try discriminate E. now injection E as <- _.
  - clear Keep. replace (texts (fst (spec_step s (ORange i)))) with (texts s)
      by (cbn [spec_step]; unfold spec_on; now destruct (nth_error (places s) i)).
    cbn [t_step]. unfold t_on, on in *. destruct (nth_error (pool st) i) as [a|] eqn:N.
    + destruct (Pool i a N) as (p & _ & -> & V). destruct (t_range_credit (texts s) (smap st) p n R1 R3 V C) as (m' & r & c & n' & T & C' & L).
      rewrite <- t_span_byte_range_same, T in E. cbn [fst bind] in E. injection E as <- _. rewrite T. cbn.
      exists n'. split; [exact C'|lia].
    + injection E as <- _. exists n. split; [exact C|cbn; lia].
  - clear Keep. replace (texts (fst (spec_step s (OText i)))) with (texts s)
      by (cbn [spec_step]; unfold spec_on; now destruct (nth_error (places s) i)).
    cbn [t_step]. unfold t_on, on in *. destruct (nth_error (pool st) i) as [a|] eqn:N.
    + destruct (Pool i a N) as (p & _ & -> & V). destruct (t_text_credit (texts s) (smap st) p n R1 R3 V C) as (m' & r & c & n' & T & C' & L).
      rewrite <- t_span_source_text_same, T in E. cbn [fst bind] in E. injection E as <- _. rewrite T. cbn.
      exists n'. split; [exact C'|lia].
    + injection E as <- _. exists n. split; [exact C|cbn; lia].
  - apply Keep; [|unfold on in E|reflexivity].
    + cbn [spec_step]. unfold spec_on. now destruct (nth_error (places s) i) as [p|].
    + destruct (nth_error (pool st) i) as [a|]; [|now injection E as <- _].
      destruct (span_file (smap st) a) as [r| | |]; try discriminate E. now injection E as <- _.
  - injection E as <- _. cbn [spec_step fst texts smap t_step work snd]. exists n. split; [|lia].
    unfold invalidate. destruct (texts s) as [|t ts]; [discriminate R3|]. injection R3 as ->.
    destruct (smap st) as [|f m]; [destruct C|]. destruct C as (a & b & C1 & _ & L). cbn. exists a, 0. split; [exact C1|]. split; [exact I|lia].
Qed.
Lemma run_cost os : forall st s n, related st s -> room (total (texts s)) os -> credits (texts s) (smap st) n ->
  snd (t_run st os) <= n + budget os + 2 * queries os.
Proof using HS.
  induction os as [|o os IH]; intros st s n R Room C; [cbn; lia|].
  destruct (room_cons _ _ _ Room (rel_fit _ _ R)) as [Hu Room'].
  destruct (step_ok HS st s o R Hu) as (st' & x & E & Hx & R' & Htot).
  destruct (snd_step st s o n st' x R C E) as (n' & C' & L).
  rewrite budget_cons, queries_cons. cbn [t_run].
  rewrite <- t_step_same in E. destruct (t_step st o) as [r c]. cbn [fst snd] in *. subst r. cbn [tbind].
  rewrite <- Htot in Room'. specialize (IH st' _ n' R' Room' C').
  destruct (t_run st' os) as [[[st'' xs]| | |] d]; cbn [tbind charge ret fst snd] in *; lia.
Qed.
Lemma any_order os : room 1 os -> snd (t_run initial os) <= budget os + 2 * queries os.
Proof using HS.
  intros R. apply (run_cost os initial spec_initial 0 related_initial R).
  cbn [credits texts spec_initial smap initial fresh_map]. exists 0, 0. split; [|split; [exact I|lia]].
  apply (credit_fresh []). reflexivity.
Qed.

(** ** The way there *)
Lemma distance_sym a b : distance a b = distance b a.
Proof. unfold distance. lia. Qed.
Lemma t_byte_near b t f a x : file_ok b t f -> a <= length t -> kn f x ->
  exists f' c, t_byte f (b + N.of_nat a) = (Ok (f', str_len (firstn a t)), c) /\ file_ok b t f' /\ kn f' a /\
    c <= distance x a + 1.
Proof.
  intros F A X. destruct (t_byte_cost b t f a F A) as (f' & E & F' & [(K & -> & Z)|(K & K1 & K2)]).
  - exists f, 0. rewrite Z in E. split; [exact E|]. split; [exact F'|]. split; [exact K|lia].
  - eexists f', _. split; [exact E|]. split; [exact F'|]. split; [apply K1; now left|]. specialize (K2 x X).
    rewrite distance_sym. lia.
Qed.
Lemma t_byte_range_near b t f z x y : file_ok b t f -> x <= length t -> y <= length t -> kn f z ->
  exists f' r c, t_byte_range f (mkspan (b + N.of_nat x) (b + N.of_nat y)) = (Ok (f', r), c) /\
    file_ok b t f' /\ kn f' y /\ c <= distance z x + distance x y + 2.
Proof.
  intros F X Y K. destruct (t_byte_near b t f x z F X K) as (f1 & c1 & E1 & F1 & K1 & L1).
  destruct (t_byte_near b t f1 y x F1 Y K1) as (f2 & c2 & E2 & F2 & K2 & L2).
  unfold t_byte_range. cbn [lo hi]. rewrite E1. cbn [tbind]. rewrite E2. cbn [tbind charge ret fst snd].
  eexists f2, _, (c1 + (c2 + 0)). split; [reflexivity|]. split; [exact F2|]. split; [exact K2|]. lia.
Qed.
Definition knows (m : source_map) (i x : nat) : Prop := exists f, nth_error m i = Some f /\ kn f x.
Lemma nth_update {A} (l : list A) i x : i < length l -> nth_error (update l i x) i = Some x.
Proof.
  revert i. induction l as [|y l IH]; intros [|i] H; cbn in *; try lia; [reflexivity|]. apply IH. lia.
Qed.
Lemma t_with_file_near {A} ts m p t z (k : file -> timed (file * A)) d : files_ok 0 ts m -> valid_place ts p ->
  nth_error ts (pfile p) = Some t -> knows m (pfile p) z ->
  (forall f, file_ok (start_of ts (pfile p)) t f -> kn f z -> exists f' r c, k f = (Ok (f', r), c) /\
    file_ok (start_of ts (pfile p)) t f' /\ kn f' (pto p) /\ c <= d) ->
  exists m' r c, t_with_file m (span_at ts p) k = (Ok (m', r), c) /\ knows m' (pfile p) (pto p) /\ c <= d.
Proof using HS.
  intros F P T (f & Nf & Kf) K. unfold t_with_file. rewrite (find_ok HS ts m p F P). cbn [tbind work].
  destruct (files_ok_nth 0 ts m _ t F T) as (f0 & Nf0 & Ff). replace f0 with f in * by congruence. rewrite Nf. cbn [unwrap tbind].
  destruct (K f Ff Kf) as (f' & r & c & E & F' & K' & L). rewrite E. cbn [tbind charge ret fst snd].
  eexists _, r, (0 + (0 + (c + 0))). split; [reflexivity|]. split; [|lia]. exists f'. split; [|exact K'].
  apply nth_update. apply nth_error_Some. congruence.
Qed.
Lemma t_range_near ts m p z : files_ok 0 ts m -> nth_error ts 0 = Some [] -> valid_place ts p -> knows m (pfile p) z ->
  exists m' r c, t_span_byte_range m (span_at ts p) = (Ok (m', r), c) /\ knows m' (pfile p) (pto p) /\
    c <= distance z (pfrom p) + distance (pfrom p) (pto p) + 2.
Proof using HS.
  intros F Z P C. unfold t_span_byte_range. rewrite (is_call_site_at ts p Z P). destruct (pfile p =? 0) eqn:I.
  - apply Nat.eqb_eq in I. exists m, (0, 0), 0. split; [reflexivity|]. split; [|lia].
    destruct P as (t & T & P1 & P2). rewrite I in *. replace t with (@nil N) in * by congruence. cbn in P2.
    replace (pto p) with 0 by lia. destruct C as (f & C1 & _). exists f. split; [exact C1|now left].
  - destruct P as (t & T & P1 & P2). eapply (t_with_file_near ts m p t z); [exact F|now exists t|exact T|exact C|].
    intros f Ff Kf. apply t_byte_range_near; [exact Ff|lia|lia|exact Kf].
Qed.
Lemma t_text_near ts m p z : files_ok 0 ts m -> nth_error ts 0 = Some [] -> valid_place ts p -> knows m (pfile p) z ->
  exists m' r c, t_span_source_text m (span_at ts p) = (Ok (m', r), c) /\ knows m' (pfile p) (pto p) /\
    c <= distance z (pfrom p) + distance (pfrom p) (pto p) + 2.
Proof using HS.
  intros F Z P C. unfold t_span_source_text. rewrite (is_call_site_at ts p Z P). destruct (pfile p =? 0) eqn:I.
  - apply Nat.eqb_eq in I. exists m, None, 0. split; [reflexivity|]. split; [|lia].
    destruct P as (t & T & P1 & P2). rewrite I in *. replace t with (@nil N) in * by congruence. cbn in P2.
    replace (pto p) with 0 by lia. destruct C as (f & C1 & _). exists f. split; [exact C1|now left].
  - assert (exists m' r c, t_with_file m (span_at ts p) (fun f => t_file_source_text f (span_at ts p)) = (Ok (m', r), c) /\
      knows m' (pfile p) (pto p) /\ c <= distance z (pfrom p) + distance (pfrom p) (pto p) + 2) as (m' & r & c & E & C' & L).
    { destruct P as (t & T & P1 & P2). eapply (t_with_file_near ts m p t z); [exact F|now exists t|exact T|exact C|].
      intros f Ff Kf. destruct (t_byte_range_near _ t f z (pfrom p) (pto p) Ff ltac:(lia) ltac:(lia) Kf) as (f' & r & c & E & F' & C' & L).
      pose proof (t_file_source_text_same f (span_at ts p)) as Y.
      destruct (source_text_ok _ t f (pfrom p) (pto p) Ff P1 P2) as (f2 & Y2 & _).
      change (mkspan _ _) with (span_at ts p) in Y2. rewrite Y2 in Y. unfold t_file_source_text in *.
      change (mkspan _ _) with (span_at ts p) in E. rewrite E in *. cbn [tbind] in *. destruct r as [a1 b1].
      destruct (slice (source_text f') a1 b1) as [x| | |]; try discriminate Y. cbn [tbind work charge ret fst snd].
      exists f', x, (c + (0 + 0)). split; [reflexivity|]. split; [exact F'|]. split; [exact C'|lia]. }
    rewrite E. cbn [tbind charge ret fst snd]. exists m', (Some r), (c + 0). split; [reflexivity|]. split; [exact C'|lia].
Qed.
Lemma used_query o k u : o = ORange k \/ o = OText k -> used_after u o = u.
Proof. now intros [->| ->]. Qed.
Lemma asks_cost s i os ps : asks s i os ps -> forall st z, related st s -> knows (smap st) i z ->
  snd (t_run st os) <= travel z ps + 2 * length os.
Proof using HS.
  induction 1 as [|o k p os ps O K <- _ IH]; intros st z R N; [cbn; lia|].
  destruct (step_ok HS st s o R) as (st' & x & E & Hx & R' & Htot); [rewrite (used_query o k) by exact O; apply R|].
  assert (Es : fst (spec_step s o) = s).
  { destruct O as [-> | ->]; cbn [spec_step]; unfold spec_on; now rewrite K. }
  rewrite Es in *. pose proof R as [R1 R2 R3 R4 R5].
  assert (Kp : nth_error (pool st) k = Some (span_at (texts s) p)) by (rewrite R4, nth_error_map, K; reflexivity).
  assert (V : valid_place (texts s) p) by (rewrite Forall_forall in R5; apply R5; eapply nth_error_In, K).
  assert (X : knows (smap st') (pfile p) (pto p) /\ snd (t_step st o) <= distance z (pfrom p) + distance (pfrom p) (pto p) + 2).
  { rewrite <- t_step_same in E. destruct O as [-> | ->]; cbn [t_step] in *; unfold t_on in *; rewrite Kp in *.
    - destruct (t_range_near (texts s) (smap st) p z R1 R3 V N) as (m' & r & c & T & C' & L). rewrite T in *.
      cbn in E. injection E as <- _. cbn. split; [exact C'|lia].
    - destruct (t_text_near (texts s) (smap st) p z R1 R3 V N) as (m' & r & c & T & C' & L). rewrite T in *.
      cbn in E. injection E as <- _. cbn. split; [exact C'|lia]. }
  destruct X as [N' L]. specialize (IH st' (pto p) R' N'). cbn [t_run travel length].
  rewrite <- t_step_same in E. destruct (t_step st o) as [r c]. cbn [fst snd] in *. subst r. cbn [tbind].
  destruct (t_run st' os) as [[[st'' xs]| | |] d]; cbn [tbind charge ret fst snd] in *; lia.
Qed.
Lemma by_travel : forall os st s, reached os st s -> forall i qs ps, asks s i qs ps ->
  snd (t_run st qs) <= travel 0 ps + 2 * length qs.
Proof using HS.
  intros os st s R i qs ps A. apply (reached_related HS) in R.
  destruct A as [|o k p qs ps O K I A]; [cbn; lia|].
  eapply (asks_cost s i); [econstructor; eassumption|exact R|].
  pose proof R as [R1 R2 R3 R4 R5]. rewrite Forall_forall in R5. destruct (R5 p (nth_error_In _ _ K)) as (t & T & _).
  rewrite I in T. destruct (files_ok_nth 0 (texts s) (smap st) i t R1 T) as (f & Nf & _). exists f. split; [exact Nf|now left].
Qed.
Lemma travel_sorted len ps : forall z, StronglySorted le ps ->
  Forall (fun x => z <= x /\ x <= len) ps -> z <= len -> travel z ps <= len - z.
Proof.
  induction ps as [|p ps IH]; intros z O F Z; [cbn; lia|]. cbn [travel]. inversion_clear F as [|? ? P Q].
  inversion_clear O as [|? ? O1 O2].
  assert (travel p ps <= len - p); [|unfold distance; lia].
  apply IH; [exact O1|apply Forall_forall; intros x X|lia].
  rewrite Forall_forall in O2, Q. specialize (O2 x X). specialize (Q x X). lia.
Qed.
Lemma in_order : forall os st s, reached os st s -> forall i qs ps t, asks s i qs ps -> nth_error (texts s) i = Some t ->
  StronglySorted le ps -> snd (t_run st qs) <= length t + 2 * length qs.
Proof using HS.
  intros os st s R i qs ps t A T O. pose proof (by_travel os st s R i qs ps A) as L.
  assert (travel 0 ps <= length t - 0); [|lia]. apply travel_sorted; [exact O| |lia].
  apply (reached_related HS) in R. destruct R as [R1 R2 R3 R4 R5]. rewrite Forall_forall in R5. clear - A T R5.
  induction A as [|o k p qs ps O K I A IH]; [constructor|].
  destruct (R5 p (nth_error_In _ _ K)) as (t' & T' & B). rewrite I in T'. replace t' with t in * by congruence.
  constructor; [lia|]. constructor; [lia|]. exact IH.
Qed.
End Histories.
