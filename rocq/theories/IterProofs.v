(** * Proofs about iterators. *)
From Verif Require Import Base BaseFacts Unicode Tokens SpecTree Lexer Wrapper SpecWrapper WrapperProofs WrapIter SpecIter.
Import ListNotations.

Section Iter.
Context {U : unicode} {T : ctypes} {C : compiler} {H : compiler_hint}.
Variable stored : ctree -> list ctree.
Hypothesis L : list_laws stored.

Definition at_mark (it : witer) (m : mark) : Prop :=
  match among m, it with
  | OfCompiler ts, IterC rest => rest = skipn (taken m) ts
  | OfFallback ts, IterF rest => rest = skipn (taken m) ts
  | _, _ => False
  end.
Lemma skip_step {A} n : forall (xs : list A),
  match skipn n xs with
  | [] => nth_error xs n = None /\ skipn (n + 1) xs = []
  | x :: r => nth_error xs n = Some x /\ skipn (n + 1) xs = r
  end.
Proof.
  induction n as [|n IH]; intros [|x xs]; cbn [skipn nth_error Nat.add]; auto.
  apply IH.
Qed.
Lemma skip_length {A} n (xs : list A) : length (skipn n xs) = length xs - n.
Proof. apply skipn_length. Qed.

Lemma start_mark s : exists c, in_stream stored s c /\ at_mark (iter_start s) (mkmark c 0).
Proof.
  destruct s as [s extra|ts].
  - exists (OfCompiler (c_trees s ++ flat_map stored extra)). split; [reflexivity|].
    cbn [iter_start at_mark among taken skipn]. unfold into_token_stream, evaluate.
    destruct extra as [|t extra]; [cbn [flat_map]; now rewrite app_nil_r|]. apply (trees_extend _ L).
  - exists (OfFallback ts). split; reflexivity.
Qed.
Lemma punct_from_gives inside ch s sp :
  gives (CPunct ch s sp) (obind (punct_from inside ch s sp) (fun t => Val (Some t))).
Proof.
  unfold punct_from. change punct_new_chars with punct_chars. destruct (contains punct_chars ch) eqn:E.
  - apply contains_In in E. cbn [obind w_set_span]. now constructor.
  - cbn [obind]. constructor. intros K. apply contains_In in K. congruence.
Qed.
Lemma next_mark inside it m : at_mark it m ->
  answer (among m) (taken m) (fst (iter_next inside it)) /\ at_mark (snd (iter_next inside it)) (mkmark (among m) (taken m + 1)).
Proof.
  destruct m as [[ts|ts] n], it as [r|r]; cbn [at_mark among taken]; try contradiction; intros ->;
    unfold at_mark; cbn [answer among taken]; pose proof (skip_step n ts) as K; destruct (skipn n ts) as [|t r]; destruct K as [-> ->].
  - split; reflexivity.
  - destruct t; cbn [iter_next fst snd]; (split; [|reflexivity]); try constructor. apply punct_from_gives.
  - split; reflexivity.
  - split; reflexivity.
Qed.
Lemma hint_mark it m : truthful H -> at_mark it m -> hinted (among m) (taken m) (iter_hint it).
Proof.
  intros HH. destruct m as [[ts|ts] n], it as [r|r]; cbn [at_mark among taken]; try contradiction; intros ->; unfold hinted; cbn [how_many iter_hint].
  - split; [|exact I]. rewrite <- skip_length. apply HH.
  - rewrite skip_length. split; [|reflexivity]. split; cbn; lia.
Qed.
Lemma split_at {A B} (R : A -> B -> Prop) xs ys i x : Forall2 R xs ys -> nth_error xs i = Some x ->
  exists y a b c d, xs = a ++ x :: b /\ ys = c ++ y :: d /\ R x y /\ Forall2 R a c /\ Forall2 R b d /\ length a = i /\ length c = i.
Proof.
  intros F. revert i. induction F as [|x0 y0 xs ys r F IH]; intros [|i] E; try discriminate E.
  - cbn in E. injection E as ->. exists y0, [], xs, [], ys. auto 10.
  - cbn in E. destruct (IH i E) as (y & a & b & c & d & -> & -> & r' & Fa & Fb & <- & K).
    exists y, (x0 :: a), b, (y0 :: c), d. cbn [app length]. rewrite K. repeat split; auto.
Qed.
Lemma same_length {A B} (R : A -> B -> Prop) xs ys : Forall2 R xs ys -> length xs = length ys.
Proof. induction 1; cbn; auto. Qed.
Lemma put_at {A} (a : list A) x y b : put (a ++ x :: b) (length a) y = a ++ y :: b.
Proof. induction a as [|z a IH]; cbn [app length put]; [reflexivity|now rewrite IH]. Qed.

Lemma history_from (HH : truthful H) os : forall its ms, Forall2 at_mark its ms -> follows stored ms os (iter_run its os).
Proof.
  induction os as [|o os IH]; intros its ms F; [constructor|]. cbn [iter_run].
  assert (Out : forall i, nth_error its i = None -> length ms <= i).
  { intros i E. apply nth_error_None in E. now rewrite <- (same_length _ _ _ F). }
  destruct o as [s|inside i|i|i]; cbn [iter_step].
  - destruct (start_mark s) as (c & K1 & K2). apply follows_start with (c := c); [exact K1|]. apply IH.
    apply Forall2_app; [exact F|auto].
  - destruct (nth_error its i) as [it|] eqn:E; [|apply follows_unmade with (i := i); eauto].
    destruct (split_at _ _ _ _ _ F E) as (m & a & b & c & d & -> & -> & r & Fa & Fb & La & <-).
    destruct (next_mark inside it m r) as [K1 K2]. destruct (iter_next inside it) as [x it']. cbn [fst snd] in *.
    apply follows_next; [exact K1|]. apply IH. rewrite <- La, put_at. apply Forall2_app; [exact Fa|]. now constructor.
  - destruct (nth_error its i) as [it|] eqn:E; [|apply follows_unmade with (i := i); eauto].
    pose proof F as F0. destruct (split_at _ _ _ _ _ F E) as (m & a & b & c & d & -> & -> & r & Fa & Fb & La & <-).
    apply follows_hint; [now apply hint_mark|]. now apply IH.
  - destruct (nth_error its i) as [it|] eqn:E; [|apply follows_unmade with (i := i); eauto].
    pose proof F as F0. destruct (split_at _ _ _ _ _ F E) as (m & a & b & c & d & -> & -> & r & Fa & Fb & La & <-).
    apply follows_clone. apply IH. change (m :: d ++ [m]) with ((m :: d) ++ [m]). rewrite app_assoc. apply Forall2_app; auto.
Qed.
Lemma iter_history (HH : truthful H) os : follows stored [] os (iter_run [] os).
Proof. apply history_from; auto. Qed.

(** ** All trees at once *)
Lemma next_converts inside t rest :
  iter_next inside (IterC (t :: rest)) = (obind (from_compiler_token t) (fun t => Val (Some t)), IterC rest).
Proof.
  destruct t; try reflexivity. cbn [iter_next from_compiler_token]. unfold punct_from.
  destruct (contains punct_new_chars ch); reflexivity.
Qed.
Lemma all_at_once inside s l : into_iter s = Val l <->
  nexts inside (length l + 1) (iter_start s) = map (fun t => Val (Some t)) l ++ [Val None].
Proof.
  destruct s as [s extra|ts]; cbn [into_iter iter_start].
  - generalize (c_trees (into_token_stream s extra)). clear. induction l as [|x l IH]; intros [|t ts]; cbn [length Nat.add nexts map app omap_list].
    + split; reflexivity.
    + rewrite next_converts. destruct (from_compiler_token t); cbn [obind]; [|easy..].
      destruct (omap_list from_compiler_token ts); cbn [obind]; split; intros K; discriminate K.
    + cbn [iter_next]. split; intros K; discriminate K.
    + rewrite next_converts. destruct (from_compiler_token t) as [y| | |]; cbn [obind]; [|easy..].
      destruct (IH ts) as [K1 K2]. split.
      * destruct (omap_list from_compiler_token ts) as [r| | |]; cbn [obind]; intros E; try discriminate E.
        injection E as -> ->. f_equal. now apply K1.
      * intros E. injection E as -> E. rewrite (K2 E). reflexivity.
  - revert ts. induction l as [|x l IH]; intros [|t ts]; cbn [length Nat.add nexts map app iter_next].
    + split; reflexivity.
    + split; intros K; discriminate K.
    + split; intros K; discriminate K.
    + split; intros E; injection E as -> E; [subst; f_equal; now apply IH|]. do 2 f_equal. apply IH in E. now injection E.
Qed.
End Iter.
