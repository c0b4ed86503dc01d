(** * Printing call by call. *)
From Verif Require Import Base BaseFacts Unicode Tokens Lexer Fallback SpecText SpecTree SpecPrint PrintProofs Writing SpecWriting.
From Verif Require Import RcSim GroupProofs.
Import ListNotations.

(** The pieces with their depths. *)
Definition trees_pieces (f : nat -> token -> list (nat * str)) (a : nat) : bool -> bool -> list token -> list (nat * str) :=
  fix go (first joint : bool) (ts : list token) :=
    match ts with
    | [] => []
    | t :: ts => (if negb first && negb joint then [(a, [SPACE])] else []) ++ f (S a) t ++ go false (is_joint t) ts
    end.
Fixpoint tree_pieces (a : nat) (t : token) : list (nat * str) :=
  match t with
  | TGroup d ts _ =>
      (a, open_text d) :: trees_pieces tree_pieces (S a) true false ts
      ++ (match d, ts with Brace, _ :: _ => [(a, [SPACE])] | _, _ => [] end) ++ [(a, close_text d)]
  | TIdent sym raw _ => (if raw then [(a, tag "r#")] else []) ++ [(a, sym)]
  | TPunct c _ _ => [(a, [c])]
  | TLiteral repr _ => [(a, repr)]
  end.

Fixpoint feed_at {W} (write : nat -> W -> str -> W * bool) (w : W) (ps : list (nat * str)) : W * bool :=
  match ps with
  | [] => (w, true)
  | (a, p) :: ps => and_then (write a w p) (fun w => feed_at write w ps)
  end.
Lemma feed_at_app {W} (write : nat -> W -> str -> W * bool) x y : forall w,
  feed_at write w (x ++ y) = and_then (feed_at write w x) (fun w => feed_at write w y).
Proof.
  induction x as [|[a p] x IH]; intro w; [reflexivity|]. cbn [app feed_at]. unfold and_then at 1 3.
  destruct (write a w p) as [w' [|]]; cbn [fst snd]; [apply IH|reflexivity].
Qed.
Lemma and_then_ext {W} (r : W * bool) k k' : (forall w, k w = k' w) -> and_then r k = and_then r k'.
Proof. intro H. unfold and_then. destruct (snd r); [apply H|reflexivity]. Qed.
Lemma and_then_ret {W} (r : W * bool) : and_then r (fun w => (w, true)) = r.
Proof. destruct r as [w [|]]; reflexivity. Qed.
Lemma feed_at_one {W} (write : nat -> W -> str -> W * bool) w a p : feed_at write w [(a, p)] = write a w p.
Proof. apply and_then_ret. Qed.

Section Writer.
Context {W : Type} (write : nat -> W -> str -> W * bool).
Lemma fmt_trees_feed ts : Forall (fun t => forall a w, fmt_tree write a t w = feed_at write w (tree_pieces a t)) ts ->
  forall a first joint w, fmt_trees write (fmt_tree write) a first joint ts w = feed_at write w (trees_pieces tree_pieces a first joint ts).
Proof.
  induction 1 as [|t ts Ht _ IH]; intros a first joint w; [reflexivity|].
  cbn [fmt_trees trees_pieces]. rewrite !feed_at_app.
  destruct (negb first && negb joint); [rewrite feed_at_one|change (feed_at write w []) with (w, true)]; apply and_then_ext; intro w1;
    rewrite Ht, feed_at_app; apply and_then_ext; intro w2; apply IH.
Qed.
Lemma fmt_tree_feed t : forall a w, fmt_tree write a t w = feed_at write w (tree_pieces a t).
Proof.
  induction t as [d ts sp IH|s r sp|c s sp|r sp] using token_ind'; intros a w.
  - cbn [fmt_tree tree_pieces feed_at]. apply and_then_ext. intro w1. rewrite feed_at_app.
    rewrite (fmt_trees_feed ts IH). apply and_then_ext. intro w2. rewrite feed_at_app.
    replace (feed_at write w2 (match d, ts with Brace, _ :: _ => [(a, [SPACE])] | _, _ => [] end))
      with (match d, ts with Brace, _ :: _ => write a w2 [SPACE] | _, _ => (w2, true) end)
      by (destruct d, ts; rewrite ?feed_at_one; reflexivity).
    apply and_then_ext. intro w3. now rewrite feed_at_one.
  - cbn [fmt_tree tree_pieces]. rewrite feed_at_app. destruct r; [rewrite feed_at_one|change (feed_at write w []) with (w, true)];
      apply and_then_ext; intro; now rewrite feed_at_one.
  - exact (eq_sym (feed_at_one write w a [c])).
  - exact (eq_sym (feed_at_one write w a r)).
Qed.
Definition stream_pieces (ts : list token) := trees_pieces tree_pieces 1 true false ts.
Lemma fmt_stream_feed ts w : fmt_stream write ts w = feed_at write w (stream_pieces ts).
Proof. apply fmt_trees_feed. apply Forall_forall. intros t _. apply fmt_tree_feed. Qed.
End Writer.

(** ** The text *)
Definition text (ps : list (nat * str)) : str := concat (map snd ps).
Lemma text_app x y : text (x ++ y) = text x ++ text y.
Proof. unfold text. now rewrite map_app, concat_app. Qed.
Lemma trees_pieces_text ts : Forall (fun t => forall a, text (tree_pieces a t) = tree_to_string t) ts ->
  forall a first joint, text (trees_pieces tree_pieces a first joint ts) = print_trees tree_to_string first joint ts.
Proof.
  induction 1 as [|t ts Ht _ IH]; intros a first joint; [reflexivity|].
  cbn [trees_pieces print_trees]. rewrite !text_app, Ht, IH. now destruct (negb first && negb joint).
Qed.
Lemma tree_pieces_text t : forall a, text (tree_pieces a t) = tree_to_string t.
Proof.
  induction t as [d ts sp IH|s r sp|c s sp|r sp] using token_ind'; intros a.
  - cbn [tree_pieces tree_to_string].
    change (text ((a, open_text d) :: ?x)) with (open_text d ++ text x).
    rewrite !text_app, (trees_pieces_text ts IH). do 2 f_equal.
    destruct d; try (destruct ts); cbn; now rewrite ?app_nil_r.
  - cbn [tree_pieces tree_to_string]. unfold ident_to_string. destruct r; unfold text; cbn [app map concat snd]; now rewrite !app_nil_r.
  - reflexivity.
  - unfold text. cbn. apply app_nil_r.
Qed.
Lemma stream_pieces_text ts : text (stream_pieces ts) = stream_to_string ts.
Proof. apply trees_pieces_text. apply Forall_forall. intros t _. apply tree_pieces_text. Qed.

Lemma feed_at_feed {W} (write : W -> str -> W * bool) ps : forall w, feed_at (fun _ => write) w ps = feed write w (map snd ps).
Proof.
  induction ps as [|[a p] ps IH]; intro w; [reflexivity|]. cbn [feed_at feed map snd]. unfold and_then.
  destruct (write w p) as [w' [|]]; cbn [fst snd]; [apply IH|reflexivity].
Qed.
Lemma pieces_of_text ts : exists pieces, trees_text ts (concat pieces) /\
  forall W (write : W -> str -> W * bool) w, fmt_stream (fun _ => write) ts w = feed write w pieces.
Proof.
  exists (map snd (stream_pieces ts)). split.
  - apply trees_text_spec. symmetry. apply stream_pieces_text.
  - intros W write w. rewrite fmt_stream_feed. apply feed_at_feed.
Qed.

Lemma buffer_feed n ps : forall w, (strlen w <= n)%N ->
  exists x y, text ps = x ++ y /\ fst (feed_at (buffer n) w ps) = w ++ x /\
    (snd (feed_at (buffer n) w ps) = true -> y = []) /\
    (snd (feed_at (buffer n) w ps) = true <-> (strlen (w ++ text ps) <= n)%N).
Proof.
  induction ps as [|[a p] ps IH]; intros w Hw.
  - exists [], []. cbn. rewrite app_nil_r. repeat split; auto.
  - cbn [feed_at]. unfold and_then.
    assert (Eb : buffer n a w p = if (strlen (w ++ p) <=? n)%N then (w ++ p, true) else (w, false)) by reflexivity.
    rewrite Eb. clear Eb.
    change (text ((a, p) :: ps)) with (p ++ text ps).
    destruct (N.leb_spec (strlen (w ++ p)) n) as [Hp|Hp]; cbn [fst snd].
    + destruct (IH (w ++ p) Hp) as (x & y & E & H1 & H2 & H3). exists (p ++ x), y.
      rewrite E in *. rewrite <- !app_assoc in *. auto.
    + exists [], (p ++ text ps). rewrite app_nil_r. split; [reflexivity|]. split; [reflexivity|]. split; [discriminate|].
      split; [discriminate|]. intro H. exfalso. revert Hp H. unfold strlen. rewrite !app_length. lia.
Qed.
Lemma stream_in_buffer n ts x : trees_text ts x ->
  exists y z, x = y ++ z /\ fst (fmt_stream (buffer n) ts []) = y /\
    (snd (fmt_stream (buffer n) ts []) = true <-> (strlen x <= n)%N) /\
    (snd (fmt_stream (buffer n) ts []) = true -> z = []).
Proof.
  intro H. apply trees_text_spec in H. subst x. rewrite fmt_stream_feed, <- stream_pieces_text.
  destruct (buffer_feed n (stream_pieces ts) [] ltac:(unfold strlen; cbn; lia)) as (y & z & E & H1 & H2 & H3).
  exists y, z. auto.
Qed.

(** ** The depth *)
Lemma noting_feed ps : forall w, feed_at noting w ps = (rev (map fst ps) ++ w, true).
Proof.
  induction ps as [|[a p] ps IH]; intro w; [reflexivity|]. cbn [feed_at]. unfold and_then, noting at 1 2. cbn [fst snd].
  rewrite IH. cbn [map rev fst]. now rewrite <- app_assoc.
Qed.
Lemma trees_pieces_in ts : forall a first joint t, In t ts -> incl (tree_pieces (S a) t) (trees_pieces tree_pieces a first joint ts).
Proof.
  induction ts as [|u ts IH]; intros a first joint t H x Hx; [destruct H|]. cbn [trees_pieces]. rewrite !in_app_iff.
  destruct H as [->|H]; [auto|]. right. right. now apply (IH a false (is_joint u) t H).
Qed.
Lemma trees_pieces_at ts : forall a first joint x, In x (trees_pieces tree_pieces a first joint ts) ->
  fst x = a \/ exists t, In t ts /\ In x (tree_pieces (S a) t).
Proof.
  induction ts as [|u ts IH]; intros a first joint x H; [destruct H|]. cbn [trees_pieces] in H.
  rewrite !in_app_iff in H. destruct H as [H|[H|H]].
  - left. destruct (negb first && negb joint); [|destruct H]. destruct H as [<-|[]]. reflexivity.
  - right. exists u. split; [now left|exact H].
  - destruct (IH _ _ _ _ H) as [H1|(t & H1 & H2)]; [now left|right]. exists t. split; [now right|exact H2].
Qed.
Lemma list_max_in (l : list nat) n : In n l -> n <= list_max l.
Proof. intro H. assert (Hm := proj1 (list_max_le l (list_max l)) (le_n _)). rewrite Forall_forall in Hm. auto. Qed.
Lemma list_max_attained (l : list nat) : l <> [] -> In (list_max l) l.
Proof.
  induction l as [|n l IH]; intro H; [now destruct H|]. cbn [list_max fold_right]. fold (list_max l).
  destruct l as [|m l]; [left; cbn; lia|]. destruct (Nat.max_spec n (list_max (m :: l))) as [[_ ->]|[_ ->]]; [|now left].
  right. apply IH. discriminate.
Qed.
Lemma tree_pieces_depth t : forall a,
  (forall x, In x (tree_pieces a t) -> fst x <= a + 2 * tree_nesting t) /\
  (exists x, In x (tree_pieces a t) /\ a + 2 * tree_nesting t <= S (S (fst x))).
Proof.
  induction t as [d ts sp IH|s r sp|c s sp|r sp] using token_ind'; intros a.
  - rewrite Forall_forall in IH. cbn [tree_nesting tree_pieces]. split.
    + intros x [<-|H]; [cbn [fst]; lia|]. rewrite !in_app_iff in H. destruct H as [H|[H|H]].
      * destruct (trees_pieces_at _ _ _ _ _ H) as [->|(t & Ht & Hx)]; [lia|].
        apply (IH t Ht) in Hx. assert (Hm := list_max_in (map tree_nesting ts) (tree_nesting t) (in_map _ _ _ Ht)). lia.
      * assert (fst x = a); [|lia]. destruct d, ts; cbn [In] in H; destruct H as [<-|H] || destruct H; reflexivity || destruct H.
      * destruct H as [<-|[]]. cbn [fst]. lia.
    + destruct (map tree_nesting ts) as [|n l] eqn:E.
      * exists (a, open_text d). split; [now left|]. cbn. lia.
      * assert (Hm := list_max_attained (n :: l) ltac:(discriminate)). rewrite <- E in Hm.
        apply in_map_iff in Hm. destruct Hm as (t & Et & Ht).
        destruct (IH t Ht (S (S a))) as [_ (x & Hx & Hd)]. exists x. split; [|rewrite <- E; lia].
        right. apply in_app_iff. left. now apply (trees_pieces_in ts (S a) true false t Ht).
  - cbn [tree_nesting tree_pieces]. split.
    + intros x H. assert (fst x = a); [|lia]. destruct r; cbn [app In] in H.
      * destruct H as [<-|[<-|[]]]; reflexivity.
      * destruct H as [<-|[]]; reflexivity.
    + exists (a, s). split; [apply in_app_iff; right; now left|cbn [fst]; lia].
  - split; [intros x [<-|[]]; cbn; lia|]. exists (a, [c]). split; [now left|cbn [fst tree_nesting]; lia].
  - split; [intros x [<-|[]]; cbn; lia|]. exists (a, r). split; [now left|cbn [fst tree_nesting]; lia].
Qed.
Lemma stream_depth ts :
  Forall (fun d => d <= 2 * nesting ts + 2) (fst (fmt_stream noting ts [])) /\
  (ts <> [] -> Exists (fun d => 2 * nesting ts <= d) (fst (fmt_stream noting ts []))).
Proof.
  rewrite fmt_stream_feed, noting_feed, app_nil_r. cbn [fst]. rewrite Forall_forall, Exists_exists. unfold nesting. split.
  - intros d H. apply in_rev, in_map_iff in H. destruct H as (x & <- & H).
    destruct (trees_pieces_at _ _ _ _ _ H) as [->|(t & Ht & Hx)]; [lia|].
    apply (tree_pieces_depth t 2) in Hx. assert (Hm := list_max_in (map tree_nesting ts) (tree_nesting t) (in_map _ _ _ Ht)). lia.
  - intro Hn. assert (Hm := list_max_attained (map tree_nesting ts) ltac:(destruct ts; [now destruct Hn|discriminate])).
    apply in_map_iff in Hm. destruct Hm as (t & Et & Ht). destruct (tree_pieces_depth t 2) as [_ (x & Hx & Hd)].
    exists (fst x). split; [|lia]. apply in_rev. rewrite rev_involutive. apply in_map.
    now apply (trees_pieces_in ts 1 true false t Ht).
Qed.

(** ** Deep streams come out of the parser *)
Fixpoint deep (n : nat) : str := match n with O => [] | S n => tag "(" ++ deep n ++ LF :: tag ")" end.
Lemma nesting_strip ts : nesting (map strip ts) = nesting ts.
Proof.
  assert (H : forall t, tree_nesting (strip t) = tree_nesting t).
  { induction t as [d us sp IH|s r sp|c s sp|r sp] using token_ind'; try reflexivity.
    cbn [strip tree_nesting]. rewrite map_map. do 2 f_equal. apply map_ext_in. now rewrite <- Forall_forall. }
  unfold nesting. rewrite map_map. f_equal. apply map_ext. apply H.
Qed.
Lemma deep_parsed U : unicode_ok U -> forall n, exists ts, token_stream_from_str 0 (deep n) = Ok (Lexed ts) /\ nesting ts = n.
Proof.
  intros UO. induction n as [|n (inner & Hi & Hn)].
  - exists []. split; reflexivity.
  - destruct (proj2 (from_str_group U UO 0 Parenthesis (deep n) [] inner ltac:(reflexivity) ltac:(discriminate)
      ltac:(destruct n; reflexivity) eq_refl Hi (TGroup Parenthesis (map strip inner) call_site :: []))) as (ts & Ht & Es).
    { exists []. split; reflexivity. }
    exists ts. split; [exact Ht|]. rewrite <- nesting_strip, Es. unfold nesting. cbn [map tree_nesting list_max fold_right].
    fold (nesting (map strip inner)). rewrite nesting_strip, Hn. lia.
Qed.
Lemma deep_printed U : unicode_ok U -> forall n, exists src ts, strlen src = N.of_nat (3 * n) /\
  token_stream_from_str 0 src = Ok (Lexed ts) /\ (n <> 0 -> Exists (fun d => 2 * n <= d) (fst (fmt_stream noting ts []))).
Proof.
  intros UO n. destruct (deep_parsed U UO n) as (ts & Ht & Hn). exists (deep n), ts. split; [|split; [exact Ht|]].
  - unfold strlen. f_equal. clear. induction n as [|n IH]; [reflexivity|]. cbn [deep]. rewrite !app_length, IH. cbn [length app]. lia.
  - intro H0. rewrite <- Hn. apply stream_depth. intros ->. cbn in Hn. congruence.
Qed.
