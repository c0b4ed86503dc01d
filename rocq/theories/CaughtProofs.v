(** * Proofs about extending from iterators that may panic (C77) *)
From Verif Require Import Base Unicode Tokens Lexer Fallback LitNew Wrapper SpecWrapper WrapperProofs WrapperPartial SpecCaught.
Import ListNotations.

Section Proofs.
Context {U : unicode} {T : ctypes} {C : compiler} {F : fallback_map}.
Variable left : cstream -> list cstream -> cstream.

Lemma into_takes t : (exists c, into_compiler_token t = Val c /\ backing (VTree t) = Some ByCompiler) \/
  (into_compiler_token t = Mismatch /\ backing (VTree t) = Some ByFallback).
Proof using. destruct t as [| |ch s []| | | |]; cbn; eauto. Qed.

Lemma hand_out_stops {A B} (f : A -> outcome B) (takes : A -> Prop) items e :
  (forall a, (exists b, f a = Val b /\ takes a) \/ (f a = Mismatch /\ ~ takes a)) ->
  exists given bs o, hand_out f items e = (bs, o) /\ omap_list f given = Val bs /\ stops takes items e given o.
Proof using.
  intros H. induction items as [|a items (given & bs & o & E & G & K)]; cbn [hand_out].
  - exists [], [], (at_end e). repeat split; [constructor|]. left. split; [reflexivity|now destruct e].
  - destruct (H a) as [(b & Fa & Ta)|[Fa Ta]]; rewrite Fa.
    + rewrite E. exists (a :: given), (b :: bs), o. split; [reflexivity|]. cbn [omap_list]. rewrite Fa, G.
      split; [reflexivity|]. destruct K as [K1 K2]. split; [now constructor|].
      destruct K2 as [[-> ->]|(t & rest & -> & Nt & ->)]; [left; auto|]. right. now exists t, rest.
    + exists [], [], Mismatch. repeat split; [constructor|]. right. now exists a, items.
Qed.
Lemma push_each_hand ts e : forall extra,
  push_each extra ts e = let (cs, o) := hand_out into_compiler_token ts e in (extra ++ cs, o).
Proof using.
  induction ts as [|t ts IH]; intros extra; cbn [push_each hand_out]; [now rewrite app_nil_r|].
  destruct (into_compiler_token t); rewrite ?app_nil_r; try reflexivity.
  rewrite IH. destruct (hand_out into_compiler_token ts e). now rewrite <- app_assoc.
Qed.
Lemma push_streams_hand ss e : forall v,
  push_streams v ss e = let (vs, o) := hand_out unwrap_stable ss e in (v ++ concat vs, o).
Proof using.
  induction ss as [|s ss IH]; intros v; cbn [push_streams hand_out]; [cbn; now rewrite app_nil_r|].
  destruct (unwrap_stable s); cbn [concat]; rewrite ?app_nil_r; try reflexivity.
  rewrite IH. destruct (hand_out unwrap_stable ss e). cbn [concat]. now rewrite app_assoc.
Qed.
Lemma push_wrapped_all ts e : forall v, push_wrapped v ts e = (w_extend v ts, at_end e).
Proof using. induction ts as [|t ts IH]; intros v; cbn; [reflexivity|apply IH]. Qed.

Lemma into_hands a : (exists b, into_compiler_token a = Val b /\ backing (VTree a) = Some ByCompiler) \/
  (into_compiler_token a = Mismatch /\ backing (VTree a) <> Some ByCompiler).
Proof using. destruct (into_takes a) as [H|[E K]]; [now left|right]. now rewrite K. Qed.

(** A stream being extended with trees keeps those given. *)
Theorem trees_left s ts e s' o : extend_trees_from s ts e = (s', o) ->
  exists given, stops (takes_tree s) ts e given o /\ extend_trees s given = Val s'.
Proof using.
  destruct s as [s extra|v]; cbn [extend_trees_from].
  - rewrite push_each_hand.
    destruct (hand_out_stops into_compiler_token (takes_tree (StreamC s extra)) ts e into_hands)
      as (given & bs & o' & E & G & K).
    rewrite E. intros [= <- <-]. exists given. split; [exact K|]. cbn [extend_trees]. now rewrite G.
  - rewrite push_wrapped_all. intros [= <- <-]. exists ts. split; [|reflexivity].
    split; [now apply Forall_forall|left]. now destruct e.
Qed.
Lemma stable_hands (s : list wtree) a : (exists b, unwrap_stable a = Val b /\ takes_stream (StreamF s) a) \/
  (unwrap_stable a = Mismatch /\ ~ takes_stream (StreamF s) a).
Proof using. destruct a; cbn; [right|left]; unfold takes_stream; cbn; [split; [easy|discriminate]|eauto]. Qed.
Lemma nightly_hands s extra a : (exists b, unwrap_nightly a = Val b /\ takes_stream (StreamC s extra) a) \/
  (unwrap_nightly a = Mismatch /\ ~ takes_stream (StreamC s extra) a).
Proof using. destruct a; cbn; [left|right]; unfold takes_stream; cbn; [eauto|split; [easy|discriminate]]. Qed.

Theorem streams_left s ss e s' o : extend_streams_from left s ss e = (s', o) ->
  exists given, stops (takes_stream s) ss e given o /\
    match s with
    | StreamF _ => extend_streams s given = Val s'
    | StreamC c extra =>
        match o with
        | Val _ => extend_streams s given = Val s'
        | _ => exists cs, omap_list unwrap_nightly given = Val cs /\ s' = StreamC (left (evaluate c extra) cs) []
        end
    end.
Proof using.
  destruct s as [s extra|v]; cbn [extend_streams_from].
  - destruct (hand_out_stops unwrap_nightly (takes_stream (StreamC s extra)) ss e (nightly_hands s extra))
      as (given & cs & o' & E & G & K).
    unfold compiler_extend. rewrite E. intros H. exists given.
    destruct o' as [u| | |]; injection H as <- <-; (split; [exact K|]); [cbn [extend_streams]; now rewrite G| | |]; now exists cs.
  - rewrite push_streams_hand.
    destruct (hand_out_stops unwrap_stable (takes_stream (StreamF v)) ss e (stable_hands v))
      as (given & cs & o' & E & G & K).
    rewrite E. intros [= <- <-]. exists given. split; [exact K|]. cbn [extend_streams]. now rewrite G.
Qed.

(** Collecting. *)
Lemma stops_all {A B} (f : A -> outcome B) (takes : A -> Prop) items given e o bs :
  (forall a, (exists b, f a = Val b /\ takes a) \/ (f a = Mismatch /\ ~ takes a)) ->
  omap_list f given = Val bs -> stops takes items e given o ->
  match o with Val _ => e = Finished /\ omap_list f items = Val bs
             | Panics => e = Unwound /\ items = given
             | Mismatch => forall k, obind (omap_list f items) k = (@Mismatch wstream) | Illtyped => False end.
Proof using.
  intros H G [K1 [[-> ->]|(t & rest & -> & Nt & ->)]]; [now destruct e|]. intros k.
  assert (M : omap_list f (given ++ t :: rest) = Mismatch); [|now rewrite M].
  clear K1. revert bs G. induction given as [|a given IH]; intros bs; cbn [omap_list app].
  - intros _. destruct (H t) as [(b & _ & ?)|[-> _]]; [contradiction|reflexivity].
  - destruct (f a); cbn [obind]; try discriminate. destruct (omap_list f given) eqn:Q; try discriminate.
    intros _. now rewrite (IH _ eq_refl).
Qed.
Theorem trees_collected i ts e : from_trees_from i ts e = refuses e (from_trees i ts).
Proof using.
  unfold from_trees_from, from_trees. destruct i.
  - destruct (hand_out_stops into_compiler_token _ ts e into_hands) as (given & bs & o & E & G & K).
    rewrite E. pose proof (stops_all _ _ _ _ _ _ _ into_hands G K) as S. destruct o as [u| | |]; [| | |easy].
    + destruct S as [-> ->]. reflexivity.
    + cbn [obind]. rewrite S. now destruct e.
    + destruct S as [-> ->]. cbn [obind]. now rewrite G.
  - rewrite push_wrapped_all. now destruct e.
Qed.
Theorem streams_collected i ss e : from_streams_from left i ss e = refuses e (from_streams i ss).
Proof using.
  destruct ss as [|[s extra|v] ss]; cbn [from_streams_from from_streams].
  - now destruct e.
  - pose proof (nightly_hands s extra) as NH.
    destruct (hand_out_stops unwrap_nightly _ ss e NH) as (given & bs & o & E & G & K).
    unfold compiler_extend. rewrite E. pose proof (stops_all _ _ _ _ _ _ _ NH G K) as S. destruct o as [u| | |]; [| | |easy].
    + destruct S as [-> ->]. reflexivity.
    + cbn [obind]. rewrite S. now destruct e.
    + destruct S as [-> ->]. cbn [obind]. now rewrite G.
  - pose proof (stable_hands v) as NH. rewrite push_streams_hand.
    destruct (hand_out_stops unwrap_stable _ ss e NH) as (given & bs & o & E & G & K).
    rewrite E. pose proof (stops_all _ _ _ _ _ _ _ NH G K) as S. destruct o as [u| | |]; [| | |easy].
    + destruct S as [-> ->]. reflexivity.
    + cbn [obind]. rewrite S. now destruct e.
    + destruct S as [-> ->]. cbn [obind]. now rewrite G.
Qed.

(** Against the calls that take a whole list. *)
Theorem trees_whole s ts : let (s', o) := extend_trees_from s ts Finished in
  extend_trees s ts = obind o (fun _ => Val s').
Proof using.
  destruct s as [s extra|v]; cbn [extend_trees_from extend_trees].
  - rewrite push_each_hand.
    destruct (hand_out_stops into_compiler_token _ ts Finished into_hands) as (given & bs & o & E & G & K).
    rewrite E. pose proof (stops_all _ _ _ _ _ _ _ into_hands G K) as S. destruct o as [u| | |]; [| | |easy].
    + destruct S as [_ ->]. reflexivity.
    + apply S.
    + now destruct S.
  - now rewrite push_wrapped_all.
Qed.
Theorem streams_whole s ss : let (s', o) := extend_streams_from left s ss Finished in
  extend_streams s ss = obind o (fun _ => Val s').
Proof using.
  destruct s as [s extra|v]; cbn [extend_streams_from extend_streams].
  - pose proof (nightly_hands s extra) as NH.
    destruct (hand_out_stops unwrap_nightly _ ss Finished NH) as (given & bs & o & E & G & K).
    unfold compiler_extend. rewrite E. pose proof (stops_all _ _ _ _ _ _ _ NH G K) as S. destruct o as [u| | |]; [| | |easy].
    + destruct S as [_ ->]. reflexivity.
    + apply S.
    + now destruct S.
  - pose proof (stable_hands v) as NH. rewrite push_streams_hand.
    destruct (hand_out_stops unwrap_stable _ ss Finished NH) as (given & bs & o & E & G & K).
    rewrite E. pose proof (stops_all _ _ _ _ _ _ _ NH G K) as S. destruct o as [u| | |]; [| | |easy].
    + destruct S as [_ ->]. reflexivity.
    + apply S.
    + now destruct S.
Qed.

(** ** Tokens held *)
Section Tokens.
Context (stored : ctree -> list ctree).
Hypothesis L : list_laws stored.
Context (kept : list (list ctree) -> list ctree).
Hypothesis K : left_law left kept.

Theorem trees_held s ts held e s' o : holds stored s held -> extend_trees_from s ts e = (s', o) ->
  exists given cs, stops (takes_tree s) ts e given o /\ Forall2 is_compiler_tree given cs /\
    holds stored s' (held ++ flat_map stored cs).
Proof using L.
  intros H E. destruct (trees_left _ _ _ _ _ E) as (given & S & X). destruct s as [s extra|]; [|destruct H].
  cbn [extend_trees] in X. destruct (omap_list into_compiler_token given) as [cs| | |] eqn:Q; cbn [obind] in X; try discriminate.
  injection X as <-. exists given, cs. split; [exact S|]. split; [now apply into_all|].
  cbn in H |- *. subst held. now rewrite flat_map_app, app_assoc.
Qed.
Theorem streams_held s ss held e s' o : holds stored s held -> extend_streams_from left s ss e = (s', o) ->
  exists given css, stops (takes_stream s) ss e given o /\ Forall2 (holds stored) given css /\
    holds stored s' (held ++ match o with Val _ => concat css | _ => kept css end).
Proof using L K.
  intros H E. destruct (streams_left _ _ _ _ _ E) as (given & S & X). destruct s as [s extra|]; [|destruct H].
  cbn in H. subst held.
  assert (P : forall cs, omap_list unwrap_nightly given = Val cs -> Forall2 (holds stored) given (map c_trees cs))
    by exact (nightly_holds stored L given).
  destruct o as [u| | |]; cbn [extend_streams] in X.
  - destruct (omap_list unwrap_nightly given) as [cs| | |] eqn:Q; cbn [obind] in X; try discriminate.
    injection X as <-. exists given, (map c_trees cs). split; [exact S|]. split; [now apply P|].
    cbn. rewrite app_nil_r, (trees_extend_streams _ L), (trees_evaluate stored L), <- flat_map_concat_map. reflexivity.
  - destruct X as (cs & Q & ->). exists given, (map c_trees cs). split; [exact S|]. split; [now apply P|].
    cbn. now rewrite app_nil_r, K, (trees_evaluate stored L).
  - destruct X as (cs & Q & ->). exists given, (map c_trees cs). split; [exact S|]. split; [now apply P|].
    cbn. now rewrite app_nil_r, K, (trees_evaluate stored L).
  - destruct X as (cs & Q & ->). exists given, (map c_trees cs). split; [exact S|]. split; [now apply P|].
    cbn. now rewrite app_nil_r, K, (trees_evaluate stored L).
Qed.
End Tokens.

(** ** Deferred appending *)
Section Deferred.
Hypothesis L : extend_laws.

Lemma hand_out_map {A B D} (g : A -> B) (f : B -> outcome D) l e : hand_out f (map g l) e = hand_out (fun a => f (g a)) l e.
Proof using. induction l as [|a l IH]; [reflexivity|]. cbn [map hand_out]. now rewrite IH. Qed.
Lemma hand_out_ext {A B} (f g : A -> outcome B) l e : (forall a, f a = g a) -> hand_out f l e = hand_out g l e.
Proof using. intros H. induction l as [|a l IH]; [reflexivity|]. cbn [hand_out]. now rewrite H, IH. Qed.
Lemma trees_from_settle s ts e :
  let r := extend_trees_from s ts e in let r' := extend_trees_from (settle_stream s) ts e in
  (settle_stream (fst r'), snd r') = (settle_stream (fst r), snd r).
Proof using L.
  destruct s as [s extra|v]; [|reflexivity]. cbn [settle_stream extend_trees_from]. rewrite !push_each_hand.
  destruct (hand_out into_compiler_token ts e). cbn. now rewrite (extend_twice L).
Qed.
Lemma compiler_extend_settle s ss e : compiler_extend left s (map settle_stream ss) e = compiler_extend left s ss e.
Proof using L. unfold compiler_extend. rewrite hand_out_map. now rewrite (hand_out_ext _ _ _ _ (unwrap_nightly_settle L)). Qed.
Lemma push_streams_settle v ss e : push_streams v (map settle_stream ss) e = push_streams v ss e.
Proof using. rewrite !push_streams_hand, hand_out_map. now rewrite (hand_out_ext _ _ _ _ unwrap_stable_settle). Qed.
Lemma streams_from_settle s ss e :
  extend_streams_from left (settle_stream s) (map settle_stream ss) e = extend_streams_from left s ss e.
Proof using L.
  destruct s as [s extra|v]; cbn [settle_stream extend_streams_from].
  - now rewrite compiler_extend_settle, (evaluate_settled L).
  - now rewrite push_streams_settle.
Qed.
Lemma from_streams_from_settle i ss e :
  from_streams_from left i (map settle_stream ss) e = from_streams_from left i ss e.
Proof using L.
  destruct ss as [|[s extra|v] ss]; [reflexivity| |]; cbn [map settle_stream from_streams_from].
  - now rewrite compiler_extend_settle, (evaluate_settled L).
  - now rewrite push_streams_settle.
Qed.

Definition settled (r : list value * outcome value) : list value * outcome value := (map settle (fst r), omap settle (snd r)).
Lemma settle_settle v : settle (settle v) = settle v.
Proof using L. destruct v as [| | | | | | | |[]| |]; try reflexivity. cbn. now rewrite (extend_nothing L). Qed.
Lemma settle_twice regs : map settle (map settle regs) = map settle regs.
Proof using L. rewrite map_map. apply map_ext, settle_settle. Qed.
Lemma settled_made regs o o' : omap settle o = omap settle o' -> settled (made (map settle regs) o) = settled (made regs o').
Proof using L.
  intros H. unfold settled, made. cbn [fst snd]. rewrite !map_app, settle_twice, H.
  destruct o as [v| | |], o' as [v'| | |]; try discriminate; try reflexivity. cbn in H |- *. now injection H as ->.
Qed.
Lemma map_put regs i v : map settle (put regs i v) = put (map settle regs) i (settle v).
Proof using. revert i. induction regs as [|r regs IH]; intros [|i]; cbn; congruence. Qed.
Lemma settled_changed regs i s o s' : settle_stream s = settle_stream s' ->
  settled (changed (map settle regs) i (Val (s, o))) = settled (changed regs i (Val (s', o))).
Proof using L.
  intros H. unfold settled, changed. cbn [fst snd]. rewrite !map_put, settle_twice. f_equal. f_equal.
  destruct s, s'; cbn in H |- *; congruence.
Qed.
Lemma reads regs js : map (read (map settle regs)) js = map settle (map (read regs) js).
Proof using. rewrite map_map. apply map_ext, read_settle. Qed.

Lemma do_step_settle regs st : settled (do_step left (map settle regs) st) = settled (do_step left regs st).
Proof using L.
  destruct st as [i c|i js e|i js e|i js e|i js e]; cbn [do_step];
    rewrite ?reads, ?read_settle, ?as_trees_settle, ?as_streams_settle, ?as_stream_settle.
  - apply settled_made. rewrite (cmap_ext _ _ _ (read_settle regs)), <- cmap_cmap. now apply api_settle.
  - destruct (as_stream (read regs i)) as [s| | |]; cbn [omap obind];
      try (unfold settled, changed; cbn [fst snd]; now rewrite settle_twice).
    destruct (as_trees (map (read regs) js)) as [ts| | |]; cbn [omap obind];
      try (unfold settled, changed; cbn [fst snd]; now rewrite settle_twice).
    pose proof (trees_from_settle s ts e) as H. cbv zeta in H.
    destruct (extend_trees_from s ts e), (extend_trees_from (settle_stream s) ts e). cbn in H. injection H as H ->.
    now apply settled_changed.
  - destruct (as_stream (read regs i)) as [s| | |]; cbn [omap obind];
      try (unfold settled, changed; cbn [fst snd]; now rewrite settle_twice).
    destruct (as_streams (map (read regs) js)) as [ts| | |]; cbn [omap obind];
      try (unfold settled, changed; cbn [fst snd]; now rewrite settle_twice).
    rewrite streams_from_settle. destruct (extend_streams_from left s ts e). now apply settled_changed.
  - now apply settled_made.
  - apply settled_made. destruct (as_streams (map (read regs) js)) as [ss| | |]; try reflexivity. cbn [omap obind].
    now rewrite from_streams_from_settle.
Qed.

Theorem caught_settle h : forall regs,
  (let (os, final) := run_caught left regs h in (map (omap settle) os, map settle final)) =
  run_caught_eager left (map settle regs) h.
Proof using L.
  induction h as [|st h IH]; intros regs; [reflexivity|]. cbn [run_caught run_caught_eager].
  pose proof (do_step_settle regs st) as E. unfold settled in E.
  destruct (do_step left regs st) as [r o], (do_step left (map settle regs) st) as [r' o']. cbn in E. injection E as E1 E2.
  specialize (IH r). destruct (run_caught left r h) as [os f]. rewrite E1, <- IH. cbn. now rewrite E2.
Qed.
End Deferred.
End Proofs.
