(** * Proofs about compiler-backed and fallback values *)
From Verif Require Import Base Unicode Tokens Lexer Fallback LitNew Wrapper SpecWrapper.

Section Proofs.
Context {U : unicode} {T : ctypes} {C : compiler} {F : fallback_map}.

(** ** Lists *)

Lemma omap_list_map {A B D} (g : A -> B) (f : B -> outcome D) l : omap_list f (map g l) = omap_list (fun a => f (g a)) l.
Proof using. induction l as [|a l IH]; [reflexivity|]. cbn [map omap_list]. now rewrite IH. Qed.
Lemma omap_list_ext {A B} (f g : A -> outcome B) l : (forall a, f a = g a) -> omap_list f l = omap_list g l.
Proof using. intros H. induction l as [|a l IH]; [reflexivity|]. cbn [omap_list]. now rewrite H, IH. Qed.

(** ** C46 *)

Section Deferred.
Hypothesis L : extend_laws.

Lemma evaluate_extend s extra : evaluate s extra = c_extend s extra.
Proof using L. destruct extra; [symmetry; apply (extend_nothing L)|reflexivity]. Qed.
Lemma evaluate_settled s extra : evaluate (c_extend s extra) [] = evaluate s extra.
Proof using L. now rewrite !evaluate_extend, (extend_nothing L). Qed.

Definition settle_stream (s : wstream) : wstream :=
  match s with StreamC s extra => StreamC (c_extend s extra) [] | s => s end.
Lemma as_stream_settle v : as_stream (settle v) = omap settle_stream (as_stream v).
Proof using. now destruct v as [| | | | | | | |[]| |]. Qed.
Lemma as_tree_settle v : as_tree (settle v) = as_tree v.
Proof using. now destruct v as [| | | | | | | |[]| |]. Qed.
Lemma as_span_settle v : as_span (settle v) = as_span v.
Proof using. now destruct v as [| | | | | | | |[]| |]. Qed.
Lemma as_trees_settle l : as_trees (map settle l) = as_trees l.
Proof using. unfold as_trees. rewrite omap_list_map. apply omap_list_ext, as_tree_settle. Qed.
Lemma as_streams_settle l : as_streams (map settle l) = omap (map settle_stream) (as_streams l).
Proof using.
  unfold as_streams. induction l as [|v l IH]; [reflexivity|]. cbn [map omap_list]. rewrite as_stream_settle, IH.
  destruct (as_stream v); try reflexivity. cbn. now destruct (omap_list as_stream l).
Qed.
Lemma unwrap_nightly_settle s : unwrap_nightly (settle_stream s) = unwrap_nightly s.
Proof using L. destruct s as [s extra|ts]; [|reflexivity]. cbn [settle_stream unwrap_nightly]. unfold into_token_stream. now rewrite evaluate_settled. Qed.
Lemma unwrap_stable_settle s : unwrap_stable (settle_stream s) = unwrap_stable s.
Proof using. now destruct s. Qed.
Lemma nightly_all ss : omap_list unwrap_nightly (map settle_stream ss) = omap_list unwrap_nightly ss.
Proof using L. rewrite omap_list_map. apply omap_list_ext, unwrap_nightly_settle. Qed.
Lemma stable_all ss : omap_list unwrap_stable (map settle_stream ss) = omap_list unwrap_stable ss.
Proof using. rewrite omap_list_map. apply omap_list_ext, unwrap_stable_settle. Qed.
Lemma omap_settle {A} (o : outcome A) f : (forall a, settle (f a) = f a) ->
  omap settle (obind o (fun a => Val (f a))) = obind o (fun a => Val (f a)).
Proof using. intros H. destruct o; cbn; try reflexivity. now rewrite H. Qed.

Lemma extend_streams_settle s ss :
  omap settle_stream (extend_streams (settle_stream s) (map settle_stream ss)) =
  omap settle_stream (extend_streams s ss).
Proof using L.
  destruct s as [s extra|ts]; cbn [settle_stream extend_streams].
  - now rewrite nightly_all, evaluate_settled.
  - now rewrite stable_all.
Qed.
Lemma from_streams_settle i ss :
  omap settle_stream (from_streams i (map settle_stream ss)) = omap settle_stream (from_streams i ss).
Proof using L.
  destruct ss as [|[s extra|ts] ss]; [reflexivity| |]; cbn [map settle_stream from_streams].
  - now rewrite nightly_all, evaluate_settled.
  - now rewrite stable_all.
Qed.
Lemma extend_trees_settle s ts :
  omap settle_stream (extend_trees (settle_stream s) ts) = omap settle_stream (extend_trees s ts).
Proof using L.
  destruct s as [s extra|v]; [|reflexivity]. cbn [settle_stream extend_trees].
  destruct (omap_list into_compiler_token ts); try reflexivity. cbn. now rewrite (extend_twice L).
Qed.
Lemma settle_result o : omap settle (obind o (fun s => Val (VStream s))) = obind (omap settle_stream o) (fun s => Val (VStream s)).
Proof using. now destruct o as [[]| | |]. Qed.

Lemma api_settle i c : omap settle (api i (cmap settle c)) = omap settle (api i c).
Proof using L.
  destruct c; cbn [cmap api]; try reflexivity;
    rewrite ?as_span_settle, ?as_tree_settle, ?as_trees_settle, ?as_stream_settle, ?as_streams_settle; try reflexivity.
  - destruct (as_stream s) as [[s0 extra|ts]| | |]; try reflexivity. cbn. rewrite (extend_is_empty L).
    now destruct extra, (c_is_empty s0).
  - destruct (as_stream s) as [[s0 extra|ts]| | |]; try reflexivity. cbn [omap obind settle_stream].
    unfold into_token_stream. now rewrite evaluate_settled.
  - now destruct s as [| | | | | | | |[]| |].
  - destruct (as_stream s) as [[s0 extra|ts]| | |]; try reflexivity. cbn [omap obind settle_stream].
    unfold into_token_stream. now rewrite evaluate_settled.
  - destruct (as_streams ss) as [ss0| | |]; try reflexivity. cbn [omap obind].
    fold (omap settle). rewrite !settle_result. now rewrite from_streams_settle.
  - destruct (as_stream s) as [s0| | |]; try reflexivity. cbn [omap obind].
    destruct (as_trees ts) as [ts0| | |]; try reflexivity. cbn [obind].
    rewrite !settle_result. now rewrite extend_trees_settle.
  - destruct (as_stream s) as [s0| | |]; try reflexivity. cbn [omap obind].
    destruct (as_streams ss) as [ss0| | |]; try reflexivity. cbn [omap obind].
    rewrite !settle_result. now rewrite extend_streams_settle.
  - destruct (as_stream s) as [[s0 extra|ts]| | |]; try reflexivity. cbn [omap obind settle_stream into_iter].
    unfold into_token_stream. now rewrite evaluate_settled.
  - now destruct ts as [| | | | | | | |[]| |].
  - destruct (as_stream s) as [[s0 extra|ts]| | |]; try reflexivity. cbn [omap obind settle_stream].
    unfold into_token_stream. now rewrite evaluate_settled.
  - now destruct g as [| | | | | |[]| |[]| |].
  - now destruct g as [| | | | | |[]| |[]| |].
  - now destruct g as [| | | | | |[]| |[]| |].
  - now destruct g as [| | | | | |[]| |[]| |].
  - now destruct a as [| | | | | |[]| |[]| |], b as [| | | | | |[]| |[]| |].
  - now destruct a as [| | | | | |[]| |[]| |].
  - now destruct a as [| | | | | |[]| |[]| |], b as [| | | | | |[]| |[]| |].
  - now destruct l as [| | | | | |[]| |[]| |].
  - now destruct e as [| | | | | |[]| |[]|[]|].
Qed.

Lemma cmap_cmap {V W X} (f : V -> W) (g : W -> X) c : cmap g (cmap f c) = cmap (fun v => g (f v)) c.
Proof using. destruct c; cbn [cmap]; now rewrite ?map_map. Qed.
Lemma cmap_ext {V W} (f g : V -> W) c : (forall v, f v = g v) -> cmap f c = cmap g c.
Proof using. intros H. destruct c; cbn [cmap]; rewrite ?H; try reflexivity; now rewrite (map_ext f g H). Qed.
Lemma read_settle regs n : read (map settle regs) n = settle (read regs n).
Proof using. exact (map_nth settle regs VNone n). Qed.

Lemma run_settle h : forall regs, map (omap settle) (run regs h) = run_eager (map settle regs) h.
Proof using L.
  induction h as [|[i c] h IH]; intros regs; [reflexivity|]. cbn [run run_eager map].
  assert (E : omap settle (api i (cmap (read (map settle regs)) c)) = omap settle (api i (cmap (read regs) c))).
  { rewrite (cmap_ext _ _ _ (read_settle regs)), <- cmap_cmap. apply api_settle. }
  rewrite E. f_equal. destruct (api i (cmap (read regs) c)) as [v| | |]; try reflexivity. cbn [omap].
  rewrite IH, map_app. reflexivity.
Qed.
End Deferred.

Section Tokens.
Context (stored : ctree -> list ctree).
Hypothesis L : list_laws stored.

Lemma trees_evaluate s extra : c_trees (evaluate s extra) = c_trees s ++ flat_map stored extra.
Proof using L. destruct extra; [symmetry; apply app_nil_r|apply (trees_extend _ L)]. Qed.
Lemma into_is t c : into_compiler_token t = Val c -> is_compiler_tree t c.
Proof using. destruct t as [| |? ? []| | | |]; cbn; intros [=<-]; cbn; auto. Qed.
Lemma is_into t c : is_compiler_tree t c -> into_compiler_token t = Val c.
Proof using.
  destruct t as [| |? ? []| | | |], c; cbn; try tauto; intros E; try now subst.
  now destruct E as (-> & -> & ->).
Qed.
Lemma into_all ts cs : omap_list into_compiler_token ts = Val cs -> Forall2 is_compiler_tree ts cs.
Proof using.
  revert cs. induction ts as [|t ts IH]; intros cs; cbn [omap_list]; [intros [=<-]; constructor|].
  destruct (into_compiler_token t) as [c| | |] eqn:E; cbn [obind]; try discriminate.
  destruct (omap_list into_compiler_token ts) as [cs'| | |]; cbn [obind]; try discriminate.
  intros [=<-]. constructor; [now apply into_is|now apply IH].
Qed.
Lemma all_into ts cs : Forall2 is_compiler_tree ts cs -> omap_list into_compiler_token ts = Val cs.
Proof using.
  induction 1 as [|t c ts cs H _ IH]; [reflexivity|]. cbn [omap_list]. rewrite (is_into _ _ H). cbn [obind].
  now rewrite IH.
Qed.
Lemma nightly_holds ss cs : omap_list unwrap_nightly ss = Val cs -> Forall2 (holds stored) ss (map c_trees cs).
Proof using L.
  revert cs. induction ss as [|s ss IH]; intros cs; cbn [omap_list]; [intros [=<-]; constructor|].
  destruct s as [s extra|ts]; cbn [unwrap_nightly obind]; try discriminate.
  destruct (omap_list unwrap_nightly ss) as [cs'| | |]; cbn [obind]; try discriminate.
  intros [=<-]. constructor; [|now apply IH]. cbn. unfold into_token_stream. now rewrite trees_evaluate.
Qed.
Lemma holds_nightly ss css : Forall2 (holds stored) ss css -> exists cs, omap_list unwrap_nightly ss = Val cs /\ css = map c_trees cs.
Proof using L.
  induction 1 as [|s c ss css H _ (cs & E & ->)]; [now exists []|].
  destruct s as [s extra|ts]; [|destruct H]. cbn in H. subst c. exists (evaluate s extra :: cs).
  cbn [omap_list unwrap_nightly obind]. rewrite E. cbn. unfold into_token_stream. now rewrite trees_evaluate.
Qed.
Lemma holds_unique s a b : holds stored s a -> holds stored s b -> a = b.
Proof using. destruct s; cbn; [congruence|tauto]. Qed.

(** What every stream operation does to the tokens held. *)
Lemma edit_one s ts e es : holds stored s ts -> adds stored e es ->
  exists s', edit_stream s e = Val s' /\ holds stored s' (ts ++ es).
Proof using L.
  intros H A. destruct s as [s extra|]; [|destruct H]. cbn in H. subst ts. destruct A as [ts cs A|ss css A].
  - cbn [edit_stream extend_trees]. rewrite (all_into _ _ A). eexists. split; [reflexivity|].
    cbn. now rewrite flat_map_app, app_assoc.
  - cbn [edit_stream extend_streams]. destruct (holds_nightly _ _ A) as (cs & E & ->). rewrite E.
    eexists. split; [reflexivity|]. cbn. rewrite app_nil_r, (trees_extend_streams _ L), trees_evaluate.
    now rewrite <- flat_map_concat_map.
Qed.
Lemma edits s es : forall ts adds_, holds stored s ts -> Forall2 (adds stored) es adds_ ->
  exists s', edit_all s es = Val s' /\ holds stored s' (ts ++ concat adds_).
Proof using L.
  revert s. induction es as [|e es IH]; intros s ts ads H A; inversion A as [|e' a' es' as' A1 A2]; subst.
  - exists s. cbn. now rewrite app_nil_r.
  - destruct (edit_one s ts e a' H A1) as (s' & E & H'). destruct (IH s' _ _ H' A2) as (s2 & E2 & H2).
    exists s2. cbn [edit_all]. rewrite E. cbn [obind]. split; [exact E2|]. cbn. now rewrite app_assoc.
Qed.
Lemma made i ts cs : Forall2 is_compiler_tree ts cs -> i = true ->
  exists s, from_trees i ts = Val s /\ holds stored s (flat_map stored cs).
Proof using L.
  intros A ->. cbn [from_trees]. rewrite (all_into _ _ A). eexists. split; [reflexivity|].
  cbn. now rewrite (trees_collect _ L), app_nil_r.
Qed.
Lemma joined i ss css : ss <> [] -> Forall2 (holds stored) ss css ->
  exists s, from_streams i ss = Val s /\ holds stored s (concat css).
Proof using L.
  intros N A. inversion A as [|s c ss' css' A1 A2]; subst; [now destruct N|].
  destruct s as [s extra|]; [|destruct A1]. cbn in A1. subst c.
  destruct (holds_nightly _ _ A2) as (cs & E & ->). cbn [from_streams]. rewrite E.
  eexists. split; [reflexivity|]. cbn. rewrite app_nil_r, (trees_extend_streams _ L), trees_evaluate.
  now rewrite <- flat_map_concat_map.
Qed.
(** Every observation sees exactly the tokens held. *)
Lemma observed s ts : holds stored s ts ->
  (forall i, api i (IsEmpty _ (VStream s)) = Val (VBool (match ts with [] => true | _ => false end))) /\
  into_iter s = omap_list from_compiler_token ts /\
  (exists cs, unwrap_nightly s = Val cs /\ c_trees cs = ts /\
     (forall i, api i (Print _ (VStream s)) = Val (VText (c_display cs)) /\
                api i (ToCompiler _ (VStream s)) = Val (VCompiler cs) /\
                (forall d, api i (GroupNew _ d (VStream s)) = Val (VTree (GroupC (c_group_new d cs)))))).
Proof using L.
  intros H. destruct s as [s extra|]; [|destruct H]. cbn in H. subst ts. split; [|split].
  - intros i. cbn. rewrite (trees_is_empty _ L). destruct (c_trees s); [|reflexivity]. destruct extra as [|t extra]; [reflexivity|].
    cbn. pose proof (stored_something _ L t) as N. now destruct (stored t).
  - cbn. unfold into_token_stream. now rewrite trees_evaluate.
  - exists (evaluate s extra). cbn. unfold into_token_stream. rewrite trees_evaluate. auto.
Qed.
End Tokens.

(** ** C47 *)

Lemma tree_of_group k d ts sp : tree_of k (GroupF d ts sp) <-> k = ByFallback /\ Forall (tree_of k) ts.
Proof using.
  cbn [tree_of]. split; intros [E H]; (split; [exact E|]); clear E.
  - induction ts as [|t ts IH]; [constructor|]. destruct H. constructor; auto.
  - induction H as [|t ts H _ IH]; [exact I|]. split; auto.
Qed.
Fixpoint of_token_kind (t : token) : tree_of ByFallback (of_token t).
Proof using.
  destruct t as [d ts sp|s r sp|c s sp|r sp]; cbn [of_token]; try reflexivity.
  apply tree_of_group. split; [reflexivity|]. induction ts as [|t ts IH]; [constructor|].
  constructor; [apply of_token_kind|exact IH].
Qed.
Lemma of_tokens_kind ts : Forall (tree_of ByFallback) (map of_token ts).
Proof using. apply Forall_map, Forall_forall. intros t _. apply of_token_kind. Qed.
Lemma ident_new_kind s sp t : ident_new s sp = Ok t -> tree_of ByFallback (of_token t).
Proof using. intros _. apply of_token_kind. Qed.

Lemma w_push_kind k v t : Forall (tree_of k) v -> tree_of k t -> Forall (tree_of k) (w_push v t).
Proof using.
  intros V H. destruct t as [| | | | | |[|c r] sp]; cbn [w_push];
    try (apply Forall_app; split; [exact V|constructor; [exact H|constructor]]).
  destruct (c =? "-"%ch)%N; apply Forall_app; (split; [exact V|]); repeat constructor; exact H.
Qed.
Lemma w_extend_kind k ts : forall v, Forall (tree_of k) v -> Forall (tree_of k) ts -> Forall (tree_of k) (w_extend v ts).
Proof using.
  unfold w_extend. induction ts as [|t ts IH]; intros v V H; [exact V|]. inversion H; subst.
  cbn [fold_left]. apply IH; [|assumption]. now apply w_push_kind.
Qed.

(** An outcome which is not a mismatch and whose value satisfies [P]. *)
Definition fine {A} (P : A -> Prop) (o : outcome A) : Prop :=
  match o with Val a => P a | Mismatch => False | _ => True end.
Lemma fine_bind {A B} (P : A -> Prop) (Q : B -> Prop) o f :
  fine P o -> (forall a, P a -> fine Q (f a)) -> fine Q (obind o f).
Proof using. destruct o; cbn; auto. Qed.
Lemma fine_list {A B} (P : A -> Prop) (Q : B -> Prop) (f : A -> outcome B) l :
  (forall a, P a -> fine Q (f a)) -> Forall P l -> fine (Forall Q) (omap_list f l).
Proof using.
  intros H. induction 1 as [|a l Ha _ IH]; cbn [omap_list]; [constructor|].
  apply (fine_bind Q); [auto|]. intros b Hb. apply (fine_bind (Forall Q)); [exact IH|].
  intros bs Hbs. now constructor.
Qed.
Lemma fine_any {A} (P Q : A -> Prop) o : fine P o -> (forall a, P a -> Q a) -> fine Q o.
Proof using. destruct o; cbn; auto. Qed.

Definition stream_of (k : kind) (s : wstream) : Prop := value_of k (VStream s).
Lemma fine_tree k v : value_of k v -> fine (tree_of k) (as_tree v).
Proof using. destruct v; cbn; auto. Qed.
Lemma fine_span k v : value_of k v -> fine (span_of k) (as_span v).
Proof using. destruct v; cbn; auto. Qed.
Lemma fine_stream k v : value_of k v -> fine (stream_of k) (as_stream v).
Proof using. destruct v; cbn; auto. Qed.
Lemma fine_trees k l : Forall (value_of k) l -> fine (Forall (tree_of k)) (as_trees l).
Proof using. apply fine_list, fine_tree. Qed.
Lemma fine_streams k l : Forall (value_of k) l -> fine (Forall (stream_of k)) (as_streams l).
Proof using. apply fine_list, fine_stream. Qed.
Lemma fine_into t : tree_of ByCompiler t -> fine (fun _ => True) (into_compiler_token t).
Proof using. destruct t as [| |? ? []| | | |]; cbn; try discriminate; auto. intros [[=] _]. Qed.
Lemma fine_into_all ts : Forall (tree_of ByCompiler) ts -> fine (fun _ => True) (omap_list into_compiler_token ts).
Proof using. intros H. eapply fine_any; [exact (fine_list _ _ _ _ fine_into H)|auto]. Qed.
Lemma fine_nightly s : stream_of ByCompiler s -> fine (fun _ => True) (unwrap_nightly s).
Proof using. destruct s; cbn; auto. intros [[=] _]. Qed.
Lemma fine_nightly_all ss : Forall (stream_of ByCompiler) ss -> fine (fun _ => True) (omap_list unwrap_nightly ss).
Proof using. intros H. eapply fine_any; [exact (fine_list _ _ _ _ fine_nightly H)|auto]. Qed.
Lemma fine_stable s : stream_of ByFallback s -> fine (Forall (tree_of ByFallback)) (unwrap_stable s).
Proof using. destruct s; cbn; [discriminate|]. tauto. Qed.
Lemma fine_stable_all ss : Forall (stream_of ByFallback) ss -> fine (Forall (Forall (tree_of ByFallback))) (omap_list unwrap_stable ss).
Proof using. apply fine_list, fine_stable. Qed.
Lemma concat_kind k (l : list (list wtree)) : Forall (Forall (tree_of k)) l -> Forall (tree_of k) (concat l).
Proof using. induction 1; cbn; [constructor|]. apply Forall_app; auto. Qed.
Lemma fine_from_compiler t : fine (tree_of ByCompiler) (from_compiler_token t).
Proof using. destruct t; cbn; auto. match goal with |- fine _ (if ?b then _ else _) => destruct b end; cbn; auto. Qed.
Lemma fine_res {A} (P : A -> Prop) (o : res A) : (forall a, o = Ok a -> P a) -> fine P (of_res o).
Proof using. destruct o; cbn; auto. Qed.
Lemma fine_option {A} (P : A -> Prop) (o : option A) : (forall a, o = Some a -> P a) -> fine P (of_option o).
Proof using. destruct o; cbn; auto. Qed.

Lemma fine_from_trees k ts : Forall (tree_of k) ts -> fine (stream_of k) (from_trees (mode k) ts).
Proof using.
  intros H. destruct k; cbn [mode from_trees].
  - apply (fine_bind _ _ _ _ (fine_into_all _ H)). cbn. auto.
  - cbn. split; [reflexivity|]. now apply w_extend_kind.
Qed.
Lemma fine_from_streams k ss : Forall (stream_of k) ss -> fine (stream_of k) (from_streams (mode k) ss).
Proof using.
  intros H. destruct ss as [|s ss]; [destruct k; cbn; auto|]. inversion H as [|? ? H1 H2]; subst.
  destruct s as [s extra|ts]; cbn [from_streams]; cbn in H1.
  - subst k. apply (fine_bind _ _ _ _ (fine_nightly_all _ H2)). cbn. auto.
  - destruct H1 as [-> H1]. apply (fine_bind _ _ _ _ (fine_stable_all _ H2)). intros ss' H3. cbn.
    split; [reflexivity|]. apply Forall_app. split; [exact H1|]. now apply concat_kind.
Qed.
Lemma fine_extend_trees k s ts : stream_of k s -> Forall (tree_of k) ts -> fine (stream_of k) (extend_trees s ts).
Proof using.
  intros H1 H2. destruct s as [s extra|v]; cbn [extend_trees]; cbn in H1.
  - subst k. apply (fine_bind _ _ _ _ (fine_into_all _ H2)). cbn. auto.
  - destruct H1 as [-> H1]. cbn. split; [reflexivity|]. now apply w_extend_kind.
Qed.
Lemma fine_extend_streams k s ss : stream_of k s -> Forall (stream_of k) ss -> fine (stream_of k) (extend_streams s ss).
Proof using.
  intros H1 H2. destruct s as [s extra|v]; cbn [extend_streams]; cbn in H1.
  - subst k. apply (fine_bind _ _ _ _ (fine_nightly_all _ H2)). cbn. auto.
  - destruct H1 as [-> H1]. apply (fine_bind _ _ _ _ (fine_stable_all _ H2)). intros ss' H3. cbn.
    split; [reflexivity|]. apply Forall_app. split; [exact H1|]. now apply concat_kind.
Qed.
Lemma fine_into_iter k s : stream_of k s -> fine (Forall (tree_of k)) (into_iter s).
Proof using.
  destruct s as [s extra|ts]; cbn [into_iter]; intros H; cbn in H.
  - subst k. apply (fine_list (fun _ => True)); [intros t _; apply fine_from_compiler|]. now apply Forall_forall.
  - cbn. tauto.
Qed.
Lemma fine_set_span k t sp : tree_of k t -> span_of k sp -> fine (tree_of k) (w_set_span t sp).
Proof using. destruct t, sp; cbn; intros H S; subst; try discriminate; try tauto. destruct H; discriminate. Qed.
Lemma w_span_kind k t : tree_of k t -> span_of k (w_span t).
Proof using. destruct t; cbn; tauto. Qed.
Lemma call_site_kind k : span_of k (span_call_site (mode k)).
Proof using. now destruct k. Qed.
Lemma parse_stream_kind k start src r : parse_stream (mode k) start src = Ok r ->
  value_of k (match snd r with inl s => VStream s | inr e => VError e end).
Proof using.
  unfold parse_stream, from_str_checked, stream_valid. destruct k; cbn [mode].
  - destruct (token_stream_from_str start src) as [[ts|sp]| | |]; cbn; try discriminate; [|now intros [=<-]].
    destruct (c_parse src); now intros [=<-].
  - destruct (token_stream_from_str start src) as [[ts|sp]| | |]; cbn; try discriminate; intros [=<-]; cbn; [|reflexivity].
    split; [reflexivity|]. apply of_tokens_kind.
Qed.
Lemma parse_lit_kind k start src r : parse_lit (mode k) start src = Ok r ->
  value_of k (match snd r with inl s => VTree s | inr e => VError e end).
Proof using.
  unfold parse_lit, from_str_checked, literal_valid. destruct k; cbn [mode].
  - destruct (literal_from_str start src) as [[repr sp|sp]| | |]; cbn; try discriminate; [|now intros [=<-]].
    destruct (c_literal_parse src); now intros [=<-].
  - destruct (literal_from_str start src) as [[repr sp|sp]| | |]; cbn; try discriminate; now intros [=<-].
Qed.
Lemma literal_new_kind k r : fine (tree_of k) (snd (literal_new (mode k) r)).
Proof using.
  unfold literal_new. destruct k; cbn [mode].
  - destruct (by_text r); [|now cbn]. destruct (fallback_repr r); cbn; auto.
    destruct (c_literal_parse a); cbn; auto.
  - cbn [snd]. apply (fine_bind (fun _ => True)); [now apply fine_res|]. now cbn.
Qed.

Lemma fine_api k c : Forall (value_of k) (call_args c) -> to_compiler c = false -> fine (value_of k) (api (mode k) c).
Proof using.
  intros H NT. destruct c; cbn [call_args] in H; cbn [api]; try discriminate NT; clear NT;
    try match type of H with Forall _ (_ :: _) =>
      pose proof (Forall_inv H) as H1; apply Forall_inv_tail in H end;
    try match type of H with Forall _ (_ :: _) =>
      pose proof (Forall_inv H) as H2; apply Forall_inv_tail in H end.
  - destruct k; cbn; auto.
  - apply (fine_bind (fun r => value_of k (match snd r with inl s => VStream s | inr e => VError e end))); [|auto].
    apply fine_res. apply parse_stream_kind.
  - apply (fine_bind _ _ _ _ (fine_stream _ _ H1)). now cbn.
  - apply (fine_bind _ _ _ _ (fine_stream _ _ H1)). now cbn.
  - destruct s; cbn in *; auto.
  - apply (fine_bind _ _ _ _ (fine_tree _ _ H1)). intros t' Ht. destruct k; cbn [mode].
    + apply (fine_bind _ _ _ _ (fine_into _ Ht)). now cbn.
    + cbn. split; [reflexivity|]. apply w_push_kind; [constructor|exact Ht].
  - apply (fine_bind _ _ _ _ (fine_trees _ _ H)). intros ts' Hts.
    apply (fine_bind _ _ _ _ (fine_from_trees _ _ Hts)). auto.
  - apply (fine_bind _ _ _ _ (fine_streams _ _ H)). intros ss' Hss.
    apply (fine_bind _ _ _ _ (fine_from_streams _ _ Hss)). auto.
  - apply (fine_bind _ _ _ _ (fine_stream _ _ H1)). intros s' Hs.
    apply (fine_bind _ _ _ _ (fine_trees _ _ H)). intros ts' Hts.
    apply (fine_bind _ _ _ _ (fine_extend_trees _ _ _ Hs Hts)). auto.
  - apply (fine_bind _ _ _ _ (fine_stream _ _ H1)). intros s' Hs.
    apply (fine_bind _ _ _ _ (fine_streams _ _ H)). intros ss' Hss.
    apply (fine_bind _ _ _ _ (fine_extend_streams _ _ _ Hs Hss)). auto.
  - apply (fine_bind _ _ _ _ (fine_stream _ _ H1)). intros s' Hs.
    apply (fine_bind _ _ _ _ (fine_into_iter _ _ Hs)). auto.
  - destruct ts; cbn in *; auto. destruct (nth_error ts n) as [t|] eqn:E; cbn; auto.
    rewrite Forall_forall in H1. apply H1. now apply nth_error_In in E.
  - cbn. apply call_site_kind.
  - destruct k; reflexivity.
  - apply (fine_bind _ _ _ _ (fine_span _ _ H1)). intros a' Ha.
    apply (fine_bind _ _ _ _ (fine_span _ _ H2)). intros b' Hb.
    destruct a', b'; cbn in *; auto; congruence.
  - apply (fine_bind _ _ _ _ (fine_span _ _ H1)). intros a' Ha.
    apply (fine_bind _ _ _ _ (fine_span _ _ H2)). intros b' Hb.
    destruct a', b'; cbn in *; auto; congruence.
  - apply (fine_bind _ _ _ _ (fine_span _ _ H1)). intros [] Ha; cbn in *; auto.
  - apply (fine_bind _ _ _ _ (fine_span _ _ H1)). intros a' Ha.
    apply (fine_bind _ _ _ _ (fine_span _ _ H2)). intros b' Hb.
    destruct a' as [x|x], b' as [y|y]; cbn in *; auto.
    + destruct (c_join x y); cbn; auto.
    + destruct (f_join x y); cbn; auto.
  - apply (fine_bind _ _ _ _ (fine_span _ _ H1)). intros a' Ha.
    apply (fine_bind _ _ _ _ (fine_span _ _ H2)). now cbn.
  - apply (fine_bind _ _ _ _ (fine_span _ _ H1)). intros a' Ha. cbn.
    match goal with |- value_of k (option_value _ ?o) => destruct o end; exact I.
  - apply (fine_bind _ _ _ _ (fine_stream _ _ H1)). intros [s' extra|ts'] Hs; cbn [fine].
    + exact Hs.
    + apply tree_of_group. exact Hs.
  - destruct g as [| | | | | |[]| | | |]; cbn in *; auto.
  - destruct g as [| | | | | |[]| | | |]; cbn [fine]; auto. now apply tree_of_group in H1.
  - destruct g as [| | | | | |[]| | | |]; cbn in *; auto. tauto.
  - destruct g as [| | | | | |[]| | | |]; cbn in *; auto. tauto.
  - apply (fine_bind _ _ _ _ (fine_span _ _ H1)). intros [s'|s'] Ha; cbn in Ha; subst k.
    + apply (fine_bind (fun _ => True)); [now apply fine_option|]. now cbn.
    + apply (fine_bind (fun _ => True)); [now apply fine_res|]. intros t _. apply of_token_kind.
  - apply (fine_bind _ _ _ _ (fine_span _ _ H1)). intros [s'|s'] Ha; cbn in Ha; subst k.
    + apply (fine_bind (fun _ => True)); [now apply fine_option|]. now cbn.
    + apply (fine_bind (fun _ => True)); [now apply fine_res|]. intros t _. apply of_token_kind.
  - destruct a as [| | | | | |[]| | | |], b as [| | | | | |[]| | | |]; cbn in *; auto; congruence.
  - destruct a as [| | | | | |[]| | | |]; cbn in *; auto.
    apply (fine_bind (fun _ => True)); [now apply fine_res|]. now cbn.
  - destruct a as [| | | | | |[]| | | |], b as [| | | | | |[]| | | |]; cbn in *; auto.
  - apply (fine_bind _ _ _ _ (literal_new_kind k r)). auto.
  - apply (fine_bind (fun r => value_of k (match snd r with inl s => VTree s | inr e => VError e end))); [|auto].
    apply fine_res. apply parse_lit_kind.
  - destruct l as [| | | | | |[]| | | |]; cbn [fine]; auto.
    + now destruct (c_literal_subspan l a b).
    + now destruct (subspan sp a b).
  - match goal with |- fine _ (if ?b then _ else _) => destruct b end; cbn; auto. apply call_site_kind.
  - apply (fine_bind _ _ _ _ (fine_tree _ _ H1)). intros t' Ht. cbn. now apply w_span_kind.
  - apply (fine_bind _ _ _ _ (fine_tree _ _ H1)). intros t' Ht.
    apply (fine_bind _ _ _ _ (fine_span _ _ H2)). intros sp' Hsp.
    apply (fine_bind _ _ _ _ (fine_set_span _ _ _ Ht Hsp)). auto.
  - apply (fine_bind _ _ _ _ (fine_tree _ _ H1)). now cbn.
  - destruct e as [| | | | | | | | |[]|]; cbn in *; auto; apply call_site_kind.
Qed.
Lemma to_compiler_fine k i s : value_of k s -> fine (fun _ => True) (api i (ToCompiler _ s)).
Proof using.
  intros H. cbn [api]. apply (fine_bind _ _ _ _ (fine_stream _ _ H)). intros [s' extra|ts] _; [exact I|].
  cbn. destruct (c_parse (w_stream_to_string ts)); exact I.
Qed.

Lemma one_kind k c : Forall (value_of k) (call_args c) ->
  api (mode k) c <> Mismatch /\
  (forall v, api (mode k) c = Val v -> to_compiler c = false -> value_of k v).
Proof using.
  intros H. destruct (to_compiler c) eqn:E.
  - split; [|discriminate]. destruct c; try discriminate. pose proof (to_compiler_fine k (mode k) s (Forall_inv H)) as G.
    intros X. now rewrite X in G.
  - pose proof (fine_api k c H E) as G. split; [intros X; now rewrite X in G|]. intros v X _. now rewrite X in G.
Qed.

Lemma args_cmap {V W} (f : V -> W) c : call_args (cmap f c) = map f (call_args c).
Proof using. now destruct c. Qed.
Lemma to_compiler_cmap {V W} (f : V -> W) c : to_compiler (cmap f c) = to_compiler c.
Proof using. now destruct c. Qed.
Lemma read_kind k regs n : Forall (value_of k) regs -> value_of k (read regs n).
Proof using.
  intros H. unfold read. destruct (nth_in_or_default n regs VNone) as [I| ->]; [|exact I].
  rewrite Forall_forall in H. now apply H.
Qed.
Lemma history_kind k h : forall regs, Forall (value_of k) regs ->
  Forall (fun s => fst s = mode k /\ to_compiler (snd s) = false) h ->
  Forall (fun o => o <> Mismatch /\ forall v, o = Val v -> value_of k v) (run regs h).
Proof using.
  induction h as [|[i c] h IH]; intros regs R H; [constructor|]. inversion H as [|? ? [Hi Hc] Hh]; subst.
  cbn [fst snd] in Hi, Hc. subst i. cbn [run].
  assert (A : Forall (value_of k) (call_args (cmap (read regs) c))).
  { rewrite args_cmap. apply Forall_map, Forall_forall. intros n _. now apply read_kind. }
  destruct (one_kind k _ A) as [N K]. constructor.
  - split; [exact N|]. intros v E. apply K; [exact E|]. now rewrite to_compiler_cmap.
  - destruct (api (mode k) (cmap (read regs) c)) as [v| | |] eqn:E; try constructor. apply IH; [|exact Hh].
    apply Forall_app. split; [exact R|]. constructor; [|constructor]. apply K; [reflexivity|]. now rewrite to_compiler_cmap.
Qed.

(** Mixtures. *)
Lemma typed_trees l : forallb is_tree l = true -> exists ts, as_trees l = Val ts /\ l = map VTree ts.
Proof using.
  induction l as [|v l IH]; [now exists []|]. cbn [forallb]. rewrite andb_true_iff. intros [H1 H2].
  destruct (IH H2) as (ts & E & ->). destruct v; try discriminate. exists (t :: ts). unfold as_trees in *.
  cbn [omap_list as_tree obind]. rewrite E. now split.
Qed.
Lemma typed_streams l : forallb is_stream l = true -> exists ss, as_streams l = Val ss /\ l = map VStream ss.
Proof using.
  induction l as [|v l IH]; [now exists []|]. cbn [forallb]. rewrite andb_true_iff. intros [H1 H2].
  destruct (IH H2) as (ts & E & ->). destruct v; try discriminate. exists (s :: ts). unfold as_streams in *.
  cbn [omap_list as_stream obind]. rewrite E. now split.
Qed.
(** A list function which gives a value or a mismatch gives a mismatch when an element does. *)
Lemma mismatch_in {A B} (f : A -> outcome B) l : (forall a, (exists b, f a = Val b) \/ f a = Mismatch) ->
  Exists (fun a => f a = Mismatch) l -> omap_list f l = Mismatch.
Proof using.
  intros H. induction 1 as [a l E|a l E IH]; cbn [omap_list]; [now rewrite E|].
  destruct (H a) as [[b ->]| ->]; [|reflexivity]. cbn. now rewrite IH.
Qed.
Lemma into_either t : (exists b, into_compiler_token t = Val b) \/ into_compiler_token t = Mismatch.
Proof using. destruct t as [| |? ? []| | | |]; cbn; eauto. Qed.
Lemma nightly_either s : (exists b, unwrap_nightly s = Val b) \/ unwrap_nightly s = Mismatch.
Proof using. destruct s; cbn; eauto. Qed.
Lemma stable_either s : (exists b, unwrap_stable s = Val b) \/ unwrap_stable s = Mismatch.
Proof using. destruct s; cbn; eauto. Qed.
Lemma foreign_tree t : backing (VTree t) = Some ByFallback -> into_compiler_token t = Mismatch.
Proof using. destruct t as [| |? ? []| | | |]; cbn; try discriminate; auto. Qed.
Lemma foreign_trees ts v : In v (map VTree ts) -> backing v = Some ByFallback -> omap_list into_compiler_token ts = Mismatch.
Proof using.
  intros I B. apply in_map_iff in I. destruct I as (t & <- & I). apply mismatch_in; [apply into_either|].
  apply Exists_exists. exists t. split; [exact I|]. now apply foreign_tree.
Qed.
Lemma foreign_streams ss v : In v (map VStream ss) -> backing v = Some ByFallback -> omap_list unwrap_nightly ss = Mismatch.
Proof using.
  intros I B. apply in_map_iff in I. destruct I as (s & <- & I). apply mismatch_in; [apply nightly_either|].
  apply Exists_exists. exists s. split; [exact I|]. now destruct s.
Qed.
Lemma native_streams ss v : In v (map VStream ss) -> backing v = Some ByCompiler -> omap_list unwrap_stable ss = Mismatch.
Proof using.
  intros I B. apply in_map_iff in I. destruct I as (s & <- & I). apply mismatch_in; [apply stable_either|].
  apply Exists_exists. exists s. split; [exact I|]. now destruct s.
Qed.

Lemma mixtures i c : well_typed c = true -> mixed c -> silent i c = false -> api i c = documented c.
Proof using.
  intros W (a & b & Ia & Ib & Ba & Bb) Q.
  destruct c; cbn [call_args] in Ia, Ib; cbn [well_typed] in W;
    try (exfalso; exact Ia); try (exfalso; destruct Ia as [<-|[]], Ib as [<-|[]]; congruence);
    try (cbn [api documented];
         destruct Ia as [<-|[<-|[]]], Ib as [<-|[<-|[]]]; try congruence;
         apply andb_prop in W; destruct W as [W1 W2];
         match goal with X : backing ?x = Some ByCompiler, Y : backing ?y = Some ByFallback |- _ =>
           destruct x as [| | | |[]| |[| |? ? []| | | |]| | | |], y as [| | | |[]| |[| |? ? []| | | |]| | | |] end;
         try discriminate; reflexivity).
  - cbn [silent] in Q. destruct i; [|discriminate]. destruct (typed_trees _ W) as (l & E & ->).
    cbn [api documented]. rewrite E. cbn [obind from_trees]. now rewrite (foreign_trees _ _ Ib Bb).
  - destruct (typed_streams _ W) as (l & E & ->). cbn [api documented]. rewrite E. cbn [obind].
    destruct l as [|[s extra|ts] l]; [destruct Ia| |]; cbn [from_streams].
    + cbn [map] in Ib. destruct Ib as [<-|Ib]; [discriminate|]. now rewrite (foreign_streams _ _ Ib Bb).
    + cbn [map] in Ia. destruct Ia as [<-|Ia]; [discriminate|]. now rewrite (native_streams _ _ Ia Ba).
  - apply andb_prop in W. destruct W as [W1 W2]. destruct (typed_trees _ W2) as (l & E & ->).
    destruct s as [| | | | | | | |[s extra|v]| |]; try discriminate. cbn [api documented as_stream obind]. rewrite E.
    cbn [obind extend_trees]. destruct Ib as [<-|Ib]; [discriminate|]. now rewrite (foreign_trees _ _ Ib Bb).
  - apply andb_prop in W. destruct W as [W1 W2]. destruct (typed_streams _ W2) as (l & E & ->).
    destruct s as [| | | | | | | |[s extra|v]| |]; try discriminate; cbn [api documented as_stream obind]; rewrite E;
      cbn [obind extend_streams].
    + destruct Ib as [<-|Ib]; [discriminate|]. now rewrite (foreign_streams _ _ Ib Bb).
    + destruct Ia as [<-|Ia]; [discriminate|]. now rewrite (native_streams _ _ Ia Ba).
Qed.
(** Fallback trees never enter a stream of the compiler. *)
Lemma foreign_refused v : is_tree v = true -> backing v = Some ByFallback ->
  api true (FromTree _ v) = Mismatch.
Proof using. destruct v as [| | | | | |t| | | |]; try discriminate. intros _ B. cbn. now rewrite (foreign_tree _ B). Qed.
Lemma foreign_refused_list l v : forallb is_tree l = true -> In v l -> backing v = Some ByFallback ->
  api true (FromTrees _ l) = Mismatch /\
  (forall i s extra, api i (ExtendTrees _ (VStream (StreamC s extra)) l) = Mismatch).
Proof using.
  intros W I B. destruct (typed_trees _ W) as (ts & E & ->). split; [|intros i s extra]; cbn [api as_stream obind]; rewrite E;
    cbn [obind from_trees extend_trees]; now rewrite (foreign_trees _ _ I B).
Qed.
(** Without a panic of another kind a well-typed call is never [Illtyped]. *)
Lemma typed_outcome i c : well_typed c = true -> api i c <> Illtyped.
Proof using.
  assert (O : forall A (o : option A), of_option o <> Illtyped) by (intros A []; discriminate).
  assert (R : forall A (o : res A), of_res o <> Illtyped) by (intros A []; discriminate).
  assert (B : forall A B (o : outcome A) (f : A -> outcome B), o <> Illtyped -> (forall a, f a <> Illtyped) -> obind o f <> Illtyped)
    by (intros A D [] f; cbn; auto; discriminate).
  assert (LI : forall A D (f : A -> outcome D) l, (forall a, f a <> Illtyped) -> omap_list f l <> Illtyped).
  { intros A D f l H. induction l as [|a l IH]; cbn [omap_list]; [discriminate|]. apply B; [auto|]. intros d.
    apply B; [auto|]. discriminate. }
  assert (I1 : forall t, into_compiler_token t <> Illtyped) by (intros [| |? ? []| | | |]; discriminate).
  assert (N1 : forall s, unwrap_nightly s <> Illtyped) by (intros []; discriminate).
  assert (S1 : forall s, unwrap_stable s <> Illtyped) by (intros []; discriminate).
  destruct c; cbn [well_typed api]; intros W;
    repeat match type of W with _ && _ = true => apply andb_prop in W; let W2 := fresh "W" in destruct W as [W W2] end;
    try match type of W with is_stream ?v = true => destruct v as [| | | | | | | |[]| |]; try discriminate W end;
    try match type of W with is_span ?v = true => destruct v as [| | | |[]| | | | | |]; try discriminate W end;
    try match type of W with is_tree ?v = true => destruct v as [| | | | | |[| |? ? []| | | |]| | | |]; try discriminate W end;
    try match type of W with is_group ?v = true => destruct v as [| | | | | |[]| | | |]; try discriminate W end;
    try match type of W with is_ident ?v = true => destruct v as [| | | | | |[]| | | |]; try discriminate W end;
    try match type of W with is_literal ?v = true => destruct v as [| | | | | |[]| | | |]; try discriminate W end;
    try match type of W with forallb is_tree ?v = true => destruct (typed_trees _ W) as (l & -> & ->) end;
    try match type of W with forallb is_stream ?v = true => destruct (typed_streams _ W) as (l & -> & ->) end;
    try match goal with W2 : is_span ?v = true |- _ => destruct v as [| | | |[]| | | | | |]; try discriminate W2 end;
    try match goal with W2 : is_ident ?v = true |- _ => destruct v as [| | | | | |[]| | | |]; try discriminate W2 end;
    try match goal with W2 : forallb is_tree ?v = true |- _ => destruct (typed_trees _ W2) as (l & -> & ->) end;
    try match goal with W2 : forallb is_stream ?v = true |- _ => destruct (typed_streams _ W2) as (l & -> & ->) end;
    cbn [as_stream as_span as_tree obind]; try discriminate;
    repeat first [discriminate | apply B; [now auto|] | match goal with |- forall _, _ => intros ? end | now auto].
  - destruct s; discriminate.
  - apply B; [|discriminate]. unfold from_str_unchecked. cbn [snd].
    match goal with |- match ?o with _ => _ end <> _ => destruct o; discriminate end.
  - destruct i; [apply B; [apply I1|discriminate]|discriminate].
  - destruct i; [apply B; [apply I1|discriminate]|discriminate].
  - destruct i; [apply B; [apply I1|discriminate]|discriminate].
  - destruct i; [apply B; [apply I1|discriminate]|discriminate].
  - destruct i; [apply B; [apply I1|discriminate]|discriminate].
  - destruct i; [apply B; [apply I1|discriminate]|discriminate].
  - destruct i; [apply B; [apply I1|discriminate]|discriminate].
  - destruct i; [apply B; [apply I1|discriminate]|discriminate].
  - apply B; [|discriminate]. destruct i; [|discriminate]. apply B; [now apply LI|discriminate].
  - apply B; [|discriminate]. destruct l as [|[] l]; [discriminate| |]; (apply B; [now apply LI|discriminate]).
  - apply B; [|discriminate]. apply B; [now apply LI|discriminate].
  - apply B; [|discriminate]. apply B; [now apply LI|discriminate].
  - apply B; [|discriminate]. apply B; [now apply LI|discriminate].
  - apply B; [|discriminate]. apply LI. intros [g|ch sp p|j|l]; cbn; try discriminate.
    match goal with |- (if ?o then _ else _) <> _ => destruct o; discriminate end.
  - destruct ts; discriminate.
  - apply B; [|discriminate]. unfold literal_new. destruct i; cbn [snd]; [|apply B; [auto|discriminate]].
    destruct (by_text r); [|discriminate]. destruct (fallback_repr r); try discriminate. unfold from_str_unchecked. cbn [snd].
    apply B; [|discriminate]. match goal with |- match ?o with _ => _ end <> _ => destruct o; discriminate end.
  - match goal with |- (if ?o then _ else _) <> _ => destruct o; discriminate end.
  - destruct e as [| | | | | | | | |[]|]; discriminate.
Qed.
(** Where mixtures are silent. *)
Lemma silent_trees i t u : i = false ->
  api i (FromTrees _ [VTree (IdentC t); VTree (IdentF u false call_site)]) =
    Val (VStream (StreamF [IdentC t; IdentF u false call_site])) /\
  api i (ExtendTrees _ (VStream (StreamF [])) [VTree (IdentC t)]) = Val (VStream (StreamF [IdentC t])).
Proof using. now intros ->. Qed.
Lemma silent_punct i c s a b :
  api i (TreeSetSpan _ (VTree (PunctW c s (SpC a))) (VSpan (SpF b))) = Val (VTree (PunctW c s (SpF b))).
Proof using. reflexivity. Qed.
Lemma silent_order i t u sp : c_ident_display t = u ->
  api i (IdentCmp _ (VTree (IdentC t)) (VTree (IdentF u false sp))) = Val (VOrder Eq) /\
  api i (IdentEq _ (VTree (IdentC t)) (VTree (IdentF u false sp))) = Mismatch.
Proof using.
  intros <-. split; [|reflexivity].
  assert (R : forall l, bytes_cmp l l = Eq) by (induction l as [|b l IH]; [reflexivity|]; cbn; now rewrite N.compare_refl).
  cbn. unfold ident_to_string. cbn. now rewrite R.
Qed.

(** ** C51 *)

Lemma checked_calls {A} valid (parser : str -> cparse A) src : fst (from_str_checked valid parser src) = if valid then [src] else [].
Proof using. now destruct valid. Qed.

(** ** C52 *)

Fixpoint wtree_size (t : wtree) : nat :=
  match t with GroupF _ ts _ => S (list_sum (map wtree_size ts)) | _ => 1 end.
Lemma wtree_ind2 (P : wtree -> Prop) :
  (forall d ts sp, Forall P ts -> P (GroupF d ts sp)) ->
  (forall t, (forall d ts sp, t <> GroupF d ts sp) -> P t) -> forall t, P t.
Proof using.
  intros HG HO. fix go 1. intros t. destruct t as [g|d ts sp|c s sp|i|s r sp|l|r sp]; try (apply HO; discriminate).
  apply HG. induction ts as [|t ts IH]; [constructor|]. constructor; [apply go|exact IH].
Qed.
Lemma erase_text t : w_tree_to_string (erase_tree t) = w_tree_to_string t.
Proof using.
  induction t as [d ts sp IH|t H] using wtree_ind2.
  - cbn [erase_tree w_tree_to_string]. f_equal. f_equal.
    + assert (G : forall first joint, w_print_trees w_tree_to_string first joint (map erase_tree ts) = w_print_trees w_tree_to_string first joint ts).
      { clear sp. induction IH as [|t ts E _ IH]; intros first joint; [reflexivity|]. cbn [map w_print_trees].
        rewrite E. f_equal. f_equal. fold (w_print_trees w_tree_to_string). rewrite IH. f_equal. now destruct t. }
      apply G.
    + now destruct d, ts.
  - destruct t; try reflexivity. exfalso. eapply H. reflexivity.
Qed.
Lemma erase_stream_text ts : w_stream_to_string (map erase_tree ts) = w_stream_to_string ts.
Proof using.
  unfold w_stream_to_string.
  assert (G : forall first joint, w_print_trees w_tree_to_string first joint (map erase_tree ts) = w_print_trees w_tree_to_string first joint ts).
  { induction ts as [|t ts IH]; intros first joint; [reflexivity|]. cbn [map w_print_trees].
    rewrite erase_text. f_equal. f_equal. fold (w_print_trees w_tree_to_string). rewrite IH. f_equal. now destruct t. }
  apply G.
Qed.
Definition erase_stream (s : wstream) : wstream :=
  match s with StreamF ts => StreamF (map erase_tree ts) | s => s end.
Lemma as_stream_erase v : as_stream (erase v) = omap erase_stream (as_stream v).
Proof using. now destruct v as [| | | | | | | |[]|[]|]. Qed.
Lemma as_tree_erase v : as_tree (erase v) = omap erase_tree (as_tree v).
Proof using. now destruct v as [| | | | | | | |[]|[]|]. Qed.
Lemma as_span_erase v : as_span (erase v) = omap erase_span (as_span v).
Proof using. now destruct v as [| | | | | | | |[]|[]|]. Qed.
Lemma omap_list_commute {A B D} (e : A -> A) (g : B -> D) (f : A -> outcome B) (f' : A -> outcome D) l :
  (forall a, f' (e a) = omap g (f a)) -> omap_list f' (map e l) = omap (map g) (omap_list f l).
Proof using.
  intros H. induction l as [|a l IH]; [reflexivity|]. cbn [map omap_list]. rewrite H, IH.
  destruct (f a); try reflexivity. cbn. now destruct (omap_list f l).
Qed.
Lemma as_trees_erase l : as_trees (map erase l) = omap (map erase_tree) (as_trees l).
Proof using. apply omap_list_commute, as_tree_erase. Qed.
Lemma as_streams_erase l : as_streams (map erase l) = omap (map erase_stream) (as_streams l).
Proof using. apply omap_list_commute, as_stream_erase. Qed.
Lemma into_erase t : into_compiler_token (erase_tree t) = into_compiler_token t.
Proof using. now destruct t as [| |? ? []| | | |]. Qed.
Lemma into_erase_all ts : omap_list into_compiler_token (map erase_tree ts) = omap_list into_compiler_token ts.
Proof using. rewrite omap_list_map. apply omap_list_ext, into_erase. Qed.
Lemma nightly_erase s : unwrap_nightly (erase_stream s) = unwrap_nightly s.
Proof using. now destruct s. Qed.
Lemma nightly_erase_all ss : omap_list unwrap_nightly (map erase_stream ss) = omap_list unwrap_nightly ss.
Proof using. rewrite omap_list_map. apply omap_list_ext, nightly_erase. Qed.
Lemma stable_erase_all ss : omap_list unwrap_stable (map erase_stream ss) = omap (map (map erase_tree)) (omap_list unwrap_stable ss).
Proof using. apply omap_list_commute. now intros []. Qed.
Lemma erase_span_twice s : erase_span (erase_span s) = erase_span s.
Proof using. now destruct s. Qed.
Lemma erase_twice t : erase_tree (erase_tree t) = erase_tree t.
Proof using.
  induction t as [d ts sp IH|t H] using wtree_ind2.
  - cbn [erase_tree]. f_equal. rewrite map_map. induction IH; [reflexivity|]. cbn [map]. f_equal; assumption.
  - destruct t; try reflexivity; [exfalso; eapply H; reflexivity|]. cbn. now rewrite erase_span_twice.
Qed.
Lemma erase_all_twice ts : map erase_tree (map erase_tree ts) = map erase_tree ts.
Proof using. rewrite map_map. apply map_ext, erase_twice. Qed.
Lemma erase_value_twice v : erase (erase v) = erase v.
Proof using.
  destruct v as [| | | | | | | |[]|[]|]; cbn [erase]; rewrite ?erase_span_twice, ?erase_twice, ?erase_all_twice; reflexivity.
Qed.
Lemma w_push_erase v t : map erase_tree (w_push v t) = w_push (map erase_tree v) (erase_tree t).
Proof using.
  destruct t as [| | | | | |[|c r] sp]; cbn [w_push erase_tree]; rewrite ?map_app; try reflexivity.
  now destruct (c =? "-"%ch)%N; rewrite map_app.
Qed.
Lemma w_extend_erase ts : forall v, map erase_tree (w_extend v ts) = w_extend (map erase_tree v) (map erase_tree ts).
Proof using.
  unfold w_extend. induction ts as [|t ts IH]; intros v; [reflexivity|]. cbn [map fold_left]. now rewrite IH, w_push_erase.
Qed.
Lemma concat_erase l : concat (map (map erase_tree) l) = map erase_tree (concat l).
Proof using. symmetry. apply concat_map. Qed.
(** Results agree up to spans when the streams do. *)
Lemma erase_result o o' : omap erase_stream o = omap erase_stream o' ->
  omap erase (obind o (fun s => Val (VStream s))) = omap erase (obind o' (fun s => Val (VStream s))).
Proof using.
  assert (E : forall x, erase (VStream x) = VStream (erase_stream x)) by now intros [].
  destruct o, o'; cbn [omap obind]; try discriminate; try reflexivity. rewrite !E. now intros [= ->].
Qed.
Lemma from_trees_erase i ts : omap erase_stream (from_trees i (map erase_tree ts)) = omap erase_stream (from_trees i ts).
Proof using.
  destruct i; cbn [from_trees]; [now rewrite into_erase_all|].
  cbn. now rewrite !w_extend_erase, erase_all_twice.
Qed.
Lemma extend_trees_erase s ts :
  omap erase_stream (extend_trees (erase_stream s) (map erase_tree ts)) = omap erase_stream (extend_trees s ts).
Proof using.
  destruct s as [s extra|v]; cbn [erase_stream extend_trees]; [now rewrite into_erase_all|].
  cbn. now rewrite !w_extend_erase, !erase_all_twice.
Qed.
Lemma stable_result v l :
  omap erase_stream (obind (omap_list unwrap_stable (map erase_stream l)) (fun ss => Val (StreamF (map erase_tree v ++ concat ss)))) =
  omap erase_stream (obind (omap_list unwrap_stable l) (fun ss => Val (StreamF (v ++ concat ss)))).
Proof using.
  rewrite stable_erase_all. destruct (omap_list unwrap_stable l); try reflexivity. cbn.
  now rewrite concat_erase, <- map_app, erase_all_twice.
Qed.
Lemma extend_streams_erase s ss :
  omap erase_stream (extend_streams (erase_stream s) (map erase_stream ss)) = omap erase_stream (extend_streams s ss).
Proof using.
  destruct s as [s extra|v]; cbn [erase_stream extend_streams]; [now rewrite nightly_erase_all|]. apply stable_result.
Qed.
Lemma from_streams_erase i ss :
  omap erase_stream (from_streams i (map erase_stream ss)) = omap erase_stream (from_streams i ss).
Proof using.
  destruct ss as [|[s extra|v] ss]; [reflexivity| |]; cbn [map erase_stream from_streams].
  - now rewrite nightly_erase_all.
  - apply stable_result.
Qed.

Lemma api_erase i c : asks_place c = false -> omap erase (api i (cmap erase c)) = omap erase (api i c).
Proof using.
  intros A. destruct c; try discriminate A; clear A; cbn [cmap api]; try reflexivity;
    rewrite ?as_span_erase, ?as_tree_erase, ?as_trees_erase, ?as_stream_erase, ?as_streams_erase; try reflexivity.
  - now destruct (as_stream s) as [[|[]]| | |].
  - destruct (as_stream s) as [[|]| | |]; try reflexivity. cbn. now rewrite erase_stream_text.
  - now destruct s as [| | | | | | | |[]|[]|].
  - destruct (as_stream s) as [[|]| | |]; try reflexivity. cbn [omap obind erase_stream]. now rewrite erase_stream_text.
  - destruct (as_tree t) as [t0| | |]; try reflexivity. cbn [omap obind]. destruct i; [now rewrite into_erase|].
    cbn [omap erase]. rewrite !w_push_erase. cbn [map]. now rewrite erase_twice.
  - destruct (as_trees ts) as [ts0| | |]; try reflexivity. cbn [omap obind]. fold (omap erase).
    apply erase_result, from_trees_erase.
  - destruct (as_streams ss) as [ss0| | |]; try reflexivity. cbn [omap obind].
    apply erase_result, from_streams_erase.
  - destruct (as_stream s) as [s0| | |]; try reflexivity. cbn [omap obind].
    destruct (as_trees ts) as [ts0| | |]; try reflexivity. cbn [omap obind].
    apply erase_result, extend_trees_erase.
  - destruct (as_stream s) as [s0| | |]; try reflexivity. cbn [omap obind].
    destruct (as_streams ss) as [ss0| | |]; try reflexivity. cbn [omap obind].
    apply erase_result, extend_streams_erase.
  - destruct (as_stream s) as [[|]| | |]; try reflexivity. cbn. now rewrite erase_all_twice.
  - destruct ts as [| | | | | | | |[]|[]|]; try reflexivity. cbn. rewrite nth_error_map.
    destruct (nth_error ts n); cbn; [now rewrite erase_twice|reflexivity].
  - destruct (as_span a) as [[]| | |]; try reflexivity; cbn [omap obind];
      now destruct (as_span b) as [[]| | |].
  - destruct (as_span a) as [[]| | |]; try reflexivity; cbn [omap obind];
      now destruct (as_span b) as [[]| | |].
  - now destruct (as_span a) as [[]| | |].
  - destruct (as_stream s) as [[|]| | |]; try reflexivity. cbn. now rewrite erase_all_twice.
  - now destruct g as [| | | | | |[]| |[]|[]|].
  - destruct g as [| | | | | |[]| |[]|[]|]; try reflexivity. cbn. now rewrite erase_all_twice.
  - now destruct g as [| | | | | |[]| |[]|[]|].
  - now destruct g as [| | | | | |[]| |[]|[]|].
  - destruct (as_span sp) as [[]| | |]; try reflexivity. cbn [omap obind erase_span]. unfold ident_new.
    now destruct (validate_ident s).
  - destruct (as_span sp) as [[]| | |]; try reflexivity. cbn [omap obind erase_span]. unfold ident_new_raw.
    now destruct (validate_ident_raw s).
  - now destruct a as [| | | | | |[]| |[]|[]|], b as [| | | | | |[]| |[]|[]|].
  - now destruct a as [| | | | | |[]| |[]|[]|].
  - now destruct a as [| | | | | |[]| |[]|[]|], b as [| | | | | |[]| |[]|[]|].
  - destruct (as_tree t) as [[]| | |]; try reflexivity. cbn. now rewrite erase_span_twice.
  - destruct (as_tree t) as [t0| | |]; try reflexivity. cbn [omap obind].
    destruct (as_span sp) as [s0| | |]; try reflexivity. cbn [omap obind].
    destruct t0, s0; cbn; rewrite ?erase_all_twice, ?erase_span_twice; reflexivity.
  - destruct (as_tree t) as [t0| | |]; try reflexivity. cbn [omap obind erase]. now rewrite erase_text.
  - now destruct e as [| | | | | |[]| |[]|[]|].
Qed.
Lemma set_span_erase t sp t' : backing (VTree t) = Some ByFallback -> backing (VSpan sp) = Some ByFallback ->
  w_set_span t sp = Val t' -> erase_tree t' = erase_tree t /\ w_span t' = sp.
Proof using.
  destruct t as [| |? ? []| | | |], sp; cbn; try discriminate; intros _ _ [=<-]; now split.
Qed.
End Proofs.
