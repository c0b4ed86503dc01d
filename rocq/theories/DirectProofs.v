(** * The wrapper adds nothing to the fallback, and nothing to the compiler. *)
From Verif Require Import Base Unicode Tokens Lexer BaseFacts Stable Fallback LitNew Wrapper SpecWrapper WrapperProofs SpecDirect.
Import ListNotations.

Section Direct.
Context {U : unicode} {T : ctypes} {C : compiler} {F : fallback_map}.

(** ** Programs *)

Lemma direct_run {V} (none : V) (f : call V -> outcome V) (emb : V -> value) (g : call value -> outcome value)
  (regs : list V) h :
  emb none = VNone ->
  (forall c, In c h -> forall c', g (cmap emb (cmap (fun n : nat => nth n c' none) c)) =
     omap emb (f (cmap (fun n : nat => nth n c' none) c))) ->
  forall r, r = map emb regs ->
  (fix go (regs : list value) (h : list (call nat)) : list (outcome value) :=
     match h with
     | [] => []
     | c :: h => let o := g (cmap (read regs) c) in o :: match o with Val v => go (regs ++ [v]) h | _ => [] end
     end) r h = map (omap emb) (direct none f regs h).
Proof using.
  intros Hn Hg. revert regs. induction h as [|c h IH]; intros regs r ->; [reflexivity|]. cbn [direct map].
  assert (E : cmap (read (map emb regs)) c = cmap emb (cmap (fun n : nat => nth n regs none) c)).
  { rewrite cmap_cmap. apply cmap_ext. intros n. unfold read. rewrite <- Hn. apply map_nth. }
  rewrite E, (Hg c (or_introl eq_refl)). f_equal.
  destruct (f (cmap (fun n : nat => nth n regs none) c)) as [v| | |]; try reflexivity. cbn [omap].
  apply IH; [intros c0 H0; apply Hg; now right|]. now rewrite map_app.
Qed.

(** ** The fallback *)

Definition gather {A B} (f : A -> option B) (l : list A) : option (list B) :=
  fold_right (fun a o => match f a, o with Some b, Some l => Some (b :: l) | _, _ => None end) (Some []) l.
Lemma gathered {A B D} (f : A -> option B) (emb : A -> value) (g : value -> outcome D) (e : B -> D) l :
  (forall a, g (emb a) = match f a with Some b => Val (e b) | None => Illtyped end) ->
  omap_list g (map emb l) = match gather f l with Some l => Val (map e l) | None => Illtyped end.
Proof using.
  intros H. induction l as [|a l IH]; [reflexivity|]. cbn [map omap_list gather fold_right]. rewrite H.
  destruct (f a) as [b|]; [|reflexivity]. cbn [obind]. rewrite IH. fold (gather f l). now destruct (gather f l).
Qed.
Lemma f_trees vs : as_trees (map of_fallback vs) = match gather f_tree vs with Some l => Val (map of_token l) | None => Illtyped end.
Proof using. apply gathered. now intros []. Qed.
Lemma f_streams vs : as_streams (map of_fallback vs) =
  match gather f_stream vs with Some l => Val (map (fun ts => StreamF (map of_token ts)) l) | None => Illtyped end.
Proof using. apply gathered. now intros []. Qed.

Lemma w_push_token v t : w_push (map of_token v) (of_token t) = map of_token (v ++ stream_from_tree t).
Proof using.
  rewrite map_app. destruct t as [| | |[|c r] sp]; try reflexivity. cbn [of_token w_push]. unfold stream_from_tree, push_token.
  destruct (c =? "-"%ch)%N; reflexivity.
Qed.
Lemma w_extend_tokens ts : forall v, w_extend (map of_token v) (map of_token ts) = map of_token (v ++ flat_map stream_from_tree ts).
Proof using.
  induction ts as [|t ts IH]; intros v; cbn [map flat_map]; [now rewrite app_nil_r|]. unfold w_extend in *. cbn [fold_left].
  rewrite w_push_token, IH. now rewrite app_assoc.
Qed.
Lemma w_text_list ts : Forall (fun t => w_tree_to_string (of_token t) = tree_to_string t) ts ->
  forall first joint, w_print_trees w_tree_to_string first joint (map of_token ts) = print_trees tree_to_string first joint ts.
Proof using.
  induction 1 as [|t ts H H' IH]; intros first joint; [reflexivity|]. cbn [map w_print_trees print_trees]. rewrite H, IH.
  destruct first, joint; destruct t; reflexivity.
Qed.
Lemma w_text t : w_tree_to_string (of_token t) = tree_to_string t.
Proof using.
  induction t as [d ts sp IH|s r sp|c s sp|r sp] using token_nested_ind; try reflexivity.
  cbn [of_token w_tree_to_string tree_to_string]. rewrite (w_text_list ts IH). now destruct d, ts.
Qed.
Lemma w_stream_text ts : w_stream_to_string (map of_token ts) = stream_to_string ts.
Proof using. apply w_text_list. apply Forall_forall. intros t _. apply w_text. Qed.
Lemma stable_tokens l : omap_list unwrap_stable (map (fun ts => StreamF (map of_token ts)) l) = Val (map (map of_token) l).
Proof using. induction l as [|ts l IH]; [reflexivity|]. cbn [map omap_list]. now rewrite IH. Qed.
Lemma nth_of_tokens ts n : nth_error (map of_token ts) n = option_map of_token (nth_error ts n).
Proof using. apply nth_error_map. Qed.

Lemma fallback_step c : to_compiler c = false -> api false (cmap of_fallback c) = omap of_fallback (fallback_api c).
Proof using.
  intros Hc. destruct c; try discriminate Hc; clear Hc; cbn [cmap api fallback_api];
    try (repeat match goal with v : fvalue |- _ => destruct v end; reflexivity).
  - unfold parse_stream. destruct (token_stream_from_str start src) as [[ts|sp]| | |]; reflexivity.
  - destruct s; try reflexivity. cbn. now destruct ts.
  - destruct s; try reflexivity. cbn. now rewrite w_stream_text.
  - destruct t; try reflexivity. cbn [of_fallback as_tree obind omap]. exact (f_equal (fun v => Val (VStream (StreamF v))) (w_push_token [] t)).
  - rewrite f_trees. unfold all_of. fold (gather f_tree ts). destruct (gather f_tree ts) as [l|]; [|reflexivity].
    cbn [obind from_trees omap of_fallback]. exact (f_equal (fun v => Val (VStream (StreamF v))) (w_extend_tokens l [])).
  - rewrite f_streams. unfold all_of. fold (gather f_stream ss). destruct (gather f_stream ss) as [l|]; [|reflexivity].
    cbn [obind]. destruct l as [|ts l]; [reflexivity|]. cbn [map from_streams]. rewrite stable_tokens. cbn [obind omap of_fallback concat].
    now rewrite map_app, concat_map.
  - destruct s; try reflexivity. cbn [of_fallback as_stream obind]. rewrite f_trees. unfold all_of. fold (gather f_tree ts).
    destruct (gather f_tree ts) as [l|]; [|reflexivity]. cbn [obind extend_trees omap of_fallback]. now rewrite w_extend_tokens.
  - destruct s; try reflexivity. cbn [of_fallback as_stream obind]. rewrite f_streams. unfold all_of. fold (gather f_stream ss).
    destruct (gather f_stream ss) as [l|]; [|reflexivity]. cbn [obind extend_streams]. rewrite stable_tokens.
    cbn [obind omap of_fallback]. now rewrite map_app, concat_map.
  - destruct ts; try reflexivity. cbn [of_fallback omap]. rewrite nth_of_tokens. now destruct (nth_error ts n).
  - destruct a; try reflexivity. destruct b; try reflexivity. cbn. now destruct (f_join s s0).
  - destruct a; try reflexivity. cbn. now destruct (f_source_text s).
  - now destruct g as [| | | | | |[]| | |].
  - now destruct g as [| | | | | |[]| | |].
  - now destruct g as [| | | | | |[]| | |].
  - now destruct g as [| | | | | |[]| | |].
  - destruct sp; try reflexivity. cbn. now destruct (ident_new s s0).
  - destruct sp; try reflexivity. cbn. now destruct (ident_new_raw s s0).
  - now destruct a as [| | | | | |[]| | |], b as [| | | | | |[]| | |].
  - destruct a as [| | | | | |[]| | |]; try reflexivity. cbn. now destruct (ident_eq_str sym raw s).
  - now destruct a as [| | | | | |[]| | |], b as [| | | | | |[]| | |].
  - cbn. now destruct (fallback_repr r).
  - unfold parse_lit. destruct (literal_from_str start src) as [[]| | |]; reflexivity.
  - destruct l as [| | | | | |[]| | |]; try reflexivity. cbn. now destruct (subspan sp a b).
  - unfold punct_new. now destruct (contains _ c).
  - now destruct t as [| | | | | |[]| | |].
  - now destruct t as [| | | | | |[]| | |], sp.
  - destruct t; try reflexivity. cbn. now rewrite w_text.
Qed.
Lemma fallback_run h regs : Forall (fun c => to_compiler c = false) h ->
  run (map of_fallback regs) (map (pair false) h) = map (omap of_fallback) (direct FNone fallback_api regs h).
Proof using.
  intros H. rewrite <- (direct_run FNone fallback_api of_fallback (api false) regs h eq_refl) with (r := map of_fallback regs);
    [|intros c Hc regs'; apply fallback_step|reflexivity].
  - generalize (map of_fallback regs). clear. induction h as [|c h IH]; intros r; [reflexivity|]. cbn [map run].
    f_equal. destruct (api false (cmap (read r) c)); [apply IH|reflexivity..].
  - rewrite Forall_forall in H. specialize (H c Hc). destruct c; try discriminate H; reflexivity.
Qed.

Lemma conversion_text i ts :
  api i (ToCompiler _ (of_fallback (FStream ts))) =
  match c_parse (stream_to_string ts) with Parsed s => Val (VCompiler s) | _ => Panics end.
Proof using. cbn. rewrite w_stream_text. now destruct (c_parse (stream_to_string ts)). Qed.
Lemma literal_texts r :
  fallback_api (LiteralNew _ r) =
  let made text := Val (FTree (TLiteral text call_site)) in
  match r with
  | ReqInt None z => made (int_unsuffixed z)
  | ReqInt (Some t) z => made (int_suffixed t z)
  | ReqFloat None text => made (float_unsuffixed text)
  | ReqFloat (Some t) text => made (float_suffixed t text)
  | ReqString s => made (literal_string s)
  | ReqChar c => made (literal_character c)
  | ReqByteChar b => made (literal_byte_character b)
  | ReqByteString bs => made (literal_byte_string bs)
  | ReqCString bs => match literal_c_string bs with Ok text => made text | _ => Panics end
  end.
Proof using. now destruct r as [[]|[]| | | | |]. Qed.

(** ** The compiler *)
Section Laws.
Hypothesis L : extend_laws.

Lemma settle_compiler v : settle (of_compiler v) = of_compiler v.
Proof using L. destruct v; try reflexivity. cbn. now rewrite (extend_nothing L). Qed.
Lemma k_trees vs : as_trees (map of_compiler vs) = match gather k_tree vs with Some l => Val (map of_ctree l) | None => Illtyped end.
Proof using. apply gathered. now intros []. Qed.
Lemma k_streams vs : as_streams (map of_compiler vs) =
  match gather k_stream vs with Some l => Val (map (fun s => StreamC s []) l) | None => Illtyped end.
Proof using. apply gathered. now intros []. Qed.
Lemma into_of t : into_compiler_token (of_ctree t) = Val t.
Proof using. now destruct t. Qed.
Lemma into_all l : omap_list into_compiler_token (map of_ctree l) = Val l.
Proof using. induction l as [|t l IH]; [reflexivity|]. cbn [map omap_list]. now rewrite into_of, IH. Qed.
Lemma nightly_of l : omap_list unwrap_nightly (map (fun s => StreamC s []) l) = Val l.
Proof using. induction l as [|t l IH]; [reflexivity|]. cbn [map omap_list]. now rewrite IH. Qed.
Lemma from_one t : from_compiler_token t = if punct_char t then Val (of_ctree t) else Panics.
Proof using. now destruct t. Qed.
Lemma from_all l : omap_list from_compiler_token l = if forallb punct_char l then Val (map of_ctree l) else Panics.
Proof using.
  induction l as [|t l IH]; [reflexivity|]. cbn [map omap_list forallb]. rewrite from_one, IH.
  destruct (punct_char t); [|reflexivity]. now destruct (forallb punct_char l).
Qed.
Lemma compiler_step c : omap settle (api true (cmap of_compiler c)) = omap of_compiler (compiler_api c).
Proof using L.
  destruct c; cbn [cmap api compiler_api];
    try (repeat match goal with v : cvalue |- _ => destruct v end; cbn; rewrite ?(extend_nothing L); reflexivity).
  - unfold parse_stream, stream_valid. destruct (token_stream_from_str start src) as [[ts|sp]| | |]; try reflexivity.
    cbn. destruct (c_parse src); try reflexivity. cbn. now rewrite (extend_nothing L).
  - destruct s; try reflexivity. cbn. now rewrite Bool.andb_true_r.
  - destruct t as [| | | | | |[]| | | |]; try reflexivity; cbn; now rewrite (extend_nothing L).
  - rewrite k_trees. unfold all_of. fold (gather k_tree ts). destruct (gather k_tree ts) as [l|]; [|reflexivity].
    cbn [obind from_trees]. rewrite into_all. cbn. now rewrite (extend_nothing L).
  - rewrite k_streams. unfold all_of. fold (gather k_stream ss). destruct (gather k_stream ss) as [l|]; [|reflexivity].
    cbn [obind]. destruct l as [|ts l]; [cbn; now rewrite (extend_nothing L)|]. cbn [map from_streams]. rewrite nightly_of.
    cbn. now rewrite (extend_nothing L).
  - destruct s; try reflexivity. cbn [of_compiler as_stream obind]. rewrite k_trees. unfold all_of. fold (gather k_tree ts).
    destruct (gather k_tree ts) as [l|]; [|reflexivity]. cbn [obind extend_trees]. now rewrite into_all.
  - destruct s; try reflexivity. cbn [of_compiler as_stream obind]. rewrite k_streams. unfold all_of. fold (gather k_stream ss).
    destruct (gather k_stream ss) as [l|]; [|reflexivity]. cbn [obind extend_streams]. rewrite nightly_of.
    cbn. now rewrite (extend_nothing L).
  - destruct s; try reflexivity. cbn [of_compiler as_stream obind into_iter into_token_stream evaluate]. rewrite from_all.
    now destruct (forallb punct_char (c_trees s)).
  - destruct ts; try reflexivity. cbn [of_compiler omap]. rewrite nth_error_map. now destruct (nth_error ts n).
  - destruct a; try reflexivity. destruct b; try reflexivity. cbn. now destruct (c_join s s0).
  - destruct a; try reflexivity. cbn. now destruct (c_source_text s).
  - now destruct g as [| | | | | |[]| | | |].
  - destruct g as [| | | | | |[]| | | |]; try reflexivity. cbn. now rewrite (extend_nothing L).
  - now destruct g as [| | | | | |[]| | | |].
  - now destruct g as [| | | | | |[]| | | |].
  - destruct sp; try reflexivity. cbn. now destruct (c_ident_new s s0).
  - destruct sp; try reflexivity. cbn. now destruct (c_ident_new_raw s s0).
  - now destruct a as [| | | | | |[]| | | |], b as [| | | | | |[]| | | |].
  - now destruct a as [| | | | | |[]| | | |].
  - now destruct a as [| | | | | |[]| | | |], b as [| | | | | |[]| | | |].
  - unfold k_literal, literal_new. fold (by_text r). destruct (by_text r); [|reflexivity].
    destruct (fallback_repr r) as [x| | |]; try reflexivity. cbn. now destruct (c_literal_parse x).
  - unfold parse_lit, literal_valid. destruct (literal_from_str start src) as [[ts|sp]| | |]; try reflexivity.
    cbn. now destruct (c_literal_parse src).
  - destruct l as [| | | | | |[]| | | |]; try reflexivity. cbn. now destruct (c_literal_subspan l a b).
  - cbn [punct_char]. now destruct (contains _ c).
  - now destruct t as [| | | | | |[]| | | |].
  - now destruct t as [| | | | | |[]| | | |], sp.
  - now destruct t as [| | | | | |[]| | | |].
  - now destruct e as [| | | | | | | | |[]|].
Qed.
Lemma compiler_run h regs :
  map (omap settle) (run (map of_compiler regs) (map (pair true) h)) =
  map (omap of_compiler) (direct KNone compiler_api regs h).
Proof using L.
  rewrite (run_settle L). replace (map settle (map of_compiler regs)) with (map of_compiler regs)
    by (rewrite map_map; apply map_ext; intros v; symmetry; apply settle_compiler).
  rewrite <- (direct_run KNone compiler_api of_compiler (fun c => omap settle (api true c)) regs h eq_refl)
    with (r := map of_compiler regs); [|intros c Hc regs'; apply compiler_step|reflexivity].
  generalize (map of_compiler regs). clear. induction h as [|c h IH]; intros r; [reflexivity|]. cbn [map run_eager].
  f_equal. destruct (omap settle (api true (cmap (read r) c))); [apply IH|reflexivity..].
Qed.
End Laws.
End Direct.
