(** * Properties C46, C47, C51 and C52 of compiler-backed and fallback values. *)
From Verif Require Import SpecLex.
From Verif Require Import Base Unicode Tokens Lexer Fallback LitNew LitProofs Wrapper SpecWrapper WrapperProofs
  WrapperClaims ToyCompiler.
Import ListNotations.
Local Open Scope N_scope.

(** The compiler is the parameter [C] (Wrapper.v).  [run regs h] is the list of
    outcomes of the program [h] started on the values [regs]. *)

Local Notation toy_run := (@run sample_unicode toy_types toy_compiler toy_map).
Local Notation toy_eager := (@run_eager sample_unicode toy_types toy_compiler toy_map).
Local Notation toy_api := (@api sample_unicode toy_types toy_compiler toy_map).

(** ** C46 *)
Theorem c46_eager : forall (U : unicode) (T : ctypes) (C : compiler) (F : fallback_map), extend_laws ->
  forall h regs, map (omap settle) (run regs h) = run_eager (map settle regs) h.
Proof. exact @run_settle. Qed.
Print Assumptions c46_eager.
(** Every stream built by a sequence of appends holds its tokens in order, each once. *)
Theorem c46_appends : forall (T : ctypes) (C : compiler) stored, list_laws stored ->
  forall s es ts added, holds stored s ts -> Forall2 (adds stored) es added ->
  exists s', edit_all s es = Val s' /\ holds stored s' (ts ++ concat added).
Proof. exact @edits. Qed.
Print Assumptions c46_appends.
Theorem c46_from_trees : forall (T : ctypes) (C : compiler) stored, list_laws stored ->
  forall i ts cs, Forall2 is_compiler_tree ts cs -> i = true ->
  exists s, from_trees i ts = Val s /\ holds stored s (flat_map stored cs).
Proof. exact @made. Qed.
Print Assumptions c46_from_trees.
Theorem c46_from_streams : forall (T : ctypes) (C : compiler) stored, list_laws stored ->
  forall i ss css, ss <> [] -> Forall2 (holds stored) ss css ->
  exists s, from_streams i ss = Val s /\ holds stored s (concat css).
Proof. exact @joined. Qed.
Print Assumptions c46_from_streams.
(** Every observation sees exactly those tokens. *)
Theorem c46_observed : forall (U : unicode) (T : ctypes) (C : compiler) (F : fallback_map) stored, list_laws stored ->
  forall s ts, holds stored s ts ->
  (forall i, api i (IsEmpty _ (VStream s)) = Val (VBool (match ts with [] => true | _ => false end))) /\
  into_iter s = omap_list from_compiler_token ts /\
  (exists cs, unwrap_nightly s = Val cs /\ c_trees cs = ts /\
     (forall i, api i (Print _ (VStream s)) = Val (VText (c_display cs)) /\
                api i (ToCompiler _ (VStream s)) = Val (VCompiler cs) /\
                (forall d, api i (GroupNew _ d (VStream s)) = Val (VTree (GroupC (c_group_new d cs)))))).
Proof. exact @observed. Qed.
Print Assumptions c46_observed.
(** A program appending one tree at a time, observing in between. *)
Definition c46_program : list step :=
  [(true, New _);                                    (* 0 *)
   (true, PunctNew _ "+"%ch Joint);                  (* 1 *)
   (true, CallSite _);                               (* 2 *)
   (true, IdentNew _ (tag "x") 2%nat);               (* 3 *)
   (true, ExtendTrees _ 0%nat [1%nat]);              (* 4 *)
   (true, IsEmpty _ 4%nat);                          (* 5 *)
   (true, ExtendTrees _ 4%nat [3%nat; 1%nat]);       (* 6 *)
   (true, Print _ 6%nat);                            (* 7 *)
   (true, ExtendStreams _ 6%nat [4%nat]);            (* 8 *)
   (true, IntoIter _ 8%nat)].                        (* 9 *)
Example c46_example :
  @extend_laws toy_types toy_compiler /\ @list_laws toy_types toy_compiler toy_stored /\
  length (toy_run [] c46_program) = 10%nat /\
  nth 6 (toy_run [] c46_program) Illtyped <> nth 6 (toy_eager [] c46_program) Illtyped /\
  nth 7 (toy_run [] c46_program) Illtyped = Val (VText (tag "+ x + ")) /\
  nth 9 (toy_run [] c46_program) Illtyped = nth 9 (toy_eager [] c46_program) Illtyped /\
  nth 9 (toy_run [] c46_program) Illtyped =
    Val (VTrees (let p := @PunctW toy_types "+"%ch Joint (@SpC toy_types 1%nat) in
                 [p; @IdentC toy_types (tag "x", 1%nat); p; p] : list (@wtree toy_types))).
Proof.
  split; [exact toy_extend_laws|]. split; [exact toy_list_laws|]. split; [reflexivity|].
  split; [vm_compute; discriminate|]. repeat split.
Qed.

(** ** C47 *)
Theorem c47_one_kind : forall (U : unicode) (T : ctypes) (C : compiler) (F : fallback_map) k c,
  Forall (value_of k) (call_args c) ->
  api (mode k) c <> Mismatch /\
  (forall v, api (mode k) c = Val v -> to_compiler c = false -> value_of k v).
Proof. exact @one_kind. Qed.
Print Assumptions c47_one_kind.
Theorem c47_histories : forall (U : unicode) (T : ctypes) (C : compiler) (F : fallback_map) k h regs,
  Forall (value_of k) regs ->
  Forall (fun s => fst s = mode k /\ to_compiler (snd s) = false) h ->
  Forall (fun o => o <> Mismatch /\ forall v, o = Val v -> value_of k v) (run regs h).
Proof. exact @history_kind. Qed.
Print Assumptions c47_histories.
(** A mixture gives the documented answer, or panics, unless the call is one of [silent]. *)
Theorem c47_mixtures : forall (U : unicode) (T : ctypes) (C : compiler) (F : fallback_map) i c,
  well_typed c = true -> mixed c -> silent i c = false -> api i c = documented c.
Proof. exact @mixtures. Qed.
Print Assumptions c47_mixtures.
Theorem c47_compiler_streams : forall (U : unicode) (T : ctypes) (C : compiler) (F : fallback_map) l v,
  forallb is_tree l = true -> In v l -> backing v = Some ByFallback ->
  api true (FromTree _ v) = Mismatch /\ api true (FromTrees _ l) = Mismatch /\
  (forall i s extra, api i (ExtendTrees _ (VStream (StreamC s extra)) l) = Mismatch).
Proof.
  exact (fun U T C F l v W I B =>
    conj (foreign_refused v (proj1 (forallb_forall _ _) W v I) B) (foreign_refused_list l v W I B)).
Qed.
Print Assumptions c47_compiler_streams.
(** The calls of [silent] do mix: a fallback stream takes compiler trees, a
    [Punct] takes any span, and idents of different kinds which [==] refuses
    to compare are ordered, and can be equal in that order. *)
Theorem c47_silent_refuted : exists (U : unicode) (T : ctypes) (C : compiler) (F : fallback_map) (t : cident) u,
  (exists ts, api false (FromTrees _ [VTree (IdentC t); VTree (IdentF u false call_site)]) = Val (VStream (StreamF ts)) /\
     (forall k, ~ Forall (tree_of k) ts)) /\
  (exists ts, api true (ExtendTrees _ (VStream (StreamF [])) [VTree (IdentC t)]) = Val (VStream (StreamF ts)) /\ ts <> []) /\
  (forall i c s a b, api i (TreeSetSpan _ (VTree (PunctW c s (SpC a))) (VSpan (SpF b))) = Val (VTree (PunctW c s (SpF b)))) /\
  (forall i, api i (IdentCmp _ (VTree (IdentC t)) (VTree (IdentF u false call_site))) = Val (VOrder Eq) /\
             api i (IdentEq _ (VTree (IdentC t)) (VTree (IdentF u false call_site))) = Mismatch).
Proof.
  exists sample_unicode, toy_types, toy_compiler, toy_map, (tag "x", 0%nat), (tag "x").
  split; [|split; [|split]].
  - eexists. split; [reflexivity|]. intros k X. pose proof (Forall_inv X) as X1.
    pose proof (Forall_inv (Forall_inv_tail X)) as X2. cbn in X1, X2. congruence.
  - eexists. split; [reflexivity|discriminate].
  - reflexivity.
  - intros i. now apply silent_order.
Qed.
Print Assumptions c47_silent_refuted.
Example c47_example :
  let program k : list step :=
    [(k, CallSite _); (k, Parse _ 1 (tag "-x")); (k, IdentNew _ (tag "y") 0%nat); (k, FromTrees _ [2%nat; 2%nat]);
     (k, FromStreams _ [1%nat; 3%nat]); (k, GroupNew _ Brace 4%nat); (k, TreeSetSpan _ 5%nat 0%nat)] in
  (forall k, Forall (fun o => exists v, o = Val v /\ value_of k v) (toy_run [] (program (mode k))) /\
             length (toy_run [] (program (mode k))) = 7%nat) /\
  let a := VSpan (SpF (mkspan 1 2)) in let b := VSpan (@SpC toy_types 1%nat) in
  mixed (Join _ a b) /\ mixed (ResolvedAt _ b a) /\
  toy_api true (Join _ a b) = Val VNone /\ toy_api true (ResolvedAt _ b a) = Mismatch.
Proof.
  cbv zeta. split; [|split; [|split; [|split; reflexivity]]].
  - assert (O : forall k (o : outcome (@value toy_types)), (exists v, o = Val v /\ value_of k v) <->
             match o with Val v => value_of k v | _ => False end).
    { intros k []; split; try (now intros (v & E & _)); try tauto.
      - intros (v & [=->] & H). exact H.
      - eauto. }
    intros k. split; [|now destruct k]. eapply Forall_impl; [intros o; apply (O k)|].
    destruct k; vm_compute; repeat (constructor; [repeat split; repeat constructor|]); constructor.
  - exists (VSpan (@SpC toy_types 1%nat)), (VSpan (SpF (mkspan 1 2))). cbn. auto.
  - exists (VSpan (@SpC toy_types 1%nat)), (VSpan (SpF (mkspan 1 2))). cbn. auto.
Qed.

(** ** C51 *)
(** The first component of a parse is the list of texts given to the compiler's parser. *)
Theorem c51_stream : forall (U : unicode) (T : ctypes) (C : compiler) start src, start < two32 ->
  ((exists ts, token_stream_from_str start src = Ok (Lexed ts)) /\
   parse_stream true start src =
     Ok ([src], match c_parse src with
                | Parsed s => inl (StreamC s []) | ParseErr => inr ErrC | ParsePanic => inr ErrPanic end)) \/
  ((exists sp, token_stream_from_str start src = Ok (LexError sp)) /\
   parse_stream true start src = Ok ([], inr ErrPanic)).
Proof. exact @parse_guarded. Qed.
Print Assumptions c51_stream.
Theorem c51_literal : forall (U : unicode) (T : ctypes) (C : compiler) start src, start < two32 ->
  ((exists repr sp, literal_from_str start src = Ok (LitOk repr sp)) /\
   parse_lit true start src =
     Ok ([src], match c_literal_parse src with
                | Parsed l => inl (LiteralC l) | ParseErr => inr ErrC | ParsePanic => inr ErrPanic end)) \/
  ((exists sp, literal_from_str start src = Ok (LitErr sp)) /\
   parse_lit true start src = Ok ([], inr ErrPanic)).
Proof. exact @parse_lit_guarded. Qed.
Print Assumptions c51_literal.
Theorem c51_outside : forall (U : unicode) (T : ctypes) (C : compiler) start src,
  (forall calls r, parse_stream false start src = Ok (calls, r) -> calls = []) /\
  (forall calls r, parse_lit false start src = Ok (calls, r) -> calls = []).
Proof.
  exact (fun U T C start src => conj (parse_fallback start src) (parse_lit_fallback start src)).
Qed.
Print Assumptions c51_outside.
(** On compilers without [byte_character] or [c_string] the constructors parse too. *)
Theorem c51_constructors : forall (U : unicode) (T : ctypes) (C : compiler) i r start text,
  unicode_ok U -> start < two32 -> bytes_ok r -> In text (fst (literal_new i r)) -> accepted start text.
Proof. exact @constructor_texts. Qed.
Print Assumptions c51_constructors.
(** The conversion of a fallback stream is the only other use of the parser; it does not validate. *)
Theorem c51_conversion_refuted : exists ts : list (@wtree toy_types),
  (forall i, toy_api i (ToCompiler _ (VStream (StreamF ts))) =
     obind (snd (from_str_unchecked (@c_parse toy_types toy_compiler) (tag "'")))
       (fun s => Val (VCompiler s))) /\
  exists sp, @token_stream_from_str sample_unicode 0 (tag "'") = Ok (LexError sp).
Proof. exists [PunctW "'"%ch Alone (SpF call_site)]. split; [reflexivity|]. eexists. vm_compute. reflexivity. Qed.
Print Assumptions c51_conversion_refuted.
Example c51_example :
  @parse_stream sample_unicode toy_types toy_compiler true 0 (tag "panic") = Ok ([tag "panic"], inr ErrPanic) /\
  @parse_stream sample_unicode toy_types toy_compiler true 0 (tag "(panic") = Ok ([], inr ErrPanic) /\
  (exists s, @parse_stream sample_unicode toy_types toy_compiler true 0 (tag "x") = Ok ([tag "x"], inl s)) /\
  fst (@literal_new sample_unicode toy_types toy_compiler true (ReqCString [255])) = [tag "c""\xFF"""].
Proof. split; [reflexivity|split; [reflexivity|split; [eexists; reflexivity|reflexivity]]]. Qed.

(** ** C52 *)
(** After [set_span] every later call, other than those which ask where a span
    lies, has the outcome it had without, up to the spans in the results. *)
Theorem c52_invisible : forall (U : unicode) (T : ctypes) (C : compiler) (F : fallback_map) t sp t' a b h,
  backing (VTree t) = Some ByFallback -> backing (VSpan sp) = Some ByFallback -> w_set_span t sp = Val t' ->
  Forall (fun s => asks_place (snd s) = false) h ->
  w_span t' = sp /\
  map (omap erase) (run (a ++ VTree t' :: b) h) = map (omap erase) (run (a ++ VTree t :: b) h).
Proof. exact @set_span_invisible. Qed.
Print Assumptions c52_invisible.
Theorem c52_total : forall (T : ctypes) (C : compiler) t sp,
  backing (VTree t) = backing (VSpan sp) -> exists t', w_set_span t sp = Val t'.
Proof. exact @set_span_total. Qed.
Print Assumptions c52_total.
Theorem c52_contents : forall (T : ctypes) (C : compiler) d ts sp sp',
  w_set_span (GroupF d ts sp) (SpF sp') = Val (GroupF d ts sp').
Proof. exact @set_span_contents. Qed.
Print Assumptions c52_contents.
(** Spans never decide anything but spans. *)
Theorem c52_spans_do_not_leak : forall (U : unicode) (T : ctypes) (C : compiler) (F : fallback_map) h regs regs',
  map erase regs = map erase regs' -> Forall (fun s => asks_place (snd s) = false) h ->
  map (omap erase) (run regs h) = map (omap erase) (run regs' h).
Proof. exact @run_erase. Qed.
Print Assumptions c52_spans_do_not_leak.
Example c52_example :
  let inner : @wtree toy_types := IdentF (tag "x") false (mkspan 2 3) in
  let t := GroupF Brace [inner; PunctW "-"%ch Joint (SpF (mkspan 3 4))] (mkspan 1 5) in
  let h : list step := [(false, TreePrint _ 0%nat); (false, GroupStream _ 0%nat); (false, IntoIter _ 2%nat);
                        (false, TreeSpan _ 0%nat); (false, SourceText _ 4%nat)] in
  @w_set_span toy_types toy_compiler t (SpF (mkspan 7 9)) = Val (GroupF Brace [inner; PunctW "-"%ch Joint (SpF (mkspan 3 4))] (mkspan 7 9)) /\
  nth 0 (toy_run [VTree t] h) Illtyped = Val (VText (tag "{ x - }")) /\
  nth 2 (toy_run [VTree t] h) Illtyped = Val (VTrees [inner; PunctW "-"%ch Joint (SpF (mkspan 3 4))]) /\
  nth 3 (toy_run [VTree t] h) Illtyped = Val (VSpan (SpF (mkspan 1 5))).
Proof. repeat split. Qed.
