(** * Properties of spans through the wrapper (C73) *)
From Verif Require Import Base Unicode Tokens SourceMap Wrapper WrapperSpans ToyCompiler BuildWorld SpecBuild SpecSpans SpansProofs.
From Verif Require Build BuildPairs PropBuild.
Import ListNotations.

(** Spans of the fallback are answered by the fallback's source map, whatever
    the compiler and the configuration. *)
Theorem c73_fallback : forall (St : std_search) (T : ctypes) (Q : span_compiler) g m s,
  w_byte_range g m (SpF s) = span_byte_range m s /\ w_start g m (SpF s) = span_start m s /\
  w_end g m (SpF s) = span_end m s /\ w_file g m (SpF s) = span_file m s /\ w_local_file g (SpF s) = None.
Proof. exact @fallback_answers. Qed.
Print Assumptions c73_fallback.
(** Spans of the compiler are answered by the compiler where the configuration
    allows, with columns from 0, otherwise by fixed values; the source map plays
    no part and nothing panics. *)
Theorem c73_compiler : forall (St : std_search) (T : ctypes) (Q : span_compiler) g m s, exists r a b f,
  w_byte_range g m (SpC s) = Ok (m, r) /\ w_start g m (SpC s) = Ok a /\
  w_end g m (SpC s) = Ok b /\ w_file g m (SpC s) = Ok f /\
  (with_span g = true -> r = c_byte_range s) /\
  (with_span g = false -> r = (0, 0)) /\
  (with_location g = true -> counted (c_line s) (c_column s) a /\ counted (c_line (c_end s)) (c_column (c_end s)) b) /\
  (with_location g = false -> a = mklc 0 0 /\ b = mklc 0 0) /\
  (with_file g = true -> f = c_file s /\ w_local_file g (SpC s) = c_local_file s) /\
  (with_file g = false -> f = tag "<token stream>" /\ w_local_file g (SpC s) = None).
Proof. exact @compiler_answers. Qed.
Print Assumptions c73_compiler.
(** The end is not before the start if the compiler's is not. *)
Theorem c73_ordered : forall (St : std_search) (T : ctypes) (Q : span_compiler) g m s a b,
  not_after (c_line s) (c_column s) (c_line (c_end s)) (c_column (c_end s)) ->
  w_start g m (SpC s) = Ok a -> w_end g m (SpC s) = Ok b -> not_after (line a) (column a) (line b) (column b).
Proof. exact @ordered. Qed.
Print Assumptions c73_ordered.
(** Which of the answers are the compiler's is decided by build.rs. *)
Theorem c73_configured : forall w m es g, Build.main w 0 = (Some (tt, m), es) -> configured es g ->
  (with_span g = true <-> nightly w) /\
  (with_location g = true <-> nightly w \/ stable w (lit "proc_macro_span_location")) /\
  (with_file g = true <-> nightly w \/ stable w (lit "proc_macro_span_file")).
Proof. exact built. Qed.
Print Assumptions c73_configured.
(** A [DelimSpan] keeps the three spans of its group; exactly groups have one. *)
Theorem c73_delim : forall (U : unicode) (T : ctypes) (C : compiler) (F : fallback_map) inside t d, delim_new t = Some d ->
  api inside (TreeSpan _ (VTree t)) = Val (VSpan (delim_join d)) /\
  api inside (GroupOpen _ (VTree t)) = Val (VSpan (delim_open d)) /\
  api inside (GroupClose _ (VTree t)) = Val (VSpan (delim_close d)).
Proof. exact @delim_answers. Qed.
Print Assumptions c73_delim.
Theorem c73_delim_groups : forall (U : unicode) (T : ctypes) (C : compiler) (F : fallback_map) inside t,
  (exists d, delim_new t = Some d) <-> exists x, api inside (GroupDelimiter _ (VTree t)) = Val (VDelim x).
Proof. exact @delim_exists. Qed.
Print Assumptions c73_delim_groups.
(** Invalidation is refused inside a procedural macro and is the fallback's outside. *)
Theorem c73_invalidate : forall inside m,
  (inside = true -> w_invalidate inside m = Panic) /\ (inside = false -> w_invalidate inside m = Ok (invalidate m)).
Proof. exact invalidated. Qed.
Print Assumptions c73_invalidate.

Definition toy_spans : @span_compiler toy_types := @Build_span_compiler toy_types
  (fun s : nat => (s, s + 1)) (fun s : nat => s / 10 + 1) (fun s : nat => s mod 10 + 1)
  (fun s : nat => s + 1) (fun _ => tag "main.rs") (fun _ => Some (tag "/main.rs")).
#[local] Existing Instance toy_types.
#[local] Existing Instance toy_compiler.
#[local] Existing Instance toy_spans.
Example c73_example :
  not_after (@c_line _ toy_spans 29) (@c_column _ toy_spans 29) (@c_line _ toy_spans (@c_end _ toy_spans 29)) (@c_column _ toy_spans (@c_end _ toy_spans 29)) /\
  @w_start std_new _ _ (mkconfig false true false) fresh_map (SpC 29) = Ok (mklc 3 9) /\
  @w_end std_new _ _ (mkconfig false true false) fresh_map (SpC 29) = Ok (mklc 4 0) /\
  @w_file std_new _ _ (mkconfig false true false) fresh_map (SpC 29) = Ok (tag "<token stream>") /\
  @w_file std_new _ _ (mkconfig false true false) fresh_map (SpF call_site) = Ok (tag "<unspecified>") /\
  delim_new (GroupC (Brace, [], 7)) = Some (DelimC 7 7 7) /\
  (exists w m es g, Build.main w 0 = (Some (tt, m), es) /\ configured es g /\ with_location g = true /\ with_span g = false).
Proof.
  split; [left; vm_compute; lia|]. do 5 (split; [vm_compute; reflexivity|]).
  exists (PropBuild.sample (lit "1.88.0") false None PropBuild.only_one), 3.
  exists (snd (Build.main (PropBuild.sample (lit "1.88.0") false None PropBuild.only_one) 0)), (mkconfig false true true).
  split; [vm_compute; reflexivity|]. split; [|split; reflexivity].
  unfold configured. cbn [with_span with_location with_file]. rewrite <- !BuildPairs.in_set_names.
  assert (E : set_names (snd (Build.main (PropBuild.sample (lit "1.88.0") false None PropBuild.only_one) 0))
    = [lit "wrap_proc_macro"; lit "proc_macro_span_location"; lit "proc_macro_span_file"]) by (vm_compute; reflexivity).
  rewrite E. split; [|split].
  - split; [discriminate|]. intros [H|[H|[H|[]]]]; discriminate H.
  - split; [intros _; cbn [In]; auto|reflexivity].
  - split; [intros _; cbn [In]; auto|reflexivity].
Qed.
