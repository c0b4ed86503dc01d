(** * Proofs for C73. *)
From Verif Require Import Base Unicode Tokens SourceMap Wrapper WrapperSpans BuildWorld SpecBuild SpecSpans.
From Verif Require Build BuildClaims.
Import ListNotations.

Section Proofs.
Context {U : unicode} {St : std_search} {T : ctypes} {C : compiler} {F : fallback_map} {Q : span_compiler}.

Lemma fallback_answers (g : config) m (s : span) :
  w_byte_range g m (SpF s) = span_byte_range m s /\ w_start g m (SpF s) = span_start m s /\
  w_end g m (SpF s) = span_end m s /\ w_file g m (SpF s) = span_file m s /\ w_local_file g (SpF s) = None.
Proof. repeat split. Qed.

Lemma counted_sub l c : counted l c (mklc l (c - 1)).
Proof. split; [reflexivity|]. cbn. lia. Qed.

Lemma compiler_answers (g : config) m (s : cspan) : exists r a b f,
  w_byte_range g m (SpC s) = Ok (m, r) /\ w_start g m (SpC s) = Ok a /\
  w_end g m (SpC s) = Ok b /\ w_file g m (SpC s) = Ok f /\
  (with_span g = true -> r = c_byte_range s) /\
  (with_span g = false -> r = (0, 0)) /\
  (with_location g = true -> counted (c_line s) (c_column s) a /\ counted (c_line (c_end s)) (c_column (c_end s)) b) /\
  (with_location g = false -> a = mklc 0 0 /\ b = mklc 0 0) /\
  (with_file g = true -> f = c_file s /\ w_local_file g (SpC s) = c_local_file s) /\
  (with_file g = false -> f = tag "<token stream>" /\ w_local_file g (SpC s) = None).
Proof.
  do 4 eexists. do 4 (split; [reflexivity|]).
  destruct (with_span g), (with_location g), (with_file g) eqn:W; repeat split; intros; try discriminate; try reflexivity;
    unfold w_local_file; rewrite ?W; cbn; try reflexivity; lia.
Qed.

Lemma ordered (g : config) m (s : cspan) a b :
  not_after (c_line s) (c_column s) (c_line (c_end s)) (c_column (c_end s)) ->
  w_start g m (SpC s) = Ok a -> w_end g m (SpC s) = Ok b -> not_after (line a) (column a) (line b) (column b).
Proof.
  intros H [= <-] [= <-]. destruct (with_location g); unfold not_after in *; cbn; lia.
Qed.

Lemma delim_answers inside t d : delim_new t = Some d ->
  api inside (TreeSpan _ (VTree t)) = Val (VSpan (delim_join d)) /\
  api inside (GroupOpen _ (VTree t)) = Val (VSpan (delim_open d)) /\
  api inside (GroupClose _ (VTree t)) = Val (VSpan (delim_close d)).
Proof. destruct t; intros [= <-]; repeat split. Qed.
Lemma delim_exists inside t : (exists d, delim_new t = Some d) <-> exists x, api inside (GroupDelimiter _ (VTree t)) = Val (VDelim x).
Proof. split; intros (x & H); destruct t; try discriminate H; eexists; reflexivity. Qed.

Lemma invalidated inside m :
  (inside = true -> w_invalidate inside m = Panic) /\ (inside = false -> w_invalidate inside m = Ok (invalidate m)).
Proof. split; intros ->; reflexivity. Qed.
End Proofs.

Lemma built w m es g : Build.main w 0 = (Some (tt, m), es) -> configured es g ->
  (with_span g = true <-> nightly w) /\
  (with_location g = true <-> nightly w \/ stable w (lit "proc_macro_span_location")) /\
  (with_file g = true <-> nightly w \/ stable w (lit "proc_macro_span_file")).
Proof.
  intros R (A & B & D). pose proof (BuildClaims.cfgs_exact w m es R) as K.
  rewrite A, B, D, !K.
  split; [|split]; (split; [intro H; inversion H; assumption|]).
  - apply want_span.
  - apply want_location.
  - apply want_file.
Qed.
