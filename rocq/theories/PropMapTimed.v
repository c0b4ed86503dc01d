(** * C90: what span queries cost.

    [t_run] runs a history and counts the characters that [byte_range] and [source_text]
    pass to find positions. *)
From Coq Require Import Sorting.Sorted.
From Verif Require Import Base Unicode Tokens Lexer Fallback SourceMap SpecMap Timed MapTimed SpecMapTimed MapTimedProofs.

Theorem c90_same : forall S U st os, fst (@t_run S U st os) = run st os.
Proof. exact @t_run_same. Qed.
Print Assumptions c90_same.
(** Whatever is asked, in whatever order: [n log n] for each text and two for each query. *)
Theorem c90_any_order : forall S, search_ok S -> forall U os, room 1 os ->
  snd (@t_run S U initial os) <= budget os + 2 * queries os.
Proof. exact @any_order. Qed.
Print Assumptions c90_any_order.
(** Not more than the way from each position to the next, whatever was asked before. *)
Theorem c90_travel : forall S, search_ok S -> forall U os st s, @reached U S os st s ->
  forall i qs ps, asks s i qs ps -> snd (@t_run S U st qs) <= travel 0 ps + 2 * length qs.
Proof. exact @by_travel. Qed.
Print Assumptions c90_travel.
(** So spans asked for in the order of the text cost its length. *)
Theorem c90_in_order : forall S, search_ok S -> forall U os st s, @reached U S os st s ->
  forall i qs ps t, asks s i qs ps -> nth_error (texts s) i = Some t -> StronglySorted le ps ->
  snd (@t_run S U st qs) <= length t + 2 * length qs.
Proof. exact @in_order. Qed.
Print Assumptions c90_in_order.

(** Fifteen names: in order, from behind, and by halves. *)
Definition names15 : str := lit "a b c d e f g h i j k l m n o".
Definition halves15 : list nat := [7; 3; 11; 1; 5; 9; 13; 0; 2; 4; 6; 8; 10; 12; 14].
Example c90_example :
  let cost ks := snd (@t_run std_new sample_unicode initial (OParse names15 :: map ORange ks)) in
  allowance names15 = 145 /\ cost (seq 0 15) = 58 /\ cost (rev (seq 0 15)) = 86 /\ cost halves15 = 89.
Proof. vm_compute. repeat split. Qed.
Example c90_example_asks :
  let s := fst (@spec_run sample_unicode spec_initial [OParse names15]) in
  asks s 1 [OText 0; ORange 1; OText 14] [0; 1; 2; 3; 28; 29] /\ StronglySorted le [0; 1; 2; 3; 28; 29].
Proof.
  split.
  - apply (asks_more _ _ _ 0 (mkplace 1 0 1)); [now right|reflexivity|reflexivity|].
    apply (asks_more _ _ _ 1 (mkplace 1 2 3)); [now left|reflexivity|reflexivity|].
    apply (asks_more _ _ _ 14 (mkplace 1 28 29)); [now right|reflexivity|reflexivity|]. constructor.
  - repeat constructor.
Qed.
