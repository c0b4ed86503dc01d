(** * Property C77: extending a wrapped stream from an iterator that may panic. *)
From Verif Require Import SpecLex.
From Verif Require Import Base Unicode Tokens Lexer Fallback LitNew Wrapper SpecWrapper ToyCompiler WrapperPartial
  SpecCaught CaughtProofs.
Import ListNotations.

(** [left] is what the compiler's own [extend] leaves of its stream when the
    iterator given to it panics. *)

(** With trees: those given before the panic stay, in a compiler stream too. *)
Theorem c77_trees : forall (T : ctypes) s ts e s' o, extend_trees_from s ts e = (s', o) ->
  exists given, stops (takes_tree s) ts e given o /\ extend_trees s given = Val s'.
Proof. exact @trees_left. Qed.
Print Assumptions c77_trees.
(** With streams: a compiler stream has everything appended earlier handed to the
    compiler, whatever that then leaves of it. *)
Theorem c77_streams : forall (T : ctypes) (C : compiler) left s ss e s' o,
  extend_streams_from left s ss e = (s', o) ->
  exists given, stops (takes_stream s) ss e given o /\
    match s with
    | StreamF _ => extend_streams s given = Val s'
    | StreamC c extra =>
        match o with
        | Val _ => extend_streams s given = Val s'
        | _ => exists cs, omap_list unwrap_nightly given = Val cs /\ s' = StreamC (left (evaluate c extra) cs) []
        end
    end.
Proof. exact @streams_left. Qed.
Print Assumptions c77_streams.
Theorem c77_trees_held : forall (T : ctypes) (C : compiler) stored, list_laws stored ->
  forall s ts held e s' o, holds stored s held -> extend_trees_from s ts e = (s', o) ->
  exists given cs, stops (takes_tree s) ts e given o /\ Forall2 is_compiler_tree given cs /\
    holds stored s' (held ++ flat_map stored cs).
Proof. exact @trees_held. Qed.
Print Assumptions c77_trees_held.
Theorem c77_streams_held : forall (T : ctypes) (C : compiler) left stored, list_laws stored ->
  forall kept, left_law left kept ->
  forall s ss held e s' o, holds stored s held -> extend_streams_from left s ss e = (s', o) ->
  exists given css, stops (takes_stream s) ss e given o /\ Forall2 (holds stored) given css /\
    holds stored s' (held ++ match o with Val _ => concat css | _ => kept css end).
Proof. exact @streams_held. Qed.
Print Assumptions c77_streams_held.
(** An iterator that does not panic is as good as its list of items. *)
Theorem c77_whole : forall (T : ctypes) (C : compiler) left,
  (forall s ts, let (s', o) := extend_trees_from s ts Finished in extend_trees s ts = obind o (fun _ => Val s')) /\
  (forall s ss, let (s', o) := extend_streams_from left s ss Finished in
     extend_streams s ss = obind o (fun _ => Val s')).
Proof. exact (fun T C left => conj (@trees_whole T) (@streams_whole T C left)). Qed.
Print Assumptions c77_whole.
Theorem c77_collected : forall (T : ctypes) (C : compiler) left,
  (forall i ts e, from_trees_from i ts e = refuses e (from_trees i ts)) /\
  (forall i ss e, from_streams_from left i ss e = refuses e (from_streams i ss)).
Proof. exact (fun T C left => conj (@trees_collected T C) (@streams_collected T C left)). Qed.
Print Assumptions c77_collected.
(** Programs that catch panics and go on cannot tell that trees are appended late. *)
Theorem c77_eager : forall (U : unicode) (T : ctypes) (C : compiler) (F : fallback_map) left, extend_laws ->
  forall h regs, (let (os, final) := run_caught left regs h in (map (omap settle) os, map settle final)) =
    run_caught_eager left (map settle regs) h.
Proof. exact @caught_settle. Qed.
Print Assumptions c77_eager.

Local Existing Instances sample_unicode toy_types toy_compiler toy_map.
(** The compiler leaves its stream as it was. *)
Definition unchanged (s : @cstream toy_types) (_ : list (@cstream toy_types)) : @cstream toy_types := s.
(** A stream is extended with two trees, then the iterator panics; with a tree and
    one of the other kind; and with streams, the second of the other kind. *)
Definition c77_program : list caught :=
  [Call true (New _);                              (* 0: the stream *)
   Call true (PunctNew _ "+"%ch Joint);            (* 1 *)
   Call true (LiteralParse _ 1 (tag "-2"));        (* 2 *)
   InPlaceTrees 0 [1; 2]%nat Unwound;
   Call false (PunctNew _ "*"%ch Alone);           (* 3 *)
   InPlaceTrees 0 [1; 3; 2]%nat Finished;
   Call false (New _);                             (* 4 *)
   InPlaceStreams 0 [0; 4]%nat Finished;
   Call true (Print _ 0%nat);
   CollectTrees true [1; 3]%nat Unwound;
   InPlaceStreams 0 [0]%nat Finished;
   Call true (Print _ 0%nat)].
Example c77_example :
  @left_law toy_types toy_compiler unchanged (fun _ => []) /\
  map (fun o => match o with Val (VText s) => Val s | Val _ => Val [] | Mismatch => Mismatch
                | Panics => Panics | Illtyped => Illtyped end) (fst (run_caught unchanged [] c77_program)) =
  [Val []; Val []; Val []; Panics; Val []; Mismatch; Val []; Mismatch; Val (tag "+ - 2 + "); Mismatch;
   Val []; Val (tag "+ - 2 + + - 2 + ")] /\
  extend_trees_from (StreamC [] []) [PunctW "+"%ch Joint (SpC 1%nat); PunctW "*"%ch Alone (SpF (mkspan 0 0))] Unwound =
    (StreamC [] [CPunct "+"%ch Joint 1%nat], Mismatch) /\
  holds toy_stored (StreamC [ToyIdent (tag "x") 1] [CLiteral (tag "-2", 1%nat)])
    [CIdent (tag "x", 1%nat); CPunct "-"%ch Alone 1%nat; CLiteral (tag "2", 1%nat)] /\
  from_streams_from unchanged true [StreamC [] []] Unwound = Panics /\
  stops (takes_tree (StreamC [] [])) [PunctW "+"%ch Joint (SpC 1%nat); PunctW "*"%ch Alone (SpF (mkspan 0 0))] Unwound
    [PunctW "+"%ch Joint (SpC 1%nat)] Mismatch.
Proof.
  split; [intros s ss; symmetry; apply app_nil_r|]. split; [vm_compute; reflexivity|]. split; [reflexivity|].
  split; [reflexivity|]. split; [reflexivity|].
  split; [repeat constructor|right]. eexists _, _. split; [reflexivity|]. split; [discriminate|reflexivity].
Qed.
