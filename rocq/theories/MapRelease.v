(** * The source map in a build without overflow checks: src/fallback.rs 456-481.

    [SourceMap.v] panics where a [u32] addition overflows.  Without checks the sum
    wraps around; everything else is shared. *)
From Verif Require Import Base Unicode Tokens Lexer Fallback LitNew SourceMap SpecMap.
Import ListNotations.

Definition wrapping_add (a b : N) : N := wrap32 (a + b).
Definition wrapping_next (m : source_map) : res N :=
  match rev m with [] => Panic | f :: _ => Ok (wrapping_add (hi (fspan f)) 1) end.
Definition wrapping_add_file (m : source_map) (src : str) : res (source_map * span) :=
  let (len, lines) := lines_offsets src in
  let? l := wrapping_next m in
  let sp := mkspan l (wrapping_add l (wrap32 (N.of_nat len))) in
  Ok (m ++ [mkfile src sp lines []], sp).

Section Run.
Context {U : unicode} {S : std_search}.
Definition wrapping_parse (m : source_map) (src : str) : res (source_map * lexed) :=
  let? (m, sp) := wrapping_add_file m src in
  let? l := token_stream_from_str (lo sp) src in
  Ok (m, l).
Definition wrapping_literal (m : source_map) (src : str) : res (source_map * lit_result) :=
  let? (m, sp) := wrapping_add_file m src in
  let? l := literal_from_str (lo sp) src in
  Ok (m, l).
Definition wrapping_step (st : state) (o : op) : res (state * out) :=
  match o with
  | OParse src => let? (m, l) := wrapping_parse (smap st) src in Ok (mkstate m (pool st ++ lexed_spans l), Nothing)
  | OLiteral src => let? (m, l) := wrapping_literal (smap st) src in Ok (mkstate m (pool st ++ [lit_span l]), Nothing)
  | _ => step st o
  end.
Fixpoint wrapping_run (st : state) (os : list op) : res (state * list out) :=
  match os with
  | [] => Ok (st, [])
  | o :: os => let? (st, x) := wrapping_step st o in let? (st, xs) := wrapping_run st os in Ok (st, x :: xs)
  end.
End Run.

(** Each text by itself has less than 2^32 characters. *)
Definition short (o : op) : Prop :=
  match o with OParse src | OLiteral src => (N.of_nat (length src) < two32)%N | _ => True end.
