(** * What a program that catches panics of the source map is to get. *)
From Verif Require Import Base Unicode Tokens Lexer SourceMap SpecMap MapCaught.
Import ListNotations.

(** The implementation of the search asks about elements of the slice, reports only what it
    has seen, and panics only if the function does. *)
Definition search_strict (S : std_search) : Prop :=
  forall A (f : A -> res comparison) xs,
  match binary_search_by f xs with
  | Ok (inl i) => exists x, nth_error xs i = Some x /\ f x = Ok Eq
  | Ok (inr _) => True
  | Reject => exists x, In x xs /\ f x = Reject
  | Panic => exists x, In x xs /\ f x = Panic
  | Fuel => exists x, In x xs /\ f x = Fuel
  end.

(** Does the text still fit into 2^32 positions? *)
Definition fits_after (used : N) (o : op) : bool :=
  match o with OParse src | OLiteral src => (used + N.of_nat (length src) + 1 <=? two32)%N | _ => true end.

Section Run.
Context {U : unicode}.
Definition caught_spec_step (s : spec) (o : op) : spec * answer :=
  if fits_after (total (texts s)) o then let (s, x) := spec_step s o in (s, Answer x) else (s, Panicked).
Fixpoint caught_spec (s : spec) (os : list op) : spec * list answer :=
  match os with
  | [] => (s, [])
  | o :: os =>
      let (s, x) := caught_spec_step s o in
      let (s, xs) := caught_spec s os in (s, x :: xs)
  end.
End Run.

(** The program's own operations, and the answers to them. *)
Fixpoint own_ops (cs : list call) : list op :=
  match cs with [] => [] | Own o :: cs => o :: own_ops cs | Foreign _ _ :: cs => own_ops cs end.
Fixpoint own_answers (cs : list call) (xs : list answer) : list answer :=
  match cs, xs with
  | Own _ :: cs, x :: xs => x :: own_answers cs xs
  | Foreign _ _ :: cs, _ :: xs => own_answers cs xs
  | _, _ => []
  end.
Definition span_in_order (c : call) : Prop :=
  match c with Own _ => True | Foreign _ sp => (lo sp <= hi sp)%N end.
(** What the methods answer about the part [p] of the texts. *)
Definition answer_at (s : spec) (p : place) (q : query) (x : answer) : Prop :=
  match q with
  | QStart => x = Answer (Position (line_column_at (text_of s p) (pfrom p)))
  | QEnd => x = Answer (Position (line_column_at (text_of s p) (pto p)))
  | QRange => x = Answer (Range (byte_at (text_of s p) (pfrom p), byte_at (text_of s p) (pto p)))
  | QText => x = Answer (Text (if pfile p =? 0 then None else Some (text_between (text_of s p) (pfrom p) (pto p))))
  | QFile => x = Answer (Path (file_name (pfile p)))
  | QJoin b => x = Answer (Made ((start_of (texts s) (pfile p) <=? lo b)
                 && (hi b <=? start_of (texts s) (pfile p) + N.of_nat (length (text_of s p))))%N)
  end.
