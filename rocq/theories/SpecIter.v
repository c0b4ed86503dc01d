(** * Specification: iterators over streams.

    An iterator is a position in the trees its stream held when it was made. *)
From Verif Require Import Base Unicode Tokens SpecTree Wrapper SpecWrapper WrapIter.
Import ListNotations.

Section Iter.
Context {U : unicode} {T : ctypes} {C : compiler}.

(** What [next] gives for a tree of the compiler. *)
Inductive gives : ctree -> outcome (option wtree) -> Prop :=
| gives_group g : gives (CGroup g) (Val (Some (GroupC g)))
| gives_ident i : gives (CIdent i) (Val (Some (IdentC i)))
| gives_literal l : gives (CLiteral l) (Val (Some (LiteralC l)))
| gives_punct ch s sp : In ch punct_chars -> gives (CPunct ch s sp) (Val (Some (PunctW ch s (SpC sp))))
| gives_panic ch s sp : ~ In ch punct_chars -> gives (CPunct ch s sp) Panics.

Inductive contents := OfCompiler (ts : list ctree) | OfFallback (ts : list wtree).
Definition in_stream (stored : ctree -> list ctree) (s : wstream) (c : contents) : Prop :=
  match c with OfCompiler ts => holds stored s ts | OfFallback ts => s = StreamF ts end.
Definition how_many (c : contents) : nat :=
  match c with OfCompiler ts => length ts | OfFallback ts => length ts end.
(** The answer of [next] after [n] trees have been taken. *)
Definition answer (c : contents) (n : nat) (a : outcome (option wtree)) : Prop :=
  match c with
  | OfCompiler ts => match nth_error ts n with Some t => gives t a | None => a = Val None end
  | OfFallback ts => a = Val (nth_error ts n)
  end.
(** Bounds on the number of trees still to come: exact, except that those of the compiler are its own. *)
Definition bounds (h : nat * option nat) (n : nat) : Prop :=
  fst h <= n /\ match snd h with Some k => n <= k | None => True end.
Definition hinted (c : contents) (n : nat) (h : nat * option nat) : Prop :=
  bounds h (how_many c - n) /\
  match c with OfFallback _ => h = (how_many c - n, Some (how_many c - n)) | OfCompiler _ => True end.

Record mark := mkmark { among : contents; taken : nat }.
(** The answers a program gets, said of positions. *)
Inductive follows (stored : ctree -> list ctree) : list mark -> list iter_op -> list iter_ans -> Prop :=
| follows_nil ms : follows stored ms [] []
| follows_start ms s c os l : in_stream stored s c -> follows stored (ms ++ [mkmark c 0]) os l ->
    follows stored ms (IStart s :: os) (Quiet :: l)
| follows_next xs m ys inside a os l : answer (among m) (taken m) a ->
    follows stored (xs ++ mkmark (among m) (taken m + 1) :: ys) os l ->
    follows stored (xs ++ m :: ys) (INext inside (length xs) :: os) (Said a :: l)
| follows_hint xs m ys h os l : hinted (among m) (taken m) h -> follows stored (xs ++ m :: ys) os l ->
    follows stored (xs ++ m :: ys) (IHint (length xs) :: os) (Hint h :: l)
| follows_clone xs m ys os l : follows stored (xs ++ m :: ys ++ [m]) os l ->
    follows stored (xs ++ m :: ys) (IClone (length xs) :: os) (Quiet :: l)
(* a program cannot name an iterator it has not made *)
| follows_unmade ms o i os l : length ms <= i -> (o = IHint i \/ o = IClone i \/ exists inside, o = INext inside i) ->
    follows stored ms os l -> follows stored ms (o :: os) (Quiet :: l).
Definition truthful (H : compiler_hint) : Prop := forall ts, bounds (c_hint ts) (length ts).
End Iter.
