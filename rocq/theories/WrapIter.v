(** * Iterating over a stream one tree at a time: src/wrapper.rs 315-371, src/lib.rs 1480-1530.

    [Wrapper.into_iter] converts all trees at once; here each is converted when it
    is asked for, as the program does.  The compiler's iterator is the list of the
    trees still in it; its [size_hint] is a parameter. *)
From Verif Require Import Base Unicode Tokens Lexer Fallback LitNew Wrapper.
Import ListNotations.

Class compiler_hint {T : ctypes} := c_hint : list ctree -> nat * option nat.

Section Iter.
Context {U : unicode} {T : ctypes} {C : compiler} {H : compiler_hint}.

(** 315-319. *)
Inductive witer := IterC (rest : list ctree) | IterF (rest : list wtree).
(** 325-332. *)
Definition iter_start (s : wstream) : witer :=
  match s with
  | StreamC s extra => IterC (c_trees (into_token_stream s extra))
  | StreamF ts => IterF ts
  end.
(** 346-354: [Punct::new] takes the span of the call site, which is then replaced. *)
Definition punct_from (inside : bool) (ch : char) (s : spacing) (sp : cspan) : outcome wtree :=
  obind (if contains punct_new_chars ch then Val (PunctW ch s (span_call_site inside)) else Panics)
    (fun o => w_set_span o (SpC sp)).
(** 338-363; rcvec.rs 134-139.  A tree that makes it panic has been taken all the same. *)
Definition iter_next (inside : bool) (it : witer) : outcome (option wtree) * witer :=
  match it with
  | IterC [] => (Val None, IterC [])
  | IterC (CGroup g :: rest) => (Val (Some (GroupC g)), IterC rest)
  | IterC (CPunct ch s sp :: rest) => (obind (punct_from inside ch s sp) (fun t => Val (Some t)), IterC rest)
  | IterC (CIdent i :: rest) => (Val (Some (IdentC i)), IterC rest)
  | IterC (CLiteral l :: rest) => (Val (Some (LiteralC l)), IterC rest)
  | IterF [] => (Val None, IterF [])
  | IterF (t :: rest) => (Val (Some t), IterF rest)
  end.
(** 365-370; rcvec.rs 141-144. *)
Definition iter_hint (it : witer) : nat * option nat :=
  match it with
  | IterC rest => c_hint rest
  | IterF rest => (length rest, Some (length rest))
  end.

(** Programs with any number of iterators; a panic is caught by the program. *)
Inductive iter_op :=
| IStart (s : wstream)
| INext (inside : bool) (i : nat)
| IHint (i : nat)
| IClone (i : nat).
Inductive iter_ans := Said (a : outcome (option wtree)) | Hint (h : nat * option nat) | Quiet.
Fixpoint put {A} (xs : list A) (i : nat) (x : A) : list A :=
  match xs, i with
  | [], _ => []
  | _ :: xs, O => x :: xs
  | y :: xs, S i => y :: put xs i x
  end.
Definition iter_step (its : list witer) (o : iter_op) : list witer * iter_ans :=
  match o with
  | IStart s => (its ++ [iter_start s], Quiet)
  | INext inside i =>
      match nth_error its i with
      | Some it => let (a, it) := iter_next inside it in (put its i it, Said a)
      | None => (its, Quiet)
      end
  | IHint i => match nth_error its i with Some it => (its, Hint (iter_hint it)) | None => (its, Quiet) end
  | IClone i => match nth_error its i with Some it => (its ++ [it], Quiet) | None => (its, Quiet) end
  end.
Fixpoint iter_run (its : list witer) (os : list iter_op) : list iter_ans :=
  match os with
  | [] => []
  | o :: os => let (its, a) := iter_step its o in a :: iter_run its os
  end.
(** The answers to [n] calls of [next] in a row. *)
Fixpoint nexts (inside : bool) (n : nat) (it : witer) : list (outcome (option wtree)) :=
  match n with
  | O => []
  | S n => let (a, it) := iter_next inside it in a :: nexts inside n it
  end.
End Iter.
