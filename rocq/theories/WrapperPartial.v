(** * Extending a wrapped stream from an iterator, item by item (wrapper.rs 194-257).

    [Wrapper.v] gives [extend] and [from_iter] the whole list at once.  Here the
    iterator hands out some items and then ends or panics, and what is left of
    the stream after a panic is kept.  What the compiler's own [extend] leaves of
    its stream when the iterator given to it panics is the parameter [left]: its
    arguments are the stream and the streams already handed out. *)
From Verif Require Import Base Unicode Tokens Fallback Wrapper.
Import ListNotations.

(** How an iterator ends after its last item. *)
Inductive ending := Finished | Unwound.

Section Partial.
Context {T : ctypes} {C : compiler}.
Variable left : cstream -> list cstream -> cstream.

Definition at_end (e : ending) : outcome unit := match e with Finished => Val tt | Unwound => Panics end.

(** [iter.map(f)] drained by a consumer: the items handed on, and how it ends. *)
Fixpoint hand_out {A B} (f : A -> outcome B) (items : list A) (e : ending) : list B * outcome unit :=
  match items with
  | [] => ([], at_end e)
  | a :: items =>
      match f a with
      | Val b => let (bs, o) := hand_out f items e in (b :: bs, o)
      | Mismatch => ([], Mismatch)
      | Panics => ([], Panics)
      | Illtyped => ([], Illtyped)
      end
  end.

(** 233-238: [for token in tokens { tts.extra.push(into_compiler_token(token)) }]. *)
Fixpoint push_each (extra : list ctree) (ts : list wtree) (e : ending) : list ctree * outcome unit :=
  match ts with
  | [] => (extra, at_end e)
  | t :: ts =>
      match into_compiler_token t with
      | Val c => push_each (extra ++ [c]) ts e
      | Mismatch => (extra, Mismatch)
      | Panics => (extra, Panics)
      | Illtyped => (extra, Illtyped)
      end
  end.
(** fallback.rs Extend<TokenTree>: each token goes through [push_token]. *)
Fixpoint push_wrapped (v : list wtree) (ts : list wtree) (e : ending) : list wtree * outcome unit :=
  match ts with
  | [] => (v, at_end e)
  | t :: ts => push_wrapped (w_push v t) ts e
  end.
(** 230-242 *)
Definition extend_trees_from (s : wstream) (ts : list wtree) (e : ending) : wstream * outcome unit :=
  match s with
  | StreamC s extra => let (extra, o) := push_each extra ts e in (StreamC s extra, o)
  | StreamF v => let (v, o) := push_wrapped v ts e in (StreamF v, o)
  end.
(** fallback.rs Extend<TokenStream>: the trees of each stream are pushed before
    the next stream is asked for. *)
Fixpoint push_streams (v : list wtree) (ss : list wstream) (e : ending) : list wtree * outcome unit :=
  match ss with
  | [] => (v, at_end e)
  | s :: ss =>
      match unwrap_stable s with
      | Val ts => push_streams (v ++ ts) ss e
      | Mismatch => (v, Mismatch)
      | Panics => (v, Panics)
      | Illtyped => (v, Illtyped)
      end
  end.
(** The compiler's [extend] on an iterator of streams. *)
Definition compiler_extend (s : cstream) (ss : list wstream) (e : ending) : cstream * outcome unit :=
  let (cs, o) := hand_out unwrap_nightly ss e in
  match o with Val _ => (c_extend_streams s cs, o) | _ => (left s cs, o) end.
(** 244-257: [evaluate_now] comes first and leaves [extra] empty. *)
Definition extend_streams_from (s : wstream) (ss : list wstream) (e : ending) : wstream * outcome unit :=
  match s with
  | StreamC s extra => let (s, o) := compiler_extend (evaluate s extra) ss e in (StreamC s [], o)
  | StreamF v => let (v, o) := push_streams v ss e in (StreamF v, o)
  end.

(** 194-204; a stream not finished is dropped. *)
Definition from_trees_from (inside : bool) (ts : list wtree) (e : ending) : outcome wstream :=
  if inside then
    let (cs, o) := hand_out into_compiler_token ts e in
    obind o (fun _ => Val (StreamC (c_collect cs) []))
  else let (v, o) := push_wrapped [] ts e in obind o (fun _ => Val (StreamF v)).
(** 206-228 *)
Definition from_streams_from (inside : bool) (ss : list wstream) (e : ending) : outcome wstream :=
  match ss with
  | [] => obind (at_end e) (fun _ => Val (if inside then StreamC c_new [] else StreamF []))
  | StreamC s extra :: ss =>
      let (s, o) := compiler_extend (evaluate s extra) ss e in obind o (fun _ => Val (StreamC s []))
  | StreamF v :: ss => let (v, o) := push_streams v ss e in obind o (fun _ => Val (StreamF v))
  end.

End Partial.
