(** * Panics of source map functions that the program catches: src/fallback.rs 377-429,
    464-516, 559-661, src/extra.rs 10-72.

    [SourceMap.v] ends with the first panic.  Here every function also says what it
    leaves in the map, as the exclusive borrow ends when a panic unwinds: what was done
    before the panic stays.  Spans may be any, such as those from before an
    invalidation. *)
From Verif Require Import Base Unicode Tokens Lexer SourceMap SpecMap.
From Verif Require CheckedLexer.
Import ListNotations.

Inductive answer := Answer (x : out) | Panicked.
Definition answer_of {A} (k : A -> out) (r : option A) : answer :=
  match r with Some a => Answer (k a) | None => Panicked end.

(** 381-424: the insertion at 421-422 comes last. *)
Definition byte_left (f : file) (ch : N) : file * option nat :=
  match byte f ch with Ok (f', x) => (f', Some x) | _ => (f, None) end.
(** 377-379. *)
Definition byte_range_left (f : file) (sp : span) : file * option (nat * nat) :=
  let (f, a) := byte_left f (lo sp) in
  match a with
  | Some a =>
      let (f, b) := byte_left f (hi sp) in
      (f, match b with Some b => Some (a, b) | None => None end)
  | None => (f, None)
  end.
(** 426-429. *)
Definition source_text_left (f : file) (sp : span) : file * option str :=
  let (f, r) := byte_range_left f sp in
  match r with
  | Some (a, b) => (f, match slice (source_text f) a b with Ok s => Some s | _ => None end)
  | None => (f, None)
  end.

Section WithSearch.
Context {S : std_search}.
(** 513-516. *)
Definition with_file_left {A} (m : source_map) (sp : span) (k : file -> file * option A) : source_map * option A :=
  match find m sp with
  | Ok i =>
      match nth_error m i with
      | Some f => let (f, a) := k f in (update m i f, a)
      | None => (m, None)
      end
  | _ => (m, None)
  end.
(** 559-571, 649-661. *)
Definition byte_range_of (m : source_map) (sp : span) : source_map * answer :=
  if is_call_site sp then (m, Answer (Range (0, 0)))
  else let (m, r) := with_file_left m sp (fun f => byte_range_left f sp) in (m, answer_of Range r).
Definition source_text_of (m : source_map) (sp : span) : source_map * answer :=
  if is_call_site sp then (m, Answer (Text None))
  else let (m, r) := with_file_left m sp (fun f => source_text_left f sp) in
       (m, answer_of (fun s => Text (Some s)) r).

(** A method called on any span. *)
Inductive query := QStart | QEnd | QRange | QText | QFile | QJoin (other : span).
Definition shared {A} (m : source_map) (k : A -> out) (r : res A) : source_map * answer :=
  (m, match r with Ok a => Answer (k a) | _ => Panicked end).
Definition ask (m : source_map) (q : query) (sp : span) : source_map * answer :=
  match q with
  | QStart => shared m Position (span_start m sp)
  | QEnd => shared m Position (span_end m sp)
  | QRange => byte_range_of m sp
  | QText => source_text_of m sp
  | QFile => shared m Path (span_file m sp)
  | QJoin b => shared m (fun o => Made (match o with Some _ => true | None => false end)) (span_join m sp b)
  end.

Context {U : unicode}.
(** The operations of SpecMap.v; 197-212: the text is registered, then parsed. *)
Definition parse_left (st : state) (src : str) : state * answer :=
  match add_file (smap st) src with
  | Ok (m, sp) =>
      match CheckedLexer.token_stream_from_str (lo sp) src with
      | Ok l => (mkstate m (pool st ++ lexed_spans l), Answer Nothing)
      | _ => (mkstate m (pool st), Panicked)
      end
  | _ => (st, Panicked)
  end.
Definition literal_left (st : state) (src : str) : state * answer :=
  match add_file (smap st) src with
  | Ok (m, sp) =>
      match CheckedLexer.literal_from_str (lo sp) src with
      | Ok l => (mkstate m (pool st ++ [lit_span l]), Answer Nothing)
      | _ => (mkstate m (pool st), Panicked)
      end
  | _ => (st, Panicked)
  end.
Definition own_step (st : state) (o : op) : state * answer :=
  match o with
  | OParse src => parse_left st src
  | OLiteral src => literal_left st src
  | ORange i =>
      match nth_error (pool st) i with
      | Some a => let (m, x) := byte_range_of (smap st) a in (mkstate m (pool st), x)
      | None => (st, Answer Nothing)
      end
  | OText i =>
      match nth_error (pool st) i with
      | Some a => let (m, x) := source_text_of (smap st) a in (mkstate m (pool st), x)
      | None => (st, Answer Nothing)
      end
  | _ => match step st o with Ok (st', x) => (st', Answer x) | _ => (st, Panicked) end
  end.

(** An operation of the program, or a query about any other span. *)
Inductive call := Own (o : op) | Foreign (q : query) (sp : span).
Definition caught_step (st : state) (c : call) : state * answer :=
  match c with
  | Own o => own_step st o
  | Foreign q sp => let (m, x) := ask (smap st) q sp in (mkstate m (pool st), x)
  end.
Fixpoint caught_run (st : state) (cs : list call) : state * list answer :=
  match cs with
  | [] => (st, [])
  | c :: cs =>
      let (st, x) := caught_step st c in
      let (st, xs) := caught_run st cs in (st, x :: xs)
  end.
End WithSearch.
