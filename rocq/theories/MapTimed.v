(** * Span queries once more, with a count of the characters they pass.

    fallback.rs 377-429 with a counter: taking a character from [char_indices()], from
    either end, is one step.  [nth] and [nth_back] take the characters one by one.  The
    look-ups in [BTreeMap]s, the binary search for the text and the copying of the answer
    are not counted.  PropMapTimed.v shows that the results are those of SourceMap.v. *)
From Verif Require Import Base Unicode Tokens Lexer Fallback LitNew SourceMap SpecMap Timed.

(** [Iterator::nth] on the items still to come. *)
Fixpoint t_nth {A} (l : list A) (n : nat) : timed (option A) :=
  match l, n with
  | [], _ => work 1 (Ok None)
  | x :: _, O => work 1 (Ok (Some x))
  | _ :: l, Datatypes.S n => charge 1 (t_nth l n)
  end.

Section WithSearch.
Context {S : std_search}.

(** 381-424. *)
Definition t_byte (f : file) (ch : N) : timed (file * nat) :=
  if (ch <? lo (fspan f))%N then panic
  else
    let char_index := N.to_nat (ch - lo (fspan f)) in
    let (previous_char_index, previous_byte_offset) :=
      match last_at_most (byte_cache f) char_index with Some e => e | None => (0, 0) end in
    if previous_char_index =? char_index then ret (f, previous_byte_offset)
    else
      let forward :=
        let! rest := work 0 (slice_from (source_text f) previous_byte_offset) in
        let! r := t_nth (indices 0 rest) (char_index - previous_char_index) in
        match r with
        | Some i => ret (previous_byte_offset + i)
        | None => ret (str_len (source_text f))
        end in
      let! byte_offset :=
        match first_at_least (byte_cache f) char_index with
        | Some (next_char_index, next_byte_offset) =>
            if next_char_index - char_index <? char_index - previous_char_index then
              if next_char_index <? char_index + 1 then panic
              else
                let! before := work 0 (slice_to (source_text f) next_byte_offset) in
                let! r := t_nth (rev (indices 0 before)) (next_char_index - char_index - 1) in
                work 0 (unwrap r)
            else forward
        | None => forward
        end in
      ret (mkfile (source_text f) (fspan f) (lines f) (cache_insert (byte_cache f) char_index byte_offset), byte_offset).
(** 377-379. *)
Definition t_byte_range (f : file) (sp : span) : timed (file * (nat * nat)) :=
  let! (f, a) := t_byte f (lo sp) in
  let! (f, b) := t_byte f (hi sp) in
  ret (f, (a, b)).
(** 426-429. *)
Definition t_file_source_text (f : file) (sp : span) : timed (file * str) :=
  let! (f, (a, b)) := t_byte_range f sp in
  let! s := work 0 (slice (source_text f) a b) in
  ret (f, s).
(** 508-516. *)
Definition t_with_file {A} (m : source_map) (sp : span) (k : file -> timed (file * A)) : timed (source_map * A) :=
  let! i := work 0 (find m sp) in
  let! f := work 0 (unwrap (nth_error m i)) in
  let! (f, a) := k f in
  ret (update m i f, a).
(** 559-571. *)
Definition t_span_byte_range (m : source_map) (sp : span) : timed (source_map * (nat * nat)) :=
  if is_call_site sp then ret (m, (0, 0)) else t_with_file m sp (fun f => t_byte_range f sp).
(** 649-661. *)
Definition t_span_source_text (m : source_map) (sp : span) : timed (source_map * option str) :=
  if is_call_site sp then ret (m, None)
  else let! (m, s) := t_with_file m sp (fun f => t_file_source_text f sp) in ret (m, Some s).

(** Histories; the other operations pass no characters of texts parsed before. *)
Context {U : unicode}.
Definition t_on {A} (xs : list A) (i : nat) (st : state) (k : A -> timed (state * out)) : timed (state * out) :=
  match nth_error xs i with Some x => k x | None => ret (st, Nothing) end.
Definition t_step (st : state) (o : op) : timed (state * out) :=
  match o with
  | ORange i => t_on (pool st) i st (fun a =>
      let! (m, x) := t_span_byte_range (smap st) a in ret (mkstate m (pool st), Range x))
  | OText i => t_on (pool st) i st (fun a =>
      let! (m, x) := t_span_source_text (smap st) a in ret (mkstate m (pool st), Text x))
  | _ => work 0 (step st o)
  end.
Fixpoint t_run (st : state) (os : list op) : timed (state * list out) :=
  match os with
  | [] => ret (st, [])
  | o :: os => let! (st, x) := t_step st o in let! (st, xs) := t_run st os in ret (st, x :: xs)
  end.
End WithSearch.
