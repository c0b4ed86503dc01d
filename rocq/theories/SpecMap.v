(** * Specification: histories of parses and span queries on one thread.

    [run] drives the model of the source map; [spec_run] answers the same history
    from the texts alone.  A span is identified in the specification by the text
    it belongs to and two character positions in it; text 0 is the empty text of
    [Span::call_site]. *)
From Verif Require Import Base Unicode Tokens Lexer Fallback LitNew SpecLit SourceMap.

(** ** Positions in one text *)

Definition newlines (s : str) : nat := count_occ N.eq_dec s LF.
(** Characters after the last newline. *)
Fixpoint since_newline (n : nat) (s : str) : nat :=
  match s with
  | [] => n
  | c :: s => if N.eq_dec c LF then since_newline 0 s else since_newline (n + 1) s
  end.
Definition line_column_at (t : str) (a : nat) : line_column :=
  mklc (1 + newlines (firstn a t)) (since_newline 0 (firstn a t)).
(** Said without recursion: the lines up to [a] end in newlines, except the last. *)
Definition is_line_column (t : str) (a : nat) (x : line_column) : Prop :=
  line x = 1 + count_occ N.eq_dec (firstn a t) LF /\
  exists before after, firstn a t = before ++ after /\ column x = length after /\ ~ In LF after /\
    (before = [] \/ exists b, before = b ++ [LF]).
Definition byte_at (t : str) (a : nat) : nat := length (str_bytes (firstn a t)).
Definition text_between (t : str) (a b : nat) : str := firstn (b - a) (skipn a t).

(** ** Places *)

Record place := mkplace { pfile : nat; pfrom : nat; pto : nat }.
Definition call_site_place : place := mkplace 0 0 0.
Definition valid_place (texts : list str) (p : place) : Prop :=
  exists t, nth_error texts (pfile p) = Some t /\ pfrom p <= pto p /\ pto p <= length t.
(** Texts are numbered one after the other, leaving one position between them. *)
Fixpoint start_of (texts : list str) (i : nat) : N :=
  match texts, i with
  | t :: texts, S i => (N.of_nat (length t) + 1 + start_of texts i)%N
  | _, _ => 0%N
  end.
Definition total (ts : list str) : N := start_of ts (length ts).
Definition span_at (texts : list str) (p : place) : span :=
  let s := start_of texts (pfile p) in mkspan (s + N.of_nat (pfrom p)) (s + N.of_nat (pto p)).

(** ** Histories *)

Inductive op :=
| OParse (src : str)                    (* [src.parse::<TokenStream>()] *)
| OLiteral (src : str)                  (* [src.parse::<Literal>()] *)
| OCallSite                             (* [Span::call_site()] *)
| OJoin (i j : nat)                     (* of the spans number [i] and [j] *)
| OSubspan (i : nat) (start fin : bound)
| OFirst (i : nat)                      (* [Group::span_open], with any span set on the group *)
| OLast (i : nat)                       (* [Group::span_close] *)
| OStart (i : nat)
| OEnd (i : nat)
| ORange (i : nat)
| OText (i : nat)
| OFile (i : nat)
| OInvalidate.
Inductive out :=
| Nothing
| Made (some : bool)
| Position (x : line_column)
| Range (x : nat * nat)
| Text (x : option str)
| Path (x : str).

(** All spans in a parse result; those of delimiters are obtained by [OFirst], [OLast]. *)
Fixpoint tree_spans (t : token) : list span :=
  token_span t :: match t with TGroup _ ts _ => flat_map tree_spans ts | _ => [] end.
Definition lexed_spans (l : lexed) : list span :=
  match l with Lexed ts => flat_map tree_spans ts | LexError sp => [sp] end.
Definition lit_span (l : lit_result) : span := match l with LitOk _ sp => sp | LitErr sp => sp end.

Record state := mkstate { smap : source_map; pool : list span }.
Definition initial : state := mkstate fresh_map [].

Section Run.
Context {U : unicode} {S : std_search}.

Definition on {A} (xs : list A) (i : nat) (st : state) (k : A -> res (state * out)) : res (state * out) :=
  match nth_error xs i with Some x => k x | None => Ok (st, Nothing) end.
Definition made (st : state) (o : option span) : state * out :=
  match o with
  | Some sp => (mkstate (smap st) (pool st ++ [sp]), Made true)
  | None => (st, Made false)
  end.
Definition step (st : state) (o : op) : res (state * out) :=
  match o with
  | OParse src => let? (m, l) := parse (smap st) src in Ok (mkstate m (pool st ++ lexed_spans l), Nothing)
  | OLiteral src => let? (m, l) := parse_literal (smap st) src in Ok (mkstate m (pool st ++ [lit_span l]), Nothing)
  | OCallSite => Ok (mkstate (smap st) (pool st ++ [call_site]), Nothing)
  | OJoin i j => on (pool st) i st (fun a => on (pool st) j st (fun b =>
      let? r := span_join (smap st) a b in Ok (made st r)))
  | OSubspan i s e => on (pool st) i st (fun a => Ok (made st (subspan a s e)))
  | OFirst i => on (pool st) i st (fun a => Ok (made st (Some (sp_first_byte a))))
  | OLast i => on (pool st) i st (fun a => Ok (made st (Some (sp_last_byte a))))
  | OStart i => on (pool st) i st (fun a => let? x := span_start (smap st) a in Ok (st, Position x))
  | OEnd i => on (pool st) i st (fun a => let? x := span_end (smap st) a in Ok (st, Position x))
  | ORange i => on (pool st) i st (fun a =>
      let? (m, x) := span_byte_range (smap st) a in Ok (mkstate m (pool st), Range x))
  | OText i => on (pool st) i st (fun a =>
      let? (m, x) := span_source_text (smap st) a in Ok (mkstate m (pool st), Text x))
  | OFile i => on (pool st) i st (fun a => let? x := span_file (smap st) a in Ok (st, Path x))
  | OInvalidate => Ok (mkstate (invalidate (smap st)) (filter is_call_site (pool st)), Nothing)
  end.
Fixpoint run (st : state) (os : list op) : res (state * list out) :=
  match os with
  | [] => Ok (st, [])
  | o :: os => let? (st, x) := step st o in let? (st, xs) := run st os in Ok (st, x :: xs)
  end.

(** ** The same from the texts alone *)

Record spec := mkspec { texts : list str; places : list place }.
Definition spec_initial : spec := mkspec [[]] [].

(** Where the spans of a parse lie, parsed on its own. *)
Definition place_in (i : nat) (sp : span) : place := mkplace i (N.to_nat (lo sp)) (N.to_nat (hi sp)).
Definition parse_places (i : nat) (src : str) : list place :=
  match token_stream_from_str 0 src with Ok l => map (place_in i) (lexed_spans l) | _ => [] end.
Definition literal_place (i : nat) (src : str) : place :=
  match literal_from_str 0 src with Ok (LitOk _ _) => mkplace i 0 (length src) | _ => call_site_place end.

Definition join_place (p q : place) : option place :=
  if Nat.eq_dec (pfile p) (pfile q)
  then Some (mkplace (pfile p) (Nat.min (pfrom p) (pfrom q)) (Nat.max (pto p) (pto q)))
  else None.
(** The part of a text of length [len] that a range denotes. *)
Definition range_start (b : bound) : N :=
  match b with Included n => n | Excluded n => n + 1 | Unbounded => 0 end.
Definition range_end (len : N) (b : bound) : N :=
  match b with Included n => n + 1 | Excluded n => n | Unbounded => len end.
Definition sub_place (p : place) (s e : bound) : option place :=
  let len := N.of_nat (pto p - pfrom p) in
  let s := range_start s in
  let e := range_end len e in
  if ((s <=? e) && (e <=? len))%N
  then Some (mkplace (pfile p) (pfrom p + N.to_nat s) (pfrom p + N.to_nat e)) else None.
Definition first_place (p : place) : place := mkplace (pfile p) (pfrom p) (Nat.min (pfrom p + 1) (pto p)).
Definition last_place (p : place) : place := mkplace (pfile p) (Nat.max (pto p - 1) (pfrom p)) (pto p).
(** The documented name of the text number [i]. *)
Definition is_file_name (i : nat) (x : str) : Prop :=
  (i = 0 /\ x = tag "<unspecified>") \/
  (i <> 0 /\ exists ds, canonical_decimal ds (N.of_nat i) /\ x = tag "<parsed string " ++ ds ++ tag ">").
(** [r] covers [a]. *)
Definition covers (r a : span) : Prop := (lo r <= lo a /\ hi a <= hi r)%N.
(** [join] of a span with the result of a [join]. *)
Definition then_join (m : source_map) (x : option span) (c : span) : res (option span) :=
  match x with Some a => span_join m a c | None => Ok None end.
Definition join_with (m : source_map) (a : span) (x : option span) : res (option span) :=
  match x with Some b => span_join m a b | None => Ok None end.
Definition file_name (i : nat) : str :=
  match i with O => tag "<unspecified>" | _ => tag "<parsed string " ++ dec_digits (N.of_nat i) ++ tag ">" end.

Definition text_of (s : spec) (p : place) : str := nth (pfile p) (texts s) [].
Definition spec_on {A} (xs : list A) (i : nat) (s : spec) (k : A -> spec * out) : spec * out :=
  match nth_error xs i with Some x => k x | None => (s, Nothing) end.
Definition spec_made (s : spec) (o : option place) : spec * out :=
  match o with
  | Some p => (mkspec (texts s) (places s ++ [p]), Made true)
  | None => (s, Made false)
  end.
Definition spec_step (s : spec) (o : op) : spec * out :=
  match o with
  | OParse src => (mkspec (texts s ++ [src]) (places s ++ parse_places (length (texts s)) src), Nothing)
  | OLiteral src => (mkspec (texts s ++ [src]) (places s ++ [literal_place (length (texts s)) src]), Nothing)
  | OCallSite => (mkspec (texts s) (places s ++ [call_site_place]), Nothing)
  | OJoin i j => spec_on (places s) i s (fun p => spec_on (places s) j s (fun q => spec_made s (join_place p q)))
  | OSubspan i a b => spec_on (places s) i s (fun p => spec_made s (sub_place p a b))
  | OFirst i => spec_on (places s) i s (fun p => spec_made s (Some (first_place p)))
  | OLast i => spec_on (places s) i s (fun p => spec_made s (Some (last_place p)))
  | OStart i => spec_on (places s) i s (fun p => (s, Position (line_column_at (text_of s p) (pfrom p))))
  | OEnd i => spec_on (places s) i s (fun p => (s, Position (line_column_at (text_of s p) (pto p))))
  | ORange i => spec_on (places s) i s (fun p =>
      (s, Range (byte_at (text_of s p) (pfrom p), byte_at (text_of s p) (pto p))))
  | OText i => spec_on (places s) i s (fun p =>
      (s, Text (if pfile p =? 0 then None else Some (text_between (text_of s p) (pfrom p) (pto p)))))
  | OFile i => spec_on (places s) i s (fun p => (s, Path (file_name (pfile p))))
  | OInvalidate => (mkspec [[]] (filter (fun p => pfile p =? 0) (places s)), Nothing)
  end.
Fixpoint spec_run (s : spec) (os : list op) : spec * list out :=
  match os with
  | [] => (s, [])
  | o :: os => let (s, x) := spec_step s o in let (s, xs) := spec_run s os in (s, x :: xs)
  end.

(** Less than 2^32 characters between two invalidations, counting one more for
    each text. *)
Fixpoint room (used : N) (os : list op) : Prop :=
  match os with
  | [] => True
  | o :: os =>
      match o with
      | OParse src | OLiteral src =>
          let used := (used + N.of_nat (length src) + 1)%N in (used <= two32)%N /\ room used os
      | OInvalidate => room 1 os
      | _ => room used os
      end
  end.

(** The state of the thread and its specification after a history. *)
Definition reached (os : list op) (st : state) (s : spec) : Prop :=
  room 1 os /\ exists xs ys, run initial os = Ok (st, xs) /\ spec_run spec_initial os = (s, ys).
(** Span number [k] and its place. *)
Definition known (st : state) (s : spec) (k : nat) (sp : span) (p : place) : Prop :=
  nth_error (pool st) k = Some sp /\ nth_error (places s) k = Some p.
End Run.
