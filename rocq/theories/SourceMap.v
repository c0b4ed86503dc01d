(** * The thread's source map: src/fallback.rs 326-517 and the queries of [Span].

    Configuration [span_locations], not [fuzzing].  The thread-local is a value
    threaded through; its [RefCell] is never borrowed twice at once, as no call below
    runs user code while it is borrowed.  Arithmetic overflow is a panic, as in a
    build with overflow checks; the theorems show it does not happen, so they hold
    of a build without checks too. *)
From Verif Require Import Base Unicode Tokens Lexer Fallback LitNew.
Import ListNotations.

(** ** Standard library *)

(** [slice::binary_search_by]: which elements are probed is not specified. *)
Class std_search := {
  binary_search_by : forall A, (A -> res comparison) -> list A -> res (nat + nat)
}.
Arguments binary_search_by {_ A}.
Definition rank (c : comparison) : nat := match c with Lt => 0 | Eq => 1 | Gt => 2 end.
(** Its documented contract: on a sorted slice, a match or the insertion point. *)
Definition sorted_for {A} (g : A -> comparison) (xs : list A) : Prop :=
  forall i j x y, i < j -> nth_error xs i = Some x -> nth_error xs j = Some y -> rank (g x) <= rank (g y).
Definition search_ok (S : std_search) : Prop :=
  forall A (f : A -> res comparison) (g : A -> comparison) xs,
  (forall x, In x xs -> f x = Ok (g x)) -> sorted_for g xs ->
  match binary_search_by f xs with
  | Ok (inl i) => exists x, nth_error xs i = Some x /\ g x = Eq
  | Ok (inr i) => i <= length xs /\
      forall j x, nth_error xs j = Some x -> (j < i -> g x = Lt) /\ (i <= j -> g x = Gt)
  | _ => False
  end.

(** The implementation of Rust 1.52 to 1.81 ... *)
Fixpoint search_old {A} (f : A -> res comparison) (xs : list A) (fuel left right : nat) : res (nat + nat) :=
  match fuel with
  | O => Fuel
  | S fuel =>
      if left <? right then
        let mid := left + (right - left) / 2 in
        let? x := unwrap (nth_error xs mid) in
        let? c := f x in
        match c with
        | Lt => search_old f xs fuel (mid + 1) right
        | Gt => search_old f xs fuel left mid
        | Eq => Ok (inl mid)
        end
      else Ok (inr left)
  end.
(** ... and of Rust 1.82 and later. *)
Fixpoint search_new {A} (f : A -> res comparison) (xs : list A) (fuel base size : nat) : res (nat + nat) :=
  match fuel with
  | O => Fuel
  | S fuel =>
      if 1 <? size then
        let half := size / 2 in
        let mid := base + half in
        let? x := unwrap (nth_error xs mid) in
        let? c := f x in
        search_new f xs fuel (match c with Gt => base | _ => mid end) (size - half)
      else
        let? x := unwrap (nth_error xs base) in
        let? c := f x in
        match c with Eq => Ok (inl base) | Lt => Ok (inr (base + 1)) | Gt => Ok (inr base) end
  end.
Definition std_old : std_search :=
  {| binary_search_by := fun A f xs => search_old f xs (S (length xs)) 0 (length xs) |}.
Definition std_new : std_search :=
  {| binary_search_by := fun A f xs =>
       match xs with [] => Ok (inr 0) | _ => search_new f xs (S (length xs)) 0 (length xs) end |}.

(** [s.char_indices()], the byte indices only. *)
Fixpoint indices (i : nat) (s : str) : list nat :=
  match s with [] => [] | c :: t => i :: indices (i + len_utf8 c) t end.

(** [BTreeMap<usize, usize>] as an association list with distinct keys.
    [range(..=k).next_back()] and [range(k..).next()]. *)
Definition cache := list (nat * nat).
Fixpoint last_at_most (m : cache) (k : nat) : option (nat * nat) :=
  match m with
  | [] => None
  | (a, b) :: m =>
      match last_at_most m k with
      | Some (a', b') => if (a <=? k) && (a' <? a) then Some (a, b) else Some (a', b')
      | None => if a <=? k then Some (a, b) else None
      end
  end.
Fixpoint first_at_least (m : cache) (k : nat) : option (nat * nat) :=
  match m with
  | [] => None
  | (a, b) :: m =>
      match first_at_least m k with
      | Some (a', b') => if (k <=? a) && (a <? a') then Some (a, b) else Some (a', b')
      | None => if k <=? a then Some (a, b) else None
      end
  end.
Definition cache_insert (m : cache) (k v : nat) : cache := (k, v) :: filter (fun e => negb (fst e =? k)) m.

(** ** Files *)

(** fallback.rs 346-351. *)
Record file := mkfile { source_text : str; fspan : span; lines : list nat; byte_cache : cache }.

(** 373-375. *)
Definition span_within (f : file) (sp : span) : bool := ((lo (fspan f) <=? lo sp) && (hi sp <=? hi (fspan f)))%N.

Record line_column := mklc { line : nat; column : nat }.

Section WithSearch.
Context {S : std_search}.

(** 355-371. *)
Definition offset_line_column (f : file) (offset : N) : res line_column :=
  if negb (span_within f (mkspan (wrap32 offset) (wrap32 offset))) then Panic
  else if (offset <? lo (fspan f))%N then Panic
  else
    let offset := N.to_nat (offset - lo (fspan f)) in
    let? r := binary_search_by (fun l => Ok (Nat.compare l offset)) (lines f) in
    match r with
    | inl found => Ok (mklc (found + 1) 0)
    | inr idx =>
        if idx =? 0 then Panic
        else
          let? l := unwrap (nth_error (lines f) (idx - 1)) in
          if offset <? l then Panic else Ok (mklc idx (offset - l))
    end.

(** 381-424. *)
Definition byte (f : file) (ch : N) : res (file * nat) :=
  if (ch <? lo (fspan f))%N then Panic
  else
    let char_index := N.to_nat (ch - lo (fspan f)) in
    let (previous_char_index, previous_byte_offset) :=
      match last_at_most (byte_cache f) char_index with Some e => e | None => (0, 0) end in
    if previous_char_index =? char_index then Ok (f, previous_byte_offset)
    else
      let forward :=
        let? rest := slice_from (source_text f) previous_byte_offset in
        match nth_error (indices 0 rest) (char_index - previous_char_index) with
        | Some i => Ok (previous_byte_offset + i)
        | None => Ok (str_len (source_text f))
        end in
      let? byte_offset :=
        match first_at_least (byte_cache f) char_index with
        | Some (next_char_index, next_byte_offset) =>
            if next_char_index - char_index <? char_index - previous_char_index then
              if next_char_index <? char_index + 1 then Panic
              else
                let? before := slice_to (source_text f) next_byte_offset in
                unwrap (nth_error (rev (indices 0 before)) (next_char_index - char_index - 1))
            else forward
        | None => forward
        end in
      Ok (mkfile (source_text f) (fspan f) (lines f) (cache_insert (byte_cache f) char_index byte_offset), byte_offset).
(** 377-379. *)
Definition byte_range (f : file) (sp : span) : res (file * (nat * nat)) :=
  let? (f, a) := byte f (lo sp) in
  let? (f, b) := byte f (hi sp) in
  Ok (f, (a, b)).
(** 426-429. *)
Definition file_source_text (f : file) (sp : span) : res (file * str) :=
  let? (f, (a, b)) := byte_range f sp in
  let? s := slice (source_text f) a b in
  Ok (f, s).

(** 435-447. *)
Fixpoint line_starts (s : str) (total : nat) : list nat :=
  match s with
  | [] => []
  | c :: s => if (c =? LF)%N then total + 1 :: line_starts s (total + 1) else line_starts s (total + 1)
  end.
Definition lines_offsets (s : str) : nat * list nat := (length s, 0 :: line_starts s 0).

(** ** The map *)

Definition source_map := list file.
(** 326-337. *)
Definition fresh_map : source_map := [mkfile [] (mkspan 0 0) [0] []].
(** 340-343. *)
Definition invalidate (m : source_map) : source_map := firstn 1 m.

Definition add_u32 (a b : N) : res N := if (a + b <? two32)%N then Ok (a + b)%N else Panic.
(** 456-462. *)
Definition next_start_pos (m : source_map) : res N :=
  match rev m with [] => Panic | f :: _ => add_u32 (hi (fspan f)) 1 end.
(** 464-481. *)
Definition add_file (m : source_map) (src : str) : res (source_map * span) :=
  let (len, lines) := lines_offsets src in
  let? l := next_start_pos m in
  let? h := add_u32 l (wrap32 (N.of_nat len)) in
  let sp := mkspan l h in
  Ok (m ++ [mkfile src sp lines []], sp).
(** 483-497. *)
Definition find (m : source_map) (sp : span) : res nat :=
  let? r := binary_search_by (fun f =>
    if (hi (fspan f) <? lo sp)%N then Ok Lt
    else if (hi sp <? lo (fspan f))%N then Ok Gt
    else if span_within f sp then Ok Eq else Panic) m in
  match r with inl i => Ok i | inr _ => Panic end.

(** 499-506. *)
Definition filepath (m : source_map) (sp : span) : res str :=
  let? i := find m sp in
  Ok (if i =? 0 then tag "<unspecified>" else tag "<parsed string " ++ dec_digits (N.of_nat i) ++ tag ">").
(** 508-516. *)
Definition fileinfo (m : source_map) (sp : span) : res file :=
  let? i := find m sp in unwrap (nth_error m i).
Fixpoint update {A} (xs : list A) (i : nat) (x : A) : list A :=
  match xs, i with
  | [], _ => []
  | _ :: xs, O => x :: xs
  | y :: xs, Datatypes.S i => y :: update xs i x
  end.
Definition with_file {A} (m : source_map) (sp : span) (k : file -> res (file * A)) : res (source_map * A) :=
  let? i := find m sp in
  let? f := unwrap (nth_error m i) in
  let? (f, a) := k f in
  Ok (update m i f, a).

(** ** [Span] *)

(** 690-692. *)
Definition is_call_site (sp : span) : bool := ((lo sp =? 0) && (hi sp =? 0))%N.
(** 559-571. *)
Definition span_byte_range (m : source_map) (sp : span) : res (source_map * (nat * nat)) :=
  if is_call_site sp then Ok (m, (0, 0)) else with_file m sp (fun f => byte_range f sp).
(** 574-597. *)
Definition span_start (m : source_map) (sp : span) : res line_column :=
  let? f := fileinfo m sp in offset_line_column f (lo sp).
Definition span_end (m : source_map) (sp : span) : res line_column :=
  let? f := fileinfo m sp in offset_line_column f (hi sp).
(** 600-609. *)
Definition span_file (m : source_map) (sp : span) : res str := filepath m sp.
(** 622-640. *)
Definition span_join (m : source_map) (a b : span) : res (option span) :=
  let? f := fileinfo m a in
  Ok (if span_within f b then Some (mkspan (N.min (lo a) (lo b)) (N.max (hi a) (hi b))) else None).
(** 649-661. *)
Definition span_source_text (m : source_map) (sp : span) : res (source_map * option str) :=
  if is_call_site sp then Ok (m, None)
  else let? (m, s) := with_file m sp (fun f => file_source_text f sp) in Ok (m, Some s).

(** location.rs 17-29. *)
Definition lc_cmp (a b : line_column) : comparison :=
  match Nat.compare (line a) (line b) with Eq => Nat.compare (column a) (column b) | c => c end.

(** 83-94, 198-212: parsing adds the text to the map. *)
Definition parse {U : unicode} (m : source_map) (src : str) : res (source_map * lexed) :=
  let? (m, sp) := add_file m src in
  let? l := token_stream_from_str (lo sp) src in
  Ok (m, l).
(** 972-999. *)
Definition parse_literal {U : unicode} (m : source_map) (src : str) : res (source_map * lit_result) :=
  let? (m, sp) := add_file m src in
  let? l := literal_from_str (lo sp) src in
  Ok (m, l).
End WithSearch.
