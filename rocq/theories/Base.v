(** * Representation layer: characters, strings, UTF-8, outcomes, iterators.

    This file models the parts of the Rust language and standard library that
    the crate leans on.  A Rust [&str] is valid UTF-8, i.e. the encoding of a
    sequence of scalar values; the model keeps that sequence and recomputes
    UTF-8 lengths and bytes wherever the code works with byte indices. *)
From Coq Require Export NArith ZArith List Bool Lia Arith.
From Coq Require Export ZifyBool ZifyNat ZifyN.
From Coq Require Import Strings.Byte Strings.String Strings.Ascii.
Export ListNotations.

Arguments N.eqb : simpl never.
Arguments N.leb : simpl never.
Arguments N.ltb : simpl never.
Arguments N.add : simpl never.
Arguments N.sub : simpl never.
Arguments N.mul : simpl never.
Arguments N.div : simpl never.
Arguments N.modulo : simpl never.
Arguments N.of_nat : simpl never.

(** ** Characters and strings *)

Notation char := N (only parsing).
Notation byte := N (only parsing).
Notation str := (list N) (only parsing).

(** Literal notation for ASCII characters: ["a"%ch : N]. *)
Definition char_of_bytes (l : list Byte.byte) : option N :=
  match l with [b] => Some (Byte.to_N b) | _ => None end.
Definition bytes_of_char (c : N) : option (list Byte.byte) :=
  match Byte.of_N c with
  | Some b => if (N.leb 32 c && N.leb c 126)%bool then Some [b] else None
  | None => None
  end.
Declare Scope ch_scope.
Delimit Scope ch_scope with ch.
String Notation N char_of_bytes bytes_of_char : ch_scope.

(** ASCII string constants; [lit "//"] computes to a list of code points. *)
Definition lit (s : string) : str := List.map N_of_ascii (list_ascii_of_string s).
Export String.StringSyntax.
Delimit Scope string_scope with string.
Arguments lit s%string.
Notation tag s := ltac:(let x := eval compute in (lit s%string) in exact x) (only parsing).

Notation TAB := 9%N (only parsing).
Notation LF := 10%N (only parsing).
Notation CR := 13%N (only parsing).
Notation NUL := 0%N (only parsing).
Notation SPACE := 32%N (only parsing).
Notation DQUOTE := 34%N (only parsing).
Notation SQUOTE := 39%N (only parsing).
Notation BACKSLASH := 92%N (only parsing).

(** Unicode scalar values, the values of Rust's [char]. *)
Definition is_scalar (c : N) : bool :=
  (c <? 0xD800)%N || ((0xDFFF <? c)%N && (c <? 0x110000)%N).

Definition valid_str (s : str) : Prop := Forall (fun c => is_scalar c = true) s.

(** [char::from_u32]. *)
Definition char_from_u32 (v : N) : option char := if is_scalar v then Some v else None.

(** [lo..=hi] range patterns. *)
Definition between (lo c hi : N) : bool := (lo <=? c)%N && (c <=? hi)%N.

Definition is_ascii (c : N) : bool := (c <? 0x80)%N.
Definition is_dec_digit (c : N) : bool := between "0"%ch c "9"%ch.
Definition is_hex_digit (c : N) : bool :=
  between "0"%ch c "9"%ch || between "a"%ch c "f"%ch || between "A"%ch c "F"%ch.

(** [char::to_digit(16)] and the open-coded digit computations of parse.rs 673-676. *)
Definition hex_value (c : N) : N :=
  if between "0"%ch c "9"%ch then (c - "0"%ch)%N
  else if between "a"%ch c "f"%ch then (10 + (c - "a"%ch))%N
  else (10 + (c - "A"%ch))%N.

(** ** UTF-8 *)

(** [char::len_utf8]. *)
Definition len_utf8 (c : char) : nat :=
  if (c <? 0x80)%N then 1 else if (c <? 0x800)%N then 2
  else if (c <? 0x10000)%N then 3 else 4.

(** [char::encode_utf8]. *)
Definition encode_utf8 (c : char) : list byte :=
  if (c <? 0x80)%N then [c]
  else if (c <? 0x800)%N then [0xC0 + c / 64; 0x80 + c mod 64]%N
  else if (c <? 0x10000)%N then
    [0xE0 + c / 4096; 0x80 + (c / 64) mod 64; 0x80 + c mod 64]%N
  else
    [0xF0 + c / 262144; 0x80 + (c / 4096) mod 64; 0x80 + (c / 64) mod 64; 0x80 + c mod 64]%N.

(** [str::len] (in bytes), [str::as_bytes] / [str::bytes]. *)
Fixpoint str_len (s : str) : nat :=
  match s with [] => 0 | c :: t => len_utf8 c + str_len t end.
Definition str_bytes (s : str) : list byte := flat_map encode_utf8 s.

(** [str::split_at]: byte index; [None] models the panic when the index is not
    a char boundary or exceeds the length. *)
Fixpoint split_at (s : str) (n : nat) : option (str * str) :=
  match n with
  | O => Some ([], s)
  | S _ =>
      match s with
      | [] => None
      | c :: t =>
          if len_utf8 c <=? n then
            match split_at t (n - len_utf8 c) with
            | Some (a, b) => Some (c :: a, b)
            | None => None
            end
          else None
      end
  end.

(** [str::is_char_boundary]. *)
Definition is_char_boundary (s : str) (n : nat) : bool :=
  match split_at s n with Some _ => true | None => false end.

(** [str::starts_with(&str)]; on valid UTF-8 byte prefix and char prefix agree. *)
Fixpoint starts_with (s tag : str) {struct tag} : bool :=
  match tag with
  | [] => true
  | c :: t => match s with [] => false | d :: u => (c =? d)%N && starts_with u t end
  end.

Fixpoint str_eqb (a b : str) : bool :=
  match a, b with
  | [], [] => true
  | x :: a, y :: b => (x =? y)%N && str_eqb a b
  | _, _ => false
  end.

Definition ends_with (s tag : str) : bool := starts_with (rev s) (rev tag).

(** [str::contains(char)], [slice::contains]. *)
Definition contains (s : list N) (c : N) : bool := existsb (fun d => (c =? d)%N) s.

(** ** Outcomes *)

(** [Reject] is [Err(Reject)]; [Panic] is any Rust panic; [Fuel] is no Rust
    outcome: it marks an exhausted loop bound and is proved unreachable. *)
Inductive res (A : Type) : Type :=
| Ok (a : A)
| Reject
| Panic
| Fuel.
Arguments Ok {A} a.
Arguments Reject {A}.
Arguments Panic {A}.
Arguments Fuel {A}.

(** The [?] operator. *)
Definition bind {A B} (x : res A) (f : A -> res B) : res B :=
  match x with Ok a => f a | Reject => Reject | Panic => Panic | Fuel => Fuel end.
Notation "'let?' x ':=' e 'in' k" := (bind e (fun x => k))
  (at level 200, x pattern, right associativity, e at level 100, k at level 200).

(** [if let Ok(x) = e { k } else { r }]. *)
Definition if_ok {A B} (e : res A) (k : A -> res B) (r : res B) : res B :=
  match e with Ok a => k a | Reject => r | Panic => Panic | Fuel => Fuel end.

(** [Option::unwrap], slicing: [None] is a panic. *)
Definition unwrap {A} (o : option A) : res A :=
  match o with Some a => Ok a | None => Panic end.
(** [Option::ok_or(Reject)]. *)
Definition ok_or {A} (o : option A) : res A :=
  match o with Some a => Ok a | None => Reject end.

(** [&s[n..]], [&s[..n]], [&s[a..b]] with byte indices. *)
Definition slice_from (s : str) (n : nat) : res str :=
  match split_at s n with Some (_, b) => Ok b | None => Panic end.
Definition slice_to (s : str) (n : nat) : res str :=
  match split_at s n with Some (a, _) => Ok a | None => Panic end.
Definition slice (s : str) (a b : nat) : res str :=
  if b <? a then Panic
  else let? s1 := slice_to s b in slice_from s1 a.

(** ** Iterators *)

(** [str::char_indices()]: next byte index and remaining chars. *)
Definition chars_it := (nat * str)%type.
Definition char_indices (s : str) : chars_it := (0, s).
Definition ci_next (it : chars_it) : option ((nat * char) * chars_it) :=
  match it with
  | (_, []) => None
  | (i, c :: t) => Some ((i, c), (i + len_utf8 c, t))
  end.

(** [str::bytes().enumerate()]: next index and remaining bytes. *)
Definition bytes_it := (nat * list byte)%type.
Definition bytes_enum (s : str) : bytes_it := (0, str_bytes s).
Definition be_next (it : bytes_it) : option ((nat * byte) * bytes_it) :=
  match it with
  | (_, []) => None
  | (i, b :: t) => Some ((i, b), (S i, t))
  end.

(** ** Machine integers *)
Definition two32 : N := 4294967296%N.
Definition wrap32 (x : N) : N := (x mod two32)%N.
