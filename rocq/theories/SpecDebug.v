(** * Specification: formatting options, [Debug] texts, [set_span]. *)
From Verif Require Import Base Unicode Tokens SpecText SpecTree SpecLit SpecPrint SpecGrammar.
From Verif Require Import SpecShow.

(** ** Spans *)

(** The same tree at a possibly different place; what a group contains is the same
    including its places. *)
Inductive moved : token -> token -> Prop :=
| moved_group d ts sp sp' : moved (TGroup d ts sp) (TGroup d ts sp')
| moved_ident s r sp sp' : moved (TIdent s r sp) (TIdent s r sp')
| moved_punct c s sp sp' : moved (TPunct c s sp) (TPunct c s sp')
| moved_literal t sp sp' : moved (TLiteral t sp) (TLiteral t sp').
Inductive at_span : token -> span -> Prop :=
| at_group d ts sp : at_span (TGroup d ts sp) sp
| at_ident s r sp : at_span (TIdent s r sp) sp
| at_punct c s sp : at_span (TPunct c s sp) sp
| at_literal t sp : at_span (TLiteral t sp) sp.

(** ** Formatting options *)

(** At most [precision] characters of the text. *)
Definition cut (f : format) (s t : str) : Prop :=
  match precision f with
  | None => t = s
  | Some n => exists u, s = t ++ u /\ (length t = n \/ u = [] /\ (length t <= n)%nat)
  end.
(** At least [width] characters, to the left unless told otherwise. *)
Definition padded (f : format) (s x : str) : Prop :=
  exists t l r, cut f s t /\ x = l ++ t ++ r /\
    Forall (fun c => c = fill f) l /\ Forall (fun c => c = fill f) r /\
    match width f with
    | None => l = [] /\ r = []
    | Some w =>
        (length l + length t + length r)%nat = Nat.max w (length t) /\
        match align f with
        | None | Some ALeft => l = []
        | Some ARight => r = []
        | Some ACenter => (length l <= length r <= S (length l))%nat
        end
    end.

(** ** Trees that can be made

    By the constructors and by parsing. *)
Section WithUnicode.
Context {U : unicode}.
Definition literal_made (repr : str) : Prop :=
  literal_at repr [] \/ repr = error_text \/
  exists d u, repr = "-"%ch :: d :: u /\ dec_digit d /\ literal_at (d :: u) [].
Inductive made : token -> Prop :=
| made_group d ts sp : Forall made ts -> made (TGroup d ts sp)
| made_ident s r sp : ident_valid s r -> made (TIdent s r sp)
| made_punct c s sp : In c punct_chars -> made (TPunct c s sp)
| made_literal t sp : literal_made t -> made (TLiteral t sp).
End WithUnicode.

(** ** Pretty texts as indented lines *)
Definition layout := list (nat * str).
Fixpoint split_lines (s : str) : list str :=
  match s with
  | [] => [[]]
  | c :: s =>
      match split_lines s with
      | [] => [[c]]
      | l :: ls => if (c =? LF)%N then [] :: l :: ls else (c :: l) :: ls
      end
  end.
Definition raw_lines (s : str) : layout := map (fun l => (0, l)) (split_lines s).
Fixpoint put_after (b : layout) (s : str) : layout :=
  match b with
  | [] => []
  | [(d, l)] => [(d, l ++ s)]
  | x :: b => x :: put_after b s
  end.
Definition put_before (s : str) (b : layout) : layout :=
  match b with [] => [] | (d, l) :: b => (d, s ++ l) :: b end.
Definition deeper (b : layout) : layout := map (fun '(d, l) => (S d, l)) b.
(** One field of a structure, one entry of a list. *)
Definition item (name : str) (b : layout) : layout := deeper (put_before name (put_after b (tag ","))).
Definition line_text (x : nat * str) : str := repeat SPACE (4 * fst x) ++ snd x.
Fixpoint render (b : layout) : str :=
  match b with
  | [] => []
  | [x] => line_text x
  | x :: b => line_text x ++ [LF] ++ render b
  end.

(** [bytes(3..5)]. *)
Definition span_text (sp : span) (x : str) : Prop :=
  exists a b, canonical_decimal a (lo sp) /\ canonical_decimal b (hi sp) /\
    x = tag "bytes(" ++ a ++ tag ".." ++ b ++ tag ")".
Definition shown_ident (s : str) (raw : bool) : str := if raw then tag "r#" ++ s else s.
(** The character of a punct; only the apostrophe is escaped. *)
Definition shown_char (c : char) (x : str) : Prop :=
  c = SQUOTE /\ x = tag "'\''" \/ c <> SQUOTE /\ x = [SQUOTE; c; SQUOTE].
Definition shown_delimiter (d : delimiter) : str :=
  match d with
  | Parenthesis => tag "Parenthesis" | Brace => tag "Brace" | Bracket => tag "Bracket" | DNone => tag "None"
  end.
Definition shown_spacing (s : spacing) : str := match s with Alone => tag "Alone" | Joint => tag "Joint" end.

(** The field of a tree's place; [where_ = false] is a build without locations. *)
Inductive place_line (where_ : bool) : span -> layout -> Prop :=
| place_shown sp x : where_ = true -> sp <> call_site -> span_text sp x ->
    place_line where_ sp (item (tag "span: ") [(0, x)])
| place_omitted sp : where_ = false \/ sp = call_site -> place_line where_ sp [].

(** [{:#?}] *)
Inductive tree_layout (where_ : bool) : token -> layout -> Prop :=
| layout_ident s r sp p : place_line where_ sp p ->
    tree_layout where_ (TIdent s r sp)
      ([(0, tag "Ident {")] ++ item (tag "sym: ") [(0, shown_ident s r)] ++ p ++ [(0, tag "}")])
| layout_punct c s sp x p : shown_char c x -> place_line where_ sp p ->
    tree_layout where_ (TPunct c s sp)
      ([(0, tag "Punct {")] ++ item (tag "char: ") [(0, x)] ++ item (tag "spacing: ") [(0, shown_spacing s)]
       ++ p ++ [(0, tag "}")])
| layout_literal t sp p : place_line where_ sp p ->
    tree_layout where_ (TLiteral t sp)
      ([(0, tag "Literal {")] ++ item (tag "lit: ") (raw_lines t) ++ p ++ [(0, tag "}")])
| layout_group d ts sp b p : stream_layout where_ ts b -> place_line where_ sp p ->
    tree_layout where_ (TGroup d ts sp)
      ([(0, tag "Group {")] ++ item (tag "delimiter: ") [(0, shown_delimiter d)] ++ item (tag "stream: ") b
       ++ p ++ [(0, tag "}")])
with stream_layout (where_ : bool) : list token -> layout -> Prop :=
| layout_none : stream_layout where_ [] [(0, tag "TokenStream []")]
| layout_some t ts b : entries_layout where_ (t :: ts) b ->
    stream_layout where_ (t :: ts) ([(0, tag "TokenStream [")] ++ b ++ [(0, tag "]")])
with entries_layout (where_ : bool) : list token -> layout -> Prop :=
| entries_nil : entries_layout where_ [] []
| entries_cons t ts b bs : tree_layout where_ t b -> entries_layout where_ ts bs ->
    entries_layout where_ (t :: ts) (item [] b ++ bs).

(** [{:?}] *)
Inductive place_text (where_ : bool) : span -> str -> Prop :=
| place_text_shown sp x : where_ = true -> sp <> call_site -> span_text sp x -> place_text where_ sp (tag ", span: " ++ x)
| place_text_omitted sp : where_ = false \/ sp = call_site -> place_text where_ sp [].
Inductive tree_line (where_ : bool) : token -> str -> Prop :=
| line_ident s r sp p : place_text where_ sp p ->
    tree_line where_ (TIdent s r sp) (tag "Ident { sym: " ++ shown_ident s r ++ p ++ tag " }")
| line_punct c s sp x p : shown_char c x -> place_text where_ sp p ->
    tree_line where_ (TPunct c s sp)
      (tag "Punct { char: " ++ x ++ tag ", spacing: " ++ shown_spacing s ++ p ++ tag " }")
| line_literal t sp p : place_text where_ sp p ->
    tree_line where_ (TLiteral t sp) (tag "Literal { lit: " ++ t ++ p ++ tag " }")
| line_group d ts sp x p : stream_line where_ ts x -> place_text where_ sp p ->
    tree_line where_ (TGroup d ts sp)
      (tag "Group { delimiter: " ++ shown_delimiter d ++ tag ", stream: " ++ x ++ p ++ tag " }")
with stream_line (where_ : bool) : list token -> str -> Prop :=
| line_stream ts x : entries_line where_ ts x -> stream_line where_ ts (tag "TokenStream [" ++ x ++ tag "]")
with entries_line (where_ : bool) : list token -> str -> Prop :=
| line_none : entries_line where_ [] []
| line_one t x : tree_line where_ t x -> entries_line where_ [t] x
| line_more t x u ts y : tree_line where_ t x -> entries_line where_ (u :: ts) y ->
    entries_line where_ (t :: u :: ts) (x ++ tag ", " ++ y).
