(** * What a panic is to say of the mistake that led to it. *)
From Verif Require Import Base Unicode Tokens SourceMap SpecTree SpecLit SpecMap.
Import ListNotations.
Local Open Scope N_scope.

Definition decimal_digit (c : char) : Prop := 48 <= c /\ c <= 57.
(** [q] is a string literal of the value [s]. *)
Definition quotes (q s : str) : Prop := exists b, q = [DQUOTE] ++ b ++ [DQUOTE] /\ cooked KStr b s.

(** What is wrong with [s] as an identifier, and the message. *)
Inductive ident_complaint {U : unicode} (s : str) : str -> Prop :=
| empty_complaint : s = [] -> ident_complaint s (lit "Ident is not allowed to be empty; use Option<Ident>")
| number_complaint : s <> [] -> Forall decimal_digit s -> ident_complaint s (lit "Ident cannot be a number; use Literal instead")
| other_complaint q : s <> [] -> ~ Forall decimal_digit s -> ~ ident_text s -> quotes q s ->
    ident_complaint s (q ++ lit " is not a valid Ident").
Inductive raw_complaint {U : unicode} (s : str) : str -> Prop :=
| as_ident m : ident_complaint s m -> raw_complaint s m
| reserved_complaint : ident_text s -> In s never_raw ->
    raw_complaint s (lit "`r#" ++ s ++ lit "` cannot be a raw identifier").
Inductive punct_complaint (c : char) : str -> Prop :=
| unsupported_complaint q : ~ In c punct_chars -> char_denotes KStr q c ->
    punct_complaint c (lit "unsupported proc macro punctuation character " ++ q).

(** Spans with a position in common. *)
Definition meet (a b : span) : Prop := lo a <= hi b /\ lo b <= hi a.
(** What is wrong with [sp] as a span of the texts [ts]. *)
Inductive span_complaint (ts : list str) (sp : span) : str -> Prop :=
| nowhere_complaint : (forall p, valid_place ts p -> ~ meet (span_at ts p) sp) ->
    span_complaint ts sp (lit "internal error: entered unreachable code: Invalid span with no related FileInfo!")
| across_complaint p : valid_place ts p -> meet (span_at ts p) sp ->
    (forall p, valid_place ts p -> sp <> span_at ts p) ->
    span_complaint ts sp (lit "assertion failed: file.span_within(span)").

(** The implementation of the search asks about elements of the slice and panics where the
    function does; what it does not ask makes no difference. *)
Definition search_honest (S : std_search) : Prop :=
  forall A (f g : A -> res comparison) xs, (forall x, In x xs -> f x = g x \/ f x = Panic) ->
  binary_search_by f xs = binary_search_by g xs \/ binary_search_by f xs = Panic.
