(** * What the panics of the constructors and of the span queries say.

    [res] has one [Panic]; here the functions that panic on a caller's mistake are given
    again with their messages.  The source locations ([#[track_caller]]) are left out. *)
From Verif Require Import Base Unicode Tokens Lexer Fallback LitNew SourceMap.
Import ListNotations.
Local Open Scope N_scope.

Inductive said (A : Type) := Returns (a : A) | Panics (message : str).
Arguments Returns {A} a.
Arguments Panics {A} message.

Section WithUnicode.
Context {U : unicode}.

(** [Debug for str] and [Debug for char]: [escape_debug_ext] without the escape of
    the other kind of quote. *)
Definition debug_str (s : str) : str :=
  [DQUOTE] ++ flat_map (fun c => if c =? SQUOTE then [c] else escape_debug c) s ++ [DQUOTE].
Definition debug_char (c : char) : str :=
  [SQUOTE] ++ (if c =? DQUOTE then [c] else escape_debug c) ++ [SQUOTE].

(** fallback.rs 849-876. *)
Definition validate_ident_says (string : str) : said unit :=
  match string with
  | [] => Panics (tag "Ident is not allowed to be empty; use Option<Ident>")
  | _ =>
      if forallb is_dec_digit (str_bytes string) then Panics (tag "Ident cannot be a number; use Literal instead")
      else if ident_ok string then Returns tt
      else Panics (debug_str string ++ tag " is not a valid Ident")
  end.
(** fallback.rs 878-888. *)
Definition validate_ident_raw_says (string : str) : said unit :=
  match validate_ident_says string with
  | Panics m => Panics m
  | Returns _ =>
      if existsb (str_eqb string) [tag "_"; tag "super"; tag "self"; tag "Self"; tag "crate"]
      then Panics (tag "`r#" ++ string ++ tag "` cannot be a raw identifier")
      else Returns tt
  end.
(** fallback.rs 804-829 behind lib.rs 1020-1033. *)
Definition ident_new_says (string : str) (sp : span) : said token :=
  match validate_ident_says string with Panics m => Panics m | Returns _ => Returns (TIdent string false sp) end.
Definition ident_new_raw_says (string : str) (sp : span) : said token :=
  match validate_ident_raw_says string with Panics m => Panics m | Returns _ => Returns (TIdent string true sp) end.

(** lib.rs 846-858. *)
Definition punct_new_says (ch : char) (s : spacing) : said token :=
  if contains punct_new_chars ch then Returns (TPunct ch s call_site)
  else Panics (tag "unsupported proc macro punctuation character " ++ debug_char ch).
End WithUnicode.

(** fallback.rs 483-497.  The search itself does not panic, so a panic in it is that of
    the assertion. *)
Definition find_says {S : std_search} (m : source_map) (sp : span) : said nat :=
  match binary_search_by (fun f =>
    if hi (fspan f) <? lo sp then Ok Lt
    else if hi sp <? lo (fspan f) then Ok Gt
    else if span_within f sp then Ok Eq else Panic) m with
  | Ok (inl i) => Returns i
  | Ok (inr _) => Panics (tag "internal error: entered unreachable code: Invalid span with no related FileInfo!")
  | _ => Panics (tag "assertion failed: file.span_within(span)")
  end.
