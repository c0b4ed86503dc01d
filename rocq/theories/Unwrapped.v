(** * Conversions where the compiler's types are not wrapped: src/fallback.rs 96-99, 255-267.

    With [procmacro2_semver_exempt] on a compiler without [proc_macro_span]
    (build.rs 109-117) lib.rs takes the fallback as its implementation (lib.rs
    159-160), and streams go to and from the compiler as text (lib.rs 278-293). *)
From Verif Require Import Base Unicode Tokens Lexer Fallback Wrapper.

Section Unwrapped.
(** All that is used of [proc_macro::TokenStream]. *)
Context {U : unicode} {S : Type} (parse : str -> cparse S) (display : S -> str).
(** 255-260, 96-99: [Self::from_str_checked(src).unwrap()].  [start] is the position
    the source map gives to the text. *)
Definition from_compiler (start : N) (s : S) : outcome (list token) :=
  match token_stream_from_str start (display s) with
  | Ok (Lexed ts) => Val ts
  | _ => Panics
  end.
(** 262-267.  With the texts given to the compiler's parser. *)
Definition to_compiler (ts : list token) : list str * outcome S :=
  from_str_unchecked parse (stream_to_string ts).
(** A procedural macro: [f(input.into()).into()]. *)
Definition macro (start : N) (f : list token -> list token) (input : S) : outcome S :=
  obind (from_compiler start input) (fun ts => snd (to_compiler (f ts))).
End Unwrapped.
