(** * What is asked of the compiler in [PropUnwrapped]. *)
From Verif Require Import Base Unicode Tokens Lexer SpecText Wrapper.

(** The two texts have the same tokens. *)
Definition same_tokens {U : unicode} (start : N) (x y : str) : Prop :=
  exists ts ts', token_stream_from_str start x = Ok (Lexed ts) /\ token_stream_from_str start y = Ok (Lexed ts') /\
    map strip ts = map strip ts'.
(** What the compiler has parsed it prints as a text with the same tokens. *)
Definition faithful {U : unicode} {S : Type} (parse : str -> cparse S) (display : S -> str) (start : N) : Prop :=
  forall text s ts, valid_str text -> token_stream_from_str start text = Ok (Lexed ts) -> parse text = Parsed s ->
    same_tokens start text (display s).
(** A compiler that is so: the fallback in its place. *)
Definition like_fallback (text : str) : cparse (list token) :=
  match @token_stream_from_str sample_unicode 0 text with Ok (Lexed ts) => Parsed ts | _ => ParseErr end.
