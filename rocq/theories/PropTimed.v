(** * Property C82: a text is parsed in linear time. *)
From Verif Require Import Base Unicode Tokens Lexer Timed TimedErase TimedLinear TimedLower.
Import ListNotations.

(** The counted lexer returns what the lexer returns. *)
Theorem c82_same_stream : forall (U : unicode) start src,
  fst (t_token_stream_from_str start src) = token_stream_from_str start src.
Proof. exact @er_from_str. Qed.
Print Assumptions c82_same_stream.
Theorem c82_same_literal : forall (U : unicode) start src,
  fst (t_literal_from_str start src) = literal_from_str start src.
Proof. exact @er_literal_from_str. Qed.
Print Assumptions c82_same_literal.

(** Whatever the text is, well-formed or not, and whatever was tried and given up at each
    place, the number of steps is linear in its length in bytes. *)
Theorem c82_stream_linear : forall U, unicode_ok U -> forall start src, (start < two32)%N ->
  snd (t_token_stream_from_str start src) <= 700 * str_len src + 1700.
Proof. exact @stream_cost. Qed.
Print Assumptions c82_stream_linear.
Theorem c82_literal_linear : forall U, unicode_ok U -> forall start src,
  snd (t_literal_from_str start src) <= 170 * str_len src + 600.
Proof. exact @literal_from_str_cost. Qed.
Print Assumptions c82_literal_linear.

(** The count is not empty: an accepted text costs at least a step for each byte. *)
Theorem c82_stream_reads : forall (U : unicode) start src ts,
  token_stream_from_str start src = Ok (Lexed ts) -> str_len src <= snd (t_token_stream_from_str start src).
Proof. exact @stream_reads. Qed.
Print Assumptions c82_stream_reads.
Theorem c82_literal_reads : forall (U : unicode) start src r sp,
  literal_from_str start src = Ok (LitOk r sp) -> str_len src <= snd (t_literal_from_str start src).
Proof. exact @literal_reads. Qed.
Print Assumptions c82_literal_reads.

(** Texts where the lexer tries much in vain: comments that are never closed, exponents
    without digits, raw strings with quotes inside, a lifetime. *)
Example c82_example :
  unicode_ok sample_unicode /\
  (let t := tag "fn f(x: u8) { 1e+__ 'a r#""x""# }" in
   (exists ts, @token_stream_from_str sample_unicode 1 t = Ok (Lexed ts)) /\
   str_len t = 31 /\ snd (@t_token_stream_from_str sample_unicode 1 t) = 1894) /\
  (let t := tag "/*/*/*/*/*/*/*/*" in
   (exists sp, @token_stream_from_str sample_unicode 1 t = Ok (LexError sp)) /\
   snd (@t_token_stream_from_str sample_unicode 1 t) <= 300) /\
  (let t := tag "-1.5e+10f64" in
   (exists r sp, @literal_from_str sample_unicode 1 t = Ok (LitOk r sp)) /\
   snd (@t_literal_from_str sample_unicode 1 t) = 98).
Proof.
  split; [exact sample_unicode_ok|]. cbv zeta.
  repeat split; try (apply PeanoNat.Nat.leb_le); try (vm_compute; reflexivity); repeat eexists; vm_compute; reflexivity.
Qed.
