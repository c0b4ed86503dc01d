(** * Properties of sizes *)
From Verif Require Import Base Unicode Tokens Lexer LitNew Fallback SpecTree SpecSize SizeProofs.

(** ** C86 *)
Theorem c86_count : forall U, unicode_ok U -> forall src start, (start + strlen src < two32)%N -> forall ts,
  token_stream_from_str start src = Ok (Lexed ts) -> count ts <= 2 * length src.
Proof. exact @count_bound. Qed.
Print Assumptions c86_count.
Example c86_count_example : exists ts, @token_stream_from_str sample_unicode 0 (tag "//!") = Ok (Lexed ts) /\ count ts = 6.
Proof. eexists. split; [vm_compute; reflexivity|reflexivity]. Qed.

Theorem c86_depth : forall U, unicode_ok U -> forall src start, (start + strlen src < two32)%N -> forall ts,
  token_stream_from_str start src = Ok (Lexed ts) -> 2 * depth ts <= length src.
Proof. exact @depth_bound. Qed.
Print Assumptions c86_depth.
Example c86_depth_example : exists ts, @token_stream_from_str sample_unicode 0 (tag "([{}])") = Ok (Lexed ts) /\ depth ts = 3.
Proof. eexists. split; [vm_compute; reflexivity|reflexivity]. Qed.

Theorem c86_printed : forall U, unicode_ok U -> forall src start, (start + strlen src < two32)%N -> forall ts,
  token_stream_from_str start src = Ok (Lexed ts) -> str_len (stream_to_string ts) <= 6 * str_len src.
Proof. exact @printed_bound. Qed.
Print Assumptions c86_printed.
(** Six is the least factor. *)
Theorem c86_sharp : forall U, unicode_ok U -> escape_debug 127 = tag "\u{7f}" -> forall n, (N.of_nat n + 3 < two32)%N ->
  exists src ts, token_stream_from_str 0 src = Ok (Lexed ts) /\ str_len src = n + 3 /\
    str_len (stream_to_string ts) = 6 * n + 14.
Proof. exact @printed_sharp. Qed.
Print Assumptions c86_sharp.
Example c86_printed_example : exists ts, @token_stream_from_str sample_unicode 0 (tag "//!" ++ [127; 127]%N) = Ok (Lexed ts) /\
  stream_to_string ts = tag "# ! [doc = ""\u{7f}\u{7f}""]" /\ @escape_debug sample_unicode 127 = tag "\u{7f}".
Proof. eexists. split; [vm_compute; reflexivity|split; vm_compute; reflexivity]. Qed.

Theorem c86_string : forall (U : unicode) s, str_len (literal_string s) <= 6 * str_len s + 2.
Proof. exact @literal_string_len. Qed.
Print Assumptions c86_string.
Theorem c86_character : forall (U : unicode) c, str_len (literal_character c) <= 6 * len_utf8 c + 2.
Proof. exact @literal_character_len. Qed.
Print Assumptions c86_character.
Theorem c86_byte_string : forall bytes, Forall (fun b => b < 256)%N bytes ->
  str_len (literal_byte_string bytes) <= 4 * length bytes + 3.
Proof. exact literal_byte_string_len. Qed.
Print Assumptions c86_byte_string.
Theorem c86_c_string : forall (U : unicode) bytes r, Forall (fun b => b < 256)%N bytes -> literal_c_string bytes = Ok r ->
  str_len r <= 6 * length bytes + 3.
Proof. exact @literal_c_string_len. Qed.
Print Assumptions c86_c_string.
Example c86_constructors_example :
  str_len (@literal_string sample_unicode [127%N]) = 8 /\ str_len (@literal_character sample_unicode 127) = 8 /\
  str_len (literal_byte_string [127%N]) = 7 /\
  exists r, @literal_c_string sample_unicode [127; 255]%N = Ok r /\ str_len r = 13.
Proof. repeat split; try reflexivity. eexists. split; [vm_compute; reflexivity|reflexivity]. Qed.
