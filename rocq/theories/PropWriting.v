(** * Property C92: printing to a writer that may refuse. *)
From Verif Require Import Base Unicode Tokens Lexer SpecText SpecTree SpecPrint Writing SpecWriting WritingProofs.
Import ListNotations.

(** Printing writes the pieces of the printed text in order and stops with the first refusal. *)
Theorem c92_pieces : forall ts, exists pieces, trees_text ts (concat pieces) /\
  forall W (write : W -> str -> W * bool) w, fmt_stream (fun _ => write) ts w = feed write w pieces.
Proof. exact pieces_of_text. Qed.
Print Assumptions c92_pieces.
(** So a buffer gets a beginning of the text, and all of it exactly if there is room and printing succeeds. *)
Theorem c92_buffer : forall n ts x, trees_text ts x ->
  exists y z, x = y ++ z /\ fst (fmt_stream (buffer n) ts []) = y /\
    (snd (fmt_stream (buffer n) ts []) = true <-> (strlen x <= n)%N) /\
    (snd (fmt_stream (buffer n) ts []) = true -> z = []).
Proof. exact stream_in_buffer. Qed.
Print Assumptions c92_buffer.
(** The stack in use is two [fmt] functions for each level of groups. *)
Theorem c92_depth : forall ts,
  Forall (fun d => d <= 2 * nesting ts + 2) (fst (fmt_stream noting ts [])) /\
  (ts <> [] -> Exists (fun d => 2 * nesting ts <= d) (fst (fmt_stream noting ts []))).
Proof. exact stream_depth. Qed.
Print Assumptions c92_depth.
(** No number of frames is enough for every parsed text: parsing and dropping do not recurse, printing does. *)
Theorem c92_deep : forall U, unicode_ok U -> forall n, exists src ts, strlen src = N.of_nat (3 * n) /\
  token_stream_from_str 0 src = Ok (Lexed ts) /\
  (n <> 0 -> Exists (fun d => 2 * n <= d) (fst (fmt_stream noting ts []))).
Proof. exact @deep_printed. Qed.
Print Assumptions c92_deep.

Definition sample_printed : list token :=
  [TPunct 43%N Joint call_site; TPunct 43%N Alone call_site;
   TGroup Brace [TIdent (tag "x") true call_site; TGroup Bracket [] call_site] call_site; TLiteral (tag "1u8") call_site].
Example c92_example :
  fmt_stream (buffer 100) sample_printed [] = (tag "++ { r#x [] } 1u8", true) /\
  fmt_stream (buffer 10) sample_printed [] = (tag "++ { r#x [", false) /\
  fmt_stream (buffer 16) sample_printed [] = (tag "++ { r#x [] } ", false) /\
  nesting sample_printed = 2 /\
  rev (fst (fmt_stream noting sample_printed [])) = [2; 2; 1; 2; 4; 4; 3; 4; 4; 2; 2; 1; 2].
Proof. repeat split; reflexivity. Qed.
