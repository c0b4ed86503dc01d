(** * Property C96: line endings. *)
From Verif Require Import Base BaseFacts Unicode Tokens Lexer SpecText SpecTree SpecLit SourceMap SpecMap SpecEnding EndingProofs.
Local Open Scope N_scope.

(** A text that parses still does, with the same trees, after every CRLF is read as LF. *)
Theorem c96_same : forall U, unicode_ok U -> forall src start, start + strlen src < two32 -> forall ts,
  cr_only_before_lf src -> token_stream_from_str start src = Ok (Lexed ts) ->
  exists ts', token_stream_from_str start (unix src) = Ok (Lexed ts') /\ same_trees start src ts ts'.
Proof. exact @parse_unix. Qed.
Print Assumptions c96_same.
(** An error stays at the same place, unless it is at a quoted CRLF, which becomes a literal. *)
Theorem c96_error : forall U, unicode_ok U -> forall src start, start + strlen src < two32 -> forall sp,
  cr_only_before_lf src -> token_stream_from_str start src = Ok (LexError sp) ->
  token_stream_from_str start (unix src) = Ok (LexError (moved_span start src sp)) \/
  (holds src quoted_crlf /\ forall ts', token_stream_from_str start (unix src) = Ok (Lexed ts') ->
    exists l sp', occurs (TLiteral l sp') ts' /\ newline_literal l).
Proof. exact @error_unix. Qed.
Print Assumptions c96_error.
(** A quoted CRLF is an error in whatever follows a text that parses. *)
Theorem c96_quoted : forall U, unicode_ok U -> forall start a b ts, start < two32 ->
  token_stream_from_str start a = Ok (Lexed ts) ->
  (exists sp, token_stream_from_str start (a ++ LF :: quoted_crlf ++ b) = Ok (LexError sp)) /\
  (exists sp, token_stream_from_str start (a ++ LF :: ("b"%ch :: quoted_crlf) ++ b) = Ok (LexError sp)).
Proof. exact @quoted_error. Qed.
Print Assumptions c96_quoted.
(** Lines and columns of the beginnings of tokens and of errors do not change. *)
Theorem c96_token_line : forall U, unicode_ok U -> forall src start, start + strlen src < two32 -> forall ts t,
  cr_only_before_lf src -> token_stream_from_str start src = Ok (Lexed ts) -> occurs t ts ->
  line_column_at (unix src) (N.to_nat (moved start src (lo (token_span t)) - start)) =
  line_column_at src (N.to_nat (lo (token_span t) - start)).
Proof. exact @token_line. Qed.
Print Assumptions c96_token_line.
Theorem c96_error_line : forall U, unicode_ok U -> forall src start, start + strlen src < two32 -> forall sp,
  cr_only_before_lf src -> token_stream_from_str start src = Ok (LexError sp) ->
  line_column_at (unix src) (N.to_nat (moved start src (lo sp) - start)) = line_column_at src (N.to_nat (lo sp - start)).
Proof. exact @error_line. Qed.
Print Assumptions c96_error_line.

Definition dos (s : str) : str := flat_map (fun c => if c =? LF then [CR; LF] else [c]) s.
(** Ordinary tokens over three lines. *)
Definition lines_ex : str := tag "f(1," ++ [LF] ++ tag "x" ++ [LF] ++ tag ");".
(** The text of a literal keeps the line ending. *)
Definition raw_ex : str := tag "r""a" ++ [LF] ++ tag "b""".
(** So does the contents of a block doc comment; the span of a line doc comment has the CR in it. *)
Definition block_ex : str := tag "/** a" ++ [LF] ++ tag "b*/".
Definition line_ex : str := tag "///a" ++ [LF] ++ tag "x".
Definition char_ex : str := tag "n" ++ [SQUOTE; LF; SQUOTE].
Definition wrong_ex : str := tag "n" ++ [LF] ++ tag "(" ++ [LF] ++ tag "]".
Example c96_example :
  let P := @token_stream_from_str sample_unicode 0 in
  let n x a b := TIdent x false (mkspan a b) in
  (cr_only_before_lf (dos lines_ex) /\ unix (dos lines_ex) = lines_ex /\
   P (dos lines_ex) = Ok (Lexed [n (tag "f") 0 1; TGroup Parenthesis
     [TLiteral (tag "1") (mkspan 2 3); TPunct ","%ch Alone (mkspan 3 4); n (tag "x") 6 7] (mkspan 1 10); TPunct ";"%ch Alone (mkspan 10 11)]) /\
   P lines_ex = Ok (Lexed [n (tag "f") 0 1; TGroup Parenthesis
     [TLiteral (tag "1") (mkspan 2 3); TPunct ","%ch Alone (mkspan 3 4); n (tag "x") 5 6] (mkspan 1 8); TPunct ";"%ch Alone (mkspan 8 9)])) /\
  (P (dos raw_ex) = Ok (Lexed [TLiteral (dos raw_ex) (mkspan 0 7)]) /\ P raw_ex = Ok (Lexed [TLiteral raw_ex (mkspan 0 6)])) /\
  (P (dos block_ex) = Ok (Lexed (doc_attribute false (tag """ a\r\nb""") (mkspan 0 10))) /\
   P block_ex = Ok (Lexed (doc_attribute false (tag """ a\nb""") (mkspan 0 9)))) /\
  (P (dos line_ex) = Ok (Lexed (doc_attribute false (tag """a""") (mkspan 0 5) ++ [n (tag "x") 6 7])) /\
   P line_ex = Ok (Lexed (doc_attribute false (tag """a""") (mkspan 0 4) ++ [n (tag "x") 5 6]))) /\
  (P (dos char_ex) = Ok (LexError (mkspan 1 1)) /\
   P char_ex = Ok (Lexed [n (tag "n") 0 1; TLiteral [SQUOTE; LF; SQUOTE] (mkspan 1 4)])) /\
  (P (dos wrong_ex) = Ok (LexError (mkspan 6 6)) /\ P wrong_ex = Ok (LexError (mkspan 4 4)) /\
   moved_span 0 (dos wrong_ex) (mkspan 6 6) = mkspan 4 4 /\ line_column_at (dos wrong_ex) 6 = mklc 3 0 /\ line_column_at wrong_ex 4 = mklc 3 0).
Proof.
  split; [split; [|vm_compute; auto]|vm_compute; auto 20].
  intros x y E. cbn in E. repeat (destruct x as [|c x]; [try discriminate E; injection E as <-; now eexists|injection E as <- E]). destruct x; discriminate E.
Qed.
