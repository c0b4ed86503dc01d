(** * Specification: words used in the claims about lexing and literals. *)
From Verif Require Import Base Unicode Tokens Lexer Fallback LitValue LitNew SpecText SpecTree SpecLit.
Local Open Scope N_scope.

(** The same outcome [k] positions further on. *)
Definition shift_lexed (k : N) (l : lexed) : lexed :=
  match l with Lexed ts => Lexed (map (shift k) ts) | LexError sp => LexError (shift_span k sp) end.

Section WithUnicode.
Context {U : unicode}.

(** Next character is an identifier character. *)
Definition head_cont (s : str) : bool :=
  match s with c :: _ => is_xid_continue c | [] => false end.

(** A text that is one literal token, for the stream parser and for [Literal::from_str]. *)
Definition accepted (start : N) (repr : str) : Prop :=
  (exists sp, token_stream_from_str start repr = Ok (Lexed [TLiteral repr sp])) /\
  (exists sp, literal_from_str start repr = Ok (LitOk repr sp)).
(** A literal with its sign: [Literal::from_str] takes it whole, a stream as a
    minus sign and the rest. *)
Definition accepted_negative start (body : str) : Prop :=
  (exists sp, literal_from_str start ("-"%ch :: body) = Ok (LitOk ("-"%ch :: body) sp)) /\
  (exists sp1 sp2, token_stream_from_str start ("-"%ch :: body)
                   = Ok (Lexed [TPunct "-"%ch Alone sp1; TLiteral body sp2])) /\
  (forall sp, stream_from_tree (TLiteral ("-"%ch :: body) sp)
              = [TPunct "-"%ch Alone sp; TLiteral body sp]).

(** A tree as the public constructors build it. *)
Definition constructible (start : N) (t : token) : Prop :=
  match t with
  | TGroup d _ _ => d = Parenthesis \/ d = Brace \/ d = Bracket
  | TIdent sym raw sp => (if raw then ident_new_raw sym sp else ident_new sym sp) = Ok t
  | TPunct c s sp => punct_new c s = Ok (TPunct c s call_site) /\ (c = SQUOTE -> s = Joint)
  | TLiteral repr _ =>
      repr = ERROR \/
      (exists sp, token_stream_from_str start repr = Ok (Lexed [TLiteral repr sp])) /\
      (exists sp, literal_from_str start repr = Ok (LitOk repr sp)) /\ ~ begins repr (tag "-")
  end.

End WithUnicode.

(** The suffix that names a type: its letter, and its width or [size]. *)
Definition int_suffix (t : int_type) : str :=
  (match t with U8 | U16 | U32 | U64 | U128 | Usize => tag "u" | _ => tag "i" end) ++
  (match t with
   | U8 | I8 => tag "8" | U16 | I16 => tag "16" | U32 | I32 => tag "32" | U64 | I64 => tag "64"
   | U128 | I128 => tag "128" | Usize | Isize => tag "size"
   end).
Definition float_suffix (t : float_type) : str :=
  tag "f" ++ (match t with F32 => tag "32" | F64 => tag "64" end).

(** The accessor for a kind of string literal. *)
Definition value_of (k : kind) : str -> res (conversion (list N)) :=
  match k with KStr => str_value | KByte => byte_str_value | KC => cstr_value end.
