(** * Specification: source texts of the Rust reference, edition 2021.

    Transcribed from the chapters "Whitespace", "Comments", "Identifiers" and "Tokens"
    of the Rust reference.  What the lexer does otherwise is kept apart:
    [odd] allows what the crate reads beyond the reference, and [dev] allows the two
    texts of the reference which the crate reads differently.  So [source false true]
    is the reference, and [source true false] is the crate. *)
From Verif Require Import Base Unicode Tokens SpecText SpecTree SpecLit SpecGrammar SpecReference.
From Verif Require Lexer.
Local Open Scope N_scope.

Section WithUnicode.
Context {U : unicode}.

(** Pattern_White_Space. *)
Definition pattern_white_space : list char := [9; 10; 11; 12; 13; 32; 0x85; 0x200E; 0x200F; 0x2028; 0x2029].
(** The other characters with the property White_Space. *)
Definition foreign_white_space : list char :=
  [0xA0; 0x1680; 0x2000; 0x2001; 0x2002; 0x2003; 0x2004; 0x2005; 0x2006; 0x2007; 0x2008; 0x2009; 0x200A; 0x202F; 0x205F; 0x3000].

(** ** Numbers, with what follows *)
(** A point after an integer does not belong to it if another point or a name follows
    the point.  Otherwise the integer, the point and what follows are a float or reserved. *)
Definition point_apart (r : str) : Prop :=
  forall u, r = "."%ch :: u -> exists c t, u = c :: t /\ (c = "."%ch \/ start_char c).
(** Without prefix [0x], [0o], [0b]. *)
Definition no_radix (s : str) : Prop := forall p b, radix p b -> ~ begins s p.
Definition radix_digits (b : N) (ds : str) : Prop :=
  Forall (fun c => digit_below b c \/ c = "_"%ch) ds /\ Exists (digit_below b) ds.
Definition radix_suffix (b : N) (s : str) : Prop := forall c t, s = c :: t -> ~ digit_below b c.
(** An integer without suffix. *)
Inductive whole : str -> Prop :=
| whole_dec d : dec_text d -> no_radix d -> whole d
| whole_radix p b ds : radix p b -> radix_digits b ds -> whole (p ++ ds).
Inductive ref_number_at : str -> str -> Prop :=
| rn_whole t r : whole t -> word_end r -> point_apart r -> ref_number_at t r
| rn_dec d s r :
    dec_text d -> number_suffix s -> s <> [] -> no_e s -> no_radix (d ++ s) -> word_end r -> ref_number_at (d ++ s) r
| rn_radix p b ds s r :
    radix p b -> radix_digits b ds -> number_suffix s -> s <> [] -> no_e s -> radix_suffix b s -> word_end r ->
    ref_number_at (p ++ ds ++ s) r
| rn_point d r : dec_text d -> word_end r -> ~ begins r (tag ".") -> ref_number_at (d ++ tag ".") r
| rn_fraction d f s r :
    dec_text d -> dec_text f -> number_suffix s -> no_e s -> word_end r -> ref_number_at (d ++ tag "." ++ f ++ s) r
| rn_float d f m e s r :
    dec_text d -> (f = [] \/ exists f', f = tag "." ++ f' /\ dec_text f') ->
    exponent_letter m -> ref_exponent e -> number_suffix s -> word_end r -> ref_number_at (d ++ f ++ m ++ e ++ s) r.

(** ** Tokens, with what follows *)
Definition string_prefixes : list str := [tag "r"; tag "b"; tag "c"; tag "br"; tag "cr"].
Definition reserves (r : str) : Prop := begins r [DQUOTE] \/ begins r [SQUOTE] \/ begins r (tag "#").
Inductive ref_lexeme : str -> str -> (span -> token) -> Prop :=
| ref_lex_quoted q r : ref_quoted q -> no_word r -> ref_lexeme q r (TLiteral q)
| ref_lex_suffixed q s r : ref_quoted q -> ident_text s -> s <> tag "_" -> word_end r -> ref_lexeme (q ++ s) r (TLiteral (q ++ s))
| ref_lex_number t r : ref_number_at t r -> ref_lexeme t r (TLiteral t)
(** A word before a quotation mark or a hash is part of a literal, or reserved. *)
| ref_lex_ident s r : ident_text s -> word_end r -> ~ reserves r -> ref_lexeme s r (TIdent s false)
| ref_lex_raw s r : ident_text s -> ~ In s never_raw -> word_end r -> ref_lexeme (tag "r#" ++ s) r (TIdent s true)
(** Puncts are single characters; C84 is about their spacing. *)
| ref_lex_punct c r sg :
    In c punct_chars -> c <> SQUOTE -> ~ begins (c :: r) (tag "//") -> ~ begins (c :: r) (tag "/*") ->
    (sg = Joint <-> starts_punct r) -> ref_lexeme [c] r (TPunct c sg).
(** Text, name, whether raw, rest. *)
Inductive lifetime : str -> str -> bool -> str -> Prop :=
| lifetime_plain n r :
    ident_text n -> word_end r -> ~ begins r [SQUOTE] -> ~ begins r (tag "#") -> lifetime (SQUOTE :: n) n false r
| lifetime_raw n r :
    ident_text n -> ~ In n never_raw -> word_end r -> ~ begins r [SQUOTE] -> lifetime (SQUOTE :: tag "r#" ++ n) n true r.

(** ** What the crate reads beyond the reference *)
Inductive odd_lexeme : str -> str -> (span -> token) -> Prop :=
(** Literals that are none, listed in SpecReference.v. *)
| odd_literal t r : literal_at t r -> lenient t -> odd_lexeme t r (TLiteral t)
(** [0b1.5] and [1.0e5] followed by a combining mark, as integer, point, integer. *)
| odd_point t r : literal_at t r -> whole t -> ~ point_apart r -> odd_lexeme t r (TLiteral t)
(** Reserved prefixes. *)
| odd_prefix s r : ident_text s -> word_end r -> reserves r -> ~ literal_prefix s r -> odd_lexeme s r (TIdent s false)
(** The text the compiler prints for a broken literal. *)
| odd_error r : odd_lexeme error_text r (TLiteral error_text)
(** The quotation mark before a string with a prefix. *)
| odd_mark p r : In p string_prefixes -> begins r [DQUOTE] -> odd_lexeme [SQUOTE] (p ++ r) (TPunct SQUOTE Joint).

Section Reading.
Variables odd dev : bool.
Inductive space : str -> Prop :=
| space_nil : space []
| space_blank c w : In c pattern_white_space -> space w -> space (c :: w)
| space_foreign c w : odd = true -> In c foreign_white_space -> space w -> space (c :: w)
| space_line x w : plain_line x -> space w -> space (tag "//" ++ x ++ LF :: w)
| space_block b w : plain_block b -> space w -> space (b ++ w).
(** [a] is the position of the text. *)
Inductive source : N -> str -> list piece -> Prop :=
| source_end a w : space w -> source a w []
| source_end_line a w x : space w -> plain_line x -> source a (w ++ tag "//" ++ x) []
| source_open a w d r ps :
    space w -> In d delims -> (dev = true \/ ~ begins (open_char d ++ r) error_text) ->
    source (a + strlen w + 1) r ps -> source a (w ++ open_char d ++ r) (POpen d (a + strlen w) :: ps)
| source_close a w d r ps :
    space w -> In d delims ->
    source (a + strlen w + 1) r ps -> source a (w ++ close_char d ++ r) (PClose d (a + strlen w) :: ps)
| source_doc a w d r inner x ps :
    space w -> doc_at d r inner x -> source (a + strlen w + strlen d) r ps ->
    source a (w ++ d ++ r)
      (PTok (doc_attribute inner (Lexer.literal_string x) (mkspan (a + strlen w) (a + strlen w + strlen d))) :: ps)
| source_leaf a w t r k ps :
    space w -> (ref_lexeme t r k \/ (odd = true /\ odd_lexeme t r k)) -> source (a + strlen w + strlen t) r ps ->
    source a (w ++ t ++ r) (PTok [k (mkspan (a + strlen w) (a + strlen w + strlen t))] :: ps)
| source_lifetime a w t n raw r ps :
    space w -> lifetime t n raw r -> (dev = true \/ raw = true \/ ~ (In n string_prefixes /\ begins r [DQUOTE])) ->
    source (a + strlen w + strlen t) r ps ->
    source a (w ++ t ++ r)
      (PTok [TPunct SQUOTE Joint (mkspan (a + strlen w) (a + strlen w + 1))] ::
       PTok [TIdent n raw (mkspan (a + strlen w + 1) (a + strlen w + strlen t))] :: ps).
End Reading.

Definition holds_text (src p : str) : Prop := exists x y, src = x ++ p ++ y.
(** The readings of a whole text, after its byte order mark. *)
Definition reference_source (start : N) (src : str) (ps : list piece) : Prop :=
  exists a s, without_bom start src a s /\ source false true a s ps.
Definition common_source (start : N) (src : str) (ps : list piece) : Prop :=
  exists a s, without_bom start src a s /\ source false false a s ps.
Definition crate_source (start : N) (src : str) (ps : list piece) : Prop :=
  exists a s, without_bom start src a s /\ source true false a s ps.
End WithUnicode.
