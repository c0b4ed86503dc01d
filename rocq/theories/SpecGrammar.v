(** * Specification: the lexical grammar.

    A declarative grammar of everything the fallback lexer reads: literals,
    identifiers, punctuation, delimiters, doc comments.  Nothing here refers to
    the lexer: a rule relates the text [t] of a lexeme and the text [r] that
    follows it.  The one function of the crate used is [Literal::string], for the
    text of the literal in a doc attribute; C17 says what it denotes. *)
From Verif Require Import Base Unicode Tokens SpecText SpecTree SpecLit.
From Verif Require Lexer.
Local Open Scope N_scope.

Section WithUnicode.
Context {U : unicode}.

(** ** What may follow *)
Definition word_end (r : str) : Prop := forall c t, r = c :: t -> is_xid_continue c = false.
Definition no_word (r : str) : Prop := forall c t, r = c :: t -> ~ start_char c.

(** ** Quoted literals, without suffix *)
Inductive quoted : str -> Prop :=
| quoted_cooked k b v :
    cr_only_before_lf b -> cooked k (crlf b) v ->
    quoted (prefix k ++ [DQUOTE] ++ b ++ [DQUOTE])
| quoted_raw k n b :
    (n <= 255)%nat -> cr_only_before_lf b -> Forall (raw_allowed k) b ->
    (forall x y, b <> x ++ [DQUOTE] ++ repeat "#"%ch n ++ y) ->
    quoted (raw_literal k n b)
| quoted_char k c :
    k <> KC -> c <> BACKSLASH -> (k = KByte -> c < 128) ->
    quoted (prefix k ++ [SQUOTE; c; SQUOTE])
| quoted_escape k e v :
    k <> KC -> escape k e v -> quoted (prefix k ++ [SQUOTE; BACKSLASH] ++ e ++ [SQUOTE]).

(** ** Numbers *)
Definition dec_digit (c : char) : Prop := 48 <= c <= 57.
Definition digit_or_underscore (c : char) : Prop := dec_digit c \/ c = "_"%ch.
(** A digit, then digits and underscores. *)
Definition dec_text (s : str) : Prop :=
  exists c t, s = c :: t /\ dec_digit c /\ Forall digit_or_underscore t.
Definition number_suffix (s : str) : Prop := s = [] \/ (ident_text s /\ ~ begins s (tag "_")).
(** What follows the letter of an exponent. *)
Definition exponent_text (e : str) : Prop :=
  exists u sign u' ds, e = u ++ sign ++ u' ++ ds /\
    Forall (fun c => c = "_"%ch) u /\ (sign = [] \/ sign = tag "+" \/ sign = tag "-") /\
    Forall (fun c => c = "_"%ch) u' /\ dec_text ds.
Definition exponent_letter (m : str) : Prop := m = tag "e" \/ m = tag "E".

Inductive float_at : str -> str -> Prop :=
| float_point d r :
    dec_text d -> word_end r -> ~ begins r (tag ".") -> float_at (d ++ tag ".") r
| float_fraction d f s r :
    dec_text d -> dec_text f -> number_suffix s -> word_end r ->
    (forall m x, exponent_letter m -> s = m ++ x ->
       ~ exists e y, x ++ r = e ++ y /\ exponent_text e) ->
    float_at (d ++ tag "." ++ f ++ s) r
| float_exponent d f m e s r :
    dec_text d -> (f = [] \/ exists f', f = tag "." ++ f' /\ dec_text f') ->
    exponent_letter m -> exponent_text e -> number_suffix s -> word_end r ->
    float_at (d ++ f ++ m ++ e ++ s) r.

Inductive radix : str -> N -> Prop :=
| radix_16 : radix (tag "0x") 16
| radix_8 : radix (tag "0o") 8
| radix_2 : radix (tag "0b") 2.
Definition digit_below (b : N) (c : char) : Prop := exists v, hexval c v /\ v < b.
Inductive int_at : str -> str -> Prop :=
| int_decimal d s r :
    dec_text d -> number_suffix s -> word_end r ->
    (forall p b, radix p b -> ~ begins (d ++ s) p) -> int_at (d ++ s) r
| int_radix p b ds s r :
    radix p b -> Forall (fun c => digit_below b c \/ c = "_"%ch) ds -> Exists (digit_below b) ds ->
    number_suffix s -> (forall c t, s = c :: t -> ~ digit_below b c) -> word_end r ->
    int_at (p ++ ds ++ s) r.

(** ** Literals with their suffix *)
Inductive literal_at : str -> str -> Prop :=
| literal_quoted q r : quoted q -> no_word r -> literal_at q r
| literal_suffixed q s r : quoted q -> ident_text s -> word_end r -> literal_at (q ++ s) r
| literal_float t r : float_at t r -> literal_at t r
| literal_int t r :
    int_at t r -> (forall t' r', t ++ r = t' ++ r' -> ~ float_at t' r') -> literal_at t r.

(** ** Identifiers *)
(** A word that, followed by these characters, begins a string or a raw identifier. *)
Definition literal_prefix (s r : str) : Prop :=
  In s [tag "r"; tag "b"; tag "c"; tag "br"; tag "cr"] /\ begins r [DQUOTE] \/
  s = tag "b" /\ begins r [SQUOTE] \/
  In s [tag "r"; tag "br"; tag "cr"] /\ begins r (tag "#").
Inductive ident_at : str -> str -> str -> bool -> Prop :=
| ident_plain s r : ident_text s -> word_end r -> ~ literal_prefix s r -> ident_at s r s false
| ident_raw s r : ident_text s -> ~ In s never_raw -> word_end r -> ident_at (tag "r#" ++ s) r s true.

(** ** Punctuation *)
Inductive punct_at : char -> str -> spacing -> Prop :=
| punct_joint c r :
    In c punct_chars -> c <> SQUOTE -> ~ begins (c :: r) (tag "//") -> ~ begins (c :: r) (tag "/*") ->
    starts_punct r -> punct_at c r Joint
| punct_alone c r :
    In c punct_chars -> c <> SQUOTE -> ~ begins (c :: r) (tag "//") -> ~ begins (c :: r) (tag "/*") ->
    ~ starts_punct r -> punct_at c r Alone
| punct_lifetime s after :
    ident_text s -> word_end after -> ~ begins after [SQUOTE] -> ~ begins after (tag "#") ->
    punct_at SQUOTE (s ++ after) Joint
| punct_raw_lifetime s after :
    ident_text s -> ~ In s never_raw -> word_end after -> ~ begins after [SQUOTE] ->
    punct_at SQUOTE (tag "r#" ++ s ++ after) Joint.

(** ** Leaves *)
(** The placeholder the compiler prints for an erroneous literal. *)
Definition error_text : str := tag "(/*ERROR*/)".
Inductive lexeme : str -> str -> (span -> token) -> Prop :=
| lexeme_literal t r : literal_at t r -> lexeme t r (TLiteral t)
| lexeme_punct c r sg : punct_at c r sg -> lexeme [c] r (TPunct c sg)
| lexeme_ident t r s raw : ident_at t r s raw -> lexeme t r (TIdent s raw)
| lexeme_error r : lexeme error_text r (TLiteral error_text).

(** ** Doc comments, with the text they take up *)
Inductive doc_at : str -> str -> bool -> str -> Prop :=
| doc_at_line d r inner x :
    doc_line d inner x -> (r = [] \/ begins r [LF]) -> ~ has_bare_cr x -> doc_at d r inner x
| doc_at_crlf d r inner x :
    doc_line d inner x -> begins r [LF] -> ~ has_bare_cr x -> doc_at (d ++ [CR]) r inner x
| doc_at_block d r inner x :
    doc_block d inner x -> ~ has_bare_cr x -> doc_at d r inner x.

(** ** Delimiters *)
Definition delims : list delimiter := [Parenthesis; Brace; Bracket].
Definition opens (s : str) (d : delimiter) (r : str) : Prop :=
  In d delims /\ s = open_char d ++ r /\ ~ begins s error_text.
Definition closes (s : str) (d : delimiter) (r : str) : Prop :=
  In d delims /\ s = close_char d ++ r.

(** Nothing can be read from here. *)
Definition unreadable (s : str) : Prop :=
  ~ blank_text s /\ (forall w r, s = w ++ r -> trivia w -> w = []) /\
  (forall d r inner x, s = d ++ r -> ~ doc_at d r inner x) /\
  (forall d r, ~ opens s d r) /\ (forall d r, ~ closes s d r) /\
  (forall t r k, s = t ++ r -> ~ lexeme t r k).

(** ** Whole texts, as flat sequences of pieces; [a] is the position of the text. *)
Inductive reads : N -> str -> list piece -> Prop :=
| reads_end a s : blank_text s -> reads a s []
| reads_open a w s d r ps :
    trivia w -> opens s d r -> reads (a + strlen w + 1) r ps ->
    reads a (w ++ s) (POpen d (a + strlen w) :: ps)
| reads_close a w s d r ps :
    trivia w -> closes s d r -> reads (a + strlen w + 1) r ps ->
    reads a (w ++ s) (PClose d (a + strlen w) :: ps)
| reads_doc a w d r inner x ps :
    trivia w -> doc_at d r inner x -> reads (a + strlen w + strlen d) r ps ->
    reads a (w ++ d ++ r)
      (PTok (doc_attribute inner (Lexer.literal_string x)
               (mkspan (a + strlen w) (a + strlen w + strlen d))) :: ps)
| reads_leaf a w t r k ps :
    trivia w -> lexeme t r k -> reads (a + strlen w + strlen t) r ps ->
    reads a (w ++ t ++ r) (PTok [k (mkspan (a + strlen w) (a + strlen w + strlen t))] :: ps)
| reads_bad a w s : trivia w -> unreadable s -> reads a (w ++ s) [PBad (a + strlen w)].

(** A text without its leading byte order mark, and the position where it starts. *)
Inductive without_bom (start : N) : str -> N -> str -> Prop :=
| has_bom s : without_bom start (0xFEFF :: s) (start + 1) s
| has_no_bom s : (forall t, s <> 0xFEFF :: t) -> without_bom start s start s.
Definition reads_source (start : N) (src : str) (ps : list piece) : Prop :=
  exists a s, without_bom start src a s /\ reads a s ps.

End WithUnicode.
