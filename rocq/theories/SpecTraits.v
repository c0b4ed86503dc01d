(** * Which public types hold tokens or spans, and which are plain data. *)
From Verif Require Import AutoTraits.

Inductive token_type : name -> Prop :=
| tt_stream : token_type TokenStream
| tt_error : token_type LexError
| tt_span : token_type Span
| tt_tree : token_type TokenTree
| tt_group : token_type Group
| tt_punct : token_type Punct
| tt_ident : token_type Ident
| tt_literal : token_type Literal
| tt_iter : token_type IntoIter
| tt_delim : token_type DelimSpan.

Inductive plain_type : name -> Prop :=
| pt_delimiter : plain_type Delimiter
| pt_spacing : plain_type Spacing
| pt_line_column : plain_type LineColumn
| pt_conversion : plain_type ConversionErrorKind
| pt_escape : plain_type EscapeError.

(** The type of this crate that wraps a type of the compiler. *)
Inductive wraps : name -> ctype -> Prop :=
| w_stream : wraps TokenStream CStream
| w_tree : wraps TokenStream CTree
| w_error : wraps LexError CLexError
| w_iter : wraps IntoIter CIter
| w_span : wraps Span CSpan
| w_punct : wraps Punct CSpan
| w_delim : wraps DelimSpan CSpan
| w_group : wraps Group CGroup
| w_ident : wraps Ident CIdent
| w_literal : wraps Literal CLiteral
| w_some_group : wraps TokenTree CGroup
| w_some_ident : wraps TokenTree CIdent
| w_some_punct : wraps TokenTree CSpan
| w_some_literal : wraps TokenTree CLiteral.
