{"id": "C01", "title": "Parsing a token stream is total", "statement": "TokenStream::from_str on any string terminates with Ok or LexError: it never panics (no slice off a char boundary, no index out of range, no arithmetic underflow) and never loops.", "quantifier": "every Rust string (any length, any Unicode content), any starting offset in the source map that leaves room below 2^32", "why_tests_cant": "infinitely many inputs; panics hide behind rare multi-byte / truncated-literal combinations that fuzzing only samples", "anchors": ["src/parse.rs token_stream", "src/parse.rs Cursor::advance", "src/fallback.rs TokenStream::from_str_checked"]}
{"id": "C02", "title": "Parsing a literal is total and exact", "statement": "Literal::from_str on any string never panics; it succeeds exactly when the string is one literal token covering the whole text, optionally preceded by '-' directly followed by a digit; and on success to_string of the result is the input, unchanged.", "quantifier": "every Rust string", "why_tests_cant": "the set of accepted strings is infinite", "anchors": ["src/fallback.rs Literal::from_str_checked", "src/parse.rs literal"]}
{"id": "C03", "title": "Print/parse round trip of parsed streams", "statement": "If a string parses to a token stream, then printing the stream and parsing the result succeeds and yields the same tree of tokens (same delimiters, identifiers, puncts with spacing, literals), differing only in spans.", "quantifier": "every string accepted by the parser", "why_tests_cant": "requires interaction of every token kind with every possible neighbour at every nesting depth", "anchors": ["src/fallback.rs Display for TokenStream", "src/fallback.rs Display for Group", "src/parse.rs token_stream", "src/lib.rs Display for TokenStream doc"]}
{"id": "C04", "title": "Print/parse round trip of programmatically built streams", "statement": "A stream built through the API whose groups are not Delimiter::None, whose identifiers and literals are valid tokens and whose Joint puncts are followed by something that may be glued to them, prints to text that parses back to exactly the same tree modulo spans. Printing is idempotent through a parse.", "quantifier": "every token tree satisfying the stated adjacency conditions, any depth and width", "why_tests_cant": "unbounded trees; round trip is the documented contract of Display", "anchors": ["src/fallback.rs Display for TokenStream", "src/lib.rs 'losslessly convertible back'"]}
{"id": "C05", "title": "Parsing does not depend on what was parsed before", "statement": "The outcome of parsing a string (success or failure, tokens, spans relative to the start of that string) is the same whatever was previously parsed on the thread, with or without span information compiled in.", "quantifier": "all strings, all prior parse histories", "why_tests_cant": "quantifies over histories", "anchors": ["src/fallback.rs get_cursor", "src/parse.rs Cursor"]}
{"id": "C06", "title": "Delimiters are balanced and matched", "statement": "If parsing succeeds then, scanning the source outside of literals and comments, every opening delimiter is closed by the matching closing delimiter in stack order, and the groups of the result reproduce that nesting; unbalanced input is an error.", "quantifier": "every string", "why_tests_cant": "arbitrary nesting depth", "anchors": ["src/parse.rs token_stream"]}
{"id": "C07", "title": "Parsing is compositional over lines", "statement": "If a and b both parse (b not starting with a byte order mark) then a, newline, b parses, to the concatenation of the two token sequences modulo spans.", "quantifier": "all pairs of accepted strings", "why_tests_cant": "two universally quantified inputs", "anchors": ["src/parse.rs token_stream", "src/parse.rs skip_whitespace"]}
{"id": "C08", "title": "Whitespace and comments are insignificant", "statement": "Text consisting of whitespace, line comments and (nested) block comments that are not doc comments produces no tokens: inserted before the first token, or alone, it does not change the tokens; block comments nest to any depth.", "quantifier": "every trivia text and every following input", "why_tests_cant": "arbitrary nesting depth and content", "anchors": ["src/parse.rs skip_whitespace", "src/parse.rs block_comment", "src/parse.rs take_until_newline_or_eof"]}
{"id": "C09", "title": "Doc comments desugar to doc attributes with exactly their text", "statement": "A doc comment (/// , //!, /** */, /*! */) yields #[doc = \"...\"] or #![doc = \"...\"] where the string literal's value is exactly the comment's text; four slashes, /*** and /**/ are plain comments; a bare CR inside a doc comment is an error.", "quantifier": "every comment text", "why_tests_cant": "every possible comment text incl. quotes, backslashes, control characters must be escaped right", "anchors": ["src/parse.rs doc_comment", "src/parse.rs doc_comment_contents", "src/fallback.rs Literal::string"]}
{"id": "C10", "title": "A token's source text is what it prints", "statement": "For a token parsed from text (not from a doc comment), the source text under its span is exactly its to_string (identifiers, puncts, literals), and the spans are the exact character range of that token.", "quantifier": "every accepted string and every token in the result at any depth", "why_tests_cant": "all inputs incl. multi-byte characters", "anchors": ["src/parse.rs leaf_token", "src/parse.rs Cursor::advance", "src/fallback.rs Span::source_text"]}
{"id": "C11", "title": "Spans are ordered and nested", "statement": "In a parsed stream, the spans of consecutive tokens (of one nesting level) are non-empty, increasing and disjoint, except that the tokens of one doc comment share its span; a group's span strictly contains those of its contents; all spans lie inside the parsed file.", "quantifier": "every accepted string", "why_tests_cant": "tree-wide invariant over all inputs", "anchors": ["src/parse.rs token_stream", "src/fallback.rs Span"]}
{"id": "C12", "title": "span_open and span_close cover exactly the delimiters", "statement": "For every group parsed from delimiters, span_open and span_close are one-character spans whose source text is the group's opening and closing delimiter; the group's span runs from one to the other.", "quantifier": "every accepted string and every non-doc group in the result", "why_tests_cant": "all inputs", "anchors": ["src/fallback.rs Group::span_open", "src/fallback.rs Span::first_byte", "src/fallback.rs Span::last_byte", "src/extra.rs DelimSpan"]}
{"id": "C13", "title": "Lex errors point into the offending text", "statement": "If TokenStream::from_str fails, the span of the LexError lies within the text just parsed, and querying its location never panics; when the cause is an unclosed delimiter it points at the innermost unclosed opening delimiter.", "quantifier": "every rejected string", "why_tests_cant": "all inputs", "anchors": ["src/parse.rs lex_error", "src/parse.rs token_stream", "src/fallback.rs LexError"]}
{"id": "C14", "title": "Punct spacing reflects adjacency", "statement": "A parsed punct other than ' is Joint exactly when the next source character is itself a punct character that does not begin a comment; ' is always Joint and is immediately followed by an identifier or identifier-like prefix.", "quantifier": "every accepted string, every punct in the result", "why_tests_cant": "all inputs", "anchors": ["src/parse.rs punct", "src/parse.rs punct_char"]}
{"id": "C15", "title": "Parsed streams are well formed", "statement": "The parser only produces Parenthesis/Brace/Bracket groups, identifiers that Ident::new / Ident::new_raw would accept, puncts that Punct::new accepts, and literals that are single non-negative literal tokens (or the compiler's error marker).", "quantifier": "every accepted string, every token", "why_tests_cant": "all inputs", "anchors": ["src/parse.rs leaf_token", "src/lib.rs Punct::new", "src/fallback.rs validate_ident"]}
{"id": "C16", "title": "A leading byte order mark is ignored, and only there", "statement": "Parsing U+FEFF followed by s gives the same tokens as s (if s itself does not start with U+FEFF); a BOM anywhere else outside literals and comments is an error.", "quantifier": "every string", "why_tests_cant": "all inputs", "anchors": ["src/fallback.rs TokenStream::from_str_checked"]}
{"id": "C17", "title": "Literal::string round trips", "statement": "For every string s, Literal::string(s) prints as a single valid string literal token, TokenStream and Literal parsing accept it unchanged, and str_value gives s back.", "quantifier": "every Rust string, every version of the Unicode printability tables", "why_tests_cant": "all strings; escaping of NUL-before-digit, quotes, grapheme extenders", "anchors": ["src/fallback.rs Literal::string", "src/fallback.rs escape_utf8", "src/lib.rs Literal::str_value"]}
{"id": "C18", "title": "Literal::character round trips", "statement": "For every char c, Literal::character(c) is a single valid char literal token denoting c.", "quantifier": "every Unicode scalar value", "why_tests_cant": "1.1M chars times Unicode table versions", "anchors": ["src/fallback.rs Literal::character"]}
{"id": "C19", "title": "Literal::byte_character round trips", "statement": "For every byte b, Literal::byte_character(b) is a single valid byte literal token denoting b.", "quantifier": "every byte", "why_tests_cant": "256 values are testable, kept because it is stated against the lexer and an independent denotation", "anchors": ["src/fallback.rs Literal::byte_character"]}
{"id": "C20", "title": "Literal::byte_string round trips", "statement": "For every byte sequence, Literal::byte_string is a single valid byte string literal token whose byte_str_value is the sequence.", "quantifier": "every byte sequence", "why_tests_cant": "all byte sequences", "anchors": ["src/fallback.rs Literal::byte_string", "src/lib.rs Literal::byte_str_value"]}
{"id": "C21", "title": "Literal::c_string round trips", "statement": "For every NUL-free byte sequence, valid UTF-8 or not, Literal::c_string is a single valid C string literal token whose cstr_value is the sequence plus its terminator.", "quantifier": "every NUL-free byte sequence", "why_tests_cant": "the invalid-UTF-8 chunking loop over all byte sequences", "anchors": ["src/fallback.rs Literal::c_string", "src/lib.rs Literal::cstr_value"]}
{"id": "C22", "title": "Integer literal constructors denote their argument", "statement": "Every *_suffixed / *_unsuffixed integer constructor yields a literal whose text is the decimal digits of the argument (with the type as suffix, with a leading '-' iff negative) and which Literal::from_str accepts; in a token stream a negative one becomes '-' followed by the literal of the absolute value.", "quantifier": "every integer (of any width)", "why_tests_cant": "2^128 values", "anchors": ["src/fallback.rs suffixed_numbers", "src/fallback.rs unsuffixed_numbers", "src/fallback.rs push_token_from_proc_macro"]}
{"id": "C23", "title": "Float literal constructors produce float tokens", "statement": "For any finite float, whatever decimal text the standard library prints for it, f32/f64_unsuffixed yields text that Literal::from_str accepts as one literal containing a decimal point, and f32/f64_suffixed yields one literal ending with the type.", "quantifier": "every text of the form the standard library prints for finite floats", "why_tests_cant": "2^64 values", "anchors": ["src/fallback.rs f32_unsuffixed", "src/fallback.rs f64_unsuffixed", "src/lib.rs Literal::f64_unsuffixed"]}
{"id": "C24", "title": "Raw string values are their contents", "statement": "For a raw string / raw byte string / raw C string literal with any number of hashes up to 255, the value is exactly the text between the quotes; more than 255 hashes is not a literal.", "quantifier": "every contents and every hash count", "why_tests_cant": "all contents", "anchors": ["src/parse.rs raw_string", "src/parse.rs delimiter_of_raw_string", "src/lib.rs Literal::str_value", "src/lib.rs get_raw"]}
{"id": "C25", "title": "Every string literal the parser accepts has a value", "statement": "For any cooked string, byte string or C string literal token accepted by the parser, the corresponding value accessor succeeds and returns the value given by the Rust reference's escape rules.", "quantifier": "every accepted literal token", "why_tests_cant": "all literals; two independent implementations (lexer and unescaper) must agree", "anchors": ["src/parse.rs cooked_string", "src/rustc_literal_escaper.rs unescape_str", "src/lib.rs Literal::str_value"]}
{"id": "C26", "title": "cstr_value is always a C string", "statement": "Whenever cstr_value returns bytes, they contain exactly one NUL and it is the last byte.", "quantifier": "every literal", "why_tests_cant": "all literals", "anchors": ["src/lib.rs Literal::cstr_value", "src/rustc_literal_escaper.rs unescape_c_str"]}
{"id": "C27", "title": "Value accessors are total and kind-exact", "statement": "str_value, cstr_value and byte_str_value never panic on any literal, and succeed only on literals of their own kind (at most one of the three succeeds).", "quantifier": "every literal text, valid or not", "why_tests_cant": "all strings", "anchors": ["src/lib.rs Literal::str_value", "src/lib.rs Literal::cstr_value", "src/lib.rs Literal::byte_str_value", "src/rustc_literal_escaper.rs"]}
{"id": "C28", "title": "Ident constructors accept exactly identifiers", "statement": "Ident::new panics unless the string is an identifier (start char '_' or XID_Start, then XID_Continue); Ident::new_raw additionally rejects _ super self Self crate; an accepted identifier's to_string is the string (with r# for raw).", "quantifier": "every string, every XID table", "why_tests_cant": "all strings", "anchors": ["src/fallback.rs validate_ident", "src/fallback.rs validate_ident_raw", "src/fallback.rs Display for Ident"]}
{"id": "C29", "title": "Ident comparison is consistent with its text", "statement": "Two identifiers are equal iff they print the same; comparison with a string is equality of the printed text; ordering is a total order on printed text consistent with equality; equal identifiers hash equal; spans are ignored.", "quantifier": "every pair/triple of identifiers, every string", "why_tests_cant": "quantifies over all pairs and triples", "anchors": ["src/fallback.rs PartialEq for Ident", "src/lib.rs Ord for Ident", "src/lib.rs Hash for Ident"]}
{"id": "C30", "title": "Identifiers round trip through text", "statement": "Any identifier accepted by Ident::new or Ident::new_raw, printed and parsed as a token stream, gives exactly that one identifier.", "quantifier": "every identifier", "why_tests_cant": "all identifiers, incl. keywords, r, b, br, c, cr prefixes", "anchors": ["src/parse.rs ident", "src/parse.rs ident_any", "src/fallback.rs Ident::new_checked"]}
{"id": "C31", "title": "Punct::new accepts exactly the lexer's punctuation", "statement": "Punct::new panics unless the char is one of the 22 punctuation characters, and these are exactly the characters the parser turns into puncts.", "quantifier": "every char", "why_tests_cant": "small but stated over all chars and both code paths", "anchors": ["src/lib.rs Punct::new", "src/parse.rs punct_char"]}
{"id": "C32", "title": "Building streams is list concatenation", "statement": "new, from, from_iter, extend and into_iter on token streams behave as the corresponding list operations, with each negative literal replaced by '-' and its absolute value; iteration order is insertion order; size_hint is exact; is_empty iff there are no tokens.", "quantifier": "all finite sequences of API operations on any number of streams", "why_tests_cant": "unbounded histories", "anchors": ["src/fallback.rs FromIterator", "src/fallback.rs Extend", "src/rcvec.rs"]}
{"id": "C33", "title": "No stream ever contains a negative literal", "statement": "Every stream obtainable by any sequence of parsing and building operations contains only literals without a leading minus sign.", "quantifier": "all finite histories of API calls", "why_tests_cant": "unbounded histories", "anchors": ["src/fallback.rs push_token_from_proc_macro"]}
{"id": "C34", "title": "Cloned streams are independent", "statement": "Although clones share storage, mutating, consuming or dropping one stream handle never changes what any other handle (or a group holding it) observes.", "quantifier": "all interleavings of clone, extend, from_iter, into_iter, next, group construction and drop", "why_tests_cant": "aliasing bugs appear only for particular sharing histories", "anchors": ["src/rcvec.rs RcVec::make_mut", "src/rcvec.rs RcVec::make_owned", "src/fallback.rs TokenStream::take_inner"]}
{"id": "C35", "title": "Storage is freed exactly once", "statement": "Reference counts always equal the number of live references; when every handle has been dropped no token storage remains allocated, and no operation ever touches freed storage.", "quantifier": "all finite histories of stream operations", "why_tests_cant": "unbounded histories; leak/double free", "anchors": ["src/rcvec.rs", "src/fallback.rs Drop for TokenStream"]}
{"id": "C36", "title": "Dropping never recurses on nesting depth", "statement": "Dropping a token stream uses an explicit work list: the native call depth is bounded by a constant independent of how deeply groups nest, and it terminates.", "quantifier": "every heap state / nesting depth", "why_tests_cant": "stack overflow appears only at depths chosen by an adversary", "anchors": ["src/fallback.rs Drop for TokenStream"]}
{"id": "C37", "title": "Line and column are right", "statement": "start()/end() of a span give line = 1 + number of newlines before the position in that source text, and column = number of characters since the last newline.", "quantifier": "every text, every position, every other file loaded", "why_tests_cant": "all texts and positions", "anchors": ["src/fallback.rs FileInfo::offset_line_column", "src/fallback.rs lines_offsets", "src/location.rs LineColumn"]}
{"id": "C38", "title": "byte_range is right whatever was asked before", "statement": "byte_range() of a span is the exact UTF-8 byte range of its characters in the text it came from, regardless of which positions were queried before.", "quantifier": "every text, every span, every history of earlier queries", "why_tests_cant": "the lookup cache makes the result depend on history", "anchors": ["src/fallback.rs FileInfo::byte", "src/fallback.rs Span::byte_range"]}
{"id": "C39", "title": "source_text is right whatever was asked before", "statement": "source_text() of a span returns exactly the characters of the original text between its two ends, regardless of earlier queries; None exactly for call_site-like spans. So a parsed token reads as it prints, and the spans of a parsed group's delimiters read as those delimiters, however many texts were parsed since.", "quantifier": "every text, every span, every history of earlier queries", "why_tests_cant": "history dependence", "anchors": ["src/fallback.rs FileInfo::source_text", "src/fallback.rs Span::source_text"]}
{"id": "C40", "title": "Span queries never panic and never mix up files", "statement": "For every span obtainable through the API from texts parsed since the last invalidation, file/start/end/byte_range/source_text/join do not panic and refer to the text the span came from, as long as less than 2^32 characters were parsed.", "quantifier": "all histories of parses, joins, subspans and queries", "why_tests_cant": "histories; binary search with assertions", "anchors": ["src/fallback.rs SourceMap::find", "src/fallback.rs SourceMap::add_file"]}
{"id": "C41", "title": "join covers both spans or refuses", "statement": "a.join(b) is Some exactly when both come from the same parsed text, and then is the smallest span covering both; it is commutative, idempotent and associative.", "quantifier": "all pairs/triples of valid spans", "why_tests_cant": "all pairs of spans over all histories", "anchors": ["src/fallback.rs Span::join"]}
{"id": "C42", "title": "subspan selects within the literal or refuses", "statement": "Literal::subspan(range) is Some exactly when the range, taken as source positions relative to the literal's start, is ordered and inside the literal; the result is that sub-range. (Documentation says the range is in source bytes; the code counts characters.)", "quantifier": "every literal span and every range, incl. extreme bounds near usize::MAX", "why_tests_cant": "overflow boundaries", "anchors": ["src/fallback.rs Literal::subspan", "src/lib.rs Literal::subspan"]}
{"id": "C43", "title": "Distinct parses get distinct files", "statement": "Two spans report the same file() iff they come from the same parse call (call_site spans report <unspecified>).", "quantifier": "all histories", "why_tests_cant": "histories", "anchors": ["src/fallback.rs SourceMap::filepath"]}
{"id": "C44", "title": "Invalidation gives a fresh start", "statement": "After invalidate_current_thread_spans, parsing again yields streams whose spans answer queries correctly about the new texts only; call_site spans stay valid.", "quantifier": "all histories with invalidations", "why_tests_cant": "histories", "anchors": ["src/extra.rs invalidate_current_thread_spans", "src/fallback.rs invalidate_current_thread_spans"]}
{"id": "C45", "title": "LineColumn order agrees with position", "statement": "LineColumn's ordering is a total order, lexicographic by line then column, and for two positions in one text it agrees with text order.", "quantifier": "all pairs/triples, all texts", "why_tests_cant": "all pairs", "anchors": ["src/location.rs Ord for LineColumn"]}
{"id": "C46", "title": "Deferred token appending is invisible", "statement": "In compiler mode, tokens appended one at a time are buffered; at every observation point the stream equals the one built eagerly, and no token is lost, duplicated or reordered.", "quantifier": "all interleavings of extend, from_iter and observations", "why_tests_cant": "histories", "anchors": ["src/wrapper.rs DeferredTokenStream", "src/wrapper.rs Extend"]}
{"id": "C47", "title": "Compiler and fallback values never silently mix", "statement": "Operations combining a compiler-backed and a fallback value either ignore the foreign span as documented or panic; operations on values of one kind never panic with a mismatch and produce that kind.", "quantifier": "all operations, all combinations of backing", "why_tests_cant": "all combinations over all histories", "anchors": ["src/wrapper.rs mismatch", "src/wrapper.rs"]}
{"id": "C48", "title": "Compiler detection settles", "statement": "inside_proc_macro never blocks forever and, absent force/unforce, every call on every thread returns the same answer, the one the compiler reports.", "quantifier": "all interleavings of any number of threads", "why_tests_cant": "schedules", "anchors": ["src/detection.rs inside_proc_macro", "src/detection.rs initialize"]}
{"id": "C49", "title": "force and unforce take effect", "statement": "After fallback::force() returns and until unforce(), inside_proc_macro returns false on every thread; after unforce() it returns the compiler's answer again.", "quantifier": "all interleavings of any number of threads", "why_tests_cant": "races between lazy initialisation and force", "anchors": ["src/detection.rs force_fallback", "src/detection.rs unforce_fallback", "src/fallback.rs force"]}
{"id": "C50", "title": "The panic hook is left as it was found", "statement": "On compilers without proc_macro::is_available, detection temporarily replaces the panic hook; afterwards the program's hook is the one it had installed.", "quantifier": "all interleavings of any number of threads calling inside_proc_macro / unforce", "why_tests_cant": "races on global state", "anchors": ["src/detection.rs initialize (no_is_available)"]}
{"id": "C51", "title": "The compiler parser only ever sees validated text", "statement": "In compiler mode, parsing a stream or literal calls the compiler's parser only on text the fallback parser accepts, and a panic or error of the compiler's parser becomes a LexError.", "quantifier": "every text, every compiler behaviour", "why_tests_cant": "all texts and compiler behaviours", "anchors": ["src/fallback.rs FromStr2", "src/wrapper.rs TokenStream::from_str_checked"]}
{"id": "C52", "title": "set_span changes only the span", "statement": "Setting the span of a token tree changes nothing else that can be observed about it; for groups it does not touch the spans of the contents.", "quantifier": "every token tree", "why_tests_cant": "all trees", "anchors": ["src/lib.rs TokenTree::set_span", "src/fallback.rs Group::set_span"]}
{"id": "C53", "title": "Value accessors agree with the lexer on cooked strings", "statement": "An accepted cooked string, byte string or C string literal is a body in quotes plus a suffix; the body with CRLF read as LF has a value under the Rust reference's escape rules; the accessor, whenever it succeeds, returns that value, and it always succeeds when there is no suffix and no carriage return in the body. Conversely every body with a value (and no carriage return) is an accepted literal.", "quantifier": "every accepted literal token, every body text, all three kinds", "why_tests_cant": "all literals; two independently written decoders (parse.rs and rustc_literal_escaper.rs) are related for every input", "anchors": ["src/parse.rs cooked_string", "src/parse.rs cooked_byte_string", "src/parse.rs cooked_c_string", "src/rustc_literal_escaper.rs unescape_str", "src/lib.rs Literal::str_value"]}
{"id": "C54", "title": "A text has exactly one reading", "statement": "Under a lexical grammar written independently of the lexer (whitespace and comments, delimiters, doc comments, literals, identifiers, punctuation, unreadable places), every text has exactly one decomposition into pieces, and at each place at most one lexeme; the lexer's outcome (C06, C13) is determined by that decomposition.", "quantifier": "every string, every place in it", "why_tests_cant": "quantifies over all strings and all possible decompositions", "anchors": ["src/parse.rs token_stream", "src/parse.rs leaf_token", "src/parse.rs literal_nocapture", "src/parse.rs ident", "src/parse.rs punct"]}
{"id": "C55", "title": "Literal::from_str accepts exactly the literal grammar", "statement": "Literal::from_str succeeds exactly on the texts that are one literal of the independent lexical grammar, or a minus sign directly followed by one that starts with a digit; the result is the text itself, with a span over all of it.", "quantifier": "every string", "why_tests_cant": "both directions for all strings", "anchors": ["src/fallback.rs Literal::from_str_checked", "src/parse.rs literal_nocapture", "src/parse.rs float", "src/parse.rs int", "src/parse.rs digits"]}
{"id": "C56", "title": "Every literal of the Rust reference is accepted", "statement": "Every literal token of the Rust reference (character, byte, string, raw, C string, integer, float, with suffix) is accepted by Literal::from_str.", "quantifier": "every literal text of the reference grammar", "why_tests_cant": "infinitely many literals", "anchors": ["src/parse.rs literal_nocapture", "src/parse.rs float_digits", "src/parse.rs character", "src/parse.rs byte"]}
{"id": "C57", "title": "Only literals of the Rust reference are accepted", "statement": "Literal::from_str accepts nothing but literal tokens of the Rust reference, optionally preceded by a minus sign if it is a number.", "quantifier": "every string", "why_tests_cant": "all strings", "anchors": ["src/parse.rs character", "src/parse.rs byte", "src/parse.rs literal_suffix", "src/parse.rs float_digits", "src/parse.rs int"]}
{"id": "C58", "title": "Literal constructors print exactly the documented text", "statement": "Literal::string, character, byte_string, byte_character and c_string produce one determined text per value: the quote and backslash of that kind of literal, the named escapes, a NUL as \\0 (but \\x00 when an octal digit follows), printable characters as themselves and everything else as a \\u{..} or \\xHH escape. In a C string the encoded characters appear as text and stray bytes as \\xHH. Nothing is escaped that could stand unescaped.", "quantifier": "every value (string, char, byte sequence), every table of printable characters", "why_tests_cant": "infinitely many strings; the exact text is a condition on neighbouring characters", "anchors": ["src/fallback.rs Literal::string", "src/fallback.rs Literal::character", "src/fallback.rs Literal::byte_string", "src/fallback.rs Literal::byte_character", "src/fallback.rs Literal::c_string", "src/fallback.rs escape_utf8"]}
{"id": "C59", "title": "Exact printed text of a token stream", "statement": "Display of a token stream joins the texts of its trees with one space, except after a Joint punct; groups print delimiters around their contents, braces with inner spaces (and `{ }` when empty), and an invisible group prints its contents only.", "quantifier": "every token stream and token tree, of any nesting depth", "why_tests_cant": "all nestings and all neighbouring pairs", "anchors": ["src/fallback.rs impl Display for TokenStream", "src/fallback.rs impl Display for Group", "src/fallback.rs impl Display for Ident", "src/lib.rs impl Display for TokenTree"]}
{"id": "C60", "title": "Outside a macro the wrapper is the fallback", "statement": "Any program of API calls run outside a procedural macro on fallback values has, call by call, the outcome of the same program on the fallback alone: same trees, streams, spans, texts, errors and panics. Converting a fallback stream to proc_macro::TokenStream gives its printed text to the compiler parser.", "quantifier": "every program (sequence of API calls on earlier results), every starting values", "why_tests_cant": "all programs", "anchors": ["src/wrapper.rs impl TokenStream", "src/wrapper.rs impl Span", "src/wrapper.rs impl Group", "src/wrapper.rs impl Ident", "src/wrapper.rs impl Literal"]}
{"id": "C61", "title": "Inside a macro the wrapper is the compiler", "statement": "Any program of API calls run inside a procedural macro on compiler values has, call by call, the outcome of the same program on the compiler's own proc_macro API, apart from deferred appends which are invisible; only two things are added: text the fallback lexer rejects is refused before it reaches the compiler's parser, and literals the compiler has no constructor for are parsed from the fallback's text.", "quantifier": "every program, every compiler whose extend appends", "why_tests_cant": "all programs and all compilers", "anchors": ["src/wrapper.rs impl TokenStream", "src/wrapper.rs DeferredTokenStream", "src/wrapper.rs impl Span", "src/wrapper.rs impl Group", "src/wrapper.rs impl Ident", "src/wrapper.rs impl Literal", "src/fallback.rs FromStr2"]}
{"id": "C62", "title": "Formatting options act on puncts and literals only", "statement": "Displaying a token stream, a group or an identifier gives the same text whatever width, fill, alignment or precision is asked for; a punct or a literal is truncated to the precision and filled to the width like a string. Inside a stream or group the options have no effect on any token.", "quantifier": "every formatting options, every token tree and stream of any nesting", "why_tests_cant": "all options times all trees", "anchors": ["src/fallback.rs impl Display for TokenStream", "src/fallback.rs impl Display for Group", "src/fallback.rs impl Display for Ident", "src/fallback.rs impl Display for Literal", "src/lib.rs impl Display for Punct", "src/lib.rs impl Display for TokenTree"]}
{"id": "C63", "title": "Exact Debug texts", "statement": "{:?} and {:#?} of a token stream or tree give the documented structure: name, fields in order, spans as byte ranges, the span field left out for the call site and in builds without locations; the pretty form indents each nesting level by four spaces, including the inner lines of multi-line literals. Likewise for identifiers alone, lex errors, spans and delimiter spans.", "quantifier": "every stream built by the constructors or by parsing, both configurations, both forms", "why_tests_cant": "all nestings, contents and spans", "anchors": ["src/fallback.rs impl Debug for TokenStream", "src/fallback.rs impl Debug for Group", "src/fallback.rs impl Debug for Ident", "src/fallback.rs impl Debug for Literal", "src/fallback.rs debug_span_field_if_nontrivial", "src/lib.rs impl Debug for TokenTree", "src/lib.rs impl Debug for Punct", "src/extra.rs impl Debug for DelimSpan"]}
{"id": "C64", "title": "Debug texts lose nothing", "statement": "Two token streams with the same {:?} or {:#?} text are equal, spans included; in builds without locations they are equal up to spans. No tree's Debug text is a proper prefix of another's.", "quantifier": "all pairs of streams built by the constructors or by parsing, both configurations, both forms", "why_tests_cant": "all pairs of streams", "anchors": ["src/fallback.rs impl Debug for TokenStream", "src/fallback.rs impl Debug for Group", "src/fallback.rs impl Debug for Literal", "src/lib.rs impl Debug for TokenTree"]}
{"id": "C65", "title": "Reports of the literal escaper", "statement": "For any text, the escaper of each kind of string calls back, in order, with exactly one result per character, escape sequence or bare forbidden character, for exactly its bytes: the value if it has one, otherwise the documented error; plus the two warnings for continuations. It never panics. The ranges lie on character boundaries. The text has a value iff nothing but warnings is reported, and the value is then the concatenation of the reported ones. Character and byte literals likewise. Value accessors that fail return the last error.", "quantifier": "every text, every kind of literal", "why_tests_cant": "all texts, well-formed or not; 23 kinds of error with their ranges", "anchors": ["src/rustc_literal_escaper.rs Unescape::unescape", "src/rustc_literal_escaper.rs Unescape::unescape_1", "src/rustc_literal_escaper.rs Unescape::unescape_single", "src/rustc_literal_escaper.rs skip_ascii_whitespace", "src/rustc_literal_escaper.rs CheckRaw::check_raw", "src/lib.rs Literal::str_value"]}
{"id": "C66", "title": "check_for_errors is exact", "statement": "check_for_errors never panics and reports exactly the errors and warnings found when unescaping in the given mode, with their ranges; nothing but warnings is reported iff the text is valid content for a literal of the mode. Each mode's prefix and quotes are those of its kind of literal.", "quantifier": "every text, all eight modes", "why_tests_cant": "all texts", "anchors": ["src/rustc_literal_escaper.rs check_for_errors", "src/rustc_literal_escaper.rs Mode"]}
{"id": "C67", "title": "Compiler version is read exactly", "statement": "The minor version is read from the output of `rustc --version` exactly when it is UTF-8 and begins with `rustc 1.N`, N being an optional plus sign and decimal digits of a number below 2^32, up to the next dot or the end. A version that cannot be read counts as newer than every release compared with.", "quantifier": "every output of the compiler", "why_tests_cant": "all byte strings: not UTF-8, overflow, missing pieces", "anchors": ["build.rs rustc_minor_version", "build.rs main"]}
{"id": "C68", "title": "Flags set by the build script", "statement": "A run of build.rs that ends normally sets exactly the configuration flags wanted by the compiler's version, the features and the answers to its probes, each once, and declares all names that can be set to compilers from 1.80 on, and to no others.", "quantifier": "every environment, version, set of features and behaviour of the compiler and of the file system", "why_tests_cant": "the answers of every compiler, with every combination of features and RUSTC_BOOTSTRAP", "anchors": ["build.rs main", "build.rs compile_probe_unstable", "build.rs compile_probe_stable"]}
{"id": "C69", "title": "Conditional compilation is consistent", "statement": "Under the flags of any run that ends normally every use of a conditionally compiled item is compiled only where the item exists, and functions added to the compiler's library in a release are used only from that release on. The compile_error! about procmacro2_semver_exempt appears iff the crate but not the build script was given that flag; the one about nightly testing iff the probe failed.", "quantifier": "every run of the build script and every set of flags given by the user", "why_tests_cant": "each set of flags is a build of its own; tests run in the few that the machine can make", "anchors": ["src/lib.rs", "src/wrapper.rs", "src/fallback.rs", "src/extra.rs", "src/detection.rs", "src/probe.rs", "build.rs main"]}
{"id": "C70", "title": "Probes are compiled as Cargo compiles the crate", "statement": "Each probe runs one command: through Cargo's wrappers in their order, for Cargo's target and with Cargo's flags, with RUSTC_BOOTSTRAP or without it, in a directory made before and removed after. At most four are run. The script stops only if a variable of Cargo is missing or the directory cannot be made or removed, and in the latter case not if it is already gone or, on Linux, not empty.", "quantifier": "every environment, compiler and file system", "why_tests_cant": "failures of the file system between the probes", "anchors": ["build.rs do_compile_probe", "build.rs cargo_env_var"]}
{"id": "C71", "title": "The build script reruns when it has to", "statement": "Cargo is told to watch RUSTC_BOOTSTRAP iff the probe fails without it and either succeeds with it or it is not 1. If it is not watched, another value gives the same flags, provided that the value 1 allows at least what any other value allows and that stable features do not depend on it. Answers to probes whose files are not watched are not used.", "quantifier": "every pair of runs that differ in RUSTC_BOOTSTRAP or in the compiler", "why_tests_cant": "relates two runs", "anchors": ["build.rs main", "build.rs do_compile_probe"]}
{"id": "C72", "title": "Flags for unstable functions are set only if the crate may use them", "statement": "If the build script sets proc_macro_span, the compiler accepts the unstable functions under the environment in which the crate is then compiled.", "quantifier": "every environment and compiler", "why_tests_cant": "every compiler", "anchors": ["build.rs main", "build.rs compile_probe_unstable"]}
{"id": "C73", "title": "Span queries dispatch to the right side", "statement": "Queries on a fallback span are answered by the fallback's source map whatever the compiler and configuration. Queries on a compiler span are answered by the compiler where build.rs found the functions, with columns counted from 0, and otherwise by the fixed values 0..0, line 0 column 0, \"<token stream>\" and None; they never panic or touch the source map. Start is not after end if it is not for the compiler. A DelimSpan keeps the span, opening and closing span of its group. invalidate_current_thread_spans panics inside a procedural macro and clears the source map outside.", "quantifier": "every span, compiler, configuration and source map", "why_tests_cant": "needs a compiler of every configuration", "anchors": ["src/wrapper.rs Span::byte_range", "src/wrapper.rs Span::start", "src/wrapper.rs Span::end", "src/wrapper.rs Span::file", "src/wrapper.rs Span::local_file", "src/wrapper.rs invalidate_current_thread_spans", "src/extra.rs DelimSpan"]}
{"id": "C74", "title": "Streams extended or collected from user iterators", "statement": "extend and from_iter may be given an iterator that uses the crate between two items, on any value but the stream being extended, and that may panic. In every history of such calls, nested to any depth, the streams are the lists one gets by appending item after item. An extend interrupted by a panic leaves the stream with exactly the items yielded before it, as an extend by those items would; a stream being collected is released. Reference counts stay exact, nothing is leaked, values the call was not given are unchanged, and no negative literal gets into a stream.", "quantifier": "every history of calls, every iterator (any interleaving of calls into the crate, items, caught and uncaught panics)", "why_tests_cant": "the iterators are arbitrary programs, nested arbitrarily", "anchors": ["src/fallback.rs FromIterator<TokenTree> for TokenStream", "src/fallback.rs FromIterator<TokenStream> for TokenStream", "src/fallback.rs Extend<TokenTree> for TokenStream", "src/fallback.rs Extend<TokenStream> for TokenStream", "src/rcvec.rs RcVec::make_mut"]}
{"id": "C75", "title": "The default configuration reads the same tokens", "statement": "Without span_locations the parser never panics, on texts of any length. It accepts exactly the texts the parser with locations accepts, after any earlier parses, and yields the same trees with no locations in them, which print the same. Printing and reading back yields the very same stream. Literal::from_str accepts the same texts, exactly those that are one literal with an optional minus before a digit, and keeps the text. There is a single span value: join always succeeds, source_text and subspan answer None.", "quantifier": "every text, every history of earlier parses, every table of Unicode properties", "why_tests_cant": "the test suite runs either with or without span_locations and never compares the two builds; the texts are unbounded", "anchors": ["src/parse.rs Cursor", "src/parse.rs token_stream", "src/parse.rs lex_error", "src/fallback.rs get_cursor", "src/fallback.rs Literal::from_str_checked", "src/fallback.rs Span::join", "src/fallback.rs Literal::subspan"]}
{"id": "C76", "title": "Tokens and spans stay in their thread", "statement": "In every configuration the public types that hold tokens or spans (TokenStream, LexError, Span, TokenTree, Group, Punct, Ident, Literal, IntoIter, DelimSpan) are neither Send nor Sync, whatever the compiler's own types are. They are UnwindSafe, RefUnwindSafe and Unpin if the compiler's types are, unconditionally in a build without the compiler's types, also with a standard library in which Rc is not RefUnwindSafe. A wrapping type never has an auto trait that the wrapped type does not have. The other public types (Delimiter, Spacing, LineColumn, the errors of the value accessors) have all of these traits.", "quantifier": "every configuration, every assignment of auto traits to the compiler's types, standard libraries before and after Rust 1.58", "why_tests_cant": "tests/marker.rs checks one build against one compiler", "anchors": ["src/marker.rs ProcMacroAutoTraits", "src/rcvec.rs RcVec", "src/lib.rs TokenStream", "src/lib.rs Group", "src/lib.rs Punct", "src/wrapper.rs TokenStream", "src/extra.rs DelimSpan"]}
{"id": "C77", "title": "Interrupted appends to wrapped streams", "statement": "When extend on a wrapped stream is cut short, by a panic of the iterator or by an item of the other kind, the stream that is left holds what it held before and, in order, exactly the items given before the first item it could not take or before the iterator's panic; the panic is the mismatch panic in the first case and the iterator's in the second. For a compiler stream extended with streams, everything appended earlier has been handed to the compiler and nothing is deferred any more; which of the new streams stay is then up to the compiler's own extend. from_iter yields no stream in these cases. With an iterator that finishes, the result is that of extending with the list of its items. A program that catches such panics and goes on using the streams gets the same results as if every append reached the compiler at once.", "quantifier": "every compiler meeting the stated laws on appends, every stream, every iterator (items, then end or panic), every program over the wrapper's calls with every panic caught", "why_tests_cant": "compiler streams exist only inside a procedural macro, and no test makes an iterator panic halfway", "anchors": ["src/wrapper.rs Extend<TokenTree> for TokenStream", "src/wrapper.rs Extend<TokenStream> for TokenStream", "src/wrapper.rs FromIterator<TokenTree> for TokenStream", "src/wrapper.rs FromIterator<TokenStream> for TokenStream", "src/wrapper.rs DeferredTokenStream", "src/wrapper.rs into_compiler_token"]}
{"id": "C78", "title": "Every character of a parsed text is accounted for", "statement": "When a text parses, each of its characters is part of a token, or is the opening or closing delimiter of a group whose span begins or ends there, or is a blank that no token covers, or lies in a comment that is no doc comment and that no token overlaps, or is the leading byte order mark: the lexer drops nothing else. A character that can be in no identifier, punctuation, delimiter or blank is, unless it is the leading byte order mark, inside a comment, a literal or a doc comment.", "quantifier": "every string that parses and every position in it", "why_tests_cant": "all inputs", "anchors": ["src/parse.rs token_stream", "src/parse.rs skip_whitespace", "src/parse.rs doc_comment", "src/fallback.rs TokenStream::from_str_checked"]}
{"id": "C79", "title": "A thread can parse any amount of text", "statement": "However much text a thread has parsed since it last invalidated its spans, parsing does not panic and queries about the spans of the texts parsed since then are answered from those texts, in builds with and without overflow checks.", "quantifier": "every history of parses, span queries and invalidations on one thread", "why_tests_cant": "it takes texts of 2^32 characters", "anchors": ["src/fallback.rs SourceMap::next_start_pos", "src/fallback.rs SourceMap::add_file", "src/fallback.rs SourceMap::find", "src/parse.rs Cursor::advance"]}
{"id": "C80", "title": "A group is parsed from its contents", "statement": "If s parses, then an opening delimiter, s, a newline, the matching closing delimiter and any further text r parse exactly when r does, to one group with the tokens of s followed by the tokens of r, modulo spans. With the closing delimiter missing the text is an error; with the opening delimiter missing, or another closing delimiter, it is an error whatever follows.", "quantifier": "every text s that parses, every following text, every delimiter (s and the following text not starting with a byte order mark)", "why_tests_cant": "all texts", "anchors": ["src/parse.rs token_stream", "src/parse.rs skip_whitespace", "src/parse.rs leaf_token"]}
{"id": "C81", "title": "Conversions where the compiler's types are not wrapped", "statement": "In a build that does not wrap the compiler's types, a stream of the compiler converts to exactly the tokens its printed text lexes to, and the conversion panics exactly if that text does not lex. Converting a stream to the compiler gives the compiler's parser one text, which has the tokens of the stream if the stream can be printed (C04), and panics exactly if the parser refuses it. With a compiler that prints what it parsed as a text with the same tokens, there and back gives the same tokens modulo spans. A macro that returns its input gives the compiler a text with the tokens of the text it was given. Groups without delimiters are not preserved.", "quantifier": "every compiler (any parser and printer), every stream", "why_tests_cant": "the build needs procmacro2_semver_exempt on a stable compiler, and compiler streams exist only inside a procedural macro", "anchors": ["src/fallback.rs From<proc_macro::TokenStream> for TokenStream", "src/fallback.rs From<TokenStream> for proc_macro::TokenStream", "src/fallback.rs TokenStream::from_str_unchecked", "src/fallback.rs FromStr2::from_str_unchecked", "src/lib.rs From<proc_macro::TokenStream> for TokenStream"]}
{"id": "C82", "title": "A text is parsed in linear time", "statement": "Parsing a text as a token stream takes at most 700 n + 1700 steps and as a literal at most 170 n + 600, n being its length in bytes, whether or not it is accepted, and an accepted text takes at least n. A step is a byte or character read, compared or copied or a bounded amount of other work. In particular nothing that is tried and given up (unclosed comments and strings, exponents without digits, lifetimes) is read again and again.", "quantifier": "every text of any length and every character table meeting the assumed laws", "why_tests_cant": "quadratic behaviour shows only on long adversarial texts, and every kind of token would need its own", "anchors": ["src/parse.rs token_stream", "src/parse.rs skip_whitespace", "src/parse.rs leaf_token", "src/parse.rs ident", "src/parse.rs punct_char", "src/parse.rs float_digits", "src/fallback.rs TokenStream::from_str_unchecked", "src/fallback.rs Literal::from_str_checked"]}
{"id": "C83", "title": "Panics of the program reach its own hook", "statement": "Where the compiler has is_available, every panic is the program's own and is reported to the program's panic hook, whatever calls are made and whether or not threads are unwinding. Where it has not, and unforce is not called: panics while no thread is detecting are reported to the program's hook; the panic by which the compiler answers no is reported to no one; the crate never panics, and it aborts the process exactly when the call that detects is made by a thread that is unwinding; and after a call has returned on the main thread before any thread was started (the advice in the source) none of this disturbs the program any more. A panic on another thread during detection is lost, and the abort does occur.", "quantifier": "every number of threads, every interleaving of calls, panics and catches, every answer of the compiler", "why_tests_cant": "the interval is a few instructions long, the compilers concerned are old, and a lost panic message leaves no trace", "anchors": ["src/detection.rs initialize", "src/detection.rs inside_proc_macro", "src/detection.rs unforce_fallback"]}
{"id": "C84", "title": "Spacing of parsed puncts", "statement": "In every parsed stream, at every depth, a punct is Joint exactly when the documentation says so: the next token begins where the punct ends and is a Punct, or the punct is a quotation mark and the next token an identifier. This is false in three cases, each witnessed: a character literal right after a punct makes it Joint; a quotation mark whose word is r, b, c, br or cr and is directly followed by a string is joined to the literal, not to an identifier; a doc comment right after a punct leaves it Alone although the # of the attribute follows. With these three exceptions it is proved.", "quantifier": "every text of fewer than 2^32 characters, every punct of the stream or of a group in it", "why_tests_cant": "the spacing depends on the text after the punct, which is unbounded, and it is reached through every kind of token", "anchors": ["src/parse.rs punct", "src/parse.rs punct_char", "src/parse.rs leaf_token", "src/lib.rs Spacing"]}
{"id": "C85", "title": "Source texts of the Rust reference are read token for token", "statement": "A text with a reading by the lexical grammar of the Rust reference (edition 2021: white space, comments, doc comments, identifiers, lifetimes, literals, punctuation, delimiters, with the rules about what may follow) is parsed to exactly the tokens of that reading, or rejected where its delimiters do not match; and nothing else is parsed. False in both directions, each exception witnessed: (/*ERROR*/) is read as one literal; a lifetime named r, b, c, br or cr directly before a string is not read as one; foreign white space, reserved prefixes, the literals of C57 that are none, and a point after an integer that the reference reserves are accepted. With exactly these exceptions it is proved in both directions.", "quantifier": "every text of fewer than 2^32 characters", "why_tests_cant": "both the texts and the readings are infinite sets; the exceptions were found by the failing proof", "anchors": ["src/parse.rs token_stream", "src/parse.rs leaf_token", "src/parse.rs skip_whitespace", "src/parse.rs ident_any", "src/parse.rs punct", "src/parse.rs literal_nocapture", "src/parse.rs int", "src/parse.rs float"]}
{"id": "C86", "title": "Token streams and their texts stay in proportion to the source", "statement": "A text of n characters parses to at most 2n token trees, counting those inside groups, nested at most n/2 deep. Printing the stream gives at most six times as many bytes as the source had, and six is the least such factor. The texts of Literal::string, character, byte_string and c_string are bounded by 6, 6, 4 and 6 bytes per byte of their argument plus the quotation marks and prefix.", "quantifier": "every string that parses; every argument of the constructors", "why_tests_cant": "a bound over inputs of every size and shape, where the worst case is a combination (a doc comment of unprintable characters) that random inputs do not hit", "anchors": ["src/parse.rs token_stream", "src/parse.rs doc_comment", "src/fallback.rs Display for TokenStream", "src/fallback.rs escape_utf8", "src/fallback.rs Literal::byte_string", "src/fallback.rs Literal::c_string"]}
{"id": "C87", "title": "Storage is copied only when shared, and one level of it", "statement": "Cloning a stream, a tree or an iterator, and taking a group's stream, makes no storage and changes no stored element. Extending a stream that nothing else holds happens in its own storage and touches no other; extending one that is held elsewhere makes exactly one copy of its outermost vector, whose groups stay shared with the original, and changes no stored element of what existed. Turning a stream into an iterator hands its elements to the iterator; if nothing else holds the stream its storage is then gone and all else is as before, and otherwise all stored elements are as before. In every history each operation makes exactly the storage this says.", "quantifier": "every history of operations on streams, trees and iterators, and every next operation", "why_tests_cant": "copies are invisible to the values a test compares; the condition quantifies over all histories that could share storage", "anchors": ["src/rcvec.rs make_mut", "src/rcvec.rs make_owned", "src/rcvec.rs Clone", "src/fallback.rs Extend<TokenTree> for TokenStream", "src/fallback.rs Extend<TokenStream> for TokenStream", "src/fallback.rs IntoIterator for TokenStream"]}
{"id": "C88", "title": "Hooks the program installs are kept", "statement": "Whatever panic hooks the program installs or takes, from any threads and while any threads ask whether the compiler is there, the hook in place when no detection is under way is the one the program put there last, and no call panics. True where the compiler has is_available. Where it has not (no_is_available) it is false: a hook installed while a thread detects is lost, without a word if this happens between the two calls that swap in the null hook, and with a panic if it happens while the null hook is in place. Proved there: it holds if the hook is only changed while no thread is detecting; otherwise detection puts back exactly the hook it found, and it panics exactly if the hook it takes back is not its null hook. Answers agree in any case, and a thread that has seen the answer does not panic.", "quantifier": "every number of threads, every interleaving of their calls, hook changes and the steps of detection", "why_tests_cant": "the windows are a few instructions wide, and only one schedule in very many hits them", "anchors": ["src/detection.rs initialize", "src/detection.rs inside_proc_macro"]}
{"id": "C89", "title": "Text appended at the end leaves earlier tokens alone", "statement": "If a text parses and still parses when more is appended to it, the two lists of trees agree except at the end of the first: at most its last three trees can change, and none if the last one ends before the text does. What can change is one of: the last tree if it is not a group; the attribute of a doc comment that reaches the end; a quotation mark and a name; a punct and a slash; a number followed by a sign; a number, a sign and underscores. All the others are the same with the same spans. If the longer text does not parse, the error is not before the end of any tree that cannot change.", "quantifier": "every text that parses, every text appended to it, every starting position", "why_tests_cant": "the ways a token can depend on what follows it (longest match, lookahead for comments, exponents, lifetimes) are unbounded in number and the claim is about all continuations", "anchors": ["src/parse.rs token_stream", "src/parse.rs leaf_token", "src/parse.rs float_digits", "src/parse.rs literal_suffix", "src/parse.rs punct", "src/parse.rs skip_whitespace", "src/parse.rs doc_comment"]}
{"id": "C90", "title": "Span queries are cheap in any order", "statement": "byte_range and source_text find positions by passing characters from the nearest position already known. Whatever spans are asked for, in whatever order and however often, all queries of a thread together pass at most n + n log2 n characters for each text of n characters, and two for each query. A series of queries on one text, whatever was asked before, passes at most the way from each position to the next and two for each query; so asking for spans in the order of the text passes at most n characters and two for each query.", "quantifier": "every history of parses, span operations and queries on one thread, every text", "why_tests_cant": "the answers are the same whatever they cost; the bound is about all orders of queries", "anchors": ["src/fallback.rs FileInfo::byte", "src/fallback.rs FileInfo::byte_range", "src/fallback.rs FileInfo::source_text", "src/fallback.rs Span::byte_range", "src/fallback.rs Span::source_text"]}
{"id": "C91", "title": "The arithmetic of escapes does not overflow", "statement": "With u8, u32 and i32 arithmetic, in a build with overflow checks and in one without, the lexer reads \\u{...} escapes in every text, and str_value, byte_str_value and cstr_value read every literal the lexer accepts, as with numbers of any size; so do the accessors on any other literal text shorter than 2^31 characters. Reading an escape overflows exactly if it has 2^31 digits or more: then a build with checks panics, and one without can take the literal for a valid one.", "quantifier": "every text of every length, every literal, both builds", "why_tests_cant": "the counter of digits overflows only after two gibibytes", "anchors": ["src/parse.rs backslash_u", "src/rustc_literal_escaper.rs unicode_escape", "src/rustc_literal_escaper.rs hex_escape", "src/lib.rs Literal::str_value", "src/lib.rs Literal::byte_str_value", "src/lib.rs Literal::cstr_value"]}
{"id": "C92", "title": "Printing writes in order, stops at the first refused write, and recurses on nesting", "statement": "Printing a token stream to any writer writes pieces whose concatenation is the printed text, in order, and returns an error right after the first piece that is refused; so a bounded buffer holds a beginning of the text, and printing succeeds exactly if the text fits. The number of active fmt functions is two for each level of nested groups (at least 2n and at most 2n+2 for nesting n), so for every stack there is a text that parses and drops in constant stack but cannot be printed in it.", "quantifier": "every token stream, every writer with any state, every depth", "why_tests_cant": "tests print to a String, which never refuses, and to no great depth", "anchors": ["src/fallback.rs Display for TokenStream", "src/fallback.rs Display for Group", "src/fallback.rs Display for Ident", "src/fallback.rs Display for Literal", "src/lib.rs Display for Punct"]}
{"id": "C93", "title": "Errors at closing delimiters and foreign characters are final, errors at opening delimiters can be mended", "statement": "If parsing a text fails at a closing delimiter, then every text that agrees with it up to and including that delimiter fails with the same error, whatever follows. The same holds for a failure at a character with which no token, comment or white space begins and which no word contains, such as a backslash or a byte order mark inside the text. If parsing fails at an opening delimiter, then appending a line break and some sequence of closing delimiters makes the text parse.", "quantifier": "every text, every continuation, every nesting", "why_tests_cant": "a statement about all continuations of a text", "anchors": ["src/parse.rs token_stream", "src/parse.rs leaf_token", "src/parse.rs skip_whitespace"]}
{"id": "C94", "title": "Overflow checks change parsing only where positions do not fit 32 bits", "statement": "In a build with overflow checks, where adding to the position of the lexer panics on overflow, parsing a stream or a literal gives the same result as without checks if the text ends before position 2^32; otherwise it panics or reports the same error, and with less than 2^32 characters in the text it never succeeds. In any history of a thread that parses texts of less than 2^32 characters each, the lexer never overflows: only registering the text in the source map can. A longer text can be accepted with checks, and its tokens then have positions modulo 2^32.", "quantifier": "every text, every start position, every history of parses and queries of a thread", "why_tests_cant": "positions near 2^32", "anchors": ["src/parse.rs Cursor::advance", "src/parse.rs token_stream", "src/fallback.rs SourceMap::add_file", "src/fallback.rs Literal::from_str"]}
{"id": "C95", "title": "Invalidated spans and caught panics do not disturb the source map", "statement": "A query about a span from before an invalidation, or about any other span value, either panics and changes nothing, or that value is also the span of some part of the texts of now and the answer is the one for that part. In every history of a thread, with such queries anywhere in it, with texts that no longer fit and with every panic caught, the program's own operations are answered from its texts as if the queries and the refused texts had not been.", "quantifier": "every history of parses, queries, invalidations and caught panics of one thread; every span value with start not after end; every binary search meeting the contract", "why_tests_cant": "histories; the byte offset cache could be poisoned by one query and answer wrongly much later", "anchors": ["src/extra.rs invalidate_current_thread_spans", "src/fallback.rs SourceMap::find", "src/fallback.rs SourceMap::add_file", "src/fallback.rs FileInfo::byte", "src/fallback.rs Span::source_text"]}
{"id": "C96", "title": "Line endings: a CRLF file parses as its LF version does", "statement": "For a text in which every carriage return is part of a CRLF: if it parses, then the text with every CRLF read as LF, which is what the compiler reads, parses to the same trees, with the spans moved, with CRLF read as LF in the texts of literals and in the contents of doc comments, and with nothing else changed. If it does not parse, the LF text has its error at the same place, except where a CRLF stands between single quotes, which is an error although a line feed there is a character literal. Lines and columns of the beginnings of tokens and of errors are the same in both.", "quantifier": "every text whose carriage returns are all before line feeds, every table of Unicode properties meeting the stated conditions", "why_tests_cant": "every scanner has its own treatment of carriage returns (line comments, block comments, doc comments, the three kinds of cooked strings, raw strings, string continuations, character literals); the repository's tests exercise a few single cases", "anchors": ["src/parse.rs take_until_newline_or_eof", "src/parse.rs block_comment", "src/parse.rs doc_comment_contents", "src/parse.rs cooked_string", "src/parse.rs raw_string", "src/parse.rs trailing_backslash", "src/parse.rs character", "src/parse.rs skip_whitespace", "src/fallback.rs Span::start"]}
{"id": "C97", "title": "Panic messages name the mistake", "statement": "Ident::new and Ident::new_raw panic on an empty text, on a number and on anything else that is no identifier with three different messages, the last of which contains the text as a string literal of that value; new_raw has a fourth for the five words that cannot be raw. Punct::new names the character as a character literal. From the message the argument can be read off, except which number it was. A span query panics with the one message if the span meets no text of the map and with the other if it meets one without lying in it, and never for another reason.", "quantifier": "every string, every character, every table of Unicode properties, every history of the source map within the 32-bit positions, every span with lo <= hi", "why_tests_cant": "the repository has a should_panic test for one or two arguments per message; which message is given for which argument, the escaping of arbitrary arguments, and which files the binary search happens to probe before it panics are not covered", "anchors": ["src/fallback.rs validate_ident", "src/fallback.rs validate_ident_raw", "src/fallback.rs Ident::new_checked", "src/lib.rs Punct::new", "src/fallback.rs SourceMap::find"]}
{"id": "C98", "title": "Newer Unicode tables read old texts alike", "statement": "If the crate is built with newer Unicode tables, in which further characters may occur in identifiers, then every text that parsed still parses to the same trees with the same spans; if the tables for printing characters differ too, then only the spelling of the string literals made from doc comments changes and not their values. Literals and identifiers that were accepted by Literal::from_str, Ident::new and Ident::new_raw still are, with the same result.", "quantifier": "every pair of tables U, V meeting the stated conditions with the identifier characters of U among those of V and no character that in U can only continue an identifier able to start one in V; every text", "why_tests_cant": "the tables come from another crate and from the compiler's library and change with their versions; a test runs with one version. That no accepted text depends on a character not being an identifier character (at word breaks, after 1., after lifetimes, after literals) needs an argument over all texts", "anchors": ["src/fallback.rs is_ident_start", "src/fallback.rs is_ident_continue", "src/parse.rs word_break", "src/parse.rs float_digits", "src/parse.rs literal_suffix", "src/parse.rs punct_char", "src/parse.rs ident_not_raw", "src/fallback.rs Literal::string"]}
{"id": "C99", "title": "What comes before an error can be continued", "statement": "A lex error is not reported late: if parsing fails with an error at some position then the text before that position is the beginning of some text that parses.", "quantifier": "every Unicode table meeting unicode_ok, every text below the size limit, every offset, every error", "why_tests_cant": "the position of an error is compared in tests for a few texts only; that nothing wrong has been passed over before it is a statement about all continuations of all prefixes. Cutting a text changes the reading of what stands before the cut (spacing of punctuation, lifetimes, floats, prefixes of string literals), and none of these may become unreadable", "anchors": ["src/parse.rs token_stream", "src/parse.rs leaf_token", "src/parse.rs punct_char", "src/parse.rs ident_any", "src/parse.rs float_digits", "src/parse.rs doc_comment", "src/parse.rs lex_error"]}
{"id": "C100", "title": "The contents of a group can be exchanged without parsing the rest again", "statement": "In a text that parses, replace the text between the delimiters of a group, at any depth, by any other text that parses by itself, with a line break after it. The result parses. The trees before the group are unchanged, the group holds the trees of the new text, the trees after it keep their distance from its end, and nothing else about any tree changes.", "quantifier": "every Unicode table meeting unicode_ok, every text and every group of its stream at any depth, every new contents without byte order mark in front, every offset below the size limit", "why_tests_cant": "it relates the parse of a whole text to that of a part of another for all texts around the group and all contents; an editor or an incremental tool relies on it for edits nobody has tried. A delimiter looked past by the token in front of it, or the placeholder (/*ERROR*/), would break it for rare texts only", "anchors": ["src/parse.rs token_stream", "src/parse.rs leaf_token", "src/parse.rs skip_whitespace", "src/parse.rs doc_comment", "src/fallback.rs Group::span"]}
{"id": "C101", "title": "An identifier can be renamed without parsing the rest again", "statement": "In a text that parses, replace the text of an identifier, at any depth, in a lifetime or not, by another identifier of the same kind, raw or plain. The result parses, to the same stream with that one token replaced: the trees before it are unchanged and those after it keep their distance from its end. The names concerned are not underscores followed by a digit, and the new plain name is none of r, b, c, br and cr.", "quantifier": "every Unicode table meeting unicode_ok, every text and every identifier of its stream at any depth that comes from the text itself, every new name of the same kind, every offset below the size limit", "why_tests_cant": "renaming tools rely on it for every text around the name; that a name can change the reading of a number before it (1e+x, 1e+_1) or of a quote after it is the kind of exception tests miss", "anchors": ["src/parse.rs ident_any", "src/parse.rs ident_not_raw", "src/parse.rs float_digits", "src/parse.rs punct", "src/parse.rs token_stream"]}
{"id": "C102", "title": "Text put in the place of an identifier is tokens put in its place", "statement": "In a text that parses, replace the text of an identifier, at any depth, by any text that parses by itself, between a blank and a line break. The result parses, to the same stream with that identifier replaced by the trees of the new text: the trees before are unchanged, and those after keep their distance from the end. With no new text the identifier is deleted. The identifier does not come right after a dot or a quote and is not underscores followed by a digit.", "quantifier": "every Unicode table meeting unicode_ok, every text and every identifier of its stream at any depth that comes from the text itself, every new text without byte order mark in front, every offset below the size limit", "why_tests_cant": "templates filled in as text rely on it for all templates and all insertions; the exceptions (1.x and 1. x differ, a quote needs its name, 1.5e+ before a name) are found by proof, not by trying texts", "anchors": ["src/parse.rs token_stream", "src/parse.rs leaf_token", "src/parse.rs float_digits", "src/parse.rs punct", "src/parse.rs skip_whitespace"]}
{"id": "C103", "title": "Float constructors: every bit pattern", "statement": "Literal::f32_unsuffixed, f32_suffixed, f64_unsuffixed and f64_suffixed panic for the infinities and for every NaN, and for no other float, with the message of the assertion. For every other float, including negative zero and the subnormal ones, the literal has the sign of the float, is accepted by the parser, and its digits round (to the nearest, ties to even) to that very float; so different floats of a type have different literals.", "quantifier": "every bit pattern of the two formats, every Unicode table meeting unicode_ok, every printing function of the standard library whose texts round back to the float printed", "why_tests_cant": "there are 2^32 and 2^64 bit patterns; the repository's tests use a handful of values and no NaN", "anchors": ["src/lib.rs Literal::f64_unsuffixed", "src/lib.rs Literal::f64_suffixed", "src/lib.rs Literal::f32_unsuffixed", "src/lib.rs Literal::f32_suffixed", "src/fallback.rs Literal::f32_unsuffixed", "src/fallback.rs Literal::f64_unsuffixed"]}
{"id": "C104", "title": "Iterating one tree at a time", "statement": "The n-th call of next() on an iterator over a stream gives the n-th tree the stream held, of the same kind, text, spacing and span, whatever inside_proc_macro() answers meanwhile, and None from the end on. A tree of the compiler that is a punct with a character no Punct may have makes the call that meets it panic, and no call before or after it; that tree counts as taken. size_hint() is exact for a fallback stream and bounds the number of trees left for one of the compiler. A clone of an iterator goes on from the same place, independently of the original.", "quantifier": "every program of iterators made, cloned, advanced and asked for size_hint in any order; every compiler meeting list_laws and whose own size_hint is truthful", "why_tests_cant": "the compiler-backed iterator cannot be run outside of a procedural macro; interleavings of clones are unbounded", "anchors": ["src/wrapper.rs TokenTreeIter::next", "src/wrapper.rs TokenTreeIter::size_hint", "src/wrapper.rs TokenStream::into_iter", "src/lib.rs token_stream::IntoIter"]}
