{
 "claims": [
  {
   "property": "C01",
   "status": "proved",
   "theorems": [
    "c01_parse_total"
   ],
   "note": "every string, every start offset below 2^32; offsets wrap modulo 2^32 as in a release build; for a build with overflow checks see C94"
  },
  {
   "property": "C02",
   "status": "proved",
   "theorems": [
    "c02_literal_total",
    "c02_literal_exact"
   ],
   "note": "exactness is relative to the stream parser: the body alone parses to that one literal"
  },
  {
   "property": "C03",
   "status": "proved",
   "theorems": [
    "c03_roundtrip"
   ],
   "note": ""
  },
  {
   "property": "C04",
   "status": "proved",
   "theorems": [
    "c04_roundtrip",
    "c04_exact",
    "c04_joint_refuted",
    "c04_apostrophe_refuted"
   ],
   "note": ""
  },
  {
   "property": "C05",
   "status": "proved",
   "theorems": [
    "c05_tokens_independent",
    "c05_spans_shift"
   ],
   "note": "trees are independent of the start offset for all offsets; spans and error positions shift by the offset"
  },
  {
   "property": "C06",
   "status": "proved",
   "theorems": [
    "c06_balanced",
    "c06_unbalanced"
   ],
   "note": "success iff the independent reading of the text (grammar of SpecGrammar.v) is bracketed, with the tree read off it; failure iff it is not, with position"
  },
  {
   "property": "C07",
   "status": "proved",
   "theorems": [
    "c07_lines"
   ],
   "note": "iff: once a parses, a newline b parses exactly when b does, to the concatenation"
  },
  {
   "property": "C08",
   "status": "proved",
   "theorems": [
    "c08_trivia_first",
    "c08_blank_text",
    "c08_blank_chars"
   ],
   "note": ""
  },
  {
   "property": "C09",
   "status": "proved",
   "theorems": [
    "c09_doc_comment",
    "c09_doc_bare_cr"
   ],
   "note": ""
  },
  {
   "property": "C10",
   "status": "proved",
   "theorems": [
    "c10_source_text"
   ],
   "note": ""
  },
  {
   "property": "C11",
   "status": "proved",
   "theorems": [
    "c11_spans_nested",
    "c11_spans_inside"
   ],
   "note": ""
  },
  {
   "property": "C12",
   "status": "proved",
   "theorems": [
    "c12_delimiter_spans"
   ],
   "note": ""
  },
  {
   "property": "C13",
   "status": "proved",
   "theorems": [
    "c13_error_position",
    "c13_error_in_text"
   ],
   "note": ""
  },
  {
   "property": "C14",
   "status": "proved",
   "theorems": [
    "c14_spacing"
   ],
   "note": ""
  },
  {
   "property": "C15",
   "status": "proved",
   "theorems": [
    "c15_well_formed",
    "c15_adjacent"
   ],
   "note": ""
  },
  {
   "property": "C16",
   "status": "proved",
   "theorems": [
    "c16_leading_bom",
    "c16_bom_line",
    "c16_bom_twice",
    "c16_bom_elsewhere"
   ],
   "note": ""
  },
  {
   "property": "C17",
   "status": "proved",
   "theorems": [
    "c17_string"
   ],
   "note": "every valid string, every Unicode printability table"
  },
  {
   "property": "C18",
   "status": "proved",
   "theorems": [
    "c18_character"
   ],
   "note": ""
  },
  {
   "property": "C19",
   "status": "proved",
   "theorems": [
    "c19_byte_character"
   ],
   "note": ""
  },
  {
   "property": "C20",
   "status": "proved",
   "theorems": [
    "c20_byte_string"
   ],
   "note": ""
  },
  {
   "property": "C21",
   "status": "proved",
   "theorems": [
    "c21_c_string"
   ],
   "note": ""
  },
  {
   "property": "C22",
   "status": "proved",
   "theorems": [
    "c22_suffixed",
    "c22_unsuffixed"
   ],
   "note": "every integer; the text does not depend on the width of the type"
  },
  {
   "property": "C23",
   "status": "proved",
   "theorems": [
    "c23_suffixed",
    "c23_unsuffixed"
   ],
   "note": "the text printed by the standard library for a finite float is taken to be digits with an optional fraction and sign"
  },
  {
   "property": "C24",
   "status": "proved",
   "theorems": [
    "c24_raw_accepted",
    "c24_raw_value",
    "c24_too_many"
   ],
   "note": "acceptance characterised exactly, value for any number of hashes, rejection above 255"
  },
  {
   "property": "C25",
   "status": "partial",
   "theorems": [
    "c25_value_refuted",
    "c25_value_partial"
   ],
   "note": "does not hold as stated: refuted by witnesses (CRLF inside a cooked string, backslash before CRLF, suffixed string); c25_value_partial says exactly when the accessor succeeds (no suffix, and the body has a meaning without reading CRLF as LF) and that it then returns the value; see also C53"
  },
  {
   "property": "C26",
   "status": "proved",
   "theorems": [
    "c26_terminated"
   ],
   "note": "for literals the lexer accepts; Literal values built by the constructors are accepted (C17-C23)"
  },
  {
   "property": "C27",
   "status": "proved",
   "theorems": [
    "c27_total",
    "c27_error_kind",
    "c27_one_kind"
   ],
   "note": "includes which error kind is reported on a literal of another kind; which of several malformed escapes is reported first is not specified; numbers in escapes are unbounded here, for the arithmetic of the machine see C91"
  },
  {
   "property": "C28",
   "status": "proved",
   "theorems": [
    "c28_constructors"
   ],
   "note": ""
  },
  {
   "property": "C29",
   "status": "proved",
   "theorems": [
    "c29_equality",
    "c29_string_equality",
    "c29_ordering",
    "c29_total_order",
    "c29_hash"
   ],
   "note": ""
  },
  {
   "property": "C30",
   "status": "proved",
   "theorems": [
    "c30_roundtrip"
   ],
   "note": ""
  },
  {
   "property": "C31",
   "status": "proved",
   "theorems": [
    "c31_punct_new",
    "c31_agrees_with_lexer"
   ],
   "note": ""
  },
  {
   "property": "C32",
   "status": "proved",
   "theorems": [
    "c32_lists",
    "c32_stream",
    "c32_size_hint",
    "c32_one_meaning"
   ],
   "note": ""
  },
  {
   "property": "C33",
   "status": "proved",
   "theorems": [
    "c33_no_negative_literal"
   ],
   "note": ""
  },
  {
   "property": "C34",
   "status": "proved",
   "theorems": [
    "c34_others_unchanged",
    "c34_clone"
   ],
   "note": ""
  },
  {
   "property": "C35",
   "status": "proved",
   "theorems": [
    "c35_never_faults",
    "c35_counts",
    "c35_no_garbage",
    "c35_all_freed"
   ],
   "note": ""
  },
  {
   "property": "C36",
   "status": "proved",
   "theorems": [
    "c36_bounded_stack"
   ],
   "note": ""
  },
  {
   "property": "C37",
   "status": "proved",
   "theorems": [
    "c37_start",
    "c37_end"
   ],
   "note": "for spans obtained by any history of parses, literals, joins, subspans, delimiter spans, queries and invalidations on one thread, with less than 2^32 positions between invalidations; any binary search meeting the documented contract"
  },
  {
   "property": "C38",
   "status": "proved",
   "theorems": [
    "c38_byte_range"
   ],
   "note": "same histories as C37; the byte cache is part of the model"
  },
  {
   "property": "C39",
   "status": "proved",
   "theorems": [
    "c39_source_text",
    "c39_call_site",
    "c39_token_text",
    "c39_token_later",
    "c39_group_later"
   ],
   "note": ""
  },
  {
   "property": "C40",
   "status": "proved",
   "theorems": [
    "c40_std_search",
    "c40_history",
    "c40_all_known"
   ],
   "note": "every answer of every history equals the one computed from the texts alone; both shipped binary searches are shown to meet the contract"
  },
  {
   "property": "C41",
   "status": "proved",
   "theorems": [
    "c41_join",
    "c41_commutative",
    "c41_idempotent",
    "c41_associative"
   ],
   "note": ""
  },
  {
   "property": "C42",
   "status": "proved",
   "theorems": [
    "c42_subspan",
    "c42_bytes_refuted"
   ],
   "note": "positions are characters; the documented reading in bytes is refuted by c42_bytes_refuted"
  },
  {
   "property": "C43",
   "status": "proved",
   "theorems": [
    "c43_files",
    "c43_name"
   ],
   "note": ""
  },
  {
   "property": "C44",
   "status": "proved",
   "theorems": [
    "c44_fresh_start",
    "c44_call_site"
   ],
   "note": "after invalidation every history gives the same answers and spans as on a new thread"
  },
  {
   "property": "C45",
   "status": "proved",
   "theorems": [
    "c45_lexicographic",
    "c45_total_order",
    "c45_text_order"
   ],
   "note": ""
  },
  {
   "property": "C46",
   "status": "proved",
   "theorems": [
    "c46_eager",
    "c46_appends",
    "c46_from_trees",
    "c46_from_streams",
    "c46_observed"
   ],
   "note": "histories over 39 API calls; the compiler's extend is assumed to satisfy extend_laws / list_laws, met by the example compiler"
  },
  {
   "property": "C47",
   "status": "partial",
   "theorems": [
    "c47_one_kind",
    "c47_histories",
    "c47_mixtures",
    "c47_compiler_streams",
    "c47_silent_refuted"
   ],
   "note": "one-kind half proved for every call and history; mixtures panic or give the documented answer except in the calls of `silent` (appending compiler trees to a fallback stream, Punct::set_span, Ord for Ident), for which c47_silent_refuted is the witness"
  },
  {
   "property": "C48",
   "status": "proved",
   "theorems": [
    "c48_calls_bounded",
    "c48_progress",
    "c48_settles",
    "c48_agreement",
    "c48_answer",
    "c48_no_panic"
   ],
   "note": "any number of threads, views of a relaxed atomic; available() is per thread, the cached answer is that of the thread which detected"
  },
  {
   "property": "C49",
   "status": "partial",
   "theorems": [
    "c49_force",
    "c49_force_everywhere",
    "c49_force_first",
    "c49_unforce",
    "c49_serial",
    "c49_one_thread",
    "c49_race_refuted",
    "c49_unseen_refuted"
   ],
   "note": "does not hold as stated: refuted by a detection racing with force, and by a thread that has not been told of the store; holds when force happens with no detection under way, for threads that know of it, and for every program whose calls do not overlap (every one-thread program in particular)"
  },
  {
   "property": "C50",
   "status": "partial",
   "theorems": [
    "c50_one_at_a_time",
    "c50_inside_only",
    "c50_race_refuted"
   ],
   "note": "does not hold as stated: unforce bypasses the Once, two overlapping initialisations lose the program's hook and panic (witness); holds for any threads not calling unforce, and whenever no two threads are inside initialize at once"
  },
  {
   "property": "C51",
   "status": "proved",
   "theorems": [
    "c51_stream",
    "c51_literal",
    "c51_outside",
    "c51_constructors",
    "c51_conversion_refuted"
   ],
   "note": "c51_conversion_refuted records that converting a fallback stream to proc_macro::TokenStream hands unvalidated text to the compiler; that is outside the claim"
  },
  {
   "property": "C52",
   "status": "proved",
   "theorems": [
    "c52_tokens",
    "c52_invisible",
    "c52_total",
    "c52_contents",
    "c52_spans_do_not_leak"
   ],
   "note": "fallback-backed trees; for compiler-backed trees set_span is the compiler's"
  },
  {
   "property": "C53",
   "status": "proved",
   "theorems": [
    "c53_cooked_value",
    "c53_cooked_accepted"
   ],
   "note": ""
  },
  {
   "property": "C54",
   "status": "proved",
   "theorems": [
    "c54_reading",
    "c54_first_lexeme"
   ],
   "note": ""
  },
  {
   "property": "C55",
   "status": "proved",
   "theorems": [
    "c55_literal_grammar"
   ],
   "note": ""
  },
  {
   "property": "C56",
   "status": "proved",
   "theorems": [
    "c56_reference_accepted"
   ],
   "note": ""
  },
  {
   "property": "C57",
   "status": "partial",
   "theorems": [
    "c57_only_reference_refuted",
    "c57_excess_partial"
   ],
   "note": "does not hold as stated: refuted by ''' and 1e; the accepted texts outside the reference are characterised exactly (lenient)"
  },
  {
   "property": "C58",
   "status": "proved",
   "theorems": [
    "c58_string",
    "c58_character",
    "c58_byte_string",
    "c58_byte_character",
    "c58_c_string",
    "c58_unique"
   ],
   "note": "the table of printable characters is any table in which the ASCII characters 0x20 to 0x7E are printable; every other character may be on either side, and the theorem says which form it takes"
  },
  {
   "property": "C59",
   "status": "proved",
   "theorems": [
    "c59_stream_text",
    "c59_tree_text"
   ],
   "note": "the text is given by an inductive relation that does not use the printing functions"
  },
  {
   "property": "C60",
   "status": "proved",
   "theorems": [
    "c60_fallback",
    "c60_conversion",
    "c60_literals"
   ],
   "note": "39 calls; the fallback's own API on plain token lists is SpecDirect.v"
  },
  {
   "property": "C61",
   "status": "proved",
   "theorems": [
    "c61_compiler"
   ],
   "note": "assumes of the compiler only that appending in two batches is appending in one (extend_laws), met by ToyCompiler.v"
  },
  {
   "property": "C62",
   "status": "proved",
   "theorems": [
    "c62_stream",
    "c62_tree",
    "c62_without_options"
   ],
   "note": ""
  },
  {
   "property": "C63",
   "status": "proved",
   "theorems": [
    "c63_line",
    "c63_layout",
    "c63_tree",
    "c63_made",
    "c63_parsed",
    "c63_ident",
    "c63_error",
    "c63_span"
   ],
   "note": "over the transcribed part of core::fmt (Debug.v); the writer does not fail"
  },
  {
   "property": "C64",
   "status": "proved",
   "theorems": [
    "c64_with_locations",
    "c64_without_locations",
    "c64_prefix_free"
   ],
   "note": ""
  },
  {
   "property": "C65",
   "status": "proved",
   "theorems": [
    "c65_unescape",
    "c65_raw",
    "c65_where",
    "c65_meaning",
    "c65_char",
    "c65_byte",
    "c65_last_error"
   ],
   "note": ""
  },
  {
   "property": "C66",
   "status": "proved",
   "theorems": [
    "c66_check",
    "c66_valid",
    "c66_modes"
   ],
   "note": ""
  },
  {
   "property": "C67",
   "status": "proved",
   "theorems": [
    "c67_version",
    "c67_compared"
   ],
   "note": ""
  },
  {
   "property": "C68",
   "status": "proved",
   "theorems": [
    "c68_flags",
    "c68_once",
    "c68_declared",
    "c68_all_declared"
   ],
   "note": "the compiler is a function of the command line and RUSTC_BOOTSTRAP; standard error is left out"
  },
  {
   "property": "C69",
   "status": "proved",
   "theorems": [
    "c69_uses",
    "c69_versions",
    "c69_exempt",
    "c69_testing"
   ],
   "note": "over a table of conditional uses and definitions transcribed by hand from the cfg attributes (gated_uses)"
  },
  {
   "property": "C70",
   "status": "proved",
   "theorems": [
    "c70_course",
    "c70_command",
    "c70_stops",
    "c70_finishes",
    "c70_stops_for"
   ],
   "note": "operating system strings are bytes, paths are Unix paths; the outcome of each making and removing of the directory is arbitrary"
  },
  {
   "property": "C71",
   "status": "proved",
   "theorems": [
    "c71_unwatched",
    "c71_ignored",
    "c71_watched",
    "c71_files",
    "c71_stage_refuted"
   ],
   "note": "c71_unwatched assumes one_is_most and stable_anyway of the compiler, met by the example; RUSTC_STAGE is not watched although it changes the flags (c71_stage_refuted)"
  },
  {
   "property": "C72",
   "status": "partial",
   "theorems": [
    "c72_usable_refuted",
    "c72_usable_partial",
    "c72_parts_partial"
   ],
   "note": "does not hold as stated: refuted by a nightly compiler that is forbidden unstable features by RUSTC_BOOTSTRAP=-1; holds for compilers which a value only ever allows more (value_allows)"
  },
  {
   "property": "C73",
   "status": "proved",
   "theorems": [
    "c73_fallback",
    "c73_compiler",
    "c73_ordered",
    "c73_configured",
    "c73_delim",
    "c73_delim_groups",
    "c73_invalidate"
   ],
   "note": ""
  },
  {
   "property": "C74",
   "status": "proved",
   "theorems": [
    "c74_lists",
    "c74_interrupted_trees",
    "c74_interrupted_streams",
    "c74_counts",
    "c74_others_unchanged",
    "c74_no_negative_literal"
   ],
   "note": "fallback streams; the iterator's size_hint is assumed neither to panic nor to call into the crate; an iterator that overrides for_each is covered as the items it hands over"
  },
  {
   "property": "C75",
   "status": "proved",
   "theorems": [
    "c75_tokens",
    "c75_total",
    "c75_roundtrip",
    "c75_literals",
    "c75_literal_total",
    "c75_literal_exact",
    "c75_spans"
   ],
   "note": ""
  },
  {
   "property": "C76",
   "status": "proved",
   "theorems": [
    "c76_confined",
    "c76_unwind",
    "c76_unpin",
    "c76_no_stronger",
    "c76_plain",
    "c76_kinds"
   ],
   "note": "the table of type declarations and the auto traits of the standard library's types are transcribed by hand"
  },
  {
   "property": "C77",
   "status": "proved",
   "theorems": [
    "c77_trees",
    "c77_streams",
    "c77_trees_held",
    "c77_streams_held",
    "c77_whole",
    "c77_collected",
    "c77_eager"
   ],
   "note": "what the compiler's own extend leaves of its stream after a panic is a parameter"
  },
  {
   "property": "C78",
   "status": "proved",
   "theorems": [
    "c78_accounted",
    "c78_foreign"
   ],
   "note": ""
  },
  {
   "property": "C79",
   "status": "partial",
   "theorems": [
    "c79_checked_refuted",
    "c79_unchecked_refuted",
    "c79_room_partial",
    "c79_exact_partial"
   ],
   "note": "false as stated: positions are u32 and the sum overflows after 2^32 characters (counting one more per text) since the last invalidation; up to there both builds answer from the texts, beyond it a build with checks panics"
  },
  {
   "property": "C80",
   "status": "proved",
   "theorems": [
    "c80_group",
    "c80_no_group"
   ],
   "note": ""
  },
  {
   "property": "C81",
   "status": "proved",
   "theorems": [
    "c81_from_compiler",
    "c81_to_compiler",
    "c81_there_and_back",
    "c81_identity_macro",
    "c81_none_lost"
   ],
   "note": ""
  },
  {
   "property": "C82",
   "status": "proved",
   "theorems": [
    "c82_same_stream",
    "c82_same_literal",
    "c82_stream_linear",
    "c82_literal_linear",
    "c82_stream_reads",
    "c82_literal_reads"
   ],
   "note": ""
  },
  {
   "property": "C83",
   "status": "proved",
   "theorems": [
    "c83_detection",
    "c83_progress",
    "c83_available",
    "c83_reported",
    "c83_hidden",
    "c83_no_panic",
    "c83_abort",
    "c83_abort_certain",
    "c83_advice",
    "c83_silenced",
    "c83_destructor"
   ],
   "note": "the two exceptions named in the statement are witnessed by c83_silenced and c83_destructor; the hook itself is assumed not to panic and the program not to install another one meanwhile"
  },
  {
   "property": "C84",
   "status": "partial",
   "theorems": [
    "c84_spacing_partial",
    "c84_joint_refuted",
    "c84_lifetime_refuted",
    "c84_alone_refuted"
   ],
   "note": "false as stated: a character literal, a prefixed string or a doc comment after the punct are the exceptions, witnessed by the _refuted theorems; c84_spacing_partial is the exact rule"
  },
  {
   "property": "C85",
   "status": "partial",
   "theorems": [
    "c85_common_partial",
    "c85_reference_partial",
    "c85_once",
    "c85_exact_partial",
    "c85_common_reference",
    "c85_literals",
    "c85_error_refuted",
    "c85_lifetime_refuted",
    "c85_reserved",
    "c85_foreign",
    "c85_number_refuted"
   ],
   "note": "false as stated in both directions; c85_exact_partial is the exact set of accepted texts with their tokens, c85_common_partial the part shared with the reference. Shebang lines and the reserved guarded strings of edition 2024 are not part of the specification"
  },
  {
   "property": "C86",
   "status": "proved",
   "theorems": [
    "c86_count",
    "c86_depth",
    "c86_printed",
    "c86_sharp",
    "c86_string",
    "c86_character",
    "c86_byte_string",
    "c86_c_string"
   ],
   "note": "c86_sharp asks that U+007F is printed as an escape, as it is"
  },
  {
   "property": "C87",
   "status": "proved",
   "theorems": [
    "c87_cells",
    "c87_clone",
    "c87_in_place",
    "c87_streams_in_place",
    "c87_one_level",
    "c87_into_iter"
   ],
   "note": ""
  },
  {
   "property": "C88",
   "status": "partial",
   "theorems": [
    "c88_available",
    "c88_polite_partial",
    "c88_polite_removes",
    "c88_left_partial",
    "c88_inside_partial",
    "c88_noticed",
    "c88_agreement",
    "c88_settled",
    "c88_lost_refuted",
    "c88_panic_refuted"
   ],
   "note": "false as stated where the compiler lacks is_available (c88_lost_refuted, c88_panic_refuted); c88_available is the statement in full for the others, c88_left_partial and c88_noticed say exactly what happens otherwise"
  },
  {
   "property": "C89",
   "status": "proved",
   "theorems": [
    "c89_kept",
    "c89_three",
    "c89_apart",
    "c89_error"
   ],
   "note": ""
  },
  {
   "property": "C90",
   "status": "proved",
   "theorems": [
    "c90_same",
    "c90_any_order",
    "c90_travel",
    "c90_in_order"
   ],
   "note": ""
  },
  {
   "property": "C91",
   "status": "proved",
   "theorems": [
    "c91_lexer",
    "c91_accepted",
    "c91_short",
    "c91_escape",
    "c91_overflow"
   ],
   "note": "c91_overflow is the witness that the bound of 2^31 digits is real; it needs a literal made without the parser"
  },
  {
   "property": "C92",
   "status": "proved",
   "theorems": [
    "c92_pieces",
    "c92_buffer",
    "c92_depth",
    "c92_deep"
   ],
   "note": "depth counts fmt functions of the fallback that are active; without formatting options"
  },
  {
   "property": "C93",
   "status": "proved",
   "theorems": [
    "c93_close",
    "c93_foreign",
    "c93_open"
   ],
   "note": "positions within 32 bits; errors at other characters are not covered"
  },
  {
   "property": "C94",
   "status": "proved",
   "theorems": [
    "c94_stream",
    "c94_literal",
    "c94_history",
    "c94_long"
   ],
   "note": "the overflow in advance and in the source map; lengths as usize are unbounded. c94_long is the witness for the last sentence"
  },
  {
   "property": "C95",
   "status": "proved",
   "theorems": [
    "c95_history",
    "c95_any_span",
    "c95_searches"
   ],
   "note": "build with overflow checks; texts of less than 2^32 characters each; the binary search is any that meets its contract and reports only elements it was shown (c95_searches)"
  },
  {
   "property": "C96",
   "status": "proved",
   "theorems": [
    "c96_same",
    "c96_error",
    "c96_quoted",
    "c96_token_line",
    "c96_error_line"
   ],
   "note": "texts in which every carriage return is followed by a line feed and which fit the 32-bit positions; the relation of the trees (same_trees) says that literal texts and doc comment contents have their CRLFs read as LF too"
  },
  {
   "property": "C97",
   "status": "proved",
   "theorems": [
    "c97_ident",
    "c97_raw",
    "c97_punct",
    "c97_agrees",
    "c97_tells",
    "c97_span",
    "c97_span_tells",
    "c97_query",
    "c97_searches"
   ],
   "note": "the constructors Ident::new, Ident::new_raw, Punct::new and the look-up behind all span queries; Debug for str and char are those of std, transcribed in Messages.v; source locations of panics are left out"
  },
  {
   "property": "C98",
   "status": "proved",
   "theorems": [
    "c98_stream",
    "c98_literal",
    "c98_ident"
   ],
   "note": "for any two tables meeting unicode_ok of which the second has more identifier characters and makes no character that could only continue identifiers able to start them; c98_promoted shows that the last condition is needed"
  },
  {
   "property": "C99",
   "status": "proved",
   "theorems": [
    "c99_prefix"
   ],
   "note": "every error; the text and twice its length must fit below 2^32"
  },
  {
   "property": "C100",
   "status": "proved",
   "theorems": [
    "c100_graft"
   ],
   "note": "with exact spans; a line break is put between the new contents and the closing delimiter, since the new contents may end with a line comment"
  },
  {
   "property": "C101",
   "status": "proved",
   "theorems": [
    "c101_rename"
   ],
   "note": "with exact spans; the old name and the new one are not underscores followed by a digit (1e+_1 is one number), the new one is not r, b, c, br or cr (c101_not_numberish, c101_old_numberish and c101_not_prefix show why)"
  },
  {
   "property": "C102",
   "status": "proved",
   "theorems": [
    "c102_substitute"
   ],
   "note": "with exact spans; the new text stands between a blank and a line break; the identifier is not underscores followed by a digit and not right after a dot or a quote (c102_not_apart shows why)"
  },
  {
   "property": "C103",
   "status": "proved",
   "theorems": [
    "c103_parts",
    "c103_panics",
    "c103_unsuffixed",
    "c103_suffixed",
    "c103_reads_once",
    "c103_differ",
    "c103_display"
   ],
   "note": "of f.to_string() it is assumed that it prints the sign and a decimal text that rounds back to the float (display_ok); c103_display shows that this can be met"
  },
  {
   "property": "C104",
   "status": "proved",
   "theorems": [
    "c104_history",
    "c104_all_at_once"
   ],
   "note": "the compiler's iterator is the list of the trees left in it, and its own size_hint is assumed to bound their number (truthful); the program is assumed to catch a panic if it goes on"
  }
 ]
}