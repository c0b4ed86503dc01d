# Formal model of proc-macro2 in Rocq

This file says what is modelled, how each property of `properties.jsonl` is
expressed and proved, what is trusted, and what was found.

## 1. Scope and layers

Everything is in `rocq/theories/`, standard library only.

**Model** (definitions that translate Rust; each cites its lines):

| file | models |
|---|---|
| `Base.v` | Rust `char`, `str`, byte indices, UTF-8 lengths, `Result`/panic |
| `Unicode.v` | `unicode_ident`, `char::is_whitespace`, `escape_debug` tables as a record; concrete whitespace table |
| `Tokens.v` | `TokenTree`, `Group`, `Ident`, `Punct`, `Literal`, `Span` data |
| `Lexer.v` | all of `src/parse.rs` at the level of cursors and byte indices; `Punct::new` |
| `CheckedLexer.v` | the same with the overflow check of `Cursor::advance` |
| `PlainLexer.v` | `src/parse.rs` and `from_str` again, as compiled without `span_locations` |
| `Timed.v` | `src/parse.rs` and `from_str` again, counting steps |
| `Overflow.v` | `backslash_u`, `hex_escape`, `unicode_escape`, `str_value` and the like again, with the arithmetic of the machine |
| `Writing.v` | `Display` of streams, groups, identifiers, literals and punctuation again, as calls on a writer |
| `MapTimed.v` | `FileInfo::byte`, `byte_range`, `source_text` (`src/fallback.rs`) again, counting characters passed |
| `Fallback.v` | `src/fallback.rs`: `Display`, identifier validation, pushing tokens, BOM, `from_str` |
| `EscapeErrors.v`, `Escaper.v`, `LitValue.v` | all of `src/rustc_literal_escaper.rs`, the value accessors of `src/lib.rs` |
| `LitNew.v` | the `Literal` constructors of `src/fallback.rs` and `src/lib.rs` |
| `FloatLit.v` | the float constructors of `src/lib.rs` on bit patterns |
| `RcHeap.v` | `src/rcvec.rs`, `TokenStream` handles, builders, iterators, `Drop`: a heap of counted vectors |
| `RcLazy.v` | `extend` and `from_iter` over iterators that call into the crate and panic |
| `SourceMap.v` | `src/fallback.rs` source map, byte cache, span queries; `src/location.rs`, `src/extra.rs` |
| `Messages.v` | the constructors and the look-up of a span with the messages of their panics |
| `MapCaught.v` | the queries and parses with what a caught panic leaves in the map |
| `MapRelease.v` | `src/fallback.rs` `next_start_pos` and `add_file` without overflow checks |
| `Wrapper.v` | `src/wrapper.rs` over an arbitrary compiler: 39 API calls |
| `Unwrapped.v` | `src/fallback.rs` conversions to and from the compiler's streams without `wrap_proc_macro` |
| `WrapperSpans.v` | span queries of `src/wrapper.rs` in each configuration, `DelimSpan` of `src/extra.rs` |
| `Detection.v` | `src/detection.rs` for any number of threads |
| `Unwind.v` | the same with the program's panics |
| `Hooks.v` | the same with the program's changes of its panic hook |
| `Debug.v` | `Display` with options and `Debug` of `src/fallback.rs` and `src/lib.rs`, the parts of `core::fmt` they use |
| `BuildWorld.v`, `Build.v` | all of `build.rs`; the `cfg` conditions of the crate as a table |
| `WrapIter.v` | `TokenTreeIter` of `src/wrapper.rs`, call by call |
| `WrapperPartial.v` | `extend` and `from_iter` of `src/wrapper.rs`, item by item |
| `AutoTraits.v` | `src/marker.rs`; the type declarations of the crate in each configuration |

**Specifications** (no Rust counterpart, used in statements): `SpecText`,
`SpecTree`, `SpecLit`, `SpecEscape` (reports of the escaper), `SpecShow` (text of constructed literals), `SpecGrammar` (lexical grammar), `SpecReference` (literals
of the Rust reference), `SpecLex`, `SpecPrint`, `SpecOrder`, `SpecStreams`, `SpecLazy`, `SpecMap`,
`SpecWrapper`, `SpecDirect`, `SpecDetect`, `SpecDebug`, `SpecBuild`, `SpecSpans`, `SpecTraits`, `SpecCaught`, `SpecPlaces`, `SpecUnwrapped`, `SpecAppend`, `SpecCopy`, `SpecEnding`, `SpecFinal`, `SpecFloats`, `SpecGraft`, `SpecHooks`, `SpecIter`, `SpecMapTimed`, `SpecMessages`, `SpecOverflow`, `SpecRename`, `SpecSize`, `SpecSource`, `SpecSpacing`, `SpecStale`, `SpecSubst`, `SpecTables`, `SpecUnwind`, `SpecWriting`.

**Property theorems**: `PropLex` (C01-C16), `PropGrammar` (C06, C13, C54-C57), `PropLit` (C17-C27, C53, C58), `PropEscape` (C65, C66), `PropRound`
(C03, C04, C15, C28-C31, C59), `PropStreams` (C32-C36), `PropLazy` (C74), `PropMap` (C37-C45),
`PropWrapper` (C46, C47, C51, C52), `PropDirect` (C60, C61), `PropDetect` (C48-C50), `PropDebug` (C52, C62-C64), `PropBuild` (C67-C72), `PropSpans` (C73), `PropPlain` (C75), `PropTraits` (C76), `PropCaught` (C77), `PropPlaces` (C78, C16), `PropFull` (C79), `PropGroup` (C80), `PropUnwrapped` (C81), `PropTimed` (C82), `PropUnwind` (C83), `PropSpacing` (C84), `PropSource` (C85), `PropSize` (C86), `PropCopy` (C87), `PropHooks` (C88), `PropAppend` (C89), `PropMapTimed` (C90), `PropOverflow` (C91), `PropWriting` (C92), `PropFinal` (C93), `PropChecked` (C94), `PropStale` (C95), `PropEnding` (C96), `PropMessages` (C97), `PropTables` (C98, C08), `PropViable` (C99), `PropGraft` (C100), `PropRename` (C101), `PropSubst` (C102), `PropFloats` (C103), `PropIter` (C104). Each contains only
theorems proved by `exact`, `Print Assumptions`, and concrete examples.

**Everything else** is proof: `PureLexer` is a second, char-list lexer with no
panics, and `LexerEquiv*` prove the cursor lexer equal to it; nothing in a
property statement depends on it. `ToyCompiler` is a concrete compiler used in
examples and refutations. `RepoTests` copies every assertion of `/repo/tests`
(`test.rs`, `comments.rs`, `test_fmt.rs`) and evaluates it on the model, as evidence that
the definitions transcribe the program.

### Representation choices

* `char` is a code point `N`; `str` is `list N`. A Rust `&str` is valid UTF-8,
  which is in bijection with lists of scalar values; the model works on the
  list, and computes UTF-8 lengths and bytes (`len_utf8`, `encode_utf8`,
  `str_bytes`) wherever the code uses byte indices. Slicing and `split_at` take
  **byte** indices and panic (explicit `Panic`) off a char boundary or out of
  range, as in Rust.
* Iterators over `char_indices()` / `bytes().enumerate()` are pairs of the next
  byte index and the remaining chars / bytes.
* Every modelled function that can fail returns `res A = Ok a | Reject | Panic |
  Fuel`. `Reject` is Rust's `Err(Reject)`. `Panic` is any Rust panic. `Fuel` is
  never a Rust outcome: it marks an exhausted loop bound and is proved
  unreachable.
* Offsets are `u32` computed in `N` modulo 2^32 (what a release build does; a
  debug build would panic at the same places). Theorems about spans assume the
  total number of characters stays below 2^32, under which no wrap happens.
* The configuration modelled is `span_locations` on, except in `PlainLexer.v`,
  which transcribes the lexer without it; there the one span value is written
  `call_site`. C75 relates the two: same trees, spans erased (`strip`).
* Tables of Unicode data are outside the repository (crate `unicode-ident`, the
  standard library). They are a record `Unicode` of boolean functions with a few
  assumed facts (ASCII behaviour, `XID_Start` implies `XID_Continue`, no
  whitespace or BOM character is `XID_Continue`, ASCII 0x20 to 0x7E is printable
  and not grapheme-extending). All theorems hold for **every** such record, and a
  concrete record is given to show the facts are satisfiable. `White_Space` is a
  concrete table.

## 2. Property by property

* **C01, C02** Model of every function of `parse.rs` at byte index level with
  explicit panics. A "pure" char-list lexer is defined beside it and each cursor
  function is proved equal to it (`ok/reject` only), so panics and fuel
  exhaustion are impossible.
* **C03, C04** `Display` as a function to `str`. An inductive/boolean predicate
  `printable` on token lists; lemma 1: printable streams relex to themselves;
  lemma 2: parser output is printable. Key lemmas: each sub-lexer is insensitive
  to what follows its lookahead window.
* **C05** simulation between runs at two offsets / with spans erased.
* **C06** independent specification: the text is read into a flat sequence of
  pieces by the grammar of `SpecGrammar`, which mentions no function of the lexer;
  balanced word derivation on the pieces, equality with flattened tree.
* **C07** extension lemma for the lexer loop under newline separation.
* **C08** inductive grammar of trivia (whitespace, line comment, nested block
  comment); parser insensitive to it.
* **C09** inductive description of doc comments; result computed and value
  obtained through C17.
* **C10, C11, C12, C14** invariant of the lexer loop relating the tokens' spans to
  the source text, stated with `firstn/skipn` on the source characters.
* **C13** invariant for error spans.
* **C15** corollary of the printable lemma.
* **C16** direct; elsewhere a BOM is inside a comment, a literal or a doc comment (with
  C78).
* **C17-C21** escape functions, lexer on escaped text, unescape of escaped text.
* **C22** decimal printing of `Z`, decoding by an independent evaluator.
* **C23** hypothesis: the text printed by the standard library for a finite
  float matches `-?digits(.digits)?`; the algorithm that prints floats is not
  modelled (C103 states what its texts mean).
* **C24-C27** model of the escaper and accessors with byte slicing; independent
  inductive specification of escapes.
* **C28-C31** validation functions versus grammar; order facts on strings.
* **C32-C36** heap of reference counted vectors; op language; refinement to
  plain lists; refcount invariant; work list drop.
* **C37-C45** source map state machine; cache invariant; binary search model of
  the standard library; spec by counting newlines / UTF-8 lengths.
* **C46, C47, C51, C52** wrapper values over an abstract compiler: types of its
  streams, groups, ... and its operations are parameters; its parser is any
  function that may fail or panic. C46 assumes of the compiler's `extend` only
  what `extend_laws` / `list_laws` say (`SpecWrapper.v`); the example compiler
  meets them.
* **C60, C61** the same programs over plain fallback values and over the compiler's
  values (`SpecDirect.v`); simulation call by call.
* **C48-C50** interleaving semantics of the atomic, the `Once` and the panic hook
  for any number of threads. The atomic is only accessed relaxed, so its
  messages carry timestamps and threads have views: a load may return any
  message not older than the thread's view. `Once` and the program's own
  synchronisation transfer views. What the compiler answers may differ per
  thread (rustc's bridge is thread local).
* **C25** refuted; `c25_value_partial` says exactly when the accessors succeed on
  accepted literals.
* **C53** what remains of C25 after its refutation.
* **C54-C57** each sub-lexer is proved equivalent to its rule of `SpecGrammar`
  (`NumGrammar`, `QuotedGrammar`, `LexemeProofs`); literals are then compared with
  the Rust reference (`ReferenceProofs`).
* **C62-C64** `format!` with options and `Debug` as functions to `str`; the pretty
  printer's indentation is specified as a list of indented lines. C64 decodes the
  texts from the left; it needs that a literal or identifier ends at the comma or
  space that follows it, which is C54.
* **C65, C66** the callbacks of the escaper as lists of ranges and results;
  specified by relations between text and reports (`SpecEscape.v`), tied to the
  values of `SpecLit`.
* **C67-C72** a run of `build.rs` is a list of events (lines printed, directories
  made and removed, compilers started) in a `world` of environment variables,
  features, and arbitrary answers of the compiler and the file system. C68 states
  the flags by a relation, C71 compares two runs. C69 evaluates a table of
  conditional uses and definitions under the flags of any run.
* **C73** the three flags found by `build.rs` and the compiler's answers are
  parameters; `c73_configured` ties the flags to C68.
* **C74** an iterator is a tree of calls, items and panics, mutually inductive with
  the calls (`RcLazy.v`); the same tree is run over plain lists (`SpecLazy.v`).
* **C75** each function of `PlainLexer.v` is proved equal to the one of `Lexer.v`
  under the map that forgets offsets (`PlainProofs.v`).
* **C76** a type lacks an auto trait if following the needs of its fields reaches one
  that cannot be met, an inductive predicate; what the standard library's types need
  is part of the model (`needs` in `AutoTraits.v`).
* **C77** an iterator is a list of items and how it ends. Programs update streams in
  place and catch every panic (`SpecCaught.v`).
* **C78** by induction on the reading of C54: each piece is a token, a delimiter or
  follows trivia. A comment must begin where blanks and comments after a boundary end,
  so that the inside of a doc comment does not count (`SpecPlaces.v`).
* **C79** the source map with wrapping sums (`MapRelease.v`) beside the one that panics.
* **C80** inversion of the deterministic reading used for C07. The newline is needed in
  case `s` ends in a line comment, and keeps `(/*ERROR*/)` apart from a group.
* **C81** C03 and C04 through any parser and printer; `faithful` (`SpecUnwrapped.v`) is the
  one law asked of the compiler, and only for there and back.
* **C82** every function of `Lexer.v` again with a counter (`Timed.v`). Most failed
  attempts that read far end in a lexical error, so they are paid for once. The
  exceptions, exponents without digits and names after a quote, are paid for by a
  potential (`pots` in `TimedLinear.v`).
* **C83** `Detection.v` with panics around its steps (`Unwind.v`): a panic is reported to
  the hook of the moment, then its thread unwinds and may make calls until the panic is
  caught. Executions project to those of C48-C50.
* **C84** what a punct is followed by, read off the declarative reading of the text (C54)
  and carried from the flat pieces to the trees; two adjacent tokens are recognised by
  their spans.
* **C85** the lexical grammar of the reference as one more inductive reading
  (`SpecSource.v`), with two switches: what the crate accepts beyond it, and the two
  texts it reads differently. With the switches set for the crate the reading is shown
  equivalent to that of C54. With the switches set for the reference it is shown to be
  unique (`c85_once`), so "the tokens of the reference" is well defined.
* **C86** a weight on pieces that bounds the count, the depth or the printed length of
  their trees, summed over the reading of C54. The worst case is a doc comment of
  unprintable one-byte characters.
* **C87** on the heap of C32-C36. Whether storage is shared is the number of variables and
  elements that refer to it (`holders`), not the stored count; C35 says they agree.
* **C88** `Detection.v` with the program's own `set_hook` and `take_hook` added
  (`Hooks.v`). What the program is left with is a function of the trace (`left_with`).
* **C89** each scanner keeps its result under appended text unless it looked at the end;
  then the flat readings of both texts are compared from the left and the common part is
  carried to the trees. `loose` (`SpecAppend.v`) lists what may change, and the example
  shows each of its shapes changing.
* **C90** the look-ups of `SourceMap.v` again with a counter (`MapTimed.v`). A new position
  splits a gap between known ones and costs the smaller part, so `g log2 g` summed over
  the gaps pays for it; beyond the last known position the length still to go pays.
* **C91** escapes and accessors again with `u8`, `u32` and `i32` arithmetic that panics or
  wraps (`Overflow.v`), compared with the model that has unbounded numbers.
* **C92** the calls of `write_str` that printing makes, to a writer with any state that may
  refuse any call (`Writing.v`), and how many `fmt` functions are then active.
* **C93** which errors more text can remove: none at a closing delimiter or at a character
  with which nothing begins, those at an opening delimiter always. By exchanging what
  follows in each rule of the grammar of C54.
* **C94** each function of `CheckedLexer.v` is related to the one of `Lexer.v`: same result,
  or a panic and the text does not fit.
* **C95** a span for which `find` succeeds is the span of a valid place, so the invariant of the
  map (C37-C40) is kept by queries about any span; a refused text is never registered.
* **C96** every scanner commutes with removing the CRs of a text whose CRs are all before LFs, except
  `p_quoted` at a quoted CRLF; the two sequences of pieces are then related step by step.
* **C97** the functions that panic on a caller's mistake again, with the message as a result; the
  search may probe any files, so of the search it is assumed that it panics only where it asks
  (`search_honest`, proved of both implementations of `std`).
* **C98** two tables at once: by induction on the reading of C54 with the older tables. A character
  that is new begins nothing there, so it does not stand behind a word in a text that parses; a
  float of the newer tables is one of the older tables if its suffix is cut short.
* **C99** the pieces of C54 before the error survive when the text is cut there, up to the spacing of
  punctuation; if the error is at the prefix of a string literal then the prefix is kept as a word
  (`'r"x` is an error at `r`, and `'` alone is one at the quote). At a digit, or a mark that only
  continues words, the cut can merge tokens (`1.5e+5` followed by such a mark is an error at the
  second `5`, and `1.5e+` is read as a float and a plus sign); then all the text from the start of
  that number to the cut is tokens without delimiters. A line break and closing delimiters as in
  C93 make the rest.
* **C100** on the pieces of C54: those in front of a delimiter depend on nothing after it (the
  lemmas of C93), those after it are the pieces of the text there by itself, further on; then by
  induction on the nesting of C06.
* **C101** in the same way, but what comes before a name does look at it: a number looks past its
  `e+` for underscores and a digit, an identifier for a quote, a quote for an identifier; each token
  in front is shown to be the same before the old name and before the new one.
* **C102** the same for a blank in the place of the name, then C07's step over a line break and C06's
  trees.
* **C103** floats as bits; `is_finite` is the comparison of the bits with those of infinity. Rounding is a
  relation (nearest, ties to even) over integers; two floats with even fractions have another between them,
  so it has one result. `to_string` is a parameter whose texts round back (`display_ok`); printing all
  binary places exactly is an instance.
* **C104** an iterator is a position in the trees its stream held. `Wrapper.into_iter` converts all trees at once;
  `WrapIter.v` converts each when it is asked for, as the program does, and `c104_all_at_once` says that the two agree.

Not expressible here: performance other than the step counts of C82 and C90, real stack usage in bytes (C36 is expressed
as absence of recursion in the modelled drop loop), `Debug` text of foreign
types, behaviour of the real `proc_macro` crate.

## 3. Trusted base

* Coq 8.16.1 kernel (and `coqchk`), the standard library.
* Axioms: none. Every property theorem prints "Closed under the global context".
  `coqchk` also lists seven constants of the standard library's
  `Coq.ssr.ssrunder` (`Under_rel.Under_rel`, `Under_relE`, `Under_rel_from_rel`,
  `under_rel_done`, `Over_rel`, `over_rel`, `over_rel_done`), which are in the
  context because `Lia` and friends load that file; no theorem uses them.
* The hand translation from Rust to Gallina; each definition cites its lines.
* The assumed facts of the `unicode` record (`unicode_ok`).
* The functions of `Base.v` and `Unicode.v` that stand for the standard library's (`str`, `char`), which
  model and specifications share. `StdFacts.v` proves of them what their documentation says: UTF-8 as in
  RFC 3629, character boundaries as a property of bytes, `starts_with` on bytes, `escape_unicode`; the table
  of blanks is fixed by `c08_blank_chars`.
* For C62-C64 the behaviour of `core::fmt` (`pad`, `PadAdapter`, `DebugStruct`,
  `DebugTuple`, `DebugList`, `Debug for char`), transcribed at the head of `Debug.v`; for C97
  `Debug for str` and for `char`, in `Messages.v`.

* For C82 the price of a step (head of `Timed.v`): a byte or character read, compared or
  copied, a bounded amount of other work. Pushing a token and building a stream from a
  vector count as one step each; allocation and the source map's `add_file` are left out.
* For C90 that `nth` and `nth_back` take characters one by one (head of `MapTimed.v`).
  `BTreeMap` look-ups, the binary search for the text and the copy of the answer are left out.

### Simplifications of the model

* Memory exhaustion, `usize` overflow of lengths, and reference counts near
  `usize::MAX` are not modelled. `u32` offsets are modelled and wrap.
* `Lexer.v` is the build without overflow checks (`u32` offsets wrap); `CheckedLexer.v`
  (C94) is the one with checks. For the source map both builds are modelled as well:
  `SourceMap.v` panics, `MapRelease.v` wraps.
* Numbers in escapes are unbounded in `Lexer.v` and `Escaper.v`; `Overflow.v` (C91) has
  the types of the program.
* Decimal printing of floats by the standard library is represented by the shape
  of its output (C23) and by the number it stands for (C103: the text rounds back to the float,
  as documented); integers are printed by the model itself.
* `slice::binary_search_by` is a parameter with its documented contract; the two
  implementations shipped by the standard library over time are shown to meet it
  (`c40_std_search`).
* `Extend<Group>`, `Extend<Ident>`, `Extend<Punct>` and `Extend<Literal>` (lib.rs 313-337) are
  `Extend<TokenTree>` after a conversion, and not written out.
* Comparison (C29) is at the level of texts; hashing is "what is fed to the
  hasher".
* API calls are atomic in the histories of C32-C36 and C46-C47. C74 drops this for
  `extend` and `from_iter` of the fallback: the iterator runs between the items and
  may panic. Its `size_hint` is assumed neither to panic nor to call into the crate.
  C77 does so for wrapped streams, as values: the iterator's own calls into the crate
  are not part of it. What the compiler's `extend` leaves of its stream after a panic
  is a parameter.
* In `Detection.v` all null hooks are equal as pointers, because they are boxes
  of one zero-sized closure type. Calls made while unwinding are those of
  `Unwind.v` (C83): there `take_hook` and `set_hook` panic, and a second panic aborts
  the process, as it did in the compilers without `is_available`. A hook that itself
  panics or calls into the crate is not modelled. A program that changes its hook while
  threads are running is `Hooks.v` (C88), there without panics of its own.
* `build.rs`: strings of the operating system are bytes, `Path::join` is that of
  Unix, standard error is left out. The compiler's answer is a function of the
  command line and `RUSTC_BOOTSTRAP`; whether the n-th making or removing of the
  directory succeeds is arbitrary. The table of `cfg` conditions (`gated_uses`) is
  transcribed by hand.
* Drop order and the call stack are modelled by an explicit step machine (C36);
  bytes of stack are not.

## 4. Findings

Places where the code does not do what a statement in `properties.jsonl` (or the
documentation) says. Each has a machine-checked witness.

* **Value accessors reject strings the parser accepts** (`c25_value_refuted`). A
  cooked string with a CRLF line break, or with a backslash before CRLF, or with
  a suffix (`"a"suf`) is accepted by the parser and by rustc, but `str_value`
  answers with an error. What does hold is C53.
* **`Literal::subspan` counts characters**, the documentation says bytes of the
  source (`c42_bytes_refuted`). The two differ on any literal with a character
  above U+007F.
* **Printing does not always keep spacing** (`c04_joint_refuted`,
  `c04_apostrophe_refuted`): a `Joint` punct before an identifier, or last in its
  stream, is read back as `Alone`; a lone `'` prints to text that does not
  lex. Such streams can only be built by hand: parsed ones round trip (C03).
* **`Spacing` is not quite as documented** (C84). `+'a'` gives a `Joint` plus although no
  punct follows (`c84_joint_refuted`): `punct` looks at one character only. `'b"x"`
  is read as a quotation mark joined to a byte string, not as the lifetime `'b` and a
  string (`c84_lifetime_refuted`): `punct` checks for a lifetime, then only the `'` is
  consumed and what follows is read anew. The reference reads a lifetime here
  (`c85_lifetime_refuted`). A doc comment directly after a punct leaves it `Alone`
  although the next tree is the `#` of the attribute (`c84_alone_refuted`).
* **The lexer against the Rust reference** (C85). `(/*ERROR*/)` is an empty group with a
  comment in it, and is read as a literal (`c85_error_refuted`; the source says why).
  Accepted beyond the reference: white space outside Pattern_White_Space such as U+00A0
  and U+3000 (`c85_foreign`), the prefixes reserved since edition 2021 such as `k#x` and
  `a"x"` (`c85_reserved`), the literals listed under C57, and `0b1.5`, which is read as
  three tokens (`c85_number_refuted`).
* **Compiler and fallback values do mix silently** in three calls
  (`c47_silent_refuted`): compiler trees appended to a fallback stream are
  converted without complaint, `Punct::set_span` stores a span of the other
  kind, and `Ord for Ident` answers from texts where `==` panics.
* **Converting a fallback stream to a compiler stream prints and reparses it
  unvalidated** (`c51_conversion_refuted`); a hand-built lone `'` reaches the
  compiler's parser.
* **`Literal::from_str` accepts texts that are no Rust literals**
  (`c57_only_reference_refuted`, exact list in `c57_excess_partial`): the character
  between quotes may be `'` itself, a line feed, carriage return or tab (`'''` is
  accepted); `"x"_` is accepted; suffixes in `e` that are no exponent are accepted
  although the reference reserves them (`1e`, `0b1e`, `2.0Ex`); underscores may
  precede the sign of an exponent (`1e_+5`). rustc rejects all of these.
* **`force()` can be lost** (`c49_race_refuted`): a thread in the middle of lazy
  detection stores its answer over the forced one, after which even the thread
  that called `force()` is told it is inside a macro. Independently, the store
  is relaxed, so a thread that does not synchronise with the caller may go on
  with the old answer (`c49_unseen_refuted`).
* **`unforce()` bypasses the `Once`** (`c50_race_refuted`). The comment in
  `detection.rs` explains that the `Once` prevents two threads from
  interleaving their swaps of the panic hook; `unforce_fallback` calls
  `initialize` directly, so on compilers without `is_available` the interleaving
  described there does happen: the program's hook is lost and one call panics
  with "observed race condition".
* **A panic hook installed during detection is lost** (C88), on compilers without
  `is_available`. Between the two calls that swap in the null hook, or the two that swap
  it out, nothing is said (`c88_lost_refuted`): the check of `initialize` compares the
  hook it takes back only. In between the detecting call panics, the `Once` is poisoned
  and threads that ask for the first time panic too (`c88_panic_refuted`), although the
  answer has been stored.
* **Asking first while unwinding aborts the process** (`c83_destructor`), on compilers
  without `is_available`: detection calls `take_hook`, which panics on a panicking
  thread. A destructor that makes the program's first call does this. The panic that
  goes unreported during detection (`c83_silenced`) is the one the source describes.
* **`build.rs` can enable unstable functions that the crate may not use**
  (`c72_usable_refuted`). The first probe runs without `RUSTC_BOOTSTRAP`. On a
  nightly compiler with `RUSTC_BOOTSTRAP=-1`, which forbids unstable features, the
  probe succeeds, `proc_macro_span` is set, and the crate is then compiled with
  the variable and fails. What holds is `c72_usable_partial`.
* **`RUSTC_STAGE` is not watched** (`c71_stage_refuted`): it changes the flags, but
  Cargo is not told to run the script again when it changes.
* **Spans break after 2^32 characters** (`c79_checked_refuted`,
  `c79_unchecked_refuted`). Positions of all texts parsed on a thread are numbered in
  one `u32`. A build with overflow checks panics in the parse that exceeds it; one
  without goes on, and a later query about a well-formed short text panics.
  `invalidate_current_thread_spans` starts over. A single text of 2^32 characters or more
  can pass the checks, because `len as u32` and `count() as u32` truncate (`c94_long`).
* **The digits of an escape are counted in an `i32`** (`c91_overflow`). On a literal made
  by `Literal::from_str_unchecked` with 2^31 digits in a `\u{...}` escape `str_value`
  panics, or without overflow checks returns a value instead of the error. The parser
  accepts no such literal.
* **Printing recurses on nesting depth** (`c92_deep`), although parsing (`parse.rs` 171-250) and
  dropping (C36) keep an explicit stack: `"(".repeat(n) + ")".repeat(n)` parses and drops
  at any `n` but overflows the stack in `to_string`.
* **CRLF is not quite LF** (C96, `c96_example`). The compiler reads a CRLF as LF on loading a file;
  `parse` does not. The string of a block doc comment keeps its CRLFs (as `\r\n`), the span of a
  line doc comment before CRLF has the CR in it, and a CRLF between single quotes is an error
  although the character literal with a line feed is accepted. Nothing else differs (`c96_same`,
  `c96_error`) in what is parsed; the accessors fail on a literal with a CRLF in it (C25).
* **Unicode versions** (C98, `c98_promoted`). A newer table may change how an accepted text is read,
  but only if a character that could only continue identifiers becomes able to start them, as
  U+1CF2 did in Unicode 12: `1.5e5` followed by such a character is `1` `.` `5e5x` with the older
  table (the float is given up as it has no valid suffix) and one float literal with the newer.
* Lexer quirks that the model keeps and that the specifications allow: a raw
  newline and `'` itself are accepted inside a character literal; `1e` is a
  literal with suffix `e`; `1e_+5` is one float token.
* Width, fill and precision act on puncts and literals and are ignored for
  identifiers, groups and streams (C62).

## 5. Testing the theorems

`seeded/LOG.jsonl` records deliberate errors put into a copy of the model. A
theorem is listed under `failed` when its statement, restated over the edited
definitions, was *disproved* there: the negation was proved with a concrete
witness. That is stronger than seeing a proof script stop, which may only mean
that the script was brittle. An entry with nothing under `failed` has a `note` saying why.

Besides, small edits made by a program (a branch or a constant exchanged, a condition
negated, a definition cut) were tried on most model files by replaying the proofs. Edits
that no proof noticed were read one by one: they were equivalent, unreachable, or led to
a theorem being tightened. They are not in the log.
