# Formal model of toon_rust in Rocq (Coq 8.16.1)

Source: `/repo` (Rust), read as text and unchanged.  Development: `rocq/theories`, logical name
`Verif`.  The properties are in `properties.jsonl` (C01, C02, ...), their status and the names of
their theorems in `MANIFEST.json`, the wrong programs tried against them in `seeded/LOG.jsonl`.

## How to read the development

Every theorem that answers a property is called `Cxx_...` and lives in a file `Props*.v`, followed
by `Print Assumptions` and by an `Example` with a non-trivial input that meets its hypotheses.
What a theorem *says* depends only on three kinds of files:

1. **Model files** (marked "Definitions only"): a function-by-function translation of the Rust
   code.  Each definition cites file and lines.
2. **Specification files**: relations and predicates stated without the model's functions.
   `Spec` (equivalences of values, event grammar, hypotheses), `SpecRound` (array sizes a machine
   can hold, rows in order), `SpecText` (which text a value has),
   `SpecRead` (which value a text means), `SpecExpand` (what path expansion means), `SpecReplace`
   (what replacing means), `SpecAsk` (which questions a replacer is asked), `SpecArgs` (how the tool may be called), `SpecEvents` (event sequences of any kind), `SpecJson` + `JsonGrammar` (RFC 8259, as a reader and as an inductive
   grammar, proved equivalent), `SpecSerde` (laws of conversion to serde_json), `SpecCli` (what the
   tool should do), `SpecWasm` (what the JavaScript settings mean), `SpecNum` (rounding and
   shortest decimals over the rationals).
3. The `Props*.v` file itself.

All other files are proofs and need no reading to judge the statements.

A property that the code does *not* have is proved false by a theorem `..._refuted` with a concrete
witness, next to the strongest true variant that was found; the entry in `properties.jsonl` then states what
the code does instead.  A property of which only part is proved has the suffix `_partial`.

## Representation

* A `char` is a code point (`N`), a string is the list of its characters.  All characters the code
  compares with are ASCII, so Shared/Scanner/Parser use character indices.  `ByteLevel.v` writes the
  same functions out once more on UTF-8 bytes with byte indices, panicking slices, panicking
  indexing and panicking `usize` subtraction; C39 proves that they never panic and agree with the
  character level.
* `f64` is `SpecFloat.spec_float` with a proof of `valid_binary 53 1024`: exactly the binary64
  values (with a single NaN).  `parse_f64` (`str::parse::<f64>`) and `f64_to_string` stand for the
  Rust standard library.  `SpecNum` says over the rationals what they should do: nearest double,
  ties to even (IEEE 754); shortest decimal that reads back, nearest of those, upper one if two are
  as near (`core::num::flt2dec`).  C51 and C52 prove that the two functions do exactly that and that
  the theorems on texts hold for any functions that do; the assumption left is that the standard
  library meets this contract.
* `usize` is `nat` (depths, counts, line numbers) or `N` (declared lengths, flatten depth).
  Arithmetic is unbounded except where the code checks a bound (`parse::<usize>`, the length cap,
  the expansion depth).  Overflow of line numbers or of `i + 2` would need texts longer than
  `isize::MAX`, which Rust excludes.
* `&mut` state is passed in and returned; `Result` is data; a panic is the error `EPanic`; running
  out of fuel is the error `EFuel`.  Both are excluded by theorems for the entry points
  (C15, C17, C39), except for the replacer, whose recursion really is unbounded (C30).
* `HashSet<String>` is a list used only through membership.
* A replacer is a pure function of key, value and path, universally quantified.
* The asynchronous streams are state machines; their `poll_next` never returns `Pending`.
* The operating system is a list of replies, one for each call of the tool, universally
  quantified: short writes, interrupted calls, errors, and being killed at any call.
* Parameters (universally quantified in the theorems that use them): how serde_json reads a number
  literal with fraction or exponent (`rf`; the crate is built without `float_roundtrip`), where its
  printer switches to exponents and which of two equally near decimals it takes (`num_style`), the size of the `BufWriter` buffer.

## What is modelled

| source | lines | model file |
|---|---|---|
| `lib.rs` | 23-45 (wrappers), 47-75 (types), 77-190 (conversions) | `Json`, `Serde` |
| `options.rs` | all | `Json` |
| `shared/constants.rs`, `literal_utils.rs`, `string_utils.rs`, `validation.rs` | all | `Shared`, `ByteLevel` |
| `encode/primitives.rs` | 10-93 | `EncPrim` |
| `encode/normalize.rs` | 3-71 | `Normalize` |
| `encode/folding.rs` | 10-117 | `Folding` |
| `encode/encoders.rs` | 16-618 | `Encoders`; with the depth of calls `EncFrames` |
| `encode/replacer.rs` | 5-70 | `Replacer` |
| `encode/mod.rs` | 22-84 | `EncodeApi` |
| `encode/async_encode.rs` | 38-363 (the panicking variants 262-270, 307-311, 334-341 are `expect` on the modelled ones) | `AsyncEncode` |
| `decode/scanner.rs` | all | `Scanner`, `ByteLevel` |
| `decode/parser.rs` | all | `Parser`, `ByteLevel` |
| `decode/validation.rs` | 12-121 | `DecValidation` |
| `decode/decoders.rs` | all | `Decoders`; with the depth of calls `DecFrames` |
| `decode/event_builder.rs` | 6-209 | `EventBuilder` |
| `decode/expand.rs` | 11-221 | `Expand`; with the depth of calls `ExpFrames` |
| `decode/mod.rs` | 31-121 | `DecodeApi` |
| `decode/async_decode.rs` | 44-457 | `AsyncDecode` |
| `cli/json_stream.rs`, `json_stringify.rs`, `conversion.rs` | all | `JsonText`, `Serde` |
| `cli/mod.rs`, `cli/args.rs`, `main.rs` | 19-239, 73-117, all | `Cli` |
| `wasm.rs` | 58-147, 163-252 | `Wasm` |
| `error.rs` | 5-37, 103-119 (messages of decoding) | `ErrText` |
| UTF-8 of `core::str` / `core::char` | | `Utf8` |

`Fixtures.v` and `Snapshots.v` run the recorded behaviour (`/repo/tests/fixtures/spec`,
`/repo/tests/snapshots`) through the model.  These are
tests of the translation, not proofs; no theorem depends on their outcome.

## What is not modelled

* What the JSON library says about texts that are not JSON (a parameter `complaint` of `Cli.main`)
  and what the operating system says about a failed call (part of its reply).  Errors are an
  enumeration that carries the lines, counts, lengths, keys and characters the messages report;
  `ErrText.raised` and `Cli.failure_error` give the `ToonError` and its text for those that decoding,
  handling events and the tool can raise.
* Memory and the machine stack.  C65 counts the open calls of the recursive functions of the decoder,
  the encoder and path expansion; how many fit on a stack, the frames of functions that do not recurse, and the
  recursion over a finished value (normalising, converting, cloning and dropping it) are left out.
* Cancellation and scheduling of the async runtime (the functions have no await point that waits).
* clap is a library, so `ArgsParse` models what it does for the one command the attributes in
  `src/cli/args.rs` describe (spellings, values, conflicts, `--help`, `--version`), as a contract; the
  texts of help, version and usage messages are parameters, and arguments are UTF-8.
* Reading the tool's input is one call that gives the whole content or fails; a message on standard
  error is written as one text; what the runtime prints about a panic; a closed standard output or
  standard error (EBADF is ignored by the Rust runtime); paths that are not UTF-8.
* A replacer with interior state that panics, blocks, or is shared by several calls at once.
* The wasm-bindgen glue (conversion of JavaScript strings, exception objects, the panic hook).  On
  wasm32 `usize` has 32 bits; `Wasm` uses that for the settings, while the defaults shared with the
  other front ends use 64 bits (no nesting reaches either).

## Layers

1. Model: `Chars`, `Floats`, `Json`, `Shared`, `EncPrim`, `Normalize`, `Folding`, `Encoders`,
   `Replacer`, `ReplacerState`, `EncodeApi`, `Scanner`, `Parser`, `DecValidation`, `Decoders`, `EventBuilder`,
   `Expand`, `DecodeApi`, `AsyncEncode`, `AsyncDecode`, `JsonText`, `Serde`, `Utf8`, `Cli`,
   `ByteLevel`, `Wasm`, `ErrText`, `ArgsParse`.
2. Specification: `Spec`, `SpecText`, `SpecRead`, `SpecExpand`, `SpecReplace`, `SpecAsk`, `SpecJson`,
   `JsonGrammar`, `SpecSerde`, `SpecCli`, `SpecArgs`, `SpecEvents`, `SpecCut`, `SpecKept`, `SpecJoin`, `SpecEdit`, `SpecWasm`, `SpecNum`, `SpecError`,
   `SpecStream`, `SpecUtf8`, `SpecRound`, `SpecSize`, `SpecGap`, `SpecParts`, `SpecPretty`, `SpecPerm`, `SpecGrow`, `SpecDeep`, `SpecMessage`, `SpecFault`, `SpecRename`, `SpecField`, `SpecKeyEdit`.
3. Proof: `Lex` (strings), `NumProof` (digits), `PrimProof` / `ParseProof` (tokens, rows, headers),
   `DecRel` (the decoder as a success relation, termination), `DecProps`, `DecRelax`, `PadProof`, `FuelProof`, `DecCost`,
   `DecNums` (inductions over that relation), `Layout` / `LayEnc` / `LayFacts` (what the encoder
   lays out is read back), `EncTotal`, `WrittenProps` / `RefoldProof`, `RoundTrip`, `RoundExact`, `OrderProof`, `ExpandProof` / `ExpandProps` /
   `ExpandMean`, `FoldProps`, `ReplaceProof`, `AskProof`, `AsyncDecProof`, `JsonNumProof` / `JsonTextProof`,
   `SerdeProof` / `SerdeNum` / `SerdeRead`, `Utf8Proof`, `CliProof` / `CliPath` / `SayProof` / `ArgsProof`, `EventProof`, `CutProof` / `KeptProof`, `JoinProof`, `TextProof`,
   `ReadLex` / `ReadHead` / `ReadLine` / `ReadProof`, `ByteProof`, `CharsKept` / `ReadChars`,
   `ErrLex` / `ErrProof` (failures), `StreamProof` (the asynchronous stream), `RoundProof` / `ShortProof` / `NumExt` (numbers), `MessageProof` (messages), `FramesProof` / `EncFramesProof` / `ExpFramesProof` (open calls), `EditText` / `EditProof` / `KeyEditProof` (edited lines), `NearProof` (expansion of an edited document), `DiffProof` (edited values), `FoldShort` / `SizeProof` (lengths of texts), `GapProof` (blank lines in arrays), `PrettyProof` (layout of JSON), `PermProof` (order of members), `PartsProof` (texts of parts), `GrowProof` (nesting under expansion), `DeepProof` / `KeyedProof` / `ItemsProof` (texts under keys and in items), `FaultProof` (first faults), `JsonInd`, `JsonEq`, `Checkers` (decision procedures used by the examples).
4. Theorems: `PropsTokens`, `PropsHeader`, `PropsDecode`, `PropsRoundTrip`, `PropsExact`, `PropsFold`, `PropsReplace`, `PropsAsk`, `PropsArgs`, `PropsEvents`, `PropsCut`,
   `PropsAsyncEnc`, `PropsAsyncDec`, `PropsJson`, `PropsSerde`, `PropsCli`, `PropsText`,
   `PropsRead`, `PropsByte`, `PropsUnread`, `PropsNest`, `PropsExpand`, `PropsFoldExact`, `PropsTool`, `PropsWasm`, `PropsNum`, `PropsError`, `PropsErrText`, `PropsKind`, `PropsPad`,
   `PropsStream`, `PropsSay`, `PropsChars`, `PropsJoin`, `PropsFrames`, `PropsExpFrames`, `PropsEdit`, `PropsKeyEdit`, `PropsEditExpand`, `PropsJoinExpand`, `PropsCutExpand`, `PropsDeepExpand`, `PropsRefold`, `PropsToolFold`, `PropsCarried`, `PropsJoinFold`, `PropsPartsFold`, `PropsEventsFold`, `PropsItemsFold`, `PropsBlocks`, `PropsRowOrder`, `PropsInteger`, `PropsDiff`, `PropsRename`, `PropsRenameFold`, `PropsField`, `PropsShort`, `PropsSize`,
   `PropsGap`, `PropsPretty`, `PropsPerm`, `PropsParts`, `PropsGrow`, `PropsDeep`, `PropsFault`.

## How each property is proved

| id | method |
|----|----|
| C01, C02, C10-C12, C41 | encoder = rendering of a layout (`LayEnc`); decoder inverts every rendering (`Layout`, induction over the layout); the value of the layout equals the value up to the order of fields in table rows (`WrittenProps`) |
| C01, C02 exactly | converse by inversion of every successful reading (`SpecRead`) along the written text (`SpecText`), `RoundExact`: a reading of a written document finds at least as many arrays as the value has, and with equally many the value is portable; `OrderProof`: what is read equals the value iff the rows of its tables are in order |
| C03-C06 | lexical lemmas: unquoted strings are not literals or numbers; closing-quote scan over an escaped body; a printed number is a numeric literal that reads back |
| C07, C08 | positive theorem for every string position / field name that is safe, `_refuted` witnesses for the rest |
| C09 | simulation between two runs of the success relation (`DecRelax`) |
| C23 | two runs of the decoder functions side by side, results compared whole (`PadProof`, relation `both`) |
| C13, C14, C25-C27 | induction over folding, expansion and merging |
| C15-C17 | fuel measured by the size of the value / the number of lines suffices; invariants over all lines written |
| C18-C21, C28 | inductive event grammar; induction over the success relation |
| C22, C24, C43, C44 | which lines an array consumes; counting over the success relation |
| C29, C30 | replacement as a relation; well-founded rank; unbounded recursion as refutation |
| C31-C33 | poll state machines; measure that decreases with each poll; refutations by witness |
| C56 | induction over the declarative reading (C47), with the lines used by each construct |
| C58 | the transformation with a state passed through equals a conversation (mutual induction both ways); conversations part only at a different answer (decidable equality of values); paths by induction |
| C64 | two runs of the decoder on related lines, by induction on the fuel: related cursors give equal events, equal errors and related cursors (`PadProof`); which lines the encoder writes, by induction over the specification of C46 |
| C59 | every argument list is spelled out, asks for a text, or gets stuck (induction on its length); the parser's state after a spelled prefix is the settings so far; every sane choice has a spelling |
| C60 | a grammar of sequences with the place where a prefix stands; the stack of each machine mirrors that place (induction on the prefix and on the grammar) |
| C61 | induction over the declarative reading: each construct, read from a prefix of its lines, is complete, shortened, or an array with too few items; the layout of the encoder is read to its last line; with expansion: strict insertion only adds to an object, and inserting less gives less |
| C65 | the programs once more with the number of open calls; same outcome, upper and lower bounds each by induction on the fuel; for path expansion on the levels left, levels that are not used make no difference |
| C66 | on the readings of SpecRead.v: swapping the word in tokens, cells, headers and keys, then induction on the reading of the lines; for keys the same induction, with a member renamed instead of a token replaced; with path expansion: expanding two documents that differ in n values gives the same error, or values that differ in n (lenient: at most n) |
| C67 | on the text of SpecText.v: tables, chains and inline arrays do not depend on the primitive; induction on the text, then C46; for names, induction on the path with C70; with folding, on the text of SpecText.v, following the chains; for the fields of tables likewise |
| C68 | on the text of SpecText.v: the folded text beside the unfolded one, induction on the text, every character with a weight (1, or its bytes) |
| C69 | token by token, row by row, line by line against the JSON writer, induction on the unfolded text; then C68 and C46 |
| C70 | on the text of SpecText.v: without folding the place does not matter and depth only shifts lines; then C46 |
| C71 | specification as lists of lines with their depth (`SpecPretty`); induction on the value, the text as breaks and contents; uniqueness by induction on the value |
| C72 | entries of C48 up to permutation and equivalence of leaves; induction on the gathered value and on the document; lines: joining of C62; order of lines of an array: a line read with nothing under it is read the same before any other lines of its depth |
| C73 | weights of keys that pay for the segments and the objects between them, induction over the levels left; worst-case recurrence with a closed form; a computed witness |
| C74 | derivations of the relational reading and of its faults shifted by a line and a level (mutual induction); the header of an array with a key before it has the same length, delimiter and fields; with expansion: a lower depth limit gives the same or the depth error |
| C75 | mutual induction over the faults and over what is read before them, with lines appended: whatever leaves a line unread reads the same before more lines |
| C62 | induction over the declarative reading and the grammar of faults: a construct read to its end is read the same with lines after it that start unindented; readings and faults move with their line numbers; with path expansion: members are merged one after the other, and an expanded node is determined by its value |
| C55 (and C32, C33 exactly) | inductive description of the answers over the lines; simulation of the state machine by induction on the lines |
| C34, C35 | printer then RFC 8259 reader is the identity; reader equivalent to an inductive grammar |
| C36, C37, C49, C57 | induction over the replies of the operating system; prefix invariant of the output |
| C53 | a second grammar, of texts with a first fault (SpecError.v); the decoder's failures are its derivations, by induction on the fuel and on derivations |
| C54 | the errors that can be raised (C53); peeling prefixes, numbers, and keys from the end; the facts are found in each message by computation on its fixed parts |
| C51, C52 | exact rational arithmetic: rounding by cases of the quotient; the candidates next to the number on each decimal grid; seventeen digits always do |
| C38, C45, C50 | laws of conversion; wrappers equal the pipeline they name |
| C39 | refinement: byte level against character level |
| C40 | witnesses, and the exact description of which lines stay unread |
| C42 | joining and splitting lines |
| C46 | SpecText is sound, complete and single-valued for the encoder |
| C47, C48 | SpecRead / SpecExpand are sound, complete and single-valued for the decoder |

## Trusted base

* Coq's kernel (8.16.1).  No kernel check is switched off, no plugin is loaded.
* **Assumptions.** `Print Assumptions` follows each theorem in the `Props*.v` files.  For every
  theorem named in `MANIFEST.json` the answer is `Closed under the global context`: no axiom of any
  kind is used, not even one of the standard library.
* The faithfulness of the hand translation from Rust (model files), as delimited above.
* The contracts of the libraries the code calls: `str` methods, `f64` parsing and printing,
  `Path::extension`, `BufWriter`, serde_json 1.0.151 with `preserve_order` (number kinds, map that
  keeps the first place and the last value, nesting limit 128, RFC 8259 grammar, compact and pretty
  printing), clap.

## How wrong programs are tried

`seeded/LOG.jsonl` has one line per wrong program.  The field `method` says how the line came about.

* *by hand*: an edit chosen for a claim.  A proof that fails is admitted in the scratch copy and the
  build goes on, so `theorems_failed` are the theorems that fail or rest on a proof that fails.
* *automatic*: an edit made by a script (swapped comparison, constant, branch, character).  The build
  stops at the first proof that fails; `theorems_failed` are the theorems that use this proof.  They were
  not run one by one, so for these lines the list is an upper bound.
* *rerun*: a line whose first run did not settle the matter (it ended at a time limit, at a lemma no
  theorem uses, or with nothing failing), done again by the first method on a later model.

A proof that fails shows that the edit is noticed.  It does not show by itself that each listed statement
is false of the edited program; a proof that gives no answer in time shows nothing, and is not counted.
Edits that do not typecheck are left out.  An edit with no failing theorem and nothing tightened is one
that changes nothing observable; the line says why.

## Defects of the code that the proofs brought to light

Each is a theorem `_refuted`, or an `Example` showing that a hypothesis is needed.

1. `key: "x[1]: y"`: a string value that looks like a header under an unquoted key is read as an array, even quoted (C07).
2. A `}` in a table's field name breaks the header (C08).
3. Objects with repeated keys can be written as table rows in which the repetition is lost; rows are reordered to the header (C01, C02).
4. Encoding with a delimiter other than the three standard ones, or indentation 0, cannot be read back (C01).
5. Arrays longer than 100,000,000 are written but not read (C21).
6. After a root array the remaining lines are ignored, and lines after an over-indented line are ignored, even in strict mode (C40).
7. The strict check for superfluous items does not notice a bare `-` (C20).
8. `AsyncDecodeStream` differs from the synchronous decoder on nested objects and can repeat one error forever (C32, C33).  An error in a value overtakes the events queued before it, and an object begun before kept lines is never ended (C55).
9. `apply_replacer` does not terminate for replacers that grow their input (C30).
10. Literal dotted keys are expanded by the decoder, so folding is not invertible on them (C13); folding can duplicate a key (C14).
11. Integers beyond 53 bits lose digits (C38).
12. The streaming and the buffered JSON writer escape some control characters differently (C35).
13. A message that cannot be written (standard error closed by its reader) aborts the tool although the output is complete (C57).  The tool drops its `BufWriter` without flushing: it can exit with 0 and an incomplete file; converting a file in place can lose it (C36).
14. `[+3]` is accepted as a length (C47).  A line `-\r` is not an item (C23).
15. Lenient tables amplify quadratically (C43).
16. `json_stream_from_events` accepts malformed streams (C34); so does `build_node_from_events`, which drops keys without value and all but the last of several values (C60).
17. `toon_to_json` drops members with repeated names (C45).
18. The JavaScript bindings take a negative or NaN indentation for 0, and such a text cannot be read back (C50).
19. Decoding sets no limit to nesting (path expansion limits its own recursion, see 20): deep texts open as many calls as they have levels (C65).
20. The limit of 256 on the depth of path expansion counts the levels of the document and the segments of one key, but not the segments of the keys around it: the result can have 16132 levels (C73).  Near the limit the order of members decides whether a text is accepted (C72).
