{"id": "C01", "title": "Strict round trip", "statement": "Encoding a JSON value to TOON and decoding the text with the same indentation in strict mode succeeds and returns the same value, up to the order of the keys inside the rows of a table. (False for every value: the excluded values are exactly those with a string that looks like an array header under a key written without quotes, a table field with a closing brace, or an array of more than 100000000 items; none of them survives.)", "quantifier": "every JSON value with unique object keys, no structure-breaking string or table field (C07, C08) and arrays of at most 100000000 items; every delimiter among comma, tab and pipe; every indentation >= 1", "why_tests_cant": "the value space is infinite and nested; quoting, header, table and list layouts interact at every depth", "anchors": ["src/encode/mod.rs: encode", "src/encode/encoders.rs: encode_json_value", "src/decode/mod.rs: try_decode", "src/decode/decoders.rs: decode_stream_sync"]}
{"id": "C02", "title": "Exact round trip for uniformly ordered tables", "statement": "If in addition all objects of an array that is printed as a table list their keys in the same order, decode(encode(v)) is exactly v, including key order everywhere; and no other value comes back exactly.", "quantifier": "every value as in C01 whose tables are uniformly ordered", "why_tests_cant": "order preservation must hold at every nesting depth", "anchors": ["src/encode/encoders.rs: extract_tabular_header, is_tabular_array", "src/decode/decoders.rs: yield_object_from_fields"]}
{"id": "C03", "title": "Primitive tokens round trip", "statement": "Every string, finite number, boolean and null that is printed as a token is read back as the same primitive, whatever the delimiter; in particular strings that look like numbers, literals, list items, keys or headers come back as strings.", "quantifier": "every primitive with a finite number other than negative zero; every delimiter character", "why_tests_cant": "strings are unbounded and the lexical classes (number-like, literal, whitespace, quoting) overlap", "anchors": ["src/encode/primitives.rs: encode_primitive", "src/shared/validation.rs: is_safe_unquoted", "src/decode/parser.rs: parse_primitive_token"]}
{"id": "C04", "title": "Number fidelity", "statement": "The decimal text printed for any finite double is read back as exactly that double (negative zero as zero), and is never confused with another type.", "quantifier": "every finite IEEE-754 binary64 value", "why_tests_cant": "there are 2^64 doubles; printing and parsing must agree on all of them, subnormals and extremes included", "anchors": ["src/encode/primitives.rs: format_number", "src/shared/literal_utils.rs: is_numeric_literal", "src/decode/parser.rs: parse_primitive_token"]}
{"id": "C05", "title": "String escaping is lossless and quote-safe", "statement": "unescape(escape(s)) = s for every string, and the escaped body never closes the quotes early: the closing quote found by the reader is the one the writer added.", "quantifier": "every Unicode string", "why_tests_cant": "needs an argument over every interleaving of backslashes, quotes and control characters", "anchors": ["src/shared/string_utils.rs: escape_string, unescape_string, find_closing_quote"]}
{"id": "C06", "title": "Object keys round trip", "statement": "Every key, including empty, dotted, quoted, Unicode, delimiter- or bracket-bearing keys, is read back unchanged from a key/value line, an array header and a nested object line, together with the information whether it was quoted.", "quantifier": "every key string, every delimiter among comma, tab, pipe", "why_tests_cant": "keys are arbitrary strings", "anchors": ["src/encode/primitives.rs: encode_key, format_header", "src/decode/parser.rs: parse_key_token, parse_array_header_line"]}
{"id": "C07", "title": "String values cannot change the structure of a document", "statement": "Whatever text a string value contains, the decoded document has the same structure. The code violates this for a string under an unquoted key whose text contains a bracketed number followed by a colon; it holds for strings in lists, table cells, inline arrays, at the root and under quoted keys.", "quantifier": "every string in every position", "why_tests_cant": "an adversarial string must be found or excluded among infinitely many", "anchors": ["src/decode/parser.rs: parse_array_header_line", "src/encode/encoders.rs: indented_key_value_line"]}
{"id": "C08", "title": "Table field names survive", "statement": "A table header is read back unchanged, with its key, length, delimiter and field names, exactly if no name contains a closing brace; otherwise it is refused with an error, so a wrong name is never read. (That every name survives, as quoting promises, is refuted.)", "quantifier": "every list of field names and every delimiter among comma, tab, pipe", "why_tests_cant": "names are arbitrary strings", "anchors": ["src/encode/primitives.rs: format_header", "src/decode/parser.rs: parse_array_header_line, parse_delimited_values"]}
{"id": "C09", "title": "Lenient decoding agrees with strict decoding on accepted input", "statement": "If a text is accepted in strict mode, it is accepted with strict = false and yields the same events and the same value.", "quantifier": "every text, every indentation", "why_tests_cant": "ranges over all texts, not just encoder output", "anchors": ["src/decode/decoders.rs: decode_stream_sync", "src/decode/validation.rs"]}
{"id": "C10", "title": "Event stream of the encoder equals event stream of the decoder", "statement": "encode_stream_events(v) is the event sequence decode_stream_sync emits for encode_lines(v), as its documentation promises, including key-quoting flags and array lengths. With key folding it is so exactly if the text, read without path expansion, means the value; as soon as something is folded the promise fails (refuted), because the events of the encoder know nothing of folding.", "quantifier": "every value as in C02; with key folding every value as in C13, dotted keys included", "why_tests_cant": "needs agreement of two independent traversals on every value", "anchors": ["src/encode/mod.rs: encode_stream_events, emit_events", "src/decode/decoders.rs: decode_stream_sync"]}
{"id": "C11", "title": "Re-encoding is stable", "statement": "encode(decode(encode(v))) = encode(v): a converted file converted back and forth again does not change. The same holds for folding followed by path expansion; with folding but without expansion it is refuted (a limited folding depth starts again).", "quantifier": "every value as in C01; with folding every value as in C13", "why_tests_cant": "requires the layout decisions to be reproduced on the decoded value at every depth", "anchors": ["src/encode/mod.rs: encode", "src/decode/mod.rs: try_decode"]}
{"id": "C12", "title": "Encoding is injective up to key order", "statement": "Two values with the same TOON text are equal up to the order of keys inside table rows. The same holds for texts with folded keys, even folded to different depths, if no key is a dotted path.", "quantifier": "all pairs of values as in C01; with folding all pairs of values as in C13", "why_tests_cant": "pairs of unbounded values", "anchors": ["src/encode/mod.rs: encode"]}
{"id": "C13", "title": "Key folding followed by path expansion is lossless", "statement": "Encoding with key folding (any flatten depth) and decoding with path expansion returns the original value up to table row key order when no key of the value is itself a dotted path of identifiers, and returns something else or fails when some key is one.", "quantifier": "every value as in C01 that is nested less than the expansion limit; every flatten depth; strict and lenient", "why_tests_cant": "chains of any length in any position, with sibling collisions", "anchors": ["src/encode/folding.rs: try_fold_key_chain", "src/decode/expand.rs: expand_paths_safe"]}
{"id": "C14", "title": "When key folding creates duplicate keys", "statement": "If no object has duplicate keys, no object of the folded document has duplicate keys, unless an object that is an item of an array starts with a dotted key that another of its members spells out as a chain of objects. (Without the exception the claim is refuted: the first member of an item is not among the siblings the folding checks against.)", "quantifier": "every value, every flatten depth", "why_tests_cant": "collisions between folded paths and literal dotted siblings depend on all siblings", "anchors": ["src/encode/folding.rs: try_fold_key_chain"]}
{"id": "C15", "title": "The encoder never panics and always terminates", "statement": "encode, encode_lines and encode_stream_events return for every value: ragged, empty, duplicate-keyed, with NaN or infinities, any delimiter, any options (without replacer).", "quantifier": "every value, every option combination", "why_tests_cant": "the panic sites (missing key, non-primitive cell) must be unreachable for every input", "anchors": ["src/encode/encoders.rs: write_tabular_rows_lines, extract_tabular_header, is_tabular_array"]}
{"id": "C16", "title": "Encoder output is line- and indentation-clean", "statement": "Every emitted line contains no newline or carriage return, is not blank, starts with a multiple of the indent size of spaces, and has no trailing whitespace.", "quantifier": "every value, every indentation, delimiter among comma, tab, pipe", "why_tests_cant": "any string or key could smuggle a control character into the output", "anchors": ["src/encode/encoders.rs", "src/shared/string_utils.rs: escape_string"]}
{"id": "C17", "title": "The decoder terminates on every input", "statement": "Decoding any text with any options returns a value or an error after a number of steps bounded by the number of lines.", "quantifier": "every text, every option combination", "why_tests_cant": "a non-terminating input is not found by running tests that finish", "anchors": ["src/decode/decoders.rs"]}
{"id": "C18", "title": "Decoded event streams are well formed", "statement": "Every event sequence produced by a successful decode is a single complete value: starts and ends balance, keys occur exactly before values inside objects.", "quantifier": "every text, every option combination", "why_tests_cant": "must hold for malformed and truncated texts", "anchors": ["src/decode/decoders.rs: decode_stream_sync"]}
{"id": "C19", "title": "Building the value from decoded events never fails", "statement": "If event decoding succeeds then building the JSON value succeeds and the value is the one the events describe.", "quantifier": "every text, every option combination (path expansion off)", "why_tests_cant": "the error branches of the builder must be unreachable for every input", "anchors": ["src/decode/event_builder.rs: build_node_from_events, node_to_json"]}
{"id": "C20", "title": "Strict mode enforces declared lengths", "statement": "In strict mode every array of an accepted document contains exactly as many items as its header declares, and every table row exactly as many cells as there are fields.", "quantifier": "every text accepted in strict mode", "why_tests_cant": "nested arrays, lists and tables in any combination", "anchors": ["src/decode/validation.rs: assert_expected_count", "src/decode/decoders.rs"]}
{"id": "C21", "title": "Declared lengths are capped", "statement": "No accepted document, strict or lenient, contains an array whose declared length exceeds 100000000.", "quantifier": "every text, every option combination", "why_tests_cant": "must hold on every parsing path", "anchors": ["src/decode/parser.rs: MAX_DECLARED_ARRAY_LENGTH"]}
{"id": "C22", "title": "Strict mode enforces indentation", "statement": "If a text is accepted in strict mode then every non-blank line is indented by a multiple of the indent size and has no tab in its leading whitespace.", "quantifier": "every text, every indentation", "why_tests_cant": "all lines, also those after the part that is decoded", "anchors": ["src/decode/scanner.rs: parse_line_incremental"]}
{"id": "C23", "title": "Blank lines are insignificant", "statement": "In lenient mode inserting or removing blank lines never changes the result; in strict mode removing blank lines from an accepted text does not change its value, and a text gives what it gives without its blank lines or the complaint that one of its blank lines is inside an array (errors of the indentation differ at most in the number of the line). Blank lines after the last line never change anything.", "quantifier": "every text, every set of blank lines", "why_tests_cant": "every position in every document", "anchors": ["src/decode/scanner.rs", "src/decode/validation.rs: validate_no_blank_lines_in_range"]}
{"id": "C24", "title": "Strict mode rejects blank lines inside arrays", "statement": "In strict mode a text with blank lines decodes exactly when the text without them does and no blank line stands between the first and the last line of the rows or items of an array, at any depth; the value is then the same, and otherwise the error names a blank line of the text.", "quantifier": "every text, every table and list at any depth, every position of a blank line", "why_tests_cant": "every document shape and position", "anchors": ["src/decode/validation.rs: validate_no_blank_lines_in_range"]}
{"id": "C25", "title": "Path expansion output is normalised", "statement": "After path expansion no object has duplicate keys, and a key that is a dotted path of identifiers was in quotes in the text.", "quantifier": "every decoded document, strict and lenient", "why_tests_cant": "merging of overlapping paths of any depth", "anchors": ["src/decode/expand.rs: expand_paths_safe"]}
{"id": "C26", "title": "Path expansion leaves documents without dotted keys alone", "statement": "On a document with unique keys, none of which is an unquoted dotted path of identifiers, path expansion is the identity. A value written without folding comes back through path expansion, up to the order of members, exactly when no key is a dotted path and it is within the depth limit.", "quantifier": "every document nested less than the expansion limit", "why_tests_cant": "every nesting shape", "anchors": ["src/decode/expand.rs: expand_paths_safe"]}
{"id": "C27", "title": "Strict path expansion loses nothing", "statement": "If strict expansion succeeds, then for every entry of every object of the document the value is found in the result at the path the key denotes; overlapping paths are merged, and any conflict is an error.", "quantifier": "every document accepted by strict expansion", "why_tests_cant": "conflicts between arbitrarily many overlapping paths", "anchors": ["src/decode/expand.rs: insert_path_entries, insert_literal_entry, merge_objects"]}
{"id": "C28", "title": "Normalisation", "statement": "Normalisation maps NaN and infinities to null and negative zero to zero, changes nothing else, is idempotent, and the encoded text never contains a NaN or infinity.", "quantifier": "every value", "why_tests_cant": "all doubles in all positions", "anchors": ["src/encode/normalize.rs: normalize_json_value"]}
{"id": "C29", "title": "Replacer laws", "statement": "A replacer that returns every value unchanged has no effect; returning None for a key or item removes exactly that entry; returning None at the root keeps the root; replacement proceeds on the replaced value.", "quantifier": "every value, every replacer function", "why_tests_cant": "quantifies over functions", "anchors": ["src/encode/replacer.rs: apply_replacer"]}
{"id": "C30", "title": "When replacement terminates", "statement": "Encoding with a replacer returns exactly when there is a depth that the answers of the replacer do not lead to, each given for a child of the one before; and it makes as many nested calls as they go deep. In particular it returns for replacers that do not increase nesting, from some depth on. (That it returns for every replacer is refuted.)", "quantifier": "every value, every replacer function", "why_tests_cant": "non-termination cannot be observed by a test", "anchors": ["src/encode/replacer.rs: transform_children"]}
{"id": "C31", "title": "Async encoder streams equal the synchronous API", "statement": "Polling AsyncEncodeEventStream to completion yields exactly encode_stream_events(v), then None forever; polling AsyncEncodeStream yields encode_lines(v).", "quantifier": "every value, every number of polls", "why_tests_cant": "all histories of polls over all values", "anchors": ["src/encode/async_encode.rs: next_event, start_value, poll_next"]}
{"id": "C32", "title": "Async decoder stream equals the synchronous decoder", "statement": "On lines that the synchronous decoder accepts, polling AsyncDecodeStream to completion yields the events of decode_stream_sync exactly when the document is an array, a primitive, or an object all of whose lines are a key with a value: at depth 0 except perhaps the first, no list items, no array headers, no key without a value, and a first line whose colon stands outside quotes. (It does not in general, as one would expect from a decoder: refuted, also on encoder output.) The async functions on whole documents are the synchronous ones.", "quantifier": "every sequence of lines, every option combination", "why_tests_cant": "all histories of an incremental state machine", "anchors": ["src/decode/async_decode.rs: process_next, poll_next"]}
{"id": "C33", "title": "Async decoder stream terminates", "statement": "Every poll of AsyncDecodeStream answers. From some poll on the stream either is at its end, or gives one and the same error for ever; the latter exactly when lines were kept for decoding at the end and they are no document. Without an error among the answers it ends. (It does not always end, as one would expect of a stream: refuted.)", "quantifier": "every sequence of lines", "why_tests_cant": "an infinite history", "anchors": ["src/decode/async_decode.rs: poll_next, finalize, batch_decode_remaining"]}
{"id": "C34", "title": "CLI JSON output is valid JSON for the decoded value", "statement": "The chunks written by toon --decode, concatenated, parse as JSON to exactly the decoded value, with and without indentation, for both the streaming and the path-expanding code path.", "quantifier": "every value, every indentation", "why_tests_cant": "all strings (control characters, quotes, non-ASCII), all nestings", "anchors": ["src/cli/json_stream.rs: json_stream_from_events", "src/cli/json_stringify.rs: json_stringify_lines"]}
{"id": "C35", "title": "Streaming and buffered JSON output agree", "statement": "json_stream_from_events on the events of a value and json_stringify_lines on the value produce the same text whenever no string contains a character the two escapers treat differently (backspace, form feed, DEL and C1 controls).", "quantifier": "every value, every indentation", "why_tests_cant": "two independent printers over all values", "anchors": ["src/cli/json_stream.rs", "src/cli/json_stringify.rs"]}
{"id": "C36", "title": "Output files are complete or an error is reported", "statement": "At any crash point and after any failure the output is a prefix of the full output followed by a newline, and a conversion that fails before writing changes nothing. If the CLI reports success, standard output and files written with --stats are complete; another file is complete, or the operating system failed at the end and at most one buffer is missing; without failures the output is always complete. (That success means complete is refuted: the error of the write made when the buffered writer is dropped is ignored.)", "quantifier": "every output, every write failure or crash point", "why_tests_cant": "crash points and I/O failures", "anchors": ["src/cli/mod.rs: write_lines, write_chunks, write_output"]}
{"id": "C37", "title": "Mode, delimiter and option resolution", "statement": "Explicit flags win over the extension; .toon selects decode, everything else encode; delimiter arguments map to exactly comma, tab or pipe or are rejected; missing options take the documented defaults.", "quantifier": "every argument combination", "why_tests_cant": "arbitrary strings and flag combinations", "anchors": ["src/cli/args.rs: detect_mode, parse_delimiter", "src/options.rs: resolve_encode_options, resolve_decode_options"]}
{"id": "C38", "title": "Conversion to and from serde_json values", "statement": "Converting a JSON value to serde_json and back is the identity for values with finite numbers and unique keys; for duplicate keys the last value wins at the first position; integers convert exactly when they are representable in binary64.", "quantifier": "every value", "why_tests_cant": "all values and integers", "anchors": ["src/lib.rs: From<serde_json::Value>, From<JsonValue>"]}
{"id": "C39", "title": "No byte-index panic on any input", "statement": "No string slice taken by the parser falls outside the string or inside a UTF-8 sequence, for any input text.", "quantifier": "every text", "why_tests_cant": "all byte sequences of multi-byte characters around every delimiter", "anchors": ["src/decode/parser.rs: parse_array_header_line, parse_unquoted_key, parse_string_literal", "src/shared/string_utils.rs: find_closing_quote, find_unquoted_char"]}
{"id": "C40", "title": "Which lines stay undecoded", "statement": "The lines with text of an accepted document are the lines read, which alone decode to the same events and number no more than these, followed by lines without influence. There are such lines only after a root array, or from a line on that is deeper than the root although nothing above opened it. (That strict mode leaves no line unread is refuted by both.)", "quantifier": "every text accepted in strict mode", "why_tests_cant": "all texts", "anchors": ["src/decode/decoders.rs: decode_stream_sync"]}
{"id": "C41", "title": "The delimiter and the indentation are presentation only", "statement": "Encoding the same value with different delimiters (comma, tab, pipe) and indentations (>= 1) decodes to the same value. So does encoding with key folding at any flatten depth, or without, if the decoder expands paths and no key of the value is a dotted path.", "quantifier": "every value as in C01, all pairs of option sets; with folding the values of C13", "why_tests_cant": "all values and all indent sizes", "anchors": ["src/encode/primitives.rs: format_header", "src/decode/parser.rs: parse_bracket_segment"]}
{"id": "C42", "title": "Line API equals text API", "statement": "encode is encode_lines joined with newlines and decoding the lines equals decoding the joined text.", "quantifier": "every value; every list of lines without newlines", "why_tests_cant": "all lists of lines", "anchors": ["src/encode/mod.rs: encode, encode_lines", "src/decode/mod.rs: try_decode, try_decode_from_lines"]}
{"id": "C43", "title": "Decoded size is bounded by input size, not by declared lengths", "statement": "In strict mode the number of decoded events is at most a constant times the length of the text; a declared length never makes the output larger. In lenient mode only the product of row count and field count bounds it.", "quantifier": "every text", "why_tests_cant": "amplification attacks over all texts", "anchors": ["src/decode/decoders.rs: yield_object_from_fields, decode_tabular_array_sync"]}
{"id": "C44", "title": "Table rows in lenient mode", "statement": "In lenient mode a table row with missing cells is completed with null and surplus cells are dropped, so every row object has exactly the header's fields in order.", "quantifier": "every table text", "why_tests_cant": "all rows of all widths", "anchors": ["src/decode/decoders.rs: yield_object_from_fields"]}
{"id": "C45", "title": "The JSON and TOON text wrappers preserve values", "statement": "Converting JSON text to TOON succeeds exactly on well-formed JSON (RFC 8259) nested at most 127 deep whose numbers are readable, and encodes the value of the text (last value of repeated names). Converting TOON to JSON text fails exactly when decoding fails and prints JSON that reads back as the decoded value. JSON -> TOON -> JSON preserves the value. (Repeated names in TOON text are lost by the library wrapper, not by the command line tool.)", "quantifier": "every JSON text and every TOON text; any reading of non-integer literals by the JSON library", "why_tests_cant": "both grammars are infinite and nested, and the two conversions must compose", "anchors": ["src/lib.rs: json_to_toon, toon_to_json", "src/cli/conversion.rs: encode_to_toon_lines"]}
{"id": "C46", "title": "The encoded text", "statement": "The encoder writes exactly the text the format prescribes for the value: which strings and keys are quoted and how they are escaped, header syntax with exact length and the delimiter mark, inline arrays, tables exactly for uniform arrays of objects with primitive fields outside lists, list items, indentation, and key folding exactly for the longest chain within the flatten depth that is made of identifiers and collides with no sibling and no dotted root key. The text is unique.", "quantifier": "every JSON value; any delimiter, indentation, folding mode, flatten depth", "why_tests_cant": "a round trip does not notice deviations that still decode; the space of nested values and options is infinite", "anchors": ["src/encode/encoders.rs", "src/encode/primitives.rs", "src/encode/folding.rs", "src/shared/validation.rs", "src/shared/literal_utils.rs: is_numeric_like"]}
{"id": "C47", "title": "The meaning of a text", "statement": "The decoder accepts exactly the texts that have a meaning under a declarative reading of the format and returns that meaning: how lines get their depth, which lines are headers, members, rows and items, how keys, quoted strings, numbers and bare words are read, how cells are split, which lines belong to which array, and which checks strict mode adds (counts, widths, blank lines inside arrays, indentation, extra rows and items). Every text has at most one meaning, and every text without one is rejected.", "quantifier": "every text, every indentation size, strict and lenient mode", "why_tests_cant": "acceptance of wrong texts and rejection of right ones must be excluded over an infinite nested grammar", "anchors": ["src/decode/decoders.rs", "src/decode/parser.rs", "src/decode/scanner.rs", "src/decode/validation.rs", "src/shared/string_utils.rs", "src/shared/literal_utils.rs"]}
{"id": "C48", "title": "The meaning of a text with path expansion", "statement": "With path expansion on, the decoder returns exactly the value gathered from the entries (path, primitive or array) of the document: dotted unquoted keys are paths, keys stand in the order of their first entry, in strict mode every entry must stand alone at its path, in lenient mode a later entry overrides earlier ones, and expansion is applied to inner values first. It fails only if the text is no document, if (strict) the entries contradict each other, or if nesting exceeds the limit.", "quantifier": "every text, indentation and mode", "why_tests_cant": "all overlaps of dotted, quoted and nested keys at all depths", "anchors": ["src/decode/expand.rs: expand_paths_safe, insert_path_entries, merge_objects", "src/decode/mod.rs: try_decode"]}
{"id": "C49", "title": "Converting there and back with the command line tool", "statement": "Piping a JSON file through the tool as encoder and again as decoder (same indentation of at least one space; either no folding and no expansion, or expansion by the decoder, any folding by the encoder and no key of the input that is a dotted path) yields, whenever both processes exit with status 0, bytes that are valid UTF-8 and a JSON text with the value of the input: last value of repeated names, normalized numbers, up to the order of members within rows of tables (exactly, if rows list them in one order). Through files the same holds if no call fails, and both processes then exit with status 0. A TOON text piped through JSON and back decodes to the same value if the JSON library reads back the numbers as printed. No character appears in an output that is not ASCII or in the input value.", "quantifier": "every input the format can carry, every behaviour of the operating system, every buffer size", "why_tests_cant": "composition of six layers (UTF-8, JSON text, encoder, file or pipe, decoder, JSON text) over infinite inputs and arbitrary partial writes", "anchors": ["src/cli/mod.rs: run_encode, run_decode", "src/cli/conversion.rs", "src/encode/mod.rs", "src/decode/mod.rs"]}
{"id": "C50", "title": "The JavaScript bindings", "statement": "encode_with_options throws exactly if the text is not JSON (nesting at most 127, readable numbers) or the settings are neither an object nor undefined/null, and otherwise returns the encoding of the value under the settings; decode_with_options throws exactly on such settings or if decoding fails, and otherwise returns JSON that reads as the decoded value (last value of repeated names). Numeric settings are cut to the largest 32-bit integer they reach (0 for negative numbers and NaN); settings of the wrong kind, unknown words, throwing getters and empty delimiters count as absent; the settings determine the options; empty settings equal the functions without settings. decode_pretty returns the same value, in the layout of the command line tool. Encoding and decoding under matching settings preserves the value. No call traps.", "quantifier": "every text, every JavaScript value as settings, including getters that throw", "why_tests_cant": "all numbers (fractions, negatives, NaN, infinities, huge), all wrong kinds of settings, all JSON texts", "anchors": ["src/wasm.rs: encode, encode_with_options, decode, decode_with_options, decode_pretty, parse_encode_options, parse_decode_options"]}
{"id": "C51", "title": "Numbers are read as IEEE 754 asks", "statement": "A number in a text (optional minus, digits, optional fraction, optional exponent) is decoded to the double nearest to the number written, ties to the even significand, with the sign written (the sign of zero is dropped); a number beyond the range of doubles is decoded to the text itself as a string. Every written number denotes exactly one double, and the meaning of texts holds with any correctly rounded reading of numbers.", "quantifier": "every number text of any length and exponent, every indentation and mode", "why_tests_cant": "rounding errors show up only on rare bit patterns: ties, subnormals, the edge of the range, thousands of digits", "anchors": ["src/decode/parser.rs: parse_primitive_token, parse_number", "src/shared/literal_utils.rs: is_numeric_literal"]}
{"id": "C52", "title": "Numbers are printed in the shortest form that reads back", "statement": "A finite number other than zero is encoded as the decimal without exponent and without superfluous zeros that has the fewest significant digits of all decimals read as that number, is the nearest to it among those, and the larger one if two are as near; this text is unique. The encoded text is as specified for any function that prints numbers this way. JSON output writes numbers with as few digits and as near, with fraction or exponent as the JSON library likes.", "quantifier": "every finite double, every value and options", "why_tests_cant": "2^64 doubles; shortest-digit bugs concern single bit patterns", "anchors": ["src/encode/primitives.rs: encode_primitive, format_number", "src/cli/json_stringify.rs"]}
{"id": "C53", "title": "What an error tells", "statement": "Decoding fails exactly with the first fault of the text, in reading order (indentation faults, in strict mode, before all others), and a text has either a meaning or exactly one fault. Lenient mode fails only on unterminated or trailing-garbage strings, bad escapes (naming the character), missing colons and declared lengths above 100000000 (naming the length). Strict mode adds faults of arrangement: an error naming a line names a line that has the fault (a tab in its indentation; the number of spaces found, which is no multiple of the size; a blank line between the first and last line of an array), and an error naming counts names the declared and the found one, which differ. With path expansion the only further failures are, in strict mode, the first conflict among the members (naming the key at which two entries meet that are not both objects, what stands there and what was to be put there) and nesting beyond 256. No other error is reachable.", "quantifier": "every text, every indentation size, both modes, with and without expansion", "why_tests_cant": "which of several faults is reported, and with which line and counts, must be right for every combination of faults at every depth", "anchors": ["src/decode/scanner.rs", "src/decode/parser.rs", "src/decode/validation.rs", "src/decode/decoders.rs", "src/decode/expand.rs", "src/error.rs"]}
{"id": "C54", "title": "Error messages tell errors apart", "statement": "Every failure of decoding has a non-empty message, and the message determines the failure: two failing calls with the same message failed for the same reason with the same line, counts, sizes, character, key and kinds, whatever characters the keys contain. The message tells the facts of the failure in a fixed order: the line, the declared and the found number or indentation, the kind of array, the offending escape, the key in conflict and the kinds of the two values. The messages about sequences of events do so too.", "quantifier": "every pair of texts and options", "why_tests_cant": "keys with quotes and message fragments, digits next to text: a collision needs a special pair of inputs", "anchors": ["src/error.rs", "src/decode/scanner.rs", "src/decode/parser.rs", "src/decode/validation.rs", "src/decode/expand.rs"]}
{"id": "C55", "title": "What the asynchronous stream answers", "statement": "Every answer of AsyncDecodeStream is determined by the lines, one at a time: a blank line gives nothing; an indentation that strict mode refuses gives an error and the line is skipped; the first line with text opens a root array, an object or is a primitive; each further line of an object gives a key and a primitive whatever its depth; from the first list item, array header or key without value on the lines are kept and decoded at the end as a document of their own, whose events follow although the object begun before is never ended; an error in a value overtakes the key and the start of the object found before it; after a primitive nothing more is read.", "quantifier": "every sequence of lines, every option combination, every number of polls", "why_tests_cant": "all histories of the state machine: mixtures of faults, kept lines and values in any order", "anchors": ["src/decode/async_decode.rs: AsyncDecodeStream, process_next, process_initial_line, process_simple_object_line, process_key_value_line, finalize, batch_decode_remaining, poll_next"]}
{"id": "C56", "title": "Nesting of decoded values is bounded by the text", "statement": "The nesting of a decoded value exceeds the deepest indentation of a line by at most three levels, and is at most twice the number of lines with text (at most one for the empty text); both bounds are attained. Without path expansion no line, however long, opens more than two levels, so the depth of recursion over a decoded value is bounded by its lines.", "quantifier": "every text, every indentation size, strict and lenient mode, without path expansion", "why_tests_cant": "arbitrarily deep documents; nested arrays on item lines open two levels at once", "anchors": ["src/decode/decoders.rs", "src/decode/event_builder.rs"]}
{"id": "C57", "title": "What the command line tool says and how it exits", "statement": "Whatever the operating system answers, a run of the tool ends in one of seven ways: stopped without effect; or with the input unread, unconverted, the output not created or not written, each reported on standard error by its message and status 1; or stopped while writing; or finished with status 0 after exactly the messages it owes. A conversion to a file reports what was converted to what; statistics report the two token estimates (the larger of a quarter of the characters that are not white space, the words, and one) and, if tokens were saved, how many and the percentage, to one digit and correctly rounded. The status is 0 or 1, or 134 when standard error refuses a message, or the process was killed. An input that is missing or not convertible is reported with status 1 if no call fails.", "quantifier": "every argument combination, every file content, every sequence of replies of the operating system (short writes, interruptions, errors, kill at any call), every buffer size", "why_tests_cant": "faults injected at every single call, combined with every kind of input", "anchors": ["src/main.rs", "src/cli/mod.rs: run, run_encode, run_decode, write_output, write_lines, write_chunks, format_input_label, estimate_tokens", "src/error.rs: Io"]}
{"id": "C58", "title": "Replacers that remember", "statement": "A replacer may keep state of its own (counters, logs). Encoding with one is a conversation: it is asked about the whole value first, then about each position in document order, each once (unless an object repeats a key), with the key or decimal index, the value found there and its path; what is inside a value is asked about directly after it, on the basis of the answer, and nothing inside a removed value is asked about. Each answer is given in the state left by the one before. There is exactly one such conversation, and the output and the last state of the replacer are its result. What is asked depends only on the value and the answers so far. A replacer that only looks sees every position exactly in document order and leaves the output unchanged; one without state behaves as described for replacers in general; and encoding ends if answers are not nested more deeply than what was asked about, from some depth on.", "quantifier": "every state type, every replacer, every value and option combination", "why_tests_cant": "order and number of the calls of a callback for every value shape and every history of answers", "anchors": ["src/encode/replacer.rs: apply_replacer, transform_children, transform_object, transform_array", "src/encode/mod.rs: encode_lines, encode_stream_events", "src/options.rs: EncodeReplacer"]}
{"id": "C59", "title": "The command line arguments", "statement": "The arguments are accepted exactly when each is an input, a documented flag (long, or letters -e and -d, also combined) or a documented option with its value (--name value, --name=value, -oVALUE, -o=VALUE, -o VALUE; after -- everything is input), nothing is said twice, every value is good (delimiter by one of seven names, indentation 0 to 16, depth a number below 2^64, modes off or safe, paths not empty), and not both directions are asked for. Then the tool works with what was said, with the documented defaults for the rest; the order and the spelling do not matter, and there is one way to read good arguments. Help and version are shown exactly when asked for before anything wrong. Everything else is reported on standard error with status 2, which means nothing else, and no file is read or changed. Every choice of settings within these limits can be made, whatever the names of the files.", "quantifier": "every list of arguments, every content of the file system, every sequence of replies of the operating system", "why_tests_cant": "the combinations of spellings, orders, repetitions and faulty values are unbounded", "anchors": ["src/cli/args.rs: Args, parse_delimiter", "src/cli/mod.rs: run", "src/main.rs"]}
{"id": "C60", "title": "Event sequences of any kind", "statement": "Building a value accepts exactly the sequences of one or more values whose members all have a key, and gives the last of them; keys that get no value are dropped without notice, though a quoted one is still remembered as quoted. Every other sequence is refused with an error that tells the first event that cannot stand where it does (an end without start, an end of the wrong kind, a key outside of an object, a value without key), or that something is not ended, or that there is nothing. The JSON writer accepts the same sequences and more: none at all, and arrays and objects without key in objects; its errors are just as exact. Several sequences one after the other are written one after the other. The messages of either tell its errors apart.", "quantifier": "every sequence of events, every indentation, every style of printing numbers", "why_tests_cant": "both functions are public and take any iterator; tests try a handful of malformed sequences", "anchors": ["src/decode/event_builder.rs: build_node_from_events", "src/cli/json_stream.rs: json_stream_from_events", "src/error.rs: EventStream"]}
{"id": "C61", "title": "Texts whose end is missing", "statement": "Take the first lines of an accepted text. If everything that was read is among them the value is the same. Otherwise the result is one of these: an empty object, if only blank lines are left; the value without some members at its end (the last member or item that is left may itself have lost members); or, in strict mode, the error that an array has fewer items or rows than its header declares. In strict mode no accepted array has lost an item, in lenient mode there is no error. The output of the encoder is needed to its last line: without it the value is never read in full. A value without objects, or a table, that is cut anywhere after its first line is refused in strict mode; for a table with the exact number of rows that are left. With path expansion, in strict mode, for a text whose objects have no key twice: a first part of an accepted text gives the same value, an empty object, the error for an incomplete array, or a value that agrees with the whole one up to members missing at the end of its objects; no new conflict arises. So the output of the encoder with folded keys, cut after any line, is refused as incomplete or gives the value without some members at the end of its objects.", "quantifier": "every text, every number of lines kept, every option combination without path expansion; with path expansion strict mode and distinct keys", "why_tests_cant": "every document shape times every place of the cut", "anchors": ["src/decode/scanner.rs", "src/decode/decoders.rs", "src/decode/validation.rs: assert_expected_count, validate_no_blank_lines_in_range", "src/encode/encoders.rs"]}
{"id": "C62", "title": "Texts that stand one after the other", "statement": "Take lines that start unindented. What they give after the text of an object (one that needs its last line) does not depend on the object: either they are the same members after every object, following the members of the object, or the same fault after every object, with its line counted from the start of the whole. The text of a second object gives its members, also those with keys that are there already; a primitive is refused for its missing colon; an array, where it is no fault, is taken for a member whose key starts with a bracket. After a root array everything that starts unindented is passed over without notice, only its indentation is checked in strict mode; after a primitive only blank lines may follow. The lines the encoder writes for the members a and then b are (without folding) the lines for a followed by the lines for b, and these are read as the members of both. With path expansion, and no key in quotes, what lines give after an object depends only on the value the object was expanded into: two texts with the same expanded value can stand for one another before any lines that start unindented. The folded texts of two objects that have no key in common and no dotted path as a key give, one after the other and with expansion, the members of both.", "quantifier": "every pair of texts, every option combination; with path expansion every pair of first texts with the same value; every pair of objects", "why_tests_cant": "every pair of document shapes; log files are built by appending", "anchors": ["src/decode/scanner.rs", "src/decode/decoders.rs: decode_stream_sync, decode_object_sync", "src/decode/validation.rs", "src/encode/encoders.rs: encode_object_lines"]}
{"id": "C63", "title": "Kinds of errors", "statement": "Decoding fails with a Validation error exactly when strict mode is on and some line that is not blank is not indented by whole levels of spaces, whatever else is wrong with the text, and the error's line is the number of the first such line. Every other decoding error is a Message. Building a value from events fails with a Message when the first fault is a value without a key in an object, and with an EventStream error for every other fault.", "quantifier": "every text, every option set; every event sequence", "why_tests_cant": "faults in any combination and order, lines at any place", "anchors": ["src/error.rs: ToonError, Display", "src/decode/scanner.rs: parse_line_incremental", "src/decode/event_builder.rs: apply_event, finalize_state"]}
{"id": "C64", "title": "Whitespace at the ends of lines", "statement": "Whitespace other than tabs at the end of a line is never seen: with and without it the decoder gives the same events, the same value or the same error, in both modes, for every indentation, with and without path expansion. So line feeds may be replaced by carriage return and line feed. The one exception is a line that is a hyphen alone (an empty object as item of a list): with a carriage return after it, it is no item any more, and the text is refused in strict mode and loses the item and what follows in lenient mode. The encoder writes such a line only for values with an empty object among the items of an array; for all others its text decodes the same with either kind of line end.", "quantifier": "every text (accepted or not), every choice of whitespace after each line, every option set; every value, delimiter, indentation and folding mode", "why_tests_cant": "every kind of line (rows, headers, quoted strings left open, keys, items) with every whitespace character", "anchors": ["src/decode/scanner.rs: parse_line_incremental", "src/decode/parser.rs", "src/decode/decoders.rs: is_list_item, decode_list_item_sync", "src/decode/validation.rs", "src/decode/mod.rs: try_decode", "src/encode/encoders.rs"]}
{"id": "C65", "title": "Depth of calls", "statement": "While a text is decoded, accepted or not, at most 3d+5 of the mutually recursive decoding functions are open at one time, where d is the deepest indentation of a line (4 when nothing is indented), and at most four for each line with text; when a line is indented wrongly only the outermost. A decoded value of n levels was read by at least n open calls, and for every n some text of n levels is accepted: the depth of the stack is bounded by the text and by nothing else. Encoding a value of n levels, with any options, opens at most 3n+1 calls at one time, and at least n when keys are not folded and not repeated. Expanding dotted names never opens more than 258 calls at one time, whatever the document, and no more than one for each level the expansion can go through and one more; 258 exactly when the document is refused for its depth; an expanded document needed one for each level that every expansion goes through and one more. The upper bounds are attained.", "quantifier": "every text (accepted or not), every indentation size, both modes; every value and every option set", "why_tests_cant": "texts and values of every depth; a stack overflow depends on the machine, the depth of calls does not", "anchors": ["src/decode/decoders.rs: decode_stream_sync, decode_key_value_sync, decode_object_fields_sync, decode_array_from_header_sync, decode_list_array_sync, decode_list_item_sync", "src/encode/encoders.rs: encode_json_value, encode_object_lines, encode_key_value_pair_lines, encode_array_lines, encode_mixed_array_as_list_items_lines, encode_list_item_value_lines, encode_object_as_list_item_lines", "src/decode/expand.rs: expand_paths_safe, expand_object, insert_path_entries, insert_literal_entry, merge_objects"]}
{"id": "C66", "title": "Replacing a word", "statement": "In a line of an accepted text replace a word by another: text without quotes, backslashes, delimiters, colons, brackets and braces that neither starts nor ends with whitespace, with no backslash right before it and no colon, bracket or brace after it in the line (and not a list hyphen at the start of the line). The new text is accepted too, and its value is the old one with exactly one primitive value replaced, at the same place: the one read from the token with the word in it, which is now read from the same token with the new word. There are only two exceptions, where the value stays the same: the line is not read at all, so that the lines before it already give the value; or, in lenient mode, the word is in a cell that is dropped. The events differ in one primitive at most. So whether a text is accepted does not depend on such words. In the same way the key of a line (a word after the indentation or an item's hyphen, followed by a colon and a rest without '[', or by the header of an array) can be replaced: the new text is accepted, and exactly one member has another name (or, where the line is read as a row of a table or as a primitive item, one value is replaced, or the line is not read), with one key event changed at most. With path expansion a replaced word does not matter either: both texts are refused with the same error, or both are accepted and the values differ in exactly that one primitive, with the same two exceptions (in lenient mode the value may be dropped by the expansion).", "quantifier": "every text, line, word and replacement, every option combination (for keys: without path expansion)", "why_tests_cant": "every kind of line (members, inline arrays, rows, items, quoted strings) in every document shape", "anchors": ["src/decode/parser.rs", "src/decode/decoders.rs", "src/decode/validation.rs: is_data_row, validate_no_extra_tabular_rows", "src/decode/scanner.rs"]}
{"id": "C67", "title": "One value replaced, one line changed", "statement": "Replace one primitive value, anywhere in a value, by another primitive value. The text of the new value has the same number of lines and differs from the text of the old one in at most one line, with any delimiter, indentation, folding mode and flatten depth: no other array becomes a table or stops being one, and no key is folded differently. If no object has a key twice, the line is the same except that the token of the new value stands where the token of the old one was. Give one member another name, anywhere but in a table (before or after): without folded keys the text has the same number of lines and differs in one line, where the new name stands in place of the old one. With folding the same holds, whether or not the name is part of a folded key, if both names are identifiers and no key of the value has a dot. Rename a field of a table in all rows, to a name no row has: with any options only the header of the table changes, where the new name stands in place of the old one.", "quantifier": "every value, every place in it, every pair of primitive values, every option set without replacer", "why_tests_cant": "every nesting of tables, lists, inline arrays and folded keys around the changed value", "anchors": ["src/encode/encoders.rs", "src/encode/primitives.rs: encode_primitive", "src/encode/folding.rs: try_fold_key_chain", "src/encode/normalize.rs"]}
{"id": "C68", "title": "Folded keys and the length of the text", "statement": "With keys folded, with any flatten depth, the text of a value is the same as without folding, or it has fewer lines and is shorter by at least one character, and one byte, for every line saved. (A greater flatten depth does not always give a shorter text.)", "quantifier": "every value, indentation, delimiter and flatten depth", "why_tests_cant": "every nesting of single-member objects between tables, lists and arrays, with clashing keys", "anchors": ["src/encode/folding.rs: try_fold_key_chain", "src/encode/encoders.rs: encode_key_value_pair_lines"]}
{"id": "C69", "title": "Never longer than indented JSON", "statement": "The text of an object, of a list of primitives that is not empty, or of a table is never longer, in characters and in bytes, than the JSON text the tool itself writes for the same value with the same indentation of at least two spaces, with any folding mode: provided no object has a key twice, no item of an array is an empty array, and no number needs more characters written out than its JSON text has (numbers that JSON prints without exponent never do). Without any one of the last two conditions, for other arrays at the root, and without indentation there are values whose text is longer.", "quantifier": "every value of these shapes, indentation of two spaces or more, ASCII delimiter, folding mode and flatten depth", "why_tests_cant": "all nestings of tables, lists, inline arrays and quoted strings; the headers cost more the more lines there are", "anchors": ["src/encode/encoders.rs", "src/encode/primitives.rs", "src/cli/json_stringify.rs"]}
{"id": "C70", "title": "The text is composed from the texts of the parts", "statement": "Without folded keys: the lines of an object are the lines of its members one after the other, so members can be added, removed and reordered without touching other lines; a member with an object as value is its key and the lines of the object one level deeper, a member with an array is the lines of the array with the key before the first, a member with a primitive its key and the token; an array that is neither of primitives nor a table is its header and one block per item, and each block is the text of the item with a hyphen before its first line (an array of equal objects is not a table there); the rows of two tables with the same fields are the rows of the joined table. With folded keys the lines of a member depend on the other members, but only through keys with dots: where no key at the root has a dot, the lines of an object are still those of its members, and the lines of an object with no or several members under a key are its lines one level deeper. Members with primitives and arrays, and the rows of tables, are composed as without folding; so are the items of arrays, if no item is an object with a dotted key or with a first member that could be folded (in an item it is not). In any case, whatever is folded, every value has one block of lines that it contributes to every array written as a list, and every row one line that it contributes to every table with given fields: items and rows can be added, removed and reordered without touching the lines of others.", "quantifier": "every value, indentation, delimiter, flatten depth", "why_tests_cant": "all shapes and nestings of the parts", "anchors": ["src/encode/encoders.rs: encode_object_lines, encode_key_value_pair_lines, encode_array_lines, encode_list_item_value_lines, encode_object_as_list_item_lines, encode_array_of_objects_as_tabular_lines"]}
{"id": "C71", "title": "The JSON text, character by character", "statement": "The JSON text of a value is fixed: without indentation everything is on one line with no space outside strings; with indentation n there is one line for every primitive value and every empty array or object, one for the opening and one for the closing sign of every other array or object, a member's name and ': ' before the first line of its value, a comma at the end of the last line of every item and member except the last, and n spaces per level before each line. In strings the quote, the backslash, line feed, carriage return and tab are written as a backslash and a sign, other control characters below 32 as \\u00 and two lower-case hexadecimal digits (the writer used without path expansion writes backspace and form feed as \\b and \\f; the one used with path expansion also writes 127 to 159 by number), and everything else as it is. Numbers JSON cannot express are null. The tool writes exactly this text, with the indentation it was told to read the document with; the JavaScript bindings write it with no indentation or with two spaces, keeping the last value of repeated names. Splitting the text at line feeds gives the lines back.", "quantifier": "every value, indentation, number format of the JSON library, document and option set", "why_tests_cant": "every nesting of arrays and objects, every position of a comma or line break, every character in a string", "anchors": ["src/cli/json_stringify.rs", "src/cli/json_stream.rs", "src/cli/conversion.rs: decode_to_json_chunks", "src/wasm.rs: decode, decode_pretty"]}
{"id": "C72", "title": "The order of members", "statement": "Put the members of the objects of a document in another order, at any level. With paths expanded in strict mode the new document is accepted if and only if the old one is, and the values are the same up to the order of members; conflicts between paths do not depend on which member comes first (for documents whose nesting is not near the limit of 256 levels; otherwise the only other answer is the error about nesting, and there the order can decide whether a text is accepted). Without path expansion the values are always the same up to order. In particular the lines of one object may stand before or after the lines of another. In lenient mode with path expansion the order decides: the later member wins. Where the elements of an array at the root, not all of them primitives, stand on one line each (the rows of a table, or items without lines under them), putting these lines in another order puts the elements in that order, in strict and in lenient mode, with and without path expansion.", "quantifier": "every pair of documents with the same members in different order, every indentation; every pair of texts of objects; every array with one line for each element and every order of these lines", "why_tests_cant": "all overlapping dotted paths, quoted keys, nested objects and orders", "anchors": ["src/decode/expand.rs", "src/decode/decoders.rs", "src/decode/event_builder.rs"]}
{"id": "C73", "title": "What path expansion can make of a value", "statement": "Decoding with path expansion never gives a larger value than decoding without it, when values and characters of keys are counted together, and gives at most one value more for each dot in a key. It nests no deeper than the document does when every dot on the way counts as one level more. Whatever the text, the result has at most 16132 levels, and a text attains this. The limit of 256 on the depth of expansion is therefore no limit on the nesting of the result: two lines are enough for 300 levels.", "quantifier": "every text accepted with path expansion, every indentation size, both modes", "why_tests_cant": "The size and depth of a result depend on the combination of nested keys and on how members meet; the worst case needs 126 nested objects whose keys have 253, 251, ... segments, and that no text exceeds it is a statement about all texts.", "anchors": ["src/decode/expand.rs: expand_paths_safe, insert_path_entries, insert_literal_entry, merge_objects", "src/decode/mod.rs: try_decode"]}
{"id": "C74", "title": "A text under a key", "statement": "Indent the lines of a text by one level and put a line with a key and a colon before them. If the text is an object by itself, the new text is the object whose only member is that key with the object as value; if decoding the text fails, decoding the new text fails with the same error, moved down one line and (where a column count is told) to the right, provided the text starts like an object. In every case the indented lines mean what they mean after an object: the same members, or the same fault. A primitive under a key is refused. A key right before the header of an array gives the member of that name with the same elements, or the same error on the same line; a key, a colon and a space before a primitive give the member with that primitive. Texts without blank lines, each with a hyphen before its first line and its other lines moved right, are the items of a list with the values they have by themselves. With path expansion, a text that starts like an object is put at the path that the key before it is (one key, if it is in quotes or no dotted path), with the value or the error it has by itself, unless the new text exceeds the limit on the depth. (Otherwise path expansion is off; indentation of at least one space; the text starts unindented.)", "quantifier": "every text, key written bare or quoted, indentation size, both modes", "why_tests_cant": "every nesting and every fault in the text, at every depth; moving it changes the depth of each line and the line numbers in each error", "anchors": ["src/decode/scanner.rs", "src/decode/decoders.rs", "src/decode/parser.rs: parse_array_header_line, parse_key_token", "src/decode/validation.rs"]}
{"id": "C75", "title": "The first fault decides", "statement": "If the first lines of a text are refused with an error, the text is refused with the same error, whatever lines follow, except that in strict mode a fault of indentation in the lines that follow is reported instead (at its line in the whole text), since indentation is checked first. Left out are errors that the end of the lines itself causes: an array that is too short, a blank line in a list (whose last item may go on), a single line without a colon (a primitive as long as nothing follows), and errors of path expansion. Except for arrays that are too short and for path expansion, lines that are refused can in no case be continued to an accepted text.", "quantifier": "every text, every continuation, every option combination", "why_tests_cant": "every fault at every place and every continuation of the text", "anchors": ["src/decode/scanner.rs", "src/decode/decoders.rs", "src/decode/validation.rs", "src/decode/mod.rs: try_decode, try_decode_from_lines"]}
