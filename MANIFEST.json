{
 "claims": [
  {
   "property": "C01",
   "status": "proved",
   "theorems": [
    "C01_round_trip_exactly",
    "C01_survival_same_for_all_options",
    "C01_round_trip",
    "C01_round_trip_equiv"
   ],
   "note": "C01_round_trip_exactly: among the values with distinct keys per object (and fewer than 2^64 items per array, as memory demands) exactly the portable ones (Spec.portable: arrays up to the decoder's cap, no '}' in a table column, no header-like string under an unquoted key outside tables) come back, for every delimiter, indentation and mode; each exclusion is witnessed by an Example."
  },
  {
   "property": "C02",
   "status": "proved",
   "theorems": [
    "C02_round_trip_exactly",
    "C02_exact_round_trip",
    "C02_exact_round_trip_canonical"
   ],
   "note": "C02_round_trip_exactly: the value itself comes back exactly if it is portable and the rows of its tables list their fields in one order."
  },
  {
   "property": "C03",
   "status": "proved",
   "theorems": [
    "C03_primitive_tokens_round_trip",
    "C03_cell_round_trip"
   ],
   "note": "Every primitive with a JSON-expressible number, every delimiter character; whole rows for the three delimiters."
  },
  {
   "property": "C04",
   "status": "proved",
   "theorems": [
    "C04_number_fidelity",
    "C04_number_text"
   ],
   "note": "Relative to the model of f64 printing/parsing (Floats.v): correctly rounded parse and shortest print, the documented contract of the Rust standard library."
  },
  {
   "property": "C05",
   "status": "proved",
   "theorems": [
    "C05_escape_lossless",
    "C05_quote_safe",
    "C05_escaped_has_no_control",
    "C05_quoted_literal"
   ],
   "note": ""
  },
  {
   "property": "C06",
   "status": "proved",
   "theorems": [
    "C06_key_line_round_trip",
    "C06_header_round_trip"
   ],
   "note": "Key lines and array headers; the nested-object line is the key line with empty rest."
  },
  {
   "property": "C07",
   "status": "proved",
   "theorems": [
    "C07_strings_keep_structure_folded",
    "C07_strings_keep_structure",
    "C07_strings_keep_structure_refuted"
   ],
   "note": "Holds for strings everywhere except under unquoted keys (C07_strings_keep_structure, for every replacement of every string); C07_strings_keep_structure_refuted gives the failing documents under unquoted keys, where even a quoted value is taken for an array header. C07_strings_keep_structure_folded: the same with key folding and path expansion, if no key is a dotted path."
  },
  {
   "property": "C08",
   "status": "proved",
   "theorems": [
    "C08_field_names_exactly",
    "C08_other_headers_refused",
    "C08_field_names_survive",
    "C08_field_names_refuted"
   ],
   "note": "C08_field_names_exactly and C08_other_headers_refused are the exact statement; the header parser looks for the first '}' without regard to quotes (parser.rs:70-84), so that every name survives is false (C08_field_names_refuted)."
  },
  {
   "property": "C09",
   "status": "proved",
   "theorems": [
    "C09_strict_implies_lenient_events",
    "C09_strict_implies_lenient_value"
   ],
   "note": "Events and values, with and without path expansion."
  },
  {
   "property": "C10",
   "status": "proved",
   "theorems": [
    "C10_events_agree_folded",
    "C10_folded_refuted",
    "C10_events_agree_exactly",
    "C10_events_agree"
   ],
   "note": "C10_events_agree_exactly: the events agree exactly for the portable values whose table rows list their fields in one order. C10_events_agree_folded and C10_folded_refuted: with key folding."
  },
  {
   "property": "C11",
   "status": "proved",
   "theorems": [
    "C11_re_encoding_folded",
    "C11_folded_unexpanded_refuted",
    "C11_re_encoding_stable"
   ],
   "note": "C11_re_encoding_folded: folding, then path expansion, values as in C13. C11_folded_unexpanded_refuted: not without path expansion."
  },
  {
   "property": "C12",
   "status": "proved",
   "theorems": [
    "C12_injective_folded",
    "C12_injective",
    "C12_injective_uniform"
   ],
   "note": "C12_injective_folded: two folding depths may differ, the indentation may not."
  },
  {
   "property": "C13",
   "status": "proved",
   "theorems": [
    "C13_fold_expand_lossless",
    "C13_fold_expand_exact",
    "C13_fold_expand_exactly"
   ],
   "note": "Every value as in C01 nested within the expansion limit, every flatten depth, strict and lenient; the value comes back exactly when no key is a dotted path (C13_fold_expand_exactly)."
  },
  {
   "property": "C14",
   "status": "proved",
   "theorems": [
    "C14_no_duplicates_refuted",
    "C14_no_duplicates"
   ],
   "note": "C14_no_duplicates with the exception of the statement (Spec.no_item_clash); without it the claim is false (C14_no_duplicates_refuted)."
  },
  {
   "property": "C15",
   "status": "proved",
   "theorems": [
    "C15_encoder_total"
   ],
   "note": "Without replacer; with a replacer see C29/C30."
  },
  {
   "property": "C16",
   "status": "proved",
   "theorems": [
    "C16_lines_clean"
   ],
   "note": ""
  },
  {
   "property": "C17",
   "status": "proved",
   "theorems": [
    "C17_decode_terminates",
    "C17_bound_plays_no_part"
   ],
   "note": "No text makes the decoder model run out of its recursion bound of 5 steps per line plus 8, and with any larger bound it gives the same result (C17_bound_plays_no_part), so the bound is no part of the meaning."
  },
  {
   "property": "C18",
   "status": "proved",
   "theorems": [
    "C18_events_well_formed",
    "C18_grammar_is_unambiguous"
   ],
   "note": "The grammar (Spec.describes) is an inductive relation independent of the decoder; it determines the value uniquely."
  },
  {
   "property": "C19",
   "status": "proved",
   "theorems": [
    "C19_build_total",
    "C19_value_is_events"
   ],
   "note": ""
  },
  {
   "property": "C20",
   "status": "proved",
   "theorems": [
    "C20_strict_lengths",
    "C20_strict_row_widths"
   ],
   "note": "Lengths at document level; row widths for every table at any depth."
  },
  {
   "property": "C21",
   "status": "proved",
   "theorems": [
    "C21_length_cap"
   ],
   "note": ""
  },
  {
   "property": "C22",
   "status": "proved",
   "theorems": [
    "C22_strict_indentation"
   ],
   "note": ""
  },
  {
   "property": "C23",
   "status": "proved",
   "theorems": [
    "C23_lenient_ignores_blank_lines",
    "C23_removing_blank_lines",
    "C23_blank_lines_at_the_end",
    "C23_final_line_feed",
    "C23_strict_blank_lines"
   ],
   "note": "Lenient: only the non-blank lines matter, for events, value and error. Both modes: removing blank lines from an accepted document changes nothing, and blank lines at the end (a final line feed) never matter, errors included. Strict (C23_strict_blank_lines): a text gives what it gives without its blank lines, or the complaint about one of its blank lines."
  },
  {
   "property": "C24",
   "status": "proved",
   "theorems": [
    "C24_no_blank_line_inside_array",
    "C24_blank_line_in_root_array",
    "C24_exactly",
    "C24_error"
   ],
   "note": "C24_exactly: whole documents, both directions; SpecGap.body says which lines are the rows or items of an array that is not itself inside one (a gap inside an inner array is a gap in the outer one). C24_error: otherwise the error names a blank line. C24_no_blank_line_inside_array: the array decoder with line numbers, for arrays inside arrays as well; C24_blank_line_in_root_array: root arrays."
  },
  {
   "property": "C25",
   "status": "proved",
   "theorems": [
    "C25_expansion_unique_keys",
    "C25_no_path_left"
   ],
   "note": "Every text, every option set with expansion."
  },
  {
   "property": "C26",
   "status": "proved",
   "theorems": [
    "C26_expansion_identity",
    "C26_every_stream_is_a_document",
    "C26_unfolded_expand_exactly"
   ],
   "note": "On the decoded event stream, which always spells a document (C26_every_stream_is_a_document), and for encoded values in both directions (C26_unfolded_expand_exactly)."
  },
  {
   "property": "C27",
   "status": "proved",
   "theorems": [
    "C27_strict_expansion_lossless"
   ],
   "note": "The expanded value contains exactly the leaves of the document, each at its path (Spec.expands_to), and has the same number of leaves."
  },
  {
   "property": "C28",
   "status": "proved",
   "theorems": [
    "C28_decoded_numbers",
    "C28_normal_form",
    "C28_nothing_else_changes",
    "C28_events_have_json_numbers"
   ],
   "note": "Every value, every option set, every (pure) replacer."
  },
  {
   "property": "C29",
   "status": "proved",
   "theorems": [
    "C29_replacer_meaning",
    "C29_replacer_meaning_only",
    "C29_replacer_deterministic",
    "C29_identity_replacer",
    "C29_dropping_replacer",
    "C29_leaf_replacer"
   ],
   "note": "Replacers are pure functions of key, value and path (the Rust type allows interior state, which is not modelled). The meaning of replacement is the relation SpecReplace.replaced_root."
  },
  {
   "property": "C30",
   "status": "proved",
   "theorems": [
    "C30_replacement_terminates_refuted",
    "C30_recursion_depth",
    "C30_terminates_exactly",
    "C30_ranked_replacement_terminates",
    "C30_replacement_terminates"
   ],
   "note": "C30_terminates_exactly and C30_recursion_depth are the exact statement (SpecReplace.deep_root); that it always returns is false (C30_replacement_terminates_refuted: no recursion depth suffices). Stack size is not modelled."
  },
  {
   "property": "C31",
   "status": "proved",
   "theorems": [
    "C31_event_stream_agrees",
    "C31_event_stream_exists",
    "C31_poll_total",
    "C31_line_stream_agrees",
    "C31_line_count",
    "C31_async_functions_agree"
   ],
   "note": "Every poll number; both streams and the collecting functions. Poll never returns Pending in the code."
  },
  {
   "property": "C32",
   "status": "proved",
   "theorems": [
    "C32_arrays_and_primitives_agree",
    "C32_flat_objects_agree",
    "C32_encoder_output_agrees",
    "C32_async_functions_agree",
    "C32_stream_agrees_refuted",
    "C32_agrees_exactly"
   ],
   "note": "C32_agrees_exactly is the exact statement; the unrestricted agreement is false (C32_stream_agrees_refuted gives five documents, two of them written by the encoder)."
  },
  {
   "property": "C33",
   "status": "proved",
   "theorems": [
    "C33_stream_ends_refuted",
    "C33_polls_answer_and_settle",
    "C33_stream_ends",
    "C33_ends_exactly"
   ],
   "note": "C33_ends_exactly is the exact statement (answers ... None of SpecStream.v: derivations without a failing end); that the stream always ends is false (C33_stream_ends_refuted)."
  },
  {
   "property": "C34",
   "status": "proved",
   "theorems": [
    "C34_prints_exactly_when_decoded",
    "C34_output_is_the_decoded_value",
    "C34_any_value_any_writer",
    "C34_numbers",
    "C34_malformed_stream_rejected_refuted",
    "C34_output_in_grammar"
   ],
   "note": "Reading back uses an RFC 8259 reader proved equivalent to an inductive grammar (JsonGrammar.v). Number style (where serde_json switches to exponents) is a parameter. Refuted: the event writer also accepts malformed streams, which the decoder never produces."
  },
  {
   "property": "C35",
   "status": "proved",
   "theorems": [
    "C35_writers_agree",
    "C35_code_paths_agree"
   ],
   "note": "Proved as an equivalence: the two texts are equal if and only if no string or key has a backspace, form feed, DEL or C1 control character."
  },
  {
   "property": "C36",
   "status": "proved",
   "theorems": [
    "C36_output_is_a_prefix",
    "C36_failed_conversion_changes_nothing",
    "C36_success_is_complete",
    "C36_success_misses_at_most_a_buffer",
    "C36_complete_without_failures",
    "C36_output_determined",
    "C36_success_is_complete_refuted",
    "C36_input_survives_refuted"
   ],
   "note": "For every list of answers of the operating system (short writes, interrupted calls, errors, being killed at any call) and every buffer size, over the whole process including messages and the exit. The unrestricted claim is false (C36_success_is_complete_refuted); C36_success_misses_at_most_a_buffer bounds the loss. Also found: in-place conversion can lose the input (C36_input_survives_refuted). One simplification: reading the input is one call."
  },
  {
   "property": "C37",
   "status": "proved",
   "theorems": [
    "C37_mode",
    "C37_extension",
    "C37_delimiter",
    "C37_delimiter_standard",
    "C37_encode_defaults",
    "C37_decode_defaults",
    "C37_stats_only_adds_messages",
    "C37_other_direction",
    "C37_estimate_positive"
   ],
   "note": "Path::extension of the standard library is modelled on Unix paths made of characters and proved equal to an independent description. clap's own checks (indent at most 16, conflicting flags) are trusted."
  },
  {
   "property": "C38",
   "status": "proved",
   "theorems": [
    "C38_there_and_back",
    "C38_identity",
    "C38_repeated_names",
    "C38_from_serde_normal",
    "C38_integers_exact",
    "C38_i64_exact",
    "C38_f64",
    "C38_integers_representable",
    "C38_large_integers_refuted"
   ],
   "note": "Identity for values with finite numbers other than negative zero and unique names; the general law (last value at the first place, non-finite to null, negative zero to zero) for all values; integers exact iff some double is the integer, 53 bits with any shift are; refuted beyond (2^53+1)."
  },
  {
   "property": "C39",
   "status": "proved",
   "theorems": [
    "C39_scanner_runs",
    "C39_header_runs",
    "C39_primitive_runs",
    "C39_numbers_run",
    "C39_number_tests",
    "C39_key_runs",
    "C39_classification_runs",
    "C39_searches_run",
    "C39_bytes_and_characters",
    "C39_slices",
    "C39_subtraction",
    "C39_utf8"
   ],
   "note": "ByteLevel.v transcribes the text handling of scanner.rs, parser.rs, string_utils.rs, literal_utils.rs and the slices in decoders.rs, validation.rs and async_decode.rs with byte indices, panicking slices, panicking indexing and panicking usize subtraction. For every UTF-8 text every one of these functions runs without panic and without exhausting its loop bound, and computes the encoding of what the character-level model computes (C39_bytes_and_characters, C39_number_tests). That the arguments are UTF-8 texts is the type &str of Rust. Stack overflow and allocation failure are not modelled. C39_slices states when a slice panics: exactly when an end is not between two characters."
  },
  {
   "property": "C40",
   "status": "proved",
   "theorems": [
    "C40_no_content_undecoded_refuted",
    "C40_over_indented_line_hides_rest",
    "C40_lines_read",
    "C40_flat_documents_read"
   ],
   "note": "C40_lines_read is the exact statement; that nothing stays unread is false (C40_no_content_undecoded_refuted), in both ways named."
  },
  {
   "property": "C41",
   "status": "proved",
   "theorems": [
    "C41_folding_is_presentation",
    "C41_presentation_only"
   ],
   "note": "C41_presentation_only: without folding and expansion. C41_folding_is_presentation: any two option sets, each of which folds with expansion or does neither, for values as in C13."
  },
  {
   "property": "C42",
   "status": "proved",
   "theorems": [
    "C42_encode_is_joined_lines",
    "C42_decode_lines_is_text",
    "C42_text_is_decode_lines"
   ],
   "note": ""
  },
  {
   "property": "C43",
   "status": "proved",
   "theorems": [
    "C43_strict_events_linear",
    "C43_lenient_events_quadratic"
   ],
   "note": "Strict: linear in characters and lines. Lenient: product of line count and longest line."
  },
  {
   "property": "C44",
   "status": "proved",
   "theorems": [
    "C44_table_rows",
    "C44_root_table"
   ],
   "note": "Any table at any depth (decoder level) and root tables (document level); strict and lenient."
  },
  {
   "property": "C45",
   "status": "proved",
   "theorems": [
    "C45_integers_read_back",
    "C45_json_to_toon",
    "C45_wrapper_is_tool",
    "C45_toon_to_json",
    "C45_json_round_trip",
    "C45_wrapper_and_tool_agree",
    "C45_repeated_names_lost_refuted"
   ],
   "note": "serde_json is modelled (number kinds, insertion-ordered maps, nesting limit, RFC 8259 grammar); the reading of literals with fraction or exponent is a parameter. The reference reader is proved equivalent to an inductive RFC 8259 grammar. Round trip under the same portability condition as C01. C45_integers_read_back: the integers of the model of the JSON library are printed so that they are read back (the program itself prints only numbers with a fraction)."
  },
  {
   "property": "C46",
   "status": "proved",
   "theorems": [
    "C46_encoded_text",
    "C46_encoded_text_default",
    "C46_one_text",
    "C46_tables",
    "C46_no_other_characters"
   ],
   "note": "SpecText.v specifies the lines of a value relationally and without the helpers of the model; C46_encoded_text is an equivalence, C46_one_text uniqueness. The digits of a non-zero number are those of f64::to_string (standard library), see C04 for their properties."
  },
  {
   "property": "C47",
   "status": "proved",
   "theorems": [
    "C47_white_space",
    "C47_decoded_events",
    "C47_decoded_value",
    "C47_decoded_value_default",
    "C47_one_meaning",
    "C47_rejected",
    "C47_no_other_characters"
   ],
   "note": "SpecRead.v states the meaning on decompositions of the text (no functions of the model); equivalence in both directions for events and values, uniqueness, rejection. Path expansion is off; with expansion see C25-C27. The decimal reader is the concrete correctly rounded parse_f64 of Floats.v."
  },
  {
   "property": "C48",
   "status": "proved",
   "theorems": [
    "C48_expanded_value",
    "C48_every_expansion_returned",
    "C48_rejected",
    "C48_too_deep",
    "C48_expansion_is_a_function",
    "C48_lenient_always_expands",
    "C48_strict_and_lenient"
   ],
   "note": "Specification in SpecExpand.v (gathers, expands) on top of the reading relation of C47. Soundness for every text; completeness for documents whose nesting measure doc_levels is at most 256 (the limit MAX_EXPAND_DEPTH of the code); documents that are nested deeper than 256 are refused (C48_too_deep; the two measures differ only by what members that meet may need); every rejection is explained; expansion is a function, total in lenient mode, and strict agrees with lenient."
  },
  {
   "property": "C49",
   "status": "proved",
   "theorems": [
    "C49_pipe",
    "C49_files",
    "C49_toon_pipe",
    "C49_pipe_folded",
    "C49_files_folded",
    "C49_toon_pipe_folded"
   ],
   "note": "C49_pipe: any behaviour of the operating system, both exit statuses 0. C49_files: through a file when no call fails (C36 shows why the exit status alone is not enough there). C49_pipe_folded and C49_files_folded: the same when the decoder expands paths, whether or not the encoder folds keys, if no key is a dotted path; the nesting limit of expansion is never met because the JSON library limits the nesting of the input. C49_toon_pipe, C49_toon_pipe_folded: the other direction, with any decoding options for the first process; its hypothesis on numbers is needed because serde_json is built without float_roundtrip and may misread the last digit of a fraction. C46_no_other_characters and C47_no_other_characters: no character is invented. The value must be portable (C07, C08)."
  },
  {
   "property": "C50",
   "status": "proved",
   "theorems": [
    "C50_round_trip_folded",
    "C50_encode",
    "C50_decode",
    "C50_settings",
    "C50_pretty",
    "C50_round_trip"
   ],
   "note": "Wasm.v models src/wasm.rs on a JavaScript value type (kinds, property access that may throw); usize has 32 bits there. wasm-bindgen itself (string conversion, exception objects) and the panic hook are outside. The example C50_negative_indent shows that a negative indent silently becomes 0, with which a text cannot be read back. C50_round_trip_folded: the round trip when the decoder expands paths, whether or not the encoder folds keys, if no key is a dotted path."
  },
  {
   "property": "C51",
   "status": "proved",
   "theorems": [
    "C51_number_read",
    "C51_one_double",
    "C51_decoded_value",
    "C51_such_a_function",
    "C51_decode_number"
   ],
   "note": "Reading numbers: the model's str::parse::<f64> proved to be round-to-nearest-even over the rationals (SpecNum.rounds_to) for every digit string; C47's reading specification then holds for any correctly rounded function; a document that is one number text decodes to that double or, when infinite, to the string."
  },
  {
   "property": "C52",
   "status": "proved",
   "theorems": [
    "C52_printed",
    "C52_encoded_text",
    "C52_such_a_function",
    "C52_encode_number",
    "C52_json_numbers"
   ],
   "note": "Printing numbers: f64_to_string proved to give the unique shortest, then nearest (upper on ties) plain decimal that rounds back; C46's text specification then holds for any function with that contract; JSON numbers are proved shortest and nearest for every style of the JSON library."
  },
  {
   "property": "C53",
   "status": "proved",
   "theorems": [
    "C53_stream_error",
    "C53_decode_error",
    "C53_one_verdict",
    "C53_expand_error",
    "C53_expand_error_complete",
    "C53_conflict_or_expansion",
    "C53_errors_name_the_fault"
   ],
   "note": "Grammar of failing texts in SpecError.v and of first conflicts in SpecExpand.v; stream and decoder failures are exactly its derivations; uniqueness; with expansion, soundness and completeness (a document that both has a conflict and exceeds the depth limit may report either)."
  },
  {
   "property": "C54",
   "status": "proved",
   "theorems": [
    "C54_message_tells_error",
    "C54_every_error_has_a_message",
    "C54_message_tells_facts",
    "C54_event_messages"
   ],
   "note": "message in ErrText.v; injective on the errors decoding can raise. facts (SpecMessage.v) lists what each message has to tell, in order; the words between are left open."
  },
  {
   "property": "C55",
   "status": "proved",
   "theorems": [
    "C55_every_poll",
    "C55_polled"
   ],
   "note": "SpecStream.v states the answers on decompositions of the lines, without the functions of the model."
  },
  {
   "property": "C56",
   "status": "proved",
   "theorems": [
    "C56_nesting_bounded"
   ],
   "note": "Two bounds on the nesting of the decoded value: by the deepest indentation (plus three) and by the number of lines with text (twice); an example attains both. With path expansion dotted keys open further levels; C73 bounds the result (the limit of 256 in the code does not)."
  },
  {
   "property": "C57",
   "status": "proved",
   "theorems": [
    "C57_everything",
    "C57_success",
    "C57_failure",
    "C57_statuses",
    "C57_failures_are_reported",
    "C57_estimates_determined",
    "C57_estimate"
   ],
   "note": "C57_everything is the complete description (SpecCli.happens). What serde_json says about a text that is no JSON is a parameter; inputs are shorter than 2^64 characters. The percentage is computed in f64 and proved within half a digit plus 10^-12. Defect: a message that cannot be written aborts the tool (134) although its output is complete (C57_example)."
  },
  {
   "property": "C58",
   "status": "proved",
   "theorems": [
    "C58_conversation",
    "C58_one_conversation",
    "C58_questions_follow_answers",
    "C58_each_position_once",
    "C58_observer",
    "C58_positions",
    "C58_terminates",
    "C58_stateless"
   ],
   "note": "The state is threaded through the calls (ReplacerState.v); a conversation is SpecAsk.asked_root with its answers. Panics inside the closure and simultaneous use from several threads are not modelled."
  },
  {
   "property": "C59",
   "status": "proved",
   "theorems": [
    "C59_accepts",
    "C59_help",
    "C59_version",
    "C59_usage",
    "C59_order",
    "C59_one_reading",
    "C59_every_setting",
    "C59_tool",
    "C59_statuses",
    "C59_shown"
   ],
   "note": "Both directions: acceptance and meaning against an inductive description of spellings (SpecArgs) that does not mention the parser. clap itself is a library; its behaviour for this command is modelled as a contract."
  },
  {
   "property": "C60",
   "status": "proved",
   "theorems": [
    "C60_built",
    "C60_build_fails",
    "C60_written",
    "C60_write_fails",
    "C60_builder_is_stricter",
    "C60_one_after_another",
    "C60_proper_sequences",
    "C60_messages"
   ],
   "note": "The documentation of both functions says that malformed sequences are errors; the theorems say which of them are."
  },
  {
   "property": "C61",
   "status": "proved",
   "theorems": [
    "C61_truncated_lines",
    "C61_truncated_text",
    "C61_shortened_differs",
    "C61_truncated_output",
    "C61_arrays_detected",
    "C61_tables_detected",
    "C61_truncated_expanded",
    "C61_truncated_folded"
   ],
   "note": "Lines are kept or lost as wholes; a cut inside a line is not covered. With path expansion (C61_truncated_expanded): strict mode and distinct keys in the unexpanded value; Examples show that both are needed. C61_truncated_folded: output with folded keys, values as in C13. The other theorems are for expansion off; those about the encoder for options without folding and replacer, as in C01."
  },
  {
   "property": "C62",
   "status": "proved",
   "theorems": [
    "C62_what_follows",
    "C62_objects",
    "C62_other_texts",
    "C62_after_array",
    "C62_after_primitive",
    "C62_encoded",
    "C62_written_texts",
    "C62_after_expanded",
    "C62_written_texts_folded"
   ],
   "note": "C62_what_follows is the complete statement for objects: one list of members or one fault, whatever the object before; needed (SpecJoin.v) says in terms of the decoder that the last line of the first text counts. Path expansion off, except in C62_after_expanded, which compares two first texts with the same expanded value; it needs that no line starts with a quote, and C62_quoted_key_after shows why. C62_written_texts_folded: folded texts of two objects without a common key and without dotted paths as keys, read with expansion; C62_folded_shared shows two objects with a common key whose texts contradict each other."
  },
  {
   "property": "C63",
   "status": "proved",
   "theorems": [
    "C63_validation_errors",
    "C63_other_errors",
    "C63_builder_errors"
   ],
   "note": "The line number is stated on the lines of the text; the kinds for every text, option set and event sequence."
  },
  {
   "property": "C64",
   "status": "proved",
   "theorems": [
    "C64_lines",
    "C64_texts",
    "C64_crlf",
    "C64_hyphen_refuted",
    "C64_encoded_crlf"
   ],
   "note": "Proved on the decoder functions themselves (results compared whole, errors included). C64_hyphen_refuted shows that the exception for a hyphen alone is needed; the case beside it shows what strict and lenient mode do. Tabs are left out because they separate cells when a header says so."
  },
  {
   "property": "C65",
   "status": "proved",
   "theorems": [
    "C65_expand_same_outcome",
    "C65_expand_at_most",
    "C65_expand_at_least",
    "C65_expand_refused",
    "C65_same_outcome",
    "C65_decode_at_most",
    "C65_decode_bad_indentation",
    "C65_decode_at_least",
    "C65_decode_no_limit",
    "C65_encode_at_most",
    "C65_encode_at_least"
   ],
   "note": "The counted programs (DecFrames.v, EncFrames.v, ExpFrames.v) are the models once more, each outcome with the number of calls open at one time; C65_same_outcome and C65_expand_same_outcome show the outcomes are those of the models. Frames of functions that are not recursive are not counted (a constant), nor the recursion over the finished value in normalisation, conversion to a value, cloning and dropping it, each of which is one call per level. For path expansion the levels are those of SpecExpand (doc_levels, nested), stated on the document and not on the program."
  },
  {
   "property": "C66",
   "status": "proved",
   "theorems": [
    "C66_word_replaced",
    "C66_accepted_alike",
    "C66_events",
    "C66_word_replaced_expanded",
    "C66_accepted_alike_expanded",
    "C66_key_replaced",
    "C66_key_accepted_alike",
    "C66_key_events"
   ],
   "note": "All texts, lines and words; words also with path expansion. The exceptions (line not read, cell dropped in lenient mode) are part of the statement. Keys: bare keys, path expansion off; the rest of the line without a bracket, or the header of an array."
  },
  {
   "property": "C67",
   "status": "proved",
   "theorems": [
    "C67_one_line",
    "C67_renamed_field",
    "C67_renamed_member",
    "C67_renamed_member_folded"
   ],
   "note": "All values, places and options; no replacer. C67_renamed_member: renamed (SpecRename.v); without folding. C67_renamed_member_folded: every folding mode, both names identifiers, no_dots (PropsRenameFold.v: no key with a dot at any depth); C67_renamed_folded_dots shows that the dots matter. C67_renamed_field: field_renamed (SpecField.v), every folding mode."
  },
  {
   "property": "C68",
   "status": "proved",
   "theorems": [
    "C68_folding_shortens",
    "C68_deeper_is_shorter_refuted"
   ],
   "note": "All values and options; no replacer."
  },
  {
   "property": "C69",
   "status": "proved",
   "theorems": [
    "C69_not_longer_than_json",
    "C69_plain_numbers_fit",
    "C69_empty_arrays_refuted",
    "C69_exponents_refuted",
    "C69_root_arrays_refuted",
    "C69_no_indent_refuted"
   ],
   "note": "Objects, lists of primitives and tables at the root, indentation of two or more, any style of printing numbers in JSON; the numbers must fit, which C69_plain_numbers_fit proves for numbers printed without an exponent by a library that rounds ties upwards as Rust does. The refuted theorems show that the conditions on empty arrays, numbers, the root and no indentation are needed; for an indentation of one space nothing is claimed."
  },
  {
   "property": "C70",
   "status": "proved",
   "theorems": [
    "C70_blocks",
    "C70_row_lines",
    "C70_items_folded",
    "C70_leaf_folded",
    "C70_rows_folded",
    "C70_members",
    "C70_member",
    "C70_items",
    "C70_one_block",
    "C70_rows",
    "C70_folded_members_refuted",
    "C70_members_folded",
    "C70_member_folded"
   ],
   "note": "Stated between calls of encode_lines; SpecParts.block composes the lines of an item from encode_lines of the item (C70_one_block: every value has exactly one block). Values are normalised on the way, so the theorems hold for numbers that are not finite as well. Without replacer. C70_members_folded and C70_member_folded: with any folding mode, for keys without dots; C70_folded_members_refuted and C70_folded_dots show that dots matter. C70_items_folded (steady, PropsItemsFold.v), C70_leaf_folded and C70_rows_folded: arrays, members and tables with any folding mode; C70_items_folded_first shows that the first member of an item matters. C70_blocks and C70_row_lines: all items and rows, any folding mode."
  },
  {
   "property": "C71",
   "status": "proved",
   "theorems": [
    "C71_one_text",
    "C71_null",
    "C71_writers",
    "C71_tool",
    "C71_bindings",
    "C71_lines"
   ],
   "note": "The text of numbers is the JSON library's and is a parameter (C34 says it reads back). The pretty printer of serde_json used by the bindings is modelled from its documentation."
  },
  {
   "property": "C72",
   "status": "proved",
   "theorems": [
    "C72_expansion",
    "C72_texts",
    "C72_both",
    "C72_unexpanded",
    "C72_lines",
    "C72_lenient_refuted",
    "C72_limit_refuted",
    "C72_row_order",
    "C72_row_order_inline_refuted"
   ],
   "note": "C72_texts: accepted in one order, accepted in the other with an equivalent value, or the nesting limit. C72_both: neither at the limit. C72_limit_refuted: the exception is needed, at the limit one order is accepted and the other refused. C72_lenient_refuted: in lenient mode the order matters. C72_row_order: the lines of an array with one line per element, not all of them primitives, any options; C72_row_order_inline_refuted: the condition is needed, an inline array does not read the lines after it."
  },
  {
   "property": "C73",
   "status": "proved",
   "theorems": [
    "C73_size",
    "C73_nesting",
    "C73_limit",
    "C73_limit_attained",
    "C73_limit_256_refuted"
   ],
   "note": "C73_size and C73_nesting compare the two ways of decoding one text; C73_limit is the worst case over all texts, C73_limit_attained shows a text for it (computed), C73_limit_256_refuted that 256 is no bound for the result."
  },
  {
   "property": "C74",
   "status": "proved",
   "theorems": [
    "C74_as_after_an_object",
    "C74_under_key",
    "C74_faults",
    "C74_array",
    "C74_primitive",
    "C74_items",
    "C74_under_path"
   ],
   "note": "C74_as_after_an_object covers every text that starts unindented; C74_under_key and C74_faults compare with the text by itself; C74_array and C74_primitive are the other two ways to put a value under a key. needed: the text has its value only with its last line (lines after the root array are ignored by the decoder, but not after a member). C74_items: item_lines (SpecDeep.v) says which texts can be items; C74_items_needed shows why a member that starts with a hyphen cannot. C74_under_path is the statement with path expansion: one equation for values and errors, or the depth error together with a document deeper than the limit (C74_under_path_limit shows one)."
  },
  {
   "property": "C75",
   "status": "proved",
   "theorems": [
    "C75_first_fault_decides",
    "C75_refused_stays_refused",
    "C75_first_fault_of_text"
   ],
   "note": "settled, lone and of_indentation are in SpecFault.v; C75_needed shows why the three cases are left out. With path expansion the errors of reading are the same."
  }
 ]
}