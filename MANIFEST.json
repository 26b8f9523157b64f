{
 "claims": [
  {
   "property": "C01",
   "status": "proved",
   "theorems": [
    "C01_slice_writer_is_bounded_log",
    "C01_failed_write_changes_nothing"
   ],
   "note": ""
  },
  {
   "property": "C02",
   "status": "proved",
   "theorems": [
    "C02_split_head_is_stable"
   ],
   "note": ""
  },
  {
   "property": "C03",
   "status": "proved",
   "theorems": [
    "C03_slice_writer_contract",
    "C03_vec_contract",
    "C03_vecdeque_contract",
    "C03_arrayvec_contract",
    "C03_heapless_contract",
    "C03_smallvec_contract",
    "C03_tinyvec_arrayvec_contract",
    "C03_tinyvec_slicevec_contract",
    "C03_tinyvec_tinyvec_contract"
   ],
   "note": ""
  },
  {
   "property": "C04",
   "status": "proved",
   "theorems": [
    "C04_cursor_write",
    "C04_cursor_lawful",
    "C04_cursor_atomic_refuted"
   ],
   "note": ""
  },
  {
   "property": "C05",
   "status": "proved",
   "theorems": [
    "C05_json_bytes_independent_of_writer",
    "C05_json_to_string_is_full_output",
    "C05_json_own_errors_independent_of_writer",
    "C05_json_failures_independent_of_writer",
    "C05_msgpack_bytes_independent_of_writer",
    "C05_msgpack_own_errors_independent_of_writer",
    "C05_msgpack_failures_independent_of_writer"
   ],
   "note": "displays_propagate: Display impls that swallow write errors are excluded"
  },
  {
   "property": "C06",
   "status": "proved",
   "theorems": [
    "C06_json_only_a_prefix_is_written",
    "C06_json_writer_error_is_reported",
    "C06_msgpack_only_a_prefix_is_written",
    "C06_msgpack_writer_error_is_reported"
   ],
   "note": "displays_propagate: Display impls that swallow write errors are excluded"
  },
  {
   "property": "C07",
   "status": "proved",
   "theorems": [
    "C07_json_succeeds_iff_it_fits",
    "C07_json_slice_writer",
    "C07_msgpack_succeeds_iff_it_fits",
    "C07_msgpack_slice_writer"
   ],
   "note": "displays_propagate: Display impls that swallow write errors are excluded"
  },
  {
   "property": "C08",
   "status": "proved",
   "theorems": [
    "C08_msgpack_exact_bytes",
    "C08_prefix_free",
    "C08_msgpack_output_well_formed",
    "C08_msgpack_succeeds_iff_documented"
   ],
   "note": ""
  },
  {
   "property": "C09",
   "status": "proved",
   "theorems": [
    "C09_msgpack_output_is_shortest"
   ],
   "note": ""
  },
  {
   "property": "C10",
   "status": "proved",
   "theorems": [
    "C10_msgpack_integer_encoding",
    "C10_msgpack_integer_type_irrelevant"
   ],
   "note": ""
  },
  {
   "property": "C11",
   "status": "proved",
   "theorems": [
    "C11_msgpack_unknown_length",
    "C11_msgpack_seq_length",
    "C11_msgpack_map_length",
    "C11_msgpack_struct_length"
   ],
   "note": ""
  },
  {
   "property": "C12",
   "status": "proved",
   "theorems": [
    "C12_msgpack_struct_fields_placed",
    "C12_msgpack_compact_skip_rejected"
   ],
   "note": ""
  },
  {
   "property": "C13",
   "status": "proved",
   "theorems": [
    "C13_msgpack_collect_str_same_as_str",
    "C13_msgpack_collect_str_growing_rejected"
   ],
   "note": ""
  },
  {
   "property": "C14",
   "status": "proved",
   "theorems": [
    "C14_msgpack_shrinking_display_refuted"
   ],
   "note": "the desired property is false in the code; proved with a witness"
  },
  {
   "property": "C15",
   "status": "proved",
   "theorems": [
    "C15_eat_message_exact"
   ],
   "note": ""
  },
  {
   "property": "C16",
   "status": "proved",
   "theorems": [
    "C16_eat_message_sound",
    "C16_reserved_code"
   ],
   "note": ""
  },
  {
   "property": "C17",
   "status": "proved",
   "theorems": [
    "C17_truncated_eof",
    "C17_truncated_eof_32bit"
   ],
   "note": ""
  },
  {
   "property": "C18",
   "status": "proved",
   "theorems": [
    "C18_eat_message_32bit_refuted",
    "C18_eat_message_32bit_panics_refuted",
    "C18_eat_message_32bit_diverges_refuted"
   ],
   "note": "the desired property is false in the code; proved with witnesses"
  },
  {
   "property": "C19",
   "status": "proved",
   "theorems": [
    "C19_no_panic",
    "C19_budget_irrelevant"
   ],
   "note": "32-bit targets with overflow checks do panic when skipping huge lengths (C18)."
  },
  {
   "property": "C20",
   "status": "proved",
   "theorems": [
    "C20_consumed_length",
    "C20_msgpack_stream"
   ],
   "note": ""
  },
  {
   "property": "C21",
   "status": "proved",
   "theorems": [
    "C21_msgpack_round_trip",
    "C21_msgpack_serializable"
   ],
   "note": ""
  },
  {
   "property": "C22",
   "status": "proved",
   "theorems": [
    "C22_msgpack_interoperability"
   ],
   "note": ""
  },
  {
   "property": "C23",
   "status": "proved",
   "theorems": [
    "C23_msgpack_integers_exact"
   ],
   "note": ""
  },
  {
   "property": "C24",
   "status": "proved",
   "theorems": [
    "C24_borrows"
   ],
   "note": ""
  },
  {
   "property": "C25",
   "status": "proved",
   "theorems": [
    "C25_msgpack_truncated"
   ],
   "note": ""
  },
  {
   "property": "C26",
   "status": "proved",
   "theorems": [
    "C26_json_object_unfinished",
    "C26_json_array_unfinished",
    "C26_surplus_elements",
    "C26_surplus_entries",
    "C26_msgpack_longer_array"
   ],
   "note": ""
  },
  {
   "property": "C27",
   "status": "proved",
   "theorems": [
    "C27_msgpack_self_describing",
    "C27_msgpack_self_describing_sound",
    "C27_msgpack_denotes_total",
    "C27_msgpack_reserved_code",
    "C27_msgpack_self_describing_decides"
   ],
   "note": ""
  },
  {
   "property": "C28",
   "status": "proved",
   "theorems": [
    "C28_base64_encode",
    "C28_base64_padding"
   ],
   "note": ""
  },
  {
   "property": "C29",
   "status": "proved",
   "theorems": [
    "C29_base64_decode_inverts",
    "C29_base64_decode_any"
   ],
   "note": ""
  },
  {
   "property": "C30",
   "status": "proved",
   "theorems": [
    "C30_base64_small_usize_refuted",
    "C30_base64_right_below_bound"
   ],
   "note": "the desired property is false on small usize; proved with witnesses"
  },
  {
   "property": "C31",
   "status": "proved",
   "theorems": [
    "C31_json_output_is_valid",
    "C31_json_succeeds_iff_documented"
   ],
   "note": ""
  },
  {
   "property": "C32",
   "status": "proved",
   "theorems": [
    "C32_to_string_is_utf8"
   ],
   "note": ""
  },
  {
   "property": "C33",
   "status": "proved",
   "theorems": [
    "C33_string_escaping",
    "C33_serialized_string_decodes"
   ],
   "note": ""
  },
  {
   "property": "C34",
   "status": "proved",
   "theorems": [
    "C34_integers_are_canonical",
    "C34_json_serialization_never_panics",
    "C34_printed_integers_parse"
   ],
   "note": ""
  },
  {
   "property": "C35",
   "status": "proved",
   "theorems": [
    "C35_exact_or_invalid",
    "C35_accepted"
   ],
   "note": "-0 is rejected by unsigned types: a minus sign is never accepted there"
  },
  {
   "property": "C36",
   "status": "proved",
   "theorems": [
    "C36_keys_are_strings",
    "C36_invalid_keys"
   ],
   "note": ""
  },
  {
   "property": "C37",
   "status": "proved",
   "theorems": [
    "C37_decodes",
    "C37_rejects",
    "C37_exhaustive",
    "C37_str_decodes",
    "C37_str_not_utf8",
    "C37_str_rejects"
   ],
   "note": ""
  },
  {
   "property": "C38",
   "status": "proved",
   "theorems": [
    "C38_all_strings_refuted",
    "C38_surrogates_rejected"
   ],
   "note": "the desired property is false in the code; proved with a witness, and that surrogate escapes are always rejected"
  },
  {
   "property": "C39",
   "status": "proved",
   "theorems": [
    "C39_json_round_trip",
    "C39_json_serializable"
   ],
   "note": "the textual float printer and parser are parameters; the law assumed of them is a hypothesis of the theorem"
  },
  {
   "property": "C40",
   "status": "proved",
   "theorems": [
    "C40_json_interoperability"
   ],
   "note": ""
  },
  {
   "property": "C41",
   "status": "proved",
   "theorems": [
    "C41_no_panic"
   ],
   "note": ""
  },
  {
   "property": "C42",
   "status": "proved",
   "theorems": [
    "C42_borrows_stable_disjoint"
   ],
   "note": ""
  },
  {
   "property": "C43",
   "status": "proved",
   "theorems": [
    "C43_hex_is_written",
    "C43_hex_decodes",
    "C43_other_rejected",
    "C43_serialized_hex_decodes"
   ],
   "note": ""
  },
  {
   "property": "C44",
   "status": "proved",
   "theorems": [
    "C44_skipped_string",
    "C44_skips_values",
    "C44_surrogate_key_refuted"
   ],
   "note": "for documents whose keys contain no surrogate-pair escapes; for those the property is false (C38), proved with a witness"
  },
  {
   "property": "C45",
   "status": "proved",
   "theorems": [
    "C45_trailing",
    "C45_accepted"
   ],
   "note": ""
  },
  {
   "property": "C46",
   "status": "proved",
   "theorems": [
    "C46_skipping_exact"
   ],
   "note": "exact: IgnoredAny accepts precisely the texts of the grammar loose_text with skippable documents"
  },
  {
   "property": "C47",
   "status": "proved",
   "theorems": [
    "C47_newtype_keys_only_empty",
    "C47_newtype_keys_refuted"
   ],
   "note": "the desired property is false in the code; proved with a witness, and that only the empty map with newtype keys is ever read back"
  },
  {
   "property": "C48",
   "status": "proved",
   "theorems": [
    "C48_json_inside",
    "C48_json_beyond_end",
    "C48_json_beyond_end_refuted",
    "C48_msgpack_cursor"
   ],
   "note": "true for MessagePack; false for JSON's eat_whitespace, end and number parsers, proved with witnesses"
  },
  {
   "property": "C49",
   "status": "proved",
   "theorems": [
    "C49_json_round_trip",
    "C49_json_option",
    "C49_json_survivors",
    "C49_msgpack_round_trip",
    "C49_msgpack_option"
   ],
   "note": "the desired property is false in the code; proved with witnesses"
  },
  {
   "property": "C50",
   "status": "proved",
   "theorems": [
    "C50_msgpack_sound",
    "C50_msgpack_exact",
    "C50_msgpack_unambiguous"
   ],
   "note": ""
  },
  {
   "property": "C51",
   "status": "proved",
   "theorems": [
    "C51_json_decoding_exact"
   ],
   "note": "exact in both directions; assumes f32/f64::from_str reject the empty string"
  },
  {
   "property": "C52",
   "status": "proved",
   "theorems": [
    "C52_self_describing",
    "C52_self_describing_exact"
   ],
   "note": "Exact: C52_self_describing gives completeness for every large enough step budget; C52_self_describing_exact the equivalence. Float parsing is a parameter."
  },
  {
   "property": "C53",
   "status": "proved",
   "theorems": [
    "C53_msgpack_terminates",
    "C53_msgpack_skip_terminates",
    "C53_msgpack_any_terminates",
    "C53_msgpack_budget_irrelevant",
    "C53_msgpack_decides",
    "C53_json_terminates",
    "C53_json_skip_terminates",
    "C53_json_any_terminates",
    "C53_json_budget_irrelevant",
    "C53_json_decides"
   ],
   "note": "Budgets 10*type_size t + 3*length input (typed) and 6 + 3*length input (skip, self-describing), where the budget bounds the longest chain of nested serde calls and loop iterations (it is not a bound on total work); the result is independent of the budget. MessagePack: 64-bit targets, well-formed types. JSON base64: input length at most usize::MAX/3."
  },
  {
   "property": "C54",
   "status": "proved",
   "theorems": [
    "C54_msgpack_targets_agree",
    "C54_msgpack_never_skips",
    "C54_msgpack_any_never_skips",
    "C54_msgpack_decides_32bit",
    "C54_msgpack_any_terminates_32bit"
   ],
   "note": "Beyond these hypotheses finding C18 applies: skipping a huge bin/str/ext length on a 32-bit target overflows."
  },
  {
   "property": "C55",
   "status": "proved",
   "theorems": [
    "C55_msgpack_output_reads_back",
    "C55_json_output_reads_back",
    "C55_json_large_floats_refuted"
   ],
   "note": "JSON: floats are printed by ryu-js, which is a parameter; each float must print as a number in the reader's range (hypothesis on the floats of the value). C55_json_large_floats_refuted shows that the restriction is real."
  },
  {
   "property": "C56",
   "status": "proved",
   "theorems": [
    "C56_one_document",
    "C56_types_agree_on_the_document",
    "C56_cut_documents_refused",
    "C56_cut_documents_refused_any",
    "C56_cut_documents_not_skipped",
    "C56_cut_output_refused",
    "C56_cut_numbers_refuted"
   ],
   "note": "Cut numbers are decoded as other numbers: C56_cut_numbers_refuted shows that the restriction to other documents is needed."
  },
  {
   "property": "C57",
   "status": "proved",
   "theorems": [
    "C57_msgpack_faults_named",
    "C57_msgpack_outcome",
    "C57_msgpack_verdict_unique",
    "C57_msgpack_skip_outcome",
    "C57_msgpack_family",
    "C57_msgpack_i128"
   ],
   "note": "Named faults on 32-bit and wider targets; the three-way outcome on 64-bit targets (on 32-bit ones skipping can overflow, C18)."
  },
  {
   "property": "C58",
   "status": "proved",
   "theorems": [
    "C58_json_faults_named",
    "C58_json_outcome",
    "C58_json_verdict_unique",
    "C58_json_skip_outcome",
    "C58_json_i128"
   ],
   "note": "str::parse is assumed to refuse the empty string. JSON base64: input length at most usize::MAX/3. For the self-describing any see C59."
  },
  {
   "property": "C59",
   "status": "proved",
   "theorems": [
    "C59_msgpack_any_faults_named",
    "C59_msgpack_any_outcome",
    "C59_msgpack_any_verdict_unique",
    "C59_json_any_faults_named",
    "C59_json_any_outcome",
    "C59_json_any_verdict_unique"
   ],
   "note": "Both directions for both formats: a fault gives its error, every error is a fault (MessagePack: or UnexpectedEof, exactly when the input is a proper beginning), at most one fault. Independent specifications MpAnyFaultSpec and JsonAnyFaultSpec; for any float parser/conversion, any byte decoder, both float widths."
  },
  {
   "property": "C60",
   "status": "proved",
   "theorems": [
    "C60_msgpack_stack_by_type",
    "C60_msgpack_stack_by_input",
    "C60_msgpack_stack_any",
    "C60_msgpack_any_refuted",
    "C60_msgpack_ignored_refuted",
    "C60_msgpack_struct_refuted",
    "C60_json_stack_by_type",
    "C60_json_stack_by_input",
    "C60_json_stack_any",
    "C60_json_any_refuted",
    "C60_json_ignored_refuted",
    "C60_json_struct_refuted"
   ],
   "note": "Both formats, over a second copy of the runners with a call counter (MpDepth, JsonDepth). Upper bounds: equality with the unbounded entry point. The claim that a fixed stack suffices is refuted for IgnoredAny, deserialize_any and every struct. MessagePack bounds by input need a usize above 32 bits (C18: on 32 bits skipping may go back). A call counts one level; bytes per level are the compiler's."
  },
  {
   "property": "C61",
   "status": "proved",
   "theorems": [
    "C61_msgpack_seq_hints",
    "C61_msgpack_map_hints",
    "C61_msgpack_hint_declared",
    "C61_msgpack_hint_bounded_refuted",
    "C61_json_seq_hints",
    "C61_json_map_hints"
   ],
   "note": "Through visitors that record every hint (HintSpec), for sequences and maps of any type and length, both formats; and as an equation for arbitrary visitors. That a hint is bounded by the input is refuted."
  },
  {
   "property": "C62",
   "status": "proved",
   "theorems": [
    "C62_msgpack_typed_size",
    "C62_msgpack_any_size",
    "C62_json_typed_size",
    "C62_json_any_size"
   ],
   "note": "Typed and self-describing decoding, both formats; MessagePack types on 64-bit targets (where C50 holds), JSON on any. A bound on what is returned, not on intermediate allocations of visitors (see C61)."
  },
  {
   "property": "C63",
   "status": "proved",
   "theorems": [
    "C63_msgpack_first_fault",
    "C63_msgpack_any_writer",
    "C63_json_first_fault",
    "C63_json_any_writer"
   ],
   "note": "Equality with an independent first-fault function (SerFaultSpec). MessagePack: values whose Display implementations propagate errors; JSON: strings are valid UTF-8 (as Rust guarantees). With alloc a failing Display panics in MessagePack."
  },
  {
   "property": "C64",
   "status": "proved",
   "theorems": [
    "C64_msgpack_stream",
    "C64_msgpack_split",
    "C64_msgpack_split_cut",
    "C64_json_texts",
    "C64_json_unseparated_refuted",
    "C64_json_lines"
   ],
   "note": "Loops around the crates' functions (Stream.v). MessagePack: values whose types are strict (as C35). JSON lines: values that survive JSON (as C39). JSON output without a separator is refuted. The message cut by eat_message needs 2^33 <= usize::MAX only for the incomplete stream."
  },
  {
   "property": "C65",
   "status": "proved",
   "theorems": [
    "C65_msgpack_untagged",
    "C65_msgpack_compact_struct_refuted",
    "C65_msgpack_unit_variant_refuted",
    "C65_json_untagged",
    "C65_json_bytes_refuted",
    "C65_json_keys_refuted",
    "C65_json_nan_refuted"
   ],
   "note": "serde's buffer (Content) and the derived code of untagged enums are modelled from serde 1.0, which is not in /repo (Content.v says what is simplified). Negative findings are theorems: compact struct variants, unit variants by number, JSON byte strings as text, JSON integer and boolean keys, JSON NaN."
  },
  {
   "property": "C66",
   "status": "proved",
   "theorems": [
    "C66_msgpack_tagged",
    "C66_msgpack_tag_by_number_refuted",
    "C66_json_tagged"
   ],
   "note": "Unit variants and variants with fields, as the outermost type (inside others: C76); newtype variants of structs are the same documents. Adjacently tagged enums: C71."
  },
  {
   "property": "C67",
   "status": "proved",
   "theorems": [
    "C67_msgpack_decoded",
    "C67_msgpack_stable",
    "C67_json_decoded",
    "C67_json_stable",
    "C67_json_settles",
    "C67_json_overflow_refuted"
   ],
   "note": "str::parse is a parameter with the assumptions stated (range, no NaN from number characters, inverse to the printer up to the sign of zero)."
  },
  {
   "property": "C68",
   "status": "proved",
   "theorems": [
    "C68_msgpack_evolution",
    "C68_msgpack_same_type",
    "C68_msgpack_one_meaning",
    "C68_msgpack_fields_by_name",
    "C68_msgpack_fields_by_index",
    "C68_msgpack_fields_compact",
    "C68_msgpack_compact_drop_refuted",
    "C68_json_evolution",
    "C68_json_same_type",
    "C68_json_one_meaning",
    "C68_json_fields_by_name"
   ],
   "note": "dropping fields is false for structs written as arrays (MessagePack to_vec_compact), proved in general"
  },
  {
   "property": "C69",
   "status": "proved",
   "theorems": [
    "C69_msgpack_de_text",
    "C69_json_de_text",
    "C69_msgpack_ser_text",
    "C69_json_ser_text",
    "C69_msgpack_de_utf8",
    "C69_json_de_utf8",
    "C69_msgpack_ser_utf8",
    "C69_json_ser_utf8"
   ],
   "note": ""
  },
  {
   "property": "C70",
   "status": "proved",
   "theorems": [
    "C70_msgpack_format_prefix_code",
    "C70_msgpack_prefix_code",
    "C70_msgpack_injective",
    "C70_json_injective",
    "C70_json_prefix_refuted",
    "C70_json_format_prefix_code",
    "C70_json_prefix_code",
    "C70_json_typed_prefix_code"
   ],
   "note": "prefix-freeness is false for JSON numbers, proved with a witness; proved for all other documents"
  },
  {
   "property": "C71",
   "status": "proved",
   "theorems": [
    "C71_msgpack_adjacent_interoperability",
    "C71_msgpack_adjacent",
    "C71_msgpack_compact_refuted",
    "C71_msgpack_content_first",
    "C71_msgpack_adjacent_faults",
    "C71_json_adjacent_interoperability",
    "C71_json_adjacent",
    "C71_json_content_first",
    "C71_json_adjacent_faults",
    "C71_msgpack_writable",
    "C71_json_writable",
    "C71_msgpack_terminates",
    "C71_json_terminates",
    "C71_msgpack_truncated",
    "C71_msgpack_unambiguous",
    "C71_json_unambiguous",
    "C71_msgpack_takes",
    "C71_msgpack_takes_truncated",
    "C71_msgpack_decides",
    "C71_json_takes",
    "C71_json_decides",
    "C71_json_cut_refused"
   ],
   "note": "unit and struct variants in the compact flavour: refuted in general"
  },
  {
   "property": "C72",
   "status": "proved",
   "theorems": [
    "C72_json_flatten",
    "C72_json_flatten_interoperability",
    "C72_json_flatten_faults",
    "C72_msgpack_flatten_refuted",
    "C72_msgpack_flatten_interoperability",
    "C72_msgpack_flatten_faults",
    "C72_json_written",
    "C72_msgpack_terminates",
    "C72_json_terminates",
    "C72_msgpack_truncated",
    "C72_msgpack_unambiguous",
    "C72_msgpack_takes",
    "C72_msgpack_takes_truncated",
    "C72_msgpack_decides",
    "C72_json_takes",
    "C72_json_decides",
    "C72_json_cut_refused"
   ],
   "note": "MessagePack: refuted in general, nothing is written"
  },
  {
   "property": "C73",
   "status": "proved",
   "theorems": [
    "C73_msgpack_to_json",
    "C73_json_to_msgpack",
    "C73_json_to_msgpack_typed",
    "C73_shortest_encoding_is_read",
    "C73_long_header_refuted"
   ],
   "note": "enum variants under a header longer than needed: refuted in general"
  },
  {
   "property": "C74",
   "status": "proved",
   "theorems": [
    "C74_msgpack_two_forms",
    "C74_msgpack_two_forms_vec",
    "C74_json_two_forms",
    "C74_json_two_forms_vec"
   ],
   "note": ""
  },
  {
   "property": "C75",
   "status": "proved",
   "theorems": [
    "C75_msgpack_untagged_decides",
    "C75_json_untagged_decides",
    "C75_msgpack_tagged_interoperability",
    "C75_json_tagged_interoperability",
    "C75_msgpack_tagged_refuses",
    "C75_json_tagged_refuses",
    "C75_msgpack_faults_pass",
    "C75_json_faults_pass",
    "C75_msgpack_untagged_outcome",
    "C75_json_untagged_outcome"
   ],
   "note": ""
  },
  {
   "property": "C76",
   "status": "proved",
   "theorems": [
    "C76_msgpack_nested",
    "C76_json_nested",
    "C76_msgpack_writable",
    "C76_json_writable",
    "C76_msgpack_interoperability",
    "C76_json_interoperability",
    "C76_msgpack_sound",
    "C76_json_sound",
    "C76_json_exact",
    "C76_msgpack_decides",
    "C76_json_terminates",
    "C76_json_decides",
    "C76_msgpack_truncated",
    "C76_msgpack_unambiguous",
    "C76_json_cut_refused",
    "C76_json_unambiguous"
   ],
   "note": "Struct fields around the enums have no attributes, map keys are ordinary types, and of the externally tagged enums around them only unit and newtype variants are there. What a success says of an internally tagged enum is only that it was one whole message or document and which variants there are: serde's buffer takes more documents for such enums than it should, and Content.v does not model that. MessagePack soundness: 64-bit targets."
  },
  {
   "property": "C77",
   "status": "proved",
   "theorems": [
    "C77_msgpack_takes",
    "C77_msgpack_truncated",
    "C77_msgpack_decides",
    "C77_msgpack_unknown_refused",
    "C77_msgpack_round_trip",
    "C77_msgpack_weaker",
    "C77_msgpack_unambiguous",
    "C77_json_takes",
    "C77_json_decides",
    "C77_json_cut_refused",
    "C77_json_unknown_refused",
    "C77_json_round_trip",
    "C77_json_weaker",
    "C77_json_unambiguous",
    "C77_msgpack_newer_refused",
    "C77_json_newer_refused",
    "C77_json_other_refused",
    "C77_msgpack_faults"
   ],
   "note": ""
  }
 ]
}