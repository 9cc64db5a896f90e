{
 "claims": [
  {
   "property": "C01",
   "status": "proved",
   "theorems": [
    "varint_round_trip"
   ],
   "note": ""
  },
  {
   "property": "C02",
   "status": "proved",
   "theorems": [
    "varint_layout",
    "varint_size_predicted",
    "varint_size_1_to_9",
    "varint_size_from_first"
   ],
   "note": ""
  },
  {
   "property": "C03",
   "status": "proved",
   "theorems": [
    "varint_at_most_base128",
    "varint_size_monotone"
   ],
   "note": ""
  },
  {
   "property": "C04",
   "status": "proved",
   "theorems": [
    "varint_decode_any",
    "varint_alias_accepted"
   ],
   "note": "The alias theorem shows canonicity fails only for the 9-byte wrap, exactly as stated."
  },
  {
   "property": "C05",
   "status": "proved",
   "theorems": [
    "zigzag_is_documented_order",
    "zigzag_decode_encode",
    "zigzag_encode_decode",
    "zigzag_small_magnitudes"
   ],
   "note": ""
  },
  {
   "property": "C06",
   "status": "proved",
   "theorems": [
    "ts_varint_size_agrees",
    "ts_zigzag_encode_agrees",
    "ts_zigzag_decode_agrees",
    "ts_varint_bytes_agree",
    "ts_varint_reading_agrees",
    "ts_header_size_agrees",
    "ts_header_bytes_agree",
    "ts_header_reading_agrees"
   ],
   "note": ""
  },
  {
   "property": "C07",
   "status": "proved",
   "theorems": [
    "field_header_round_trip",
    "field_header_layout",
    "field_header_size_predicted"
   ],
   "note": ""
  },
  {
   "property": "C08",
   "status": "proved",
   "theorems": [
    "size_is_exact",
    "size_is_documented_length"
   ],
   "note": ""
  },
  {
   "property": "C09",
   "status": "proved",
   "theorems": [
    "serialize_writes_documented_format"
   ],
   "note": ""
  },
  {
   "property": "C10",
   "status": "proved",
   "theorems": [
    "rust_round_trip"
   ],
   "note": ""
  },
  {
   "property": "C11",
   "status": "proved",
   "theorems": [
    "serialization_injective"
   ],
   "note": ""
  },
  {
   "property": "C12",
   "status": "proved",
   "theorems": [
    "safe_changes_are_compatible",
    "safe_changes_are_compatible_back",
    "migrating_to_the_same_type_is_identity"
   ],
   "note": ""
  },
  {
   "property": "C13",
   "status": "proved",
   "theorems": [
    "safe_reflexive",
    "safe_symmetric",
    "safe_transitive_refuted"
   ],
   "note": "safe_transitive_refuted: the relation is not transitive."
  },
  {
   "property": "C14",
   "status": "proved",
   "theorems": [
    "unsafe_struct_changes_fail",
    "unsafe_choice_changes_fail"
   ],
   "note": ""
  },
  {
   "property": "C15",
   "status": "proved",
   "theorems": [
    "unknown_fields_are_ignored"
   ],
   "note": ""
  },
  {
   "property": "C16",
   "status": "proved",
   "theorems": [
    "required_fields_enforced"
   ],
   "note": ""
  },
  {
   "property": "C17",
   "status": "proved",
   "theorems": [
    "choice_uses_first_recognised_field",
    "choice_without_recognised_field_fails",
    "fallback_chain_ends_in_required_case"
   ],
   "note": ""
  },
  {
   "property": "C18",
   "status": "proved",
   "theorems": [
    "deserialized_messages_are_well_typed"
   ],
   "note": ""
  },
  {
   "property": "C19",
   "status": "proved",
   "theorems": [
    "decoding_stays_within_declared_size",
    "decoding_depends_only_on_declared_bytes",
    "decoding_leaves_a_suffix"
   ],
   "note": ""
  },
  {
   "property": "C20",
   "status": "proved",
   "theorems": [
    "panic_exactly_on_oversized_allocation",
    "panic_only_if_input_declares_huge_size",
    "deserialize_never_panics_refuted"
   ],
   "note": "The characterisation is exact; deserialize_never_panics_refuted gives a 10-byte panicking input for a one-field struct."
  },
  {
   "property": "C21",
   "status": "proved",
   "theorems": [
    "diverges_exactly_on_truncated_unknown_field",
    "diverges_means_no_fuel_suffices",
    "deserialize_always_terminates_refuted"
   ],
   "note": "Exact characterisation; deserialize_always_terminates_refuted gives a 1-byte diverging input."
  },
  {
   "property": "C22",
   "status": "proved",
   "theorems": [
    "cut_in_header_drops_the_field",
    "cut_in_number_is_rejected",
    "cut_in_bytes_shortens_the_field",
    "cut_in_unknown_field_diverges",
    "choice_cut_in_header_is_rejected",
    "truncated_messages_rejected_refuted"
   ],
   "note": "One theorem per place of the cut, and a concrete accepted truncated message."
  },
  {
   "property": "C23",
   "status": "proved",
   "theorems": [
    "chunked_reading_agrees",
    "chunking_does_not_matter"
   ],
   "note": ""
  },
  {
   "property": "C24",
   "status": "proved",
   "theorems": [
    "failing_writer_leaves_a_prefix",
    "serialize_returns_unless_interrupted_forever",
    "writer_with_capacity"
   ],
   "note": ""
  },
  {
   "property": "C25",
   "status": "proved",
   "theorems": [
    "ts_and_rust_bytes_agree",
    "ts_serialize_fills_its_buffer"
   ],
   "note": ""
  },
  {
   "property": "C26",
   "status": "proved",
   "theorems": [
    "ts_round_trips",
    "js_exact_messages_are_unchanged",
    "only_nans_change",
    "ts_round_trips_every_string_refuted"
   ],
   "note": "ts_strings refutation: a string starting with a byte order mark loses it in TypeScript."
  },
  {
   "property": "C27",
   "status": "proved",
   "theorems": [
    "ts_messages_are_confined",
    "ts_never_reads_outside_the_view_refuted"
   ],
   "note": ""
  },
  {
   "property": "C28",
   "status": "proved",
   "theorems": [
    "ts_deserialize_returns"
   ],
   "note": ""
  },
  {
   "property": "C29",
   "status": "proved",
   "theorems": [
    "safe_schemas_are_compatible",
    "rust_reads_ts_messages",
    "ts_reads_rust_messages",
    "readers_agree_on_accepted_inputs_refuted",
    "ts_accepts_only_what_rust_accepts_refuted",
    "rust_accepts_only_what_ts_accepts_refuted"
   ],
   "note": ""
  },
  {
   "property": "C30",
   "status": "proved",
   "theorems": [
    "validation_is_sound"
   ],
   "note": ""
  },
  {
   "property": "C31",
   "status": "proved",
   "theorems": [
    "validation_is_complete",
    "indices_need_not_be_consecutive_refuted"
   ],
   "note": "Exact. indices_need_not_be_consecutive_refuted: the README's claim about gaps is false of the code (a gap must be marked as deleted)."
  },
  {
   "property": "C32",
   "status": "proved",
   "theorems": [
    "validation_always_returns",
    "cycles_are_detected_exactly",
    "reported_cycles_are_cycles"
   ],
   "note": "The cycle check runs with fuel; validation_always_returns shows the fuel never runs out and no unwrap panics."
  },
  {
   "property": "C33",
   "status": "proved",
   "theorems": [
    "validated_types_are_finite_trees",
    "validated_types_round_trip"
   ],
   "note": "Existence, uniqueness and well-formedness of the type tree of each declaration; the round trip is restated for declared types."
  },
  {
   "property": "C34",
   "status": "proved",
   "theorems": [
    "parser_panics_only_on_dangling_comment",
    "parser_panics_on_dangling_comment",
    "parser_does_not_panic_refuted"
   ],
   "note": "Exact characterisation; parser_does_not_panic_refuted exhibits a source file on which the program crashes."
  },
  {
   "property": "C35",
   "status": "proved",
   "theorems": [
    "parser_is_exact",
    "parser_terminates",
    "grammar_unambiguous"
   ],
   "note": ""
  },
  {
   "property": "C36",
   "status": "proved",
   "theorems": [
    "ident_equality_is_an_equivalence",
    "ident_equality_agrees_with_order",
    "ident_equality_agrees_with_hash",
    "ident_order_antisymmetric",
    "ident_order_transitive",
    "ident_equality_ignores_case_style",
    "ident_conversions"
   ],
   "note": "Unicode tables are a parameter assumed to agree with ASCII on ASCII; style-insensitivity is stated for ASCII words, the rest for all identifiers."
  },
  {
   "property": "C37",
   "status": "proved",
   "theorems": [
    "rust_names_distinct",
    "ts_names_distinct",
    "names_distinct_refuted"
   ],
   "note": "ASCII names; names_distinct_refuted shows the condition on words is needed."
  },
  {
   "property": "C38",
   "status": "proved",
   "theorems": [
    "formatting_preserves_structure",
    "formatting_preserves_schema",
    "formatting_raw_identifier_refuted",
    "formatting_type_name_refuted",
    "formatting_merges_names_refuted"
   ],
   "note": "ASCII names. The structure theorem holds for any line wrapping; the one with comments assumes of the textwrap library that it breaks the schema's own paragraphs only at single spaces. Three refutations show the conditions on names are needed."
  },
  {
   "property": "C39",
   "status": "proved",
   "theorems": [
    "formatting_is_idempotent"
   ],
   "note": "Same conditions as C38 (ASCII names, paragraphs broken only at single spaces)."
  },
  {
   "property": "C40",
   "status": "proved",
   "theorems": [
    "check_writes_nothing",
    "check_succeeds_iff_formatted",
    "format_writes_the_unformatted",
    "format_then_check_succeeds",
    "generate_does_nothing_on_errors",
    "format_does_nothing_on_errors",
    "generate_writes_the_outputs",
    "a_failure_ends_the_run"
   ],
   "note": "Operations of the file system succeed or fail as an arbitrary function says; printing to the standard output is taken to succeed. format_then_check_succeeds needs printable names and comments that wrap cleanly (C38) and distinct namespaces (C42)."
  },
  {
   "property": "C41",
   "status": "proved",
   "theorems": [
    "loading_terminates",
    "loaded_files_are_reached",
    "namespace_of_a_file",
    "loaded_imports_resolve",
    "every_reached_file_is_loaded",
    "loading_succeeds",
    "loading_errors_are_defects",
    "loading_reports_every_defect",
    "loading_panics_iff",
    "loading_prepares_validation"
   ],
   "note": "The file system is an arbitrary record of functions with finitely many entries. Exactness needs distinct namespaces (C42); without them the loaded files are still reached ones and their imports still resolve."
  },
  {
   "property": "C42",
   "status": "proved",
   "theorems": [
    "conflicts_are_never_reported",
    "loading_checks_every_file_refuted",
    "imported_types_come_from_their_file_refuted"
   ],
   "note": "Two refutations show what goes wrong instead: a file that does not parse is accepted, and a type is silently taken from the wrong file."
  },
  {
   "property": "C43",
   "status": "proved",
   "theorems": [
    "relative_namespace_resolves",
    "relative_namespace_is_shortest"
   ],
   "note": "Namespaces compare as identifiers do (same_ns)."
  },
  {
   "property": "C44",
   "status": "proved",
   "theorems": [
    "module_tree_contains_schemas",
    "module_tree_contains_nothing_else"
   ],
   "note": "Hypotheses are what the loader guarantees: pairwise different namespaces made of Unicode scalar values."
  },
  {
   "property": "C45",
   "status": "proved",
   "theorems": [
    "tokenizer_is_exact",
    "tokenizer_terminates",
    "token_ranges",
    "integer_literals"
   ],
   "note": ""
  },
  {
   "property": "C46",
   "status": "proved",
   "theorems": [
    "identifier_tokens",
    "identifier_starts_with_letter_refuted"
   ],
   "note": "Exact; the refutation shows $1 is accepted as an identifier."
  },
  {
   "property": "C47",
   "status": "proved",
   "theorems": [
    "rust_names_legal",
    "rust_names_legal_refuted"
   ],
   "note": "ASCII names; rust_names_legal_refuted exhibits r#self."
  },
  {
   "property": "C48",
   "status": "proved",
   "theorems": [
    "utf8_round_trip",
    "utf8_accepts_only_encodings"
   ],
   "note": ""
  },
  {
   "property": "C49",
   "status": "proved",
   "theorems": [
    "any_type_migrates_to_any_other"
   ],
   "note": ""
  },
  {
   "property": "C50",
   "status": "proved",
   "theorems": [
    "small_index_headers_take_one_byte",
    "integer_fields_take_at_most_8_bytes",
    "enumerated_case_takes_one_byte"
   ],
   "note": ""
  },
  {
   "property": "C51",
   "status": "proved",
   "theorems": [
    "readme_unit_array_header_refuted"
   ],
   "note": ""
  },
  {
   "property": "C52",
   "status": "proved",
   "theorems": [
    "ts_struct_fields_read",
    "ts_choice_case_selected",
    "ts_choice_case_refuted",
    "ts_constructor_escaped"
   ],
   "note": "ts_choice_case_refuted exhibits the wrong case being selected for a field named to_string."
  },
  {
   "property": "C53",
   "status": "proved",
   "theorems": [
    "ts_messages_are_well_typed"
   ],
   "note": ""
  },
  {
   "property": "C54",
   "status": "proved",
   "theorems": [
    "ts_struct_reads_last_occurrence",
    "ts_choice_uses_first_recognised_field",
    "ts_choice_without_recognised_field_fails"
   ],
   "note": ""
  },
  {
   "property": "C55",
   "status": "proved",
   "theorems": [
    "ts_names_legal"
   ],
   "note": ""
  },
  {
   "property": "C56",
   "status": "proved",
   "theorems": [
    "reported_errors_are_the_defects",
    "invalid_schemas_have_defects"
   ],
   "note": ""
  },
  {
   "property": "C57",
   "status": "proved",
   "theorems": [
    "rust_type_paths_resolve",
    "rust_top_paths_resolve",
    "ts_type_paths_resolve",
    "ts_type_paths_resolve_refuted",
    "rust_trait_paths_resolve"
   ],
   "note": "Names restricted to ASCII with words starting with letters (good_file). Exact condition for TypeScript; ts_type_paths_resolve_refuted: a file foo.t with struct Foo and a reference to it generates TypeScript that does not resolve."
  },
  {
   "property": "C58",
   "status": "proved",
   "theorems": [
    "rust_type_names_capture_nothing",
    "ts_type_names_capture_nothing",
    "rust_locals_distinct",
    "rust_locals_legal",
    "rust_locals_legal_refuted",
    "names_capture_nothing_refuted"
   ],
   "note": "rust_locals_legal is an exact characterisation; the _refuted theorems exhibit `_r#type`, a struct DataView and a file io.t."
  },
  {
   "property": "C59",
   "status": "proved",
   "theorems": [
    "generated_types_round_trip"
   ],
   "note": "Combines C41, C33, C08, C25 and C26 for the command as a whole."
  },
  {
   "property": "C60",
   "status": "proved",
   "theorems": [
    "generation_never_panics",
    "each_declaration_has_one_tree",
    "generated_size"
   ],
   "note": "Rust only. The syntax trees of RustGen.v are what the interpreter of RustSem.v runs; rust_code prints them."
  },
  {
   "property": "C61",
   "status": "proved",
   "theorems": [
    "generated_serialize",
    "generated_serialize_writes_documented_format",
    "generated_serialize_succeeds"
   ],
   "note": ""
  },
  {
   "property": "C62",
   "status": "proved",
   "theorems": [
    "generated_deserialize"
   ],
   "note": "FFuel (no number of rounds suffices) stands for an endless loop."
  },
  {
   "property": "C63",
   "status": "proved",
   "theorems": [
    "generated_from"
   ],
   "note": ""
  },
  {
   "property": "C64",
   "status": "proved",
   "theorems": [
    "generated_round_trip",
    "generated_programs_evolve"
   ],
   "note": ""
  },
  {
   "property": "C65",
   "status": "proved",
   "theorems": [
    "generated_types_have_the_messages",
    "generated_values_are_told_apart",
    "generated_serialize_accepts_every_value"
   ],
   "note": ""
  },
  {
   "property": "C66",
   "status": "proved",
   "theorems": [
    "generating_rust_crashes_only_in_the_parser",
    "generated_file_holds_the_program",
    "generated_file_round_trips"
   ],
   "note": ""
  },
  {
   "property": "C67",
   "status": "proved",
   "theorems": [
    "ts_generation_never_panics",
    "generating_code_crashes_only_in_the_parser"
   ],
   "note": ""
  },
  {
   "property": "C68",
   "status": "proved",
   "theorems": [
    "generated_ts_size",
    "generated_ts_serialize"
   ],
   "note": "ts_clear_names is what typical does not check (C57, C58): C71 gives a simple sufficient condition. 'rounds' and 'depth' bound the interpreter; any large enough value works."
  },
  {
   "property": "C69",
   "status": "proved",
   "theorems": [
    "generated_ts_deserialize",
    "generated_ts_deserialize_returns"
   ],
   "note": ""
  },
  {
   "property": "C70",
   "status": "proved",
   "theorems": [
    "generated_ts_reads_messages",
    "generated_ts_programs_evolve",
    "generated_ts_round_trip",
    "generated_rust_reads_ts",
    "generated_ts_reads_rust"
   ],
   "note": "ts_faithful excludes strings that start with U+FEFF (C26) and [Unit] longer than JavaScript arrays."
  },
  {
   "property": "C71",
   "status": "proved",
   "theorems": [
    "distinct_names_are_clear",
    "generated_ts_file_holds_the_program",
    "generated_ts_file_round_trips"
   ],
   "note": ""
  },
  {
   "property": "C72",
   "status": "proved",
   "theorems": [
    "generated_ts_deserialize_is_typed",
    "generated_ts_annotations_resolve",
    "generated_ts_functions_are_typed",
    "ts_result_types_resolve_refuted"
   ],
   "note": "ts_result_types_resolve_refuted: if a.t and a/foo.t both declare Foo, the annotation of A.Foo.deserialize means the type of a/foo.t, as namespaces merge; generated_ts_annotations_resolve excludes that."
  },
  {
   "property": "C73",
   "status": "proved",
   "theorems": [
    "typed_ts_values_are_messages",
    "typed_ts_values_serialize",
    "ts_values_with_more_properties_refuted"
   ],
   "note": "ts_values_with_more_properties_refuted: without exactness a value may have the properties of two cases, which TypeScript accepts; serialize takes the first."
  },
  {
   "property": "C74",
   "status": "proved",
   "theorems": [
    "listings_show_the_range",
    "listings_do_not_panic",
    "token_ranges_are_listed",
    "every_error_is_shown_refuted",
    "every_range_is_listed_refuted"
   ],
   "note": "every_error_is_shown_refuted: an unexpected symbol at the start of a line is shown with an empty listing. Coloured listings: no panic is proved, the text is not specified."
  },
  {
   "property": "C75",
   "status": "proved",
   "theorems": [
    "lexical_errors_are_the_faults",
    "lexical_errors_are_reported",
    "lexical_errors_are_listed"
   ],
   "note": ""
  },
  {
   "property": "C76",
   "status": "proved",
   "theorems": [
    "syntax_errors_are_complaints",
    "syntax_errors_are_listed",
    "syntax_errors_are_reported",
    "advice_can_be_followed",
    "messages_show_tokens_as_written",
    "parts_are_where_they_are",
    "located_schemas_are_schemas"
   ],
   "note": "Only the first error is shown to be right: later ones depend on where the parser resumes."
  },
  {
   "property": "C77",
   "status": "proved",
   "theorems": [
    "loading_errors_are_faults",
    "loading_faults_are_reported",
    "loading_is_reported"
   ],
   "note": "Of a file with syntax errors, at least one is shown (C76 says what it is about). Namespace conflicts: C42. eprintln! is taken to succeed."
  },
  {
   "property": "C78",
   "status": "proved",
   "theorems": [
    "validation_errors_are_faults",
    "cycle_errors_are_cycles",
    "loaded_parts_are_located",
    "validation_is_reported"
   ],
   "note": ""
  },
  {
   "property": "C79",
   "status": "proved",
   "theorems": [
    "errors_are_laid_out",
    "reporting_changes_nothing",
    "unloadable_schemas_are_reported",
    "invalid_schemas_are_reported",
    "failing_operations_are_reported",
    "failures_are_explained",
    "success_is_announced"
   ],
   "note": "Texts of operating system errors, colours and grapheme clusters are arguments; palette_ok (colours start with an escape character) is used for the last sentence only."
  },
  {
   "property": "C80",
   "status": "proved",
   "theorems": [
    "top_of_the_file_is_the_text_of_its_functions",
    "functions_at_the_top_run_as_modelled",
    "interpreted_zigzag_is_documented",
    "interpreted_varints_are_documented",
    "interpreted_headers_are_documented",
    "interpreted_varint_is_read_back",
    "interpreted_varint_reads_anything",
    "interpreted_header_is_read_back",
    "interpreted_skip_and_finish"
   ],
   "note": "The trees of the prelude functions, their printed text and an interpreter with typed integers. machine/rbytes: arguments are in the range of their machine types and readers deliver bytes (0..255). depth 2 is the nesting of calls among these functions. The interpreted generated code (C60 to C66) calls the models, which by this property is the same."
  },
  {
   "property": "C81",
   "status": "proved",
   "theorems": [
    "rust_text_reads_as_the_program",
    "usual_names_are_legal"
   ],
   "note": "RustGrammar.v is a specification of tokens and grammar written from the Rust reference, for the part of Rust the declarations use; layout flags of trees (inline, blank lines) are not grammar. legal_names is the exact condition on generated names; usual_names_are_legal gives it in terms of the names in schemas. The constant text at the top is covered by C80."
  },
  {
   "property": "C82",
   "status": "proved",
   "theorems": [
    "ts_text_reads_as_the_program",
    "usual_ts_names_are_legal"
   ],
   "note": "TsGrammar.v is a specification of tokens (longest match, restricted productions: a line break after return, throw or break ends the statement) and of the grammar, written from ECMA-262, for the part of TypeScript the file uses; layout flags of trees are not grammar. legal_ts_names is the condition on generated names; usual_ts_names_are_legal: names that start with a letter. The comments at the top are given literally (ts_header)."
  },
  {
   "property": "C83",
   "status": "proved",
   "theorems": [
    "generate_command_line",
    "format_command_line",
    "completion_command_line",
    "every_command_line_is_a_request",
    "command_lines_panic_only_in_the_parser",
    "exit_status_tells"
   ],
   "note": "clap is a parameter whose documented contract (reads_command_lines, CliSpec.v) is a hypothesis; Examples19 has a library that meets it. cli (the declared arguments) is modelled as data, so that required arguments justify the unwraps in entry. no_lookalikes: no text with other characters than ASCII becomes a name of a shell in lower case. The contents of completion scripts and help texts are not modelled. Finding: the error about an unknown shell is the only one without the [Error] mark."
  },
  {
   "property": "C84",
   "status": "proved",
   "theorems": [
    "generated_rust_is_well_typed",
    "generated_rust_types_have_a_size",
    "declared_types_implement_the_traits",
    "no_types_beside_a_module_std",
    "helper_functions_are_well_typed",
    "called_helpers_are_declared"
   ],
   "note": "RustTyping.v is a specification of typing for the fragment of RustSyntax.v, written from the Rust reference: declarative rules (types, coercions, default binding modes, exhaustiveness, auto-(de)reference of receivers, uniqueness of items, headings of trait functions, well-founded containment). The judgements thread the variables through each expression and statement in the order of evaluation and record what has been moved (whole variables and fields), loops give back what they began with, and the arms of a match agree. It covers the declarations of the schemas; the functions at the top of the file are checked by RustPreludeTyping.v (Properties23), which also has the loans of a reader that fill_buf makes, unsafe, and the constant mistakes that rustc denies (literals out of range, shifts by too many bits, indices outside of arrays). Not covered: lifetimes and the borrow checker for the code of the schemas, closure kinds, that inference finds the types. Hypothesis std_is_free, shown necessary by no_types_beside_a_module_std; Examples20: every_generated_rust_is_well_typed_refuted (foo.t and foo/std.t are accepted and the generated file does not compile). Examples20 also shows programs that the rules reject."
  },
  {
   "property": "C85",
   "status": "proved",
   "theorems": [
    "generated_ts_declarations_have_no_early_errors",
    "generated_ts_declarations_are_there",
    "generated_ts_type_names_differ",
    "generated_ts_prelude_has_no_early_errors"
   ],
   "note": "Rules about scopes, definite assignment, control flow, arity and duplicate names; types of expressions are not part of it (C72 and C73 are about types of values). The specification TsScoping.v rejects nine kinds of wrong functions (Examples22.v)."
  },
  {
   "property": "C86",
   "status": "proved",
   "theorems": [
    "decoded_messages_are_linear",
    "decoded_messages_without_unit_arrays_are_linear",
    "read_messages_are_linear",
    "decoded_parts_are_linear",
    "decoded_messages_are_linear_in_units_refuted",
    "ts_messages_are_polynomial",
    "ts_messages_can_be_quadratic",
    "ts_messages_are_linear_refuted",
    "ts_unit_arrays_are_large"
   ],
   "note": "Weights and bounds are defined in Footprint.v without the decoders. The Rust bound is proved of the decoder (decoded_messages_are_linear), of a value inside a larger message (decoded_parts_are_linear) and of the code over its buffered reader (read_messages_are_linear); capacity reserved in advance is C20's subject, not part of the size. ts_messages_are_polynomial bounds TypeScript; ts_messages_can_be_quadratic, ts_unit_arrays_are_large and the two refuted theorems show why no linear bound holds there or for units."
  },
  {
   "property": "C87",
   "status": "proved",
   "theorems": [
    "message_sizes_are_linear",
    "serialized_messages_are_linear",
    "ts_serialized_messages_are_linear",
    "forwarded_messages_are_linear",
    "forwarded_messages_never_grow_refuted"
   ],
   "note": "The weight is that of C86 (Footprint.v); with it the two properties bound each other. forwarded_messages_never_grow_refuted shows a message of two bytes that takes three when it is written anew."
  },
  {
   "property": "C88",
   "status": "proved",
   "theorems": [
    "forwarded_messages_are_unchanged",
    "symmetric_messages_can_be_forwarded",
    "forwarding_is_stable",
    "every_message_can_be_forwarded_refuted"
   ],
   "note": "The value read and the value sent are compared as trees; C09 gives the round trip, the typing of decoded values gives that nothing is lost on the way from the In type to the Out type. every_message_can_be_forwarded_refuted shows why the types without asymmetric fields are singled out."
  },
  {
   "property": "C89",
   "status": "proved",
   "theorems": [
    "relayed_messages_are_unchanged",
    "relayed_bytes_are_unchanged",
    "relays_never_fail",
    "ts_messages_can_be_forwarded",
    "relayed_strings_are_unchanged_refuted"
   ],
   "note": "The relation `relay` of RelayFacts.v is the specification of one program, `relays` of a chain. relayed_strings_are_unchanged_refuted shows the loss of U+FEFF; the two languages may see different messages in the bytes the first one gets (C29), so the claim starts from what the first one saw."
  }
 ]
}