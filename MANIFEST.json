{
 "claims": [
  {
   "property": "C01",
   "status": "proved",
   "theorems": [
    "C01_set_history_from_empty",
    "C01_set_history_from_any_map",
    "C01_set_changes_no_other_key"
   ],
   "note": "A map Value is a finite map under any history of set calls."
  },
  {
   "property": "C02",
   "status": "proved",
   "theorems": [
    "C02_push_history",
    "C02_push_history_from_empty"
   ],
   "note": "An array Value is a sequence under any history of push calls."
  },
  {
   "property": "C03",
   "status": "proved",
   "theorems": [
    "C03_wrong_kind_is_harmless",
    "C03_kind_predicates"
   ],
   "note": "Container operations on the wrong kind of Value are harmless."
  },
  {
   "property": "C04",
   "status": "proved",
   "theorems": [
    "C04_value_map_macro",
    "C04_value_vec_macro"
   ],
   "note": "value_map! and value_vec! never panic and build exactly what is listed."
  },
  {
   "property": "C05",
   "status": "proved",
   "theorems": [
    "C05_equality_means_same_content",
    "C05_equality_symmetric",
    "C05_equality_transitive",
    "C05_equality_ignores_map_order",
    "C05_reflexive_iff_no_nan",
    "C05_numeric_kinds_differ"
   ],
   "note": "Equality of Values ignores how a map was built or iterates."
  },
  {
   "property": "C06",
   "status": "proved",
   "theorems": [
    "C06_nested_get"
   ],
   "note": "Nested reads are total and compose along a path."
  },
  {
   "property": "C07",
   "status": "proved",
   "theorems": [
    "C07_display_is_string_conversion",
    "C07_display_containers",
    "C07_display_of_strings_and_booleans"
   ],
   "note": "Display agrees with string conversion on scalars."
  },
  {
   "property": "C08",
   "status": "proved",
   "theorems": [
    "C08_int_conversion_exact_or_error",
    "C08_no_wrap"
   ],
   "note": "Integer-to-integer conversion is exact or an error, never a wrap."
  },
  {
   "property": "C09",
   "status": "proved",
   "theorems": [
    "C09_integer_round_trip",
    "C09_integer_round_trip_across_types",
    "C09_other_scalars_round_trip",
    "C09_option_vec_map",
    "C09_f32_is_the_same_number"
   ],
   "note": "Putting a native value into a Value and taking it back is lossless."
  },
  {
   "property": "C10",
   "status": "proved",
   "theorems": [
    "C10_float_truncates_when_representable",
    "C10_truncation_is_a_function",
    "C10_small_types_reject_the_rest",
    "C10_u128_refuted"
   ],
   "note": "Float-to-integer conversion truncates toward zero whenever the result is representable."
  },
  {
   "property": "C11",
   "status": "proved",
   "theorems": [
    "C11_nan_is_zero",
    "C11_64_bit_and_i128_saturate",
    "C11_small_types_are_errors",
    "C11_u128",
    "C11_every_float_is_covered"
   ],
   "note": "Out-of-range floats: small integer types refuse them, wide ones saturate silently."
  },
  {
   "property": "C12",
   "status": "proved",
   "theorems": [
    "C12_string_to_int",
    "C12_string_to_int_error",
    "C12_numeral_has_one_value"
   ],
   "note": "String-to-integer conversion accepts exactly the in-range decimal numerals."
  },
  {
   "property": "C13",
   "status": "proved",
   "theorems": [
    "C13_decimal_round_trip",
    "C13_distinct_integers_distinct_strings",
    "C13_canonical_unique"
   ],
   "note": "Integers survive a trip through their decimal string."
  },
  {
   "property": "C14",
   "status": "proved",
   "theorems": [
    "C14_bool_of_number",
    "C14_bool_of_float_and_bool",
    "C14_bool_of_string",
    "C14_number_of_bool"
   ],
   "note": "Boolean conversion."
  },
  {
   "property": "C15",
   "status": "proved",
   "theorems": [
    "C15_integers_round_to_nearest",
    "C15_always_succeeds",
    "C15_exact_up_to_2_53"
   ],
   "note": "Integer-to-float conversion is correctly rounded and exact up to 2^53."
  },
  {
   "property": "C16",
   "status": "proved",
   "theorems": [
    "C16_floats_survive_printing",
    "C16_distinct_floats_print_differently"
   ],
   "note": "Floats survive a trip through their printed form."
  },
  {
   "property": "C17",
   "status": "proved",
   "theorems": [
    "C17_char",
    "C17_char_error_source",
    "C17_char_is_scalar_value"
   ],
   "note": "Character conversion."
  },
  {
   "property": "C18",
   "status": "proved",
   "theorems": [
    "C18_no_scalar_conversion",
    "C18_default_exactly_on_failure",
    "C18_by_reference_agrees",
    "C18_string_conversion_total_on_scalars"
   ],
   "note": "None, arrays and maps never convert to a scalar, and failures fall back to the default."
  },
  {
   "property": "C19",
   "status": "proved",
   "theorems": [
    "C19_merge_key_by_key",
    "C19_merge_holds_iff"
   ],
   "note": "merge is a right-biased deep merge, key by key."
  },
  {
   "property": "C20",
   "status": "proved",
   "theorems": [
    "C20_merge_at_every_path",
    "C20_consequences"
   ],
   "note": "What merge does to every nested path."
  },
  {
   "property": "C21",
   "status": "proved",
   "theorems": [
    "C21_merge_respects_map_equality",
    "C21_every_iteration_order_gives_the_same_map",
    "C21_modelled_run_is_one_of_them"
   ],
   "note": "merge does not depend on HashMap iteration order."
  },
  {
   "property": "C22",
   "status": "proved",
   "theorems": [
    "C22_merge_identities"
   ],
   "note": "merge has identities and is idempotent."
  },
  {
   "property": "C23",
   "status": "proved",
   "theorems": [
    "C23_non_map_is_noop"
   ],
   "note": "merge with a non-map on either side is a no-op."
  },
  {
   "property": "C24",
   "status": "proved",
   "theorems": [
    "C24_associative_iff_no_shadow_conflict",
    "C24_associative_when_kinds_agree",
    "C24_associativity_refuted"
   ],
   "note": "Exact characterisation: associativity holds iff there is no shadow conflict; the unconditional claim is refuted by C24_associativity_refuted."
  },
  {
   "property": "C25",
   "status": "proved",
   "theorems": [
    "C25_merge_preserves_wf",
    "C25_clone_merge_leaves_receiver",
    "C25_merge_size"
   ],
   "note": "merge and clone_merge preserve well-formedness and the operands."
  },
  {
   "property": "C26",
   "status": "proved",
   "theorems": [
    "C26_effective_value_is_layer_resolution",
    "C26_resolution_is_a_function",
    "C26_order_independent"
   ],
   "note": "The effective value at every path is resolved by layer precedence."
  },
  {
   "property": "C27",
   "status": "proved",
   "theorems": [
    "C27_first_registration_wins",
    "C27_every_history_has_one",
    "C27_readding_a_name_changes_nothing"
   ],
   "note": "Adding layers: first registration of a name wins, order is registration order."
  },
  {
   "property": "C28",
   "status": "proved",
   "theorems": [
    "C28_strict_build"
   ],
   "note": "Strict build fails iff some layer fails, with the first error."
  },
  {
   "property": "C29",
   "status": "proved",
   "theorems": [
    "C29_lenient_build",
    "C29_reduced_configuration_exists"
   ],
   "note": "Lenient build never fails and skips exactly the failing layers."
  },
  {
   "property": "C30",
   "status": "proved",
   "theorems": [
    "C30_non_map_layer_contributes_nothing"
   ],
   "note": "A top-level non-map layer contributes nothing."
  },
  {
   "property": "C31",
   "status": "proved",
   "theorems": [
    "C31_missing_file_contributes_nothing"
   ],
   "note": "A missing file layer contributes nothing."
  },
  {
   "property": "C32",
   "status": "proved",
   "theorems": [
    "C32_environment_overrides_earlier_layers"
   ],
   "note": "Environment variables with the prefix override every earlier layer."
  },
  {
   "property": "C33",
   "status": "proved",
   "theorems": [
    "C33_environment_layer_reads_exactly_the_matching_variables",
    "C33_blank_prefix_always_fails",
    "C33_environment_layer_never_writes",
    "C33_each_key_has_one_value",
    "C33_undecodable_variables_are_ignored"
   ],
   "note": "The environment layer reads exactly the matching variables."
  },
  {
   "property": "C34",
   "status": "proved",
   "theorems": [
    "C34_prefix_is_removed_as_often_as_it_repeats",
    "C34_exposed_under_k_iff_k_does_not_begin_with_prefix",
    "C34_prefix_removed_once_refuted",
    "C34_bare_prefix_is_the_empty_key"
   ],
   "note": "The environment prefix is removed as often as it repeats."
  },
  {
   "property": "C35",
   "status": "proved",
   "theorems": [
    "C35_write_touches_only_its_own_file",
    "C35_file_holds_the_utf8_of_the_text",
    "C35_unserialisable_value_changes_nothing",
    "C35_unopenable_file_changes_nothing",
    "C35_write_succeeds_when_it_can",
    "C35_history_leaves_other_files_alone",
    "C35_failed_write_preserves_the_file_refuted"
   ],
   "note": "Writing a file layer touches only its file."
  },
  {
   "property": "C36",
   "status": "proved",
   "theorems": [
    "C36_what_is_written_is_read_back"
   ],
   "note": "What is written to a file layer is what is read back."
  },
  {
   "property": "C37",
   "status": "proved",
   "theorems": [
    "C37_can_write_is_false_for_every_built_in_layer",
    "C37_writing_can_succeed_iff_file_layer",
    "C37_read_only_layers_refuse_every_write",
    "C37_can_write_tells_the_truth_refuted"
   ],
   "note": "Every built-in layer reports can_write() = false, but file layers can be written."
  },
  {
   "property": "C38",
   "status": "proved",
   "theorems": [
    "C38_toml_paths_are_accepted",
    "C38_other_paths_are_refused",
    "C38_extension_is_unique"
   ],
   "note": "add_file_layer accepts exactly .toml paths."
  },
  {
   "property": "C39",
   "status": "proved",
   "theorems": [
    "C39_candidates_exist",
    "C39_find_first_is_the_first_existing_candidate",
    "C39_incomplete_finders_are_refused",
    "C39_builder_calls_add_in_order",
    "C39_builder_calls_determine_the_finder"
   ],
   "note": "find_first returns the first existing candidate in folder-major order."
  },
  {
   "property": "C40",
   "status": "proved",
   "theorems": [
    "C40_find_last_is_the_last_existing_candidate"
   ],
   "note": "find_last returns the last existing candidate."
  },
  {
   "property": "C41",
   "status": "proved",
   "theorems": [
    "C41_find_all_returns_the_existing_candidates",
    "C41_find_all_with_missing_returns_every_candidate"
   ],
   "note": "find_all returns exactly the existing candidates, in order."
  },
  {
   "property": "C42",
   "status": "proved",
   "theorems": [
    "C42_find_all_or_first"
   ],
   "note": "find_all_or_first falls back to the first candidate."
  },
  {
   "property": "C43",
   "status": "proved",
   "theorems": [
    "C43_searches_agree_when_files_exist",
    "C43_searches_agree_when_nothing_exists"
   ],
   "note": "The four searches agree with each other."
  },
  {
   "property": "C44",
   "status": "proved",
   "theorems": [
    "C44_indices_count_the_results",
    "C44_too_many_results_panic",
    "C44_no_overflow_refuted"
   ],
   "note": "Result indices number the results consecutively up to 65535 results."
  },
  {
   "property": "C45",
   "status": "proved",
   "theorems": [
    "C45_candidate_path",
    "C45_plain_name",
    "C45_dotted_name",
    "C45_name_dot_ext_refuted",
    "C45_empty_name",
    "C45_dotdot_name",
    "C45_separator_in_extension_panics"
   ],
   "note": "A candidate path is folder/name.ext for plain names."
  },
  {
   "property": "C46",
   "status": "proved",
   "theorems": [
    "C46_find_first_under_changes",
    "C46_find_last_under_changes",
    "C46_find_all_under_changes",
    "C46_find_all_or_first_under_changes"
   ],
   "note": "Searches are honest under concurrent file-system changes."
  },
  {
   "property": "C47",
   "status": "proved",
   "theorems": [
    "C47_every_result_is_a_candidate",
    "C47_extension_names_the_searched_extension",
    "C47_builtin_toml",
    "C47_toml_shorthands",
    "C47_match_path_refuted"
   ],
   "note": "A FindResult's extension names the extension searched for, but never matches its path."
  },
  {
   "property": "C48",
   "status": "proved",
   "theorems": [
    "C48_unresolvable_directories_are_skipped",
    "C48_resolution_is_a_function",
    "C48_nothing_resolves_without_base_directories"
   ],
   "note": "Unresolvable OS directories are skipped, the others keep their order."
  },
  {
   "property": "C49",
   "status": "proved",
   "theorems": [
    "C49_macro_never_fails_and_registers_in_order",
    "C49_default_is_first_environment_is_last",
    "C49_the_run_is_determined"
   ],
   "note": "create_config! never fails and registers layers in the documented order."
  },
  {
   "property": "C50",
   "status": "proved",
   "theorems": [
    "C50_existing_files_are_never_modified",
    "C50_existing_files_survive_a_crash",
    "C50_repeated_name_overwrites_refuted"
   ],
   "note": "create_config! never modifies an existing file when layer names are distinct."
  },
  {
   "property": "C51",
   "status": "proved",
   "theorems": [
    "C51_init_creates_the_missing_file",
    "C51_init_clause_has_a_file_afterwards",
    "C51_without_init_nothing_is_created"
   ],
   "note": "init creates the missing file with the defaults."
  },
  {
   "property": "C52",
   "status": "proved",
   "theorems": [
    "C52_second_run_changes_nothing",
    "C52_second_run_same_layers_refuted"
   ],
   "note": "A second run changes nothing."
  },
  {
   "property": "C53",
   "status": "proved",
   "theorems": [
    "C53_init_keeps_the_effective_value",
    "C53_first_start_keeps_the_effective_value",
    "C53_created_defaults_override_earlier_layers_refuted"
   ],
   "note": "Initialising files does not change the effective configuration, unless an existing layer comes before."
  },
  {
   "property": "C54",
   "status": "proved",
   "theorems": [
    "C54_lenient_start_survives_a_crash",
    "C54_other_layers_read_as_before",
    "C54_torn_file_is_repaired_refuted"
   ],
   "note": "A crash while a file is being written never makes a lenient start fail."
  },
  {
   "property": "C55",
   "status": "proved",
   "theorems": [
    "C55_value_to_value_is_identity",
    "C55_wide_integers_fail"
   ],
   "note": "Serialising a Value into a Value is the identity, except for 128-bit integers."
  },
  {
   "property": "C56",
   "status": "proved",
   "theorems": [
    "C56_value_from_value_is_identity"
   ],
   "note": "Deserialising a Value into a Value is the identity."
  },
  {
   "property": "C57",
   "status": "proved",
   "theorems": [
    "C57_typed_data_survives",
    "C57_map_free_data_survives_exactly"
   ],
   "note": "Typed data survives serialise then deserialise."
  },
  {
   "property": "C58",
   "status": "proved",
   "theorems": [
    "C58_every_value_into_an_enum_panics",
    "C58_no_enum_survives"
   ],
   "note": "No enum value can be deserialised."
  },
  {
   "property": "C59",
   "status": "proved",
   "theorems": [
    "C59_deserialisation_never_panics",
    "C59_bytes_always_panic"
   ],
   "note": "Deserialisation never panics."
  },
  {
   "property": "C60",
   "status": "proved",
   "theorems": [
    "C60_scalars_agree_with_try_into",
    "C60_wide_integers_never_deserialise",
    "C60_f32_is_the_f64_rounded"
   ],
   "note": "Scalar deserialisation agrees with try_into."
  },
  {
   "property": "C61",
   "status": "proved",
   "theorems": [
    "C61_struct_success",
    "C61_only_named_fields_matter",
    "C61_missing_field_is_an_error",
    "C61_non_maps_are_errors"
   ],
   "note": "Struct deserialisation depends only on the named fields."
  },
  {
   "property": "C62",
   "status": "proved",
   "theorems": [
    "C62_sequences",
    "C62_tuples",
    "C62_short_or_non_arrays_are_errors",
    "C62_non_arrays_are_no_sequences"
   ],
   "note": "Sequences and tuples deserialise element by element."
  },
  {
   "property": "C63",
   "status": "proved",
   "theorems": [
    "C63_entries_are_stored_under_their_key_text",
    "C63_distinct_keys_have_distinct_texts",
    "C63_textless_keys_fail"
   ],
   "note": "Map keys are stringified without collisions."
  },
  {
   "property": "C64",
   "status": "proved",
   "theorems": [
    "C64_nested_option_collapses_refuted",
    "C64_some_none_is_never_deserialised",
    "C64_plain_option_survives"
   ],
   "note": "Nested options collapse."
  },
  {
   "property": "C65",
   "status": "proved",
   "theorems": [
    "C65_order_is_irrelevant_for_text_keys",
    "C65_order_matters_for_other_keys_refuted"
   ],
   "note": "Deserialisation does not depend on map order."
  },
  {
   "property": "C66",
   "status": "proved",
   "theorems": [
    "C66_serialisation_succeeds_exactly_when",
    "C66_the_error_names_the_cause"
   ],
   "note": "Serialisation never panics and fails for exactly two reasons."
  },
  {
   "property": "C67",
   "status": "proved",
   "theorems": [
    "C67_map_access_panics_exactly_when_overrun",
    "C67_map_access_replies"
   ],
   "note": "The map handed to a visitor answers in order and panics only when overrun."
  },
  {
   "property": "C68",
   "status": "proved",
   "theorems": [
    "C68_decimal_texts_round_to_nearest",
    "C68_special_words",
    "C68_nothing_else_is_accepted"
   ],
   "note": "String to f64 accepts exactly the decimal float texts and rounds correctly."
  },
  {
   "property": "C69",
   "status": "proved",
   "theorems": [
    "C69_serialised_shape",
    "C69_the_shape_determines_the_value"
   ],
   "note": "A serialised datum has the documented shape."
  },
  {
   "property": "C70",
   "status": "proved",
   "theorems": [
    "C70_reads_what_is_presented",
    "C70_succeeds_exactly_when_readable",
    "C70_the_first_obstacle_is_reported",
    "C70_what_is_presented_determines_the_value",
    "C70_values_read_are_well_formed"
   ],
   "note": "Reading a Value from any serde format says what the format presented."
  },
  {
   "property": "C71",
   "status": "proved",
   "theorems": [
    "C71_faithful_formats_give_the_value_back",
    "C71_a_value_is_a_faithful_format"
   ],
   "note": "A format that keeps everything gives the Value back."
  },
  {
   "property": "C72",
   "status": "proved",
   "theorems": [
    "C72_no_question_tells"
   ],
   "note": "A format that keeps numbers but not their type changes no answer."
  },
  {
   "property": "C73",
   "status": "proved",
   "theorems": [
    "C73_typed_data_survives_a_format"
   ],
   "note": "Typed data survives Value, format, Value."
  },
  {
   "property": "C74",
   "status": "proved",
   "theorems": [
    "C74_what_is_written_answers_alike",
    "C74_an_override_by_none_is_kept_refuted"
   ],
   "note": "A written file layer answers every question like the Value written."
  },
  {
   "property": "C75",
   "status": "proved",
   "theorems": [
    "C75_alone_it_is_the_sequential_build",
    "C75_each_layer_is_read_at_one_moment",
    "C75_such_layers_exist",
    "C75_a_lenient_build_never_fails",
    "C75_the_result_is_a_snapshot_refuted",
    "C75_a_missing_file_is_never_an_error_refuted"
   ],
   "note": "A build while other processes write reads every layer at one moment of its own."
  },
  {
   "property": "C76",
   "status": "proved",
   "theorems": [
    "C76_alone_it_is_the_sequential_run",
    "C76_writes_only_what_was_just_missing",
    "C76_a_file_that_stays_is_never_written",
    "C76_a_path_left_alone_is_kept_or_initialised",
    "C76_files_of_others_are_safe_refuted",
    "C76_a_link_planted_in_between_is_followed_refuted"
   ],
   "note": "create_config! overwrites nothing it saw existing, whatever other processes do."
  },
  {
   "property": "C77",
   "status": "proved",
   "theorems": [
    "C77_shortest_text_that_reads_back",
    "C77_other_texts"
   ],
   "note": "A float prints as the shortest decimal that reads back, and the nearest of that length."
  },
  {
   "property": "C78",
   "status": "proved",
   "theorems": [
    "C78_struct_fields_come_from_the_environment_or_the_layers",
    "C78_one_bad_variable_fails_the_struct",
    "C78_text_is_no_compound",
    "C78_untouched_fields_keep_their_default"
   ],
   "note": "A configuration read into a struct takes every field from the environment or the layers."
  },
  {
   "property": "C79",
   "status": "proved",
   "theorems": [
    "C79_a_written_layer_is_built_with_its_new_value",
    "C79_a_refused_write_changes_no_build"
   ],
   "note": "Writing a layer back and building again uses the written value."
  },
  {
   "property": "C80",
   "status": "proved",
   "theorems": [
    "C80_debug_lists_the_registered_layers",
    "C80_kinds",
    "C80_has_value",
    "C80_has_value_means_readable_refuted",
    "C80_prefix",
    "C80_with_file_layer"
   ],
   "note": "What a configuration and its layers say about themselves."
  },
  {
   "property": "C81",
   "status": "proved",
   "theorems": [
    "C81_conversion_errors_name_source_and_target",
    "C81_char_labels_refuted"
   ],
   "note": "Every failing conversion says what could not be converted to what."
  },
  {
   "property": "C82",
   "status": "proved",
   "theorems": [
    "C82_model_errors_compare_equal_iff_identical",
    "C82_error_texts",
    "C82_the_text_names_the_subsystem",
    "C82_different_errors_have_different_texts",
    "C82_conversion_errors_have_plain_labels"
   ],
   "note": "Errors can be told apart."
  },
  {
   "property": "C83",
   "status": "proved",
   "theorems": [
    "C83_a_reader_sees_old_bytes_then_new_bytes",
    "C83_each_mixture_can_be_read",
    "C83_reads_that_do_not_overlap_the_write",
    "C83_a_reader_sees_one_version_refuted"
   ],
   "note": "A reader racing with a writer gets old bytes continued by new bytes."
  },
  {
   "property": "C84",
   "status": "proved",
   "theorems": [
    "C84_writers_of_the_same_text_agree",
    "C84_whole_writes_of_one_length",
    "C84_whole_schedules_are_schedules",
    "C84_the_last_writer_wins_refuted",
    "C84_ok_means_the_file_holds_the_text_refuted"
   ],
   "note": "Processes writing the same file agree if they write the same text, and otherwise may mix."
  },
  {
   "property": "C85",
   "status": "proved",
   "theorems": [
    "C85_file_layers_answer",
    "C85_memory_layers_answer",
    "C85_a_strict_build_reports_the_file"
   ],
   "note": "What each kind of layer reads."
  },
  {
   "property": "C86",
   "status": "proved",
   "theorems": [
    "C86_a_build_depends_only_on_its_sources",
    "C86_other_variables_make_no_difference",
    "C86_order_of_variables_is_irrelevant",
    "C86_order_never_matters_refuted"
   ],
   "note": "A build depends only on its own files and variables."
  },
  {
   "property": "C87",
   "status": "proved",
   "theorems": [
    "C87_what_the_program_sees",
    "C87_the_environment_wins",
    "C87_then_the_last_file",
    "C87_then_the_default",
    "C87_any_names_refuted"
   ],
   "note": "What a program sees after create_config! and build_value."
  },
  {
   "property": "C88",
   "status": "proved",
   "theorems": [
    "C88_merge_commutes_iff_the_maps_agree",
    "C88_merges_commute_iff_the_maps_agree",
    "C88_neighbours_that_agree_may_be_swapped",
    "C88_agreeing_layers_may_be_registered_in_any_order",
    "C88_disagreeing_layers_may_not"
   ],
   "note": "When the order of layers does not matter."
  },
  {
   "property": "C89",
   "status": "proved",
   "theorems": [
    "C89_only_candidates_matter",
    "C89_builder_adds_behind",
    "C89_more_folders_keep_the_first_file",
    "C89_more_folders_extend_the_list",
    "C89_the_folders_added_last_win",
    "C89_more_extensions_in_one_folder",
    "C89_more_extensions_refuted"
   ],
   "note": "A search looks only at its candidates, and adding folders keeps what was found."
  },
  {
   "property": "C90",
   "status": "proved",
   "theorems": [
    "C90_loaded_data_have_their_type",
    "C90_loaded_data_can_be_saved",
    "C90_saved_data_load_and_save_alike",
    "C90_saved_struct_has_exactly_its_fields"
   ],
   "note": "A loaded configuration can be saved and loaded again."
  },
  {
   "property": "C91",
   "status": "proved",
   "theorems": [
    "C91_reading_is_bounded_by_the_value",
    "C91_reading_never_panics",
    "C91_recursive_data_survive",
    "C91_every_type_is_guarded_or_bare",
    "C91_bare_types_are_never_done_refuted"
   ],
   "note": "Recursive types can be read and survive at every depth."
  },
  {
   "property": "C92",
   "status": "proved",
   "theorems": [
    "C92_reads_exactly_this",
    "C92_refuses_exactly_this",
    "C92_read_or_refused",
    "C92_one_error"
   ],
   "note": "Exactly what every type reads, and exactly why it refuses."
  },
  {
   "property": "C93",
   "status": "proved",
   "theorems": [
    "C93_merging_updates_typed_data",
    "C93_a_later_layer_updates_typed_data",
    "C93_unmentioned_structs_are_unchanged",
    "C93_one_field_changes"
   ],
   "note": "A later layer updates typed settings field by field, at every depth."
  },
  {
   "property": "C94",
   "status": "proved",
   "theorems": [
    "C94_integer_as_text",
    "C94_float_as_text",
    "C94_whole_float_as_text",
    "C94_fractions_are_no_integers_as_text",
    "C94_bool_as_text",
    "C94_numbers_are_no_booleans_as_text",
    "C94_typed_read_as_text",
    "C94_through_the_environment",
    "C94_large_floats_differ_refuted"
   ],
   "note": "A setting can be handed over as its text."
  },
  {
   "property": "C95",
   "status": "proved",
   "theorems": [
    "C95_what_is_handed_over",
    "C95_what_is_refused",
    "C95_panics_exactly_for_bytes_and_enums",
    "C95_any_tells_values_apart",
    "C95_sequence_access_replies",
    "C95_serde_visitors_get_what_they_expect",
    "C95_typed_reads_are_visitors_on_these_calls"
   ],
   "note": "What a visitor is given."
  },
  {
   "property": "C96",
   "status": "proved",
   "theorems": [
    "C96_reads_exactly_this",
    "C96_refuses_exactly_this",
    "C96_no_attributes_no_difference",
    "C96_defaults_are_for_what_no_layer_mentions",
    "C96_nothing_configured",
    "C96_deny_only_refuses_unknown_keys",
    "C96_an_unrelated_variable_breaks_a_denying_struct",
    "C96_skipped_fields_are_never_read",
    "C96_complete_values_read_the_same"
   ],
   "note": "Types with serde attributes."
  },
  {
   "property": "C97",
   "status": "proved",
   "theorems": [
    "C97_map_built",
    "C97_map_answers",
    "C97_map_panic_is_final",
    "C97_pairs",
    "C97_keys_alone",
    "C97_value_under_the_earlier_key",
    "C97_sequence_built",
    "C97_announced_length",
    "C97_announced_length_irrelevant",
    "C97_sequence_panic",
    "C97_elements",
    "C97_struct_built",
    "C97_fields",
    "C97_variants"
   ],
   "note": "Hand-written Serialize implementations."
  },
  {
   "property": "C98",
   "status": "proved",
   "theorems": [
    "C98_written_exactly_when_toml_has_a_place",
    "C98_refused_writes_touch_nothing",
    "C98_what_is_written",
    "C98_what_is_loaded",
    "C98_what_is_written_is_read_back",
    "C98_loaded_values_survive",
    "C98_dates_survive_refuted",
    "C98_nothing_is_lost_silently_refuted"
   ],
   "note": "A Value through a TOML file."
  },
  {
   "property": "C99",
   "status": "proved",
   "theorems": [
    "C99_first_start_changes_no_answer",
    "C99_init_changes_no_answer",
    "C99_plain_defaults_keep_the_effective_value",
    "C99_unwritable_defaults_create_nothing"
   ],
   "note": "A first start writes the defaults without changing any answer."
  },
  {
   "property": "C100",
   "status": "proved",
   "theorems": [
    "C100_buffered_reads_exactly_this",
    "C100_wide_numbers_are_refused",
    "C100_wide_types_are_refused",
    "C100_never_panics",
    "C100_agrees_with_direct_reading",
    "C100_strict_values_are_read_directly",
    "C100_text_is_not_converted",
    "C100_conversions_are_lost_refuted",
    "C100_missing_field_is_named",
    "C100_numbers_round_once",
    "C100_floats_round_to_f32",
    "C100_f32_differs_refuted",
    "C100_reads_more_refuted"
   ],
   "note": "What serde reads through its buffer."
  },
  {
   "property": "C101",
   "status": "proved",
   "theorems": [
    "C101_first_variant_that_reads",
    "C101_untagged_refusals",
    "C101_text_passes_numbers_by",
    "C101_tagged_reads_exactly_this",
    "C101_empty_array_lacks_the_tag",
    "C101_tag_is_needed",
    "C101_unknown_tags_are_named",
    "C101_never_panics"
   ],
   "note": "Untagged and internally tagged enums."
  },
  {
   "property": "C102",
   "status": "proved",
   "theorems": [
    "C102_reads_exactly_this",
    "C102_non_maps_are_refused",
    "C102_never_panics",
    "C102_flattening_is_transparent_when_both_read",
    "C102_environment_breaks_flattened_numbers",
    "C102_environment_breaks_flattened_maps"
   ],
   "note": "Flattened structs."
  },
  {
   "property": "C103",
   "status": "proved",
   "theorems": [
    "C103_paths_to_one_file_read_alike",
    "C103_a_write_replaces_every_layer_on_its_file",
    "C103_one_file_twice_in_a_row_counts_once",
    "C103_a_file_is_created_at_most_once",
    "C103_alone_nothing_is_removed_or_redirected",
    "C103_writing_one_layer_leaves_the_others_refuted",
    "C103_one_file_twice_counts_once_refuted"
   ],
   "note": "Several paths to one file."
  },
  {
   "property": "C104",
   "status": "proved",
   "theorems": [
    "C104_survives_unless_an_earlier_variant_reads_it",
    "C104_is_always_read_back",
    "C104_comes_back_as_another_variant_refuted",
    "C104_maps_keyed_by_numbers_do_not_come_back"
   ],
   "note": "Untagged enums, written and read back."
  },
  {
   "property": "C105",
   "status": "proved",
   "theorems": [
    "C105_written_exactly",
    "C105_written_iff_content_is_a_map",
    "C105_survives",
    "C105_an_entry_named_like_the_tag_replaces_it",
    "C105_comes_back_as_another_variant_refuted"
   ],
   "note": "Internally tagged enums, written and read back."
  },
  {
   "property": "C106",
   "status": "proved",
   "theorems": [
    "C106_written_exactly",
    "C106_survives",
    "C106_a_map_entry_replaces_a_field_refuted",
    "C106_a_map_takes_the_fields_of_later_parts_refuted"
   ],
   "note": "Flattened structs, written and read back."
  },
  {
   "property": "C107",
   "status": "proved",
   "theorems": [
    "C107_written_exactly",
    "C107_never_read_refuted",
    "C107_panics_exactly",
    "C107_refuses_exactly",
    "C107_reading_back_panics",
    "C107_order_decides_between_error_and_panic_refuted"
   ],
   "note": "Adjacently tagged enums."
  },
  {
   "property": "C108",
   "status": "proved",
   "theorems": [
    "C108_sets_read_like_vectors",
    "C108_sets_come_back",
    "C108_arrays_read_exactly",
    "C108_arrays_refused_exactly",
    "C108_arrays_come_back",
    "C108_nonzero_read_exactly",
    "C108_nonzero_comes_back",
    "C108_duration_read_exactly",
    "C108_duration_comes_back",
    "C108_time_read_exactly",
    "C108_time_comes_back",
    "C108_overflows_say_so",
    "C108_times_before_the_epoch_are_refused",
    "C108_range_read_exactly",
    "C108_range_comes_back",
    "C108_parsed_types_read_exactly",
    "C108_parsed_types_come_back",
    "C108_borrowed_text_is_never_read"
   ],
   "note": "Types of the standard library."
  },
  {
   "property": "C109",
   "status": "proved",
   "theorems": [
    "C109_first_registration_wins",
    "C109_get_layer_gives_the_first_registered",
    "C109_layers_are_read_in_turn",
    "C109_the_answers_decide",
    "C109_panics_exactly",
    "C109_a_lenient_build_never_fails",
    "C109_built_in_layers",
    "C109_a_written_value_is_found",
    "C109_building_twice_gives_the_same_refuted"
   ],
   "note": "Layers that change things when they are read."
  },
  {
   "property": "C110",
   "status": "proved",
   "theorems": [
    "C110_an_existing_file_keeps_its_content",
    "C110_a_file_keeps_the_defaults_it_was_created_with",
    "C110_starts_settle",
    "C110_a_restart_changes_nothing",
    "C110_old_defaults_outlive_an_upgrade",
    "C110_a_new_default_takes_effect_refuted"
   ],
   "note": "Configuration files in the long run."
  },
  {
   "property": "C111",
   "status": "proved",
   "theorems": [
    "C111_typed_settings_from_all_layers",
    "C111_unreadable_exactly",
    "C111_the_last_mention_decides",
    "C111_shadowed_values_do_not_matter",
    "C111_settled_uniquely"
   ],
   "note": "Typed settings out of many layers."
  },
  {
   "property": "C112",
   "status": "proved",
   "theorems": [
    "C112_reads_exactly_this",
    "C112_never_panics",
    "C112_wrapped_reads_exactly_this",
    "C112_wrapped_refusals",
    "C112_unknown_variants_are_named",
    "C112_wrapped_comes_back",
    "C112_flattened_reads_exactly_this",
    "C112_flattened_needs_a_map",
    "C112_flattened_comes_back",
    "C112_from_text"
   ],
   "note": "Ordinary enums in buffered places."
  },
  {
   "property": "C113",
   "status": "proved",
   "theorems": [
    "C113_logging_changes_nothing",
    "C113_a_read_logs_exactly",
    "C113_levels_of_a_read",
    "C113_a_build_logs_exactly",
    "C113_a_lenient_build_warns_exactly",
    "C113_every_skipped_layer_is_named",
    "C113_quiet_means_nothing_was_skipped",
    "C113_a_start_logs_exactly",
    "C113_the_records_follow_the_run",
    "C113_a_quiet_start_is_complete",
    "C113_a_clause_without_a_layer_is_logged_refuted"
   ],
   "note": "What is logged, exactly."
  },
  {
   "property": "C114",
   "status": "proved",
   "theorems": [
    "C114_variables_are_logged_without_their_values",
    "C114_a_build_logs_no_values",
    "C114_a_start_logs_no_values",
    "C114_no_value_is_ever_logged_refuted"
   ],
   "note": "Values are not logged."
  },
  {
   "property": "C115",
   "status": "proved",
   "theorems": [
    "C115_typed_settings_after_a_start",
    "C115_each_field_is_read_from_what_decides_it",
    "C115_an_unmentioned_field_is_none",
    "C115_one_wrong_setting_fails_the_read",
    "C115_settings_survive_the_first_start",
    "C115_the_first_start_reads_what_the_second_does_refuted"
   ],
   "note": "Typed settings after a start."
  },
  {
   "property": "C116",
   "status": "proved",
   "theorems": [
    "C116_find_first_panics_exactly",
    "C116_find_last_panics_exactly",
    "C116_find_all_panics_exactly",
    "C116_find_all_or_first_panics_exactly",
    "C116_checks_of_find_first",
    "C116_incomplete_finders_check_nothing",
    "C116_checks_of_find_last",
    "C116_checks_of_find_all",
    "C116_checks_of_find_all_or_first",
    "C116_at_most_two_checks_per_candidate"
   ],
   "note": "When searches panic, and how much they look."
  },
  {
   "property": "C117",
   "status": "proved",
   "theorems": [
    "C117_long_program_agrees_with_macro",
    "C117_long_program_panics_exactly",
    "C117_later_local_file_refuted"
   ],
   "note": "The README's long program and the macro."
  },
  {
   "property": "C118",
   "status": "proved",
   "theorems": [
    "C118_reads_exactly_this",
    "C118_panics_come_from_parts",
    "C118_plain_types_are_types_of_parts",
    "C118_the_variable_decides_its_field",
    "C118_a_variable_breaks_a_tagged_enum"
   ],
   "note": "Types made of parts with their own impls."
  },
  {
   "property": "C119",
   "status": "proved",
   "theorems": [
    "C119_writes_exactly_this",
    "C119_comes_back_exactly_when_the_parts_do",
    "C119_some_becomes_none_refuted"
   ],
   "note": "Round trips of types made of parts."
  },
  {
   "property": "C120",
   "status": "proved",
   "theorems": [
    "C120_find_first",
    "C120_find_last",
    "C120_find_all",
    "C120_find_all_or_first",
    "C120_at_most_two_questions_per_candidate",
    "C120_flag_false_means_vanished"
   ],
   "note": "The questions a search asks while files come and go."
  },
  {
   "property": "C121",
   "status": "proved",
   "theorems": [
    "C121_text_paths_are_their_bytes",
    "C121_os_directories_in_bytes",
    "C121_candidate_bytes",
    "C121_no_two_texts_share_a_file",
    "C121_match_path",
    "C121_file_layers_of_any_path",
    "C121_text_file_layers",
    "C121_the_error_names_the_extension_refuted"
   ],
   "note": "Paths are bytes."
  },
  {
   "property": "C122",
   "status": "proved",
   "theorems": [
    "C122_one_document_or_one_reason",
    "C122_written_exactly",
    "C122_refused_exactly",
    "C122_refused_writes_say_why",
    "C122_what_is_read_back",
    "C122_load_errors_are_the_parsers",
    "C122_keys_kept_exactly",
    "C122_the_strict_rule_is_stricter",
    "C122_a_saved_setting_wins_refuted"
   ],
   "note": "What a TOML write keeps, leaves out and refuses."
  },
  {
   "property": "C123",
   "status": "proved",
   "theorems": [
    "C123_each_field_is_read_by_its_part",
    "C123_readable_exactly_when_each_part_reads_its_field",
    "C123_an_unmentioned_field_is_none"
   ],
   "note": "Settings made of parts after a start."
  },
  {
   "property": "C124",
   "status": "proved",
   "theorems": [
    "C124_saved_settings_come_back",
    "C124_a_field_written_as_none_is_lost",
    "C124_plain_parts_outlive_a_file",
    "C124_what_survives_a_value_survives_a_file_refuted"
   ],
   "note": "Settings made of parts through a TOML file."
  },
  {
   "property": "C125",
   "status": "proved",
   "theorems": [
    "C125_reads_exactly_what_converts",
    "C125_comes_back",
    "C125_no_layer_breaks_an_invariant",
    "C125_a_rejected_variable_fails_the_read",
    "C125_an_option_with_its_own_reader_is_required"
   ],
   "note": "Parts that convert and check what they read."
  },
  {
   "property": "C126",
   "status": "proved",
   "theorems": [
    "C126_the_syntax_is_right",
    "C126_what_is_saved_is_loaded",
    "C126_the_text_tells_values_apart",
    "C126_saved_text_is_whole_lines"
   ],
   "note": "The TOML text that is saved."
  },
  {
   "property": "C127",
   "status": "proved",
   "theorems": [
    "C127_comments_and_empty_lines_change_nothing",
    "C127_line_ends_do_not_matter",
    "C127_settings_put_first_are_added",
    "C127_sections_put_last_are_added",
    "C127_settings_put_last_are_added_refuted"
   ],
   "note": "TOML files edited by hand."
  },
  {
   "property": "C128",
   "status": "proved",
   "theorems": [
    "C128_what_is_saved_can_be_loaded_refuted",
    "C128_a_loaded_file_stays_loadable_refuted",
    "C128_within_the_limit_both_hold"
   ],
   "note": "Nesting and the TOML crate's limit."
  },
  {
   "property": "C129",
   "status": "proved",
   "theorems": [
    "C129_integers",
    "C129_integers_out_of_range_are_refused",
    "C129_floats",
    "C129_decimals_are_words",
    "C129_booleans",
    "C129_texts",
    "C129_words_are_not_texts"
   ],
   "note": "Numbers, booleans and texts in TOML files."
  },
  {
   "property": "C130",
   "status": "proved",
   "theorems": [
    "C130_documents_load"
   ],
   "note": "Hand-written TOML documents load as what they say."
  },
  {
   "property": "C131",
   "status": "proved",
   "theorems": [
    "C131_what_loads_has_no_clash",
    "C131_simple_keys",
    "C131_without_tables"
   ],
   "note": "Contradictory TOML documents are refused."
  },
  {
   "property": "C132",
   "status": "proved",
   "theorems": [
    "C132_dates_and_times",
    "C132_day_and_time_with_a_space",
    "C132_what_a_word_can_be",
    "C132_dates_as_texts_refuted",
    "C132_dates_are_saved_as_dates_refuted",
    "C132_texts_in_three_quotes"
   ],
   "note": "Dates, times and long texts in TOML files."
  },
  {
   "property": "C133",
   "status": "proved",
   "theorems": [
    "C133_writes_exactly_this",
    "C133_comes_back_exactly_when",
    "C133_left_out_overrides_nothing",
    "C133_none_written_overrides",
    "C133_no_attributes_no_difference"
   ],
   "note": "Writing a type with serde attributes, and when it comes back."
  },
  {
   "property": "C134",
   "status": "proved",
   "theorems": [
    "C134_arrays_of_tables_load",
    "C134_without_arrays",
    "C134_no_array_over_something_else",
    "C134_no_table_over_an_array"
   ],
   "note": "Arrays of tables in TOML files written by hand."
  },
  {
   "property": "C135",
   "status": "proved",
   "theorems": [
    "C135_sections_in_any_order",
    "C135_settings_in_any_order",
    "C135_rearranged_files_load_the_same",
    "C135_mixed_sections_load",
    "C135_apart_is_needed"
   ],
   "note": "The order of sections and settings in a TOML file."
  },
  {
   "property": "C136",
   "status": "proved",
   "theorems": [
    "C136_last_line_end_is_optional",
    "C136_last_line_may_be_blank_or_a_comment",
    "C136_the_next_text_needs_a_line_end",
    "C136_last_line_end_is_optional_refuted"
   ],
   "note": "The last line of a TOML file."
  },
  {
   "property": "C137",
   "status": "proved",
   "theorems": [
    "C137_saved_text_looks",
    "C137_saved_file_looks",
    "C137_one_look_each",
    "C137_saved_text_is_plain"
   ],
   "note": "What a saved TOML file looks like, character by character."
  },
  {
   "property": "C138",
   "status": "proved",
   "theorems": [
    "C138_what_loads_has_the_form",
    "C138_a_layer_that_answers",
    "C138_a_strict_build_that_succeeds",
    "C138_without_equals_and_brackets",
    "C138_the_form_is_enough_refuted"
   ],
   "note": "Nothing but TOML loads."
  },
  {
   "property": "C139",
   "status": "proved",
   "theorems": [
    "C139_what_is_said_is_loaded",
    "C139_files_of_settings",
    "C139_what_a_layer_answers",
    "C139_what_says_something_has_the_form",
    "C139_nothing_is_made_up",
    "C139_a_built_value_is_written"
   ],
   "note": "What a TOML file says is what is loaded."
  }
 ]
}