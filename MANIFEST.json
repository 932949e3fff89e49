{
 "claims": [
  {
   "property": "C01",
   "status": "proved",
   "theorems": [
    "c01_subtyping_is_ancestry",
    "c01_partial_order",
    "c01_reflexive",
    "c01_pointer_parents_refuted",
    "c01_nonpointer_is_ancestor",
    "c01_cyclic_parents_refuted"
   ],
   "note": "Holds on every well-formed (acyclic) hierarchy; c01_cyclic_parents_refuted shows that the unchecked parent setter allows a cyclic hierarchy on which the query diverges."
  },
  {
   "property": "C02",
   "status": "proved",
   "theorems": [
    "c02_const_is_never_dropped"
   ],
   "note": ""
  },
  {
   "property": "C03",
   "status": "proved",
   "theorems": [
    "c03_value_categories"
   ],
   "note": ""
  },
  {
   "property": "C04",
   "status": "proved",
   "theorems": [
    "c04_decision_table",
    "c04_total"
   ],
   "note": ""
  },
  {
   "property": "C05",
   "status": "proved",
   "theorems": [
    "c05_weakest_argument",
    "c05_arity",
    "c05_permutation",
    "c05_combination_laws",
    "c05_combine_is_min"
   ],
   "note": ""
  },
  {
   "property": "C06",
   "status": "proved",
   "theorems": [
    "c06_resolution_outcome"
   ],
   "note": ""
  },
  {
   "property": "C07",
   "status": "proved",
   "theorems": [
    "c07_no_interchangeable_pair",
    "c07_signatures_distinct",
    "c07_duplicate_rejected",
    "c07_otherwise_appended"
   ],
   "note": ""
  },
  {
   "property": "C08",
   "status": "proved",
   "theorems": [
    "c08_order_independent_single_exact",
    "c08_success_order_independent",
    "c08_failure_order_independent",
    "c08_first_exact_wins",
    "c08_registration_any_order",
    "c08_order_independent_refuted",
    "c08_registration_order_refuted"
   ],
   "note": "The unconditional statement is false of the code: c08_order_independent_refuted and c08_registration_order_refuted."
  },
  {
   "property": "C09",
   "status": "proved",
   "theorems": [
    "c09_test_get_call",
    "c09_test_function",
    "c09_get_equals_call_refuted",
    "c09_test_implies_call_refuted"
   ],
   "note": "The agreement stated in the property; the two _refuted theorems record that get() and call() may differ and that test() does not imply call() (ambiguity)."
  },
  {
   "property": "C10",
   "status": "proved",
   "theorems": [
    "c10_names_disjoint",
    "c10_field_kept",
    "c10_function_kept",
    "c10_addField",
    "c10_addFunction",
    "c10_addFunction_over_field"
   ],
   "note": ""
  },
  {
   "property": "C11",
   "status": "proved",
   "theorems": [
    "c11_function_lookup",
    "c11_field_lookup",
    "c11_nearest_unique"
   ],
   "note": ""
  },
  {
   "property": "C12",
   "status": "proved",
   "theorems": [
    "c12_function_listing",
    "c12_field_listing",
    "c12_order_independent",
    "c12_fields_order_independent"
   ],
   "note": ""
  },
  {
   "property": "C13",
   "status": "proved",
   "theorems": [
    "c13_copiable_implies_movable",
    "c13_constructors",
    "c13_move_only_not_copiable"
   ],
   "note": ""
  },
  {
   "property": "C14",
   "status": "proved",
   "theorems": [
    "c14_accepted_call_marshals",
    "c14_rejected_call_aborts",
    "c14_move_only_by_value_refuted",
    "c14_rvalue_of_unmovable_refuted",
    "c14_two_conversions_refuted",
    "c14_nested_value_refuted",
    "c14_value_reference_refuted"
   ],
   "note": "Statement carries the provisos; five _refuted witnesses show each is needed. Callables, constructibility and address arithmetic come from an arbitrary environment record (cpp)."
  },
  {
   "property": "C15",
   "status": "proved",
   "theorems": [
    "c15_views_stay_const",
    "c15_toConst",
    "c15_no_mutable_reference",
    "c15_no_mutable_parameter",
    "c15_rvalue_cast_refuted",
    "c15_as_refuted",
    "c15_as_checked"
   ],
   "note": "The two holes (T&& cast, as<T>()) are part of the statement and proved as witnesses."
  },
  {
   "property": "C16",
   "status": "proved",
   "theorems": [
    "c16_never_freed_twice_nor_used_after",
    "c16_moved_from_cannot_be_called",
    "c16_all_freed_without_overwrite",
    "c16_assignment_leaks_refuted",
    "c16_releasing_assignment_is_enough"
   ],
   "note": "c16_assignment_leaks_refuted is the witness for the proviso; c16_releasing_assignment_is_enough is about the repaired assignment."
  },
  {
   "property": "C17",
   "status": "proved",
   "theorems": [
    "c17_same_object_forever",
    "c17_object_of_requested_id",
    "c17_distinct_ids_distinct_objects"
   ],
   "note": ""
  },
  {
   "property": "C18",
   "status": "proved",
   "theorems": [
    "c18_loader_at_most_once",
    "c18_first_loader_wins",
    "c18_loaded_by_its_loader"
   ],
   "note": ""
  },
  {
   "property": "C19",
   "status": "proved",
   "theorems": [
    "c19_terminates",
    "c19_running_loader_sees_its_type"
   ],
   "note": ""
  },
  {
   "property": "C20",
   "status": "proved",
   "theorems": [
    "c20_alias_is_its_target",
    "c20_never_overwritten",
    "c20_empty_names_rejected",
    "c20_new_alias_accepted",
    "c20_one_level"
   ],
   "note": ""
  },
  {
   "property": "C21",
   "status": "proved",
   "theorems": [
    "c21_race_refuted",
    "c21_double_erase_refuted",
    "c21_loaded_ids_serialise",
    "c21_held_lock_serialises",
    "c21_lookup_steps",
    "c21_plain_mutex_deadlocks_refuted"
   ],
   "note": "Statement carries the proviso; three _refuted theorems are witnesses that the code as written needs it. c21_held_lock_serialises is about the evident intent (recursive lock held throughout), not the code."
  },
  {
   "property": "C22",
   "status": "proved",
   "theorems": [
    "c22_missing_is_error",
    "c22_failure_cases",
    "c22_failed_loader_leaves_type_refuted"
   ],
   "note": "c22_failed_loader_leaves_type_refuted records that a failing loader leaves its type registered."
  },
  {
   "property": "C23",
   "status": "proved",
   "theorems": [
    "c23_head_then_join",
    "c23_tail_then_join",
    "c23_join_then_head",
    "c23_join_then_tail",
    "c23_brackets_never_split"
   ],
   "note": ""
  },
  {
   "property": "C24",
   "status": "proved",
   "theorems": [
    "c24_head_exact",
    "c24_tail_exact",
    "c24_progress",
    "c24_scope_terminates"
   ],
   "note": ""
  },
  {
   "property": "C25",
   "status": "proved",
   "theorems": [
    "c25_hasType_is_registered",
    "c25_inner_type_is_fatal",
    "c25_type_lookup",
    "c25_lookups_agree",
    "c25_addType_effect",
    "c25_refuted"
   ],
   "note": "Proved with the proviso in the statement; c25_refuted witnesses that it is needed."
  },
  {
   "property": "C26",
   "status": "proved",
   "theorems": [
    "c26_recursive_listing",
    "c26_listing_below",
    "c26_function_listing"
   ],
   "note": ""
  },
  {
   "property": "C27",
   "status": "proved",
   "theorems": [
    "c27_function_lookup",
    "c27_addFunction_effect"
   ],
   "note": ""
  },
  {
   "property": "C28",
   "status": "proved",
   "theorems": [
    "c28_scope_id",
    "c28_same_scope",
    "c28_hasScope_exact",
    "c28_scopes_listing",
    "c28_distinct_names"
   ],
   "note": ""
  },
  {
   "property": "C29",
   "status": "proved",
   "theorems": [
    "c29_default_options",
    "c29_escaped_round_trip",
    "c29_astral_refuted"
   ],
   "note": "Proved with the proviso in the statement (characters up to U+FFFF); c29_astral_refuted is the witness that it is needed."
  },
  {
   "property": "C30",
   "status": "proved",
   "theorems": [
    "c30_raw_round_trip",
    "c30_unvalidated_bytes"
   ],
   "note": "Both halves, any continuation of the input."
  },
  {
   "property": "C31",
   "status": "proved",
   "theorems": [
    "c31_default_reader",
    "c31_reader_accepts_exactly_utf8",
    "c31_writer_accepts_exactly_utf8",
    "c31_byte_ff_refuted",
    "c31_escaping_writer_overlong_refuted"
   ],
   "note": "Exact characterisation on both sides for strings without byte 0xFF; c31_byte_ff_refuted and c31_escaping_writer_overlong_refuted are the witnesses for the provisos."
  },
  {
   "property": "C32",
   "status": "proved",
   "theorems": [
    "c32_escape_decodes",
    "c32_bad_escape_reported"
   ],
   "note": "Any text before and after the escape; error half for any number of good digits before the bad one."
  },
  {
   "property": "C33",
   "status": "proved",
   "theorems": [
    "c33_integers_round_trip"
   ],
   "note": "Every delimiter that can end a number, and the end of the input."
  },
  {
   "property": "C34",
   "status": "proved",
   "theorems": [
    "c34_token_progress",
    "c34_document_terminates"
   ],
   "note": "Token level for every reader state; document level for every type environment without pure pointer cycles (which C++ cannot express)."
  },
  {
   "property": "C35",
   "status": "proved",
   "theorems": [
    "c35_first_error_sticks"
   ],
   "note": "Every operation sequence including user callbacks (inductive relation uses)."
  },
  {
   "property": "C36",
   "status": "proved",
   "theorems": [
    "c36_document_unambiguous",
    "c36_comments_rejected",
    "c36_default_rejects_comments",
    "c36_tokens_of_text",
    "c36_blanks_insignificant"
   ],
   "note": "Insertion at any token boundary, observed through token types and values; integers in range of int64."
  },
  {
   "property": "C37",
   "status": "proved",
   "theorems": [
    "c37_skip_exactly_one",
    "c37_number_at_end_refuted"
   ],
   "note": "c37_number_at_end_refuted is the witness for the proviso."
  },
  {
   "property": "C38",
   "status": "proved",
   "theorems": [
    "c38_validating_outcomes",
    "c38_lines_total",
    "c38_documents_defined",
    "c38_token_layer_total",
    "c38_token_layer_validating",
    "c38_malformed_fatal_refuted"
   ],
   "note": "The amended statement (token layer); c38_malformed_fatal_refuted witnesses that whole documents do not have the property."
  },
  {
   "property": "C39",
   "status": "proved",
   "theorems": [
    "c39_truncation_detected",
    "c39_printed_truncation",
    "c39_refuted"
   ],
   "note": "Proved with the exception in the statement; c39_refuted gives the silently accepted prefixes. 'Accepted' is: parsing ends normally and the reader has no error; a prefix on which the code calls reflectError, throws or (unterminated string with validation, see C32) is undefined does not count as accepted."
  },
  {
   "property": "C40",
   "status": "proved",
   "theorems": [
    "c40_round_trip",
    "c40_round_trip_any_target",
    "c40_other_integers_refuted",
    "c40_compact_pointer_refuted",
    "c40_bad_utf8_refuted",
    "c40_deep_pretty_refuted",
    "c40_dynamic_not_printable"
   ],
   "note": "c40_round_trip is the claim; c40_round_trip_any_target extends it to doubles, pointers and skipped fields; the _refuted theorems are witnesses that the provisos are needed. Doubles are represented by their text (no rounding)."
  },
  {
   "property": "C41",
   "status": "proved",
   "theorems": [
    "c41_list_appends",
    "c41_map_last_wins",
    "c41_object_fields",
    "c41_document_read",
    "c41_list_never_shrinks",
    "c41_map_keeps_keys",
    "c41_object_frame",
    "c41_int_into_double_refuted",
    "c41_null_raw_pointer_refuted",
    "c41_repeated_names_not_readable"
   ],
   "note": "List, map and class targets, plus frame theorems for arbitrary texts; the _refuted theorems are witnesses for the parenthesis."
  },
  {
   "property": "C42",
   "status": "proved",
   "theorems": [
    "c42_line_and_column",
    "c42_line_counts_newlines",
    "c42_comment_line_refuted"
   ],
   "note": "Any sequence of reader uses; c42_line_and_column gives line and column (c42_line_counts_newlines: line alone); c42_comment_line_refuted is the witness for the proviso."
  },
  {
   "property": "C43",
   "status": "proved",
   "theorems": [
    "c43_short_messages_exact",
    "c43_long_messages_refuted",
    "c43_exact_iff",
    "c43_raised_text",
    "c43_location_recoverable"
   ],
   "note": "c43_long_messages_refuted describes every message of 1023 bytes or more. The expansion of conversions by libc is not modelled."
  },
  {
   "property": "C44",
   "status": "proved",
   "theorems": [
    "c44_print_then_parse",
    "c44_parse_then_print",
    "c44_fails_only_on_empty_component",
    "c44_join_appends",
    "c44_pop"
   ],
   "note": ""
  },
  {
   "property": "C45",
   "status": "proved",
   "theorems": [
    "c45_strict_total_order",
    "c45_lexicographic",
    "c45_components"
   ],
   "note": ""
  },
  {
   "property": "C46",
   "status": "proved",
   "theorems": [
    "c46_has_agrees",
    "c46_subtree_agrees",
    "c46_subtree_other_separator_refuted",
    "c46_subtree_separator_error_refuted",
    "c46_erase_exact",
    "c46_no_empty_branches"
   ],
   "note": "The two _refuted theorems are the witnesses for the proviso on the separator."
  },
  {
   "property": "C47",
   "status": "proved",
   "theorems": [
    "c47_type_id",
    "c47_same_type_object",
    "c47_variants",
    "c47_ids_distinguish",
    "c47_strip_not_idempotent_refuted",
    "c47_strip_idempotent_twice",
    "c47_function_pointer_diverges_refuted"
   ],
   "note": "The _refuted theorems record the non-idempotence and the divergence mentioned in the statement. volatile and member pointers are not modelled."
  },
  {
   "property": "C48",
   "status": "proved",
   "theorems": [
    "c48_add_trait",
    "c48_write_once",
    "c48_first_value_wins",
    "c48_is",
    "c48_get_value",
    "c48_names_once",
    "c48_pointer_once"
   ],
   "note": ""
  },
  {
   "property": "C49",
   "status": "proved",
   "theorems": [
    "c49_printed_fields",
    "c49_duplicate_alias_refuted"
   ],
   "note": "c49_duplicate_alias_refuted is the witness for the proviso. c36_document_unambiguous makes the text determine the document."
  },
  {
   "property": "C50",
   "status": "proved",
   "theorems": [
    "c50_registered_ids_are_listed",
    "c50_registered_ids_hasType"
   ],
   "note": ""
  },
  {
   "property": "C51",
   "status": "proved",
   "theorems": [
    "c51_index_round_trip",
    "c51_isIndex_but_throws_refuted",
    "c51_index_total",
    "c51_index_failures"
   ],
   "note": "c51_isIndex_but_throws_refuted is the recorded exception."
  },
  {
   "property": "C52",
   "status": "proved",
   "theorems": [
    "c52_accepted_call_returns",
    "c52_move_only_result_refuted"
   ],
   "note": "Provisos in the statement; witness for the move-only result."
  },
  {
   "property": "C53",
   "status": "proved",
   "theorems": [
    "c53_by_value_needs_copy",
    "c53_rvalue_needs_move",
    "c53_reference_casts_agree",
    "c53_castable_rvalue_casts",
    "c53_uncopiable_copy_reported",
    "c53_castable_copy_casts",
    "c53_rvalue_cast_more_permissive_refuted"
   ],
   "note": "The T&& converse is false of the code (witness)."
  },
  {
   "property": "C54",
   "status": "proved",
   "theorems": [
    "c54_moved_from_is_void",
    "c54_copy",
    "c54_move",
    "c54_not_movable_keeps_handle",
    "c54_not_copiable",
    "c54_copy_of_rvalue_moves_refuted",
    "c54_failed_move_loses_handle_refuted"
   ],
   "note": "The two non-guarantees are proved as witnesses."
  },
  {
   "property": "C55",
   "status": "proved",
   "theorems": [
    "c55_field_reference",
    "c55_field_path",
    "c55_unknown_field"
   ],
   "note": ""
  },
  {
   "property": "C56",
   "status": "proved",
   "theorems": [
    "c56_accepted",
    "c56_constructor_choice",
    "c56_not_movable_no_constructor",
    "c56_assignment_choice",
    "c56_copy_and_move"
   ],
   "note": "loads = register succeeds, well-formed, only T changes, carries exactly the list, copiable/movable as the class. The type objects named by signatures exist before the body runs."
  },
  {
   "property": "C57",
   "status": "proved",
   "theorems": [
    "c57_alloc_plumbing",
    "c57_raw_pointer",
    "c57_number",
    "c57_string",
    "c57_vector",
    "c57_map",
    "c57_shared_ptr",
    "c57_unique_ptr"
   ],
   "note": "One theorem per library body, for every element type. PP is the raw pointer type to the pointee of a smart pointer."
  },
  {
   "property": "C58",
   "status": "proved",
   "theorems": [
    "c58_accepted",
    "c58_operators_found",
    "c58_increment_found",
    "c58_decrement_found",
    "c58_dereference_refuted"
   ],
   "note": "Holds for classes without operator*. c58_dereference_refuted: with one operator* the load aborts for every class."
  },
  {
   "property": "C59",
   "status": "proved",
   "theorems": [
    "c59_argument",
    "c59_expression",
    "c59_determines",
    "c59_method_is_function",
    "c59_signature",
    "c59_field",
    "c59_pointee_const_refuted"
   ],
   "note": "On C++ type expressions (ModelClean/ModelSig). c59_pointee_const_refuted: const of pointees is lost."
  },
  {
   "property": "C60",
   "status": "proved",
   "theorems": [
    "c60_argument_binds",
    "c60_call_binds"
   ],
   "note": "cpp_binds is the C++ reference binding rule for non-pointer types, stated over C++ types."
  },
  {
   "property": "C61",
   "status": "proved",
   "theorems": [
    "c61_all_or_nothing",
    "c61_void",
    "c61_no_dangling_reference",
    "c61_by_value",
    "c61_const_ref_to_temporary",
    "c61_value_reference_refuted"
   ],
   "note": "c61_value_reference_refuted: asking for Value& from a by-value result passes the test."
  },
  {
   "property": "C62",
   "status": "proved",
   "theorems": [
    "c62_skipped_was_a_document",
    "c62_one_reading",
    "c62_json_is_accepted",
    "c62_documents_are_taken",
    "c62_exactly_these",
    "c62_only_json_refuted"
   ],
   "note": "Exact characterisation (both directions, c62_exactly_these). Grammar of accepted texts in SpecJsonA; c62_only_json_refuted lists texts outside JSON that are accepted."
  },
  {
   "property": "C63",
   "status": "proved",
   "theorems": [
    "c63_parsed_is_what_the_text_says",
    "c63_determined",
    "c63_target_stays_in_shape",
    "c63_cut_list_refuted",
    "c63_documents_are_read",
    "c63_exactly_these"
   ],
   "note": "Converse of C41: soundness of the typed parsers. c63_cut_list_refuted: the text ends early."
  },
  {
   "property": "C64",
   "status": "proved",
   "theorems": [
    "c64_lives_as_long_as_its_handles",
    "c64_deleted_once_as_what_it_is",
    "c64_nothing_leaks",
    "c64_stored_access_is_safe",
    "c64_view_access",
    "c64_copy_is_separate",
    "c64_move_empties_its_source",
    "c64_field_of_temporary_refuted",
    "c64_moved_from_still_designates_refuted"
   ],
   "note": "Ownership state machine of Value (ModelValOwn), every history. Two _refuted witnesses: field of a temporary, moved-from Value."
  },
  {
   "property": "C65",
   "status": "proved",
   "theorems": [
    "c65_vector_behaves",
    "c65_history",
    "c65_at_out_of_bounds_aborts",
    "c65_index_out_of_bounds_refuted",
    "c65_const_view_cannot_write",
    "c65_copy",
    "c65_assign",
    "c65_move_assign"
   ],
   "note": "Bodies of types/std/vector.h over an explicit memory (ModelCont), reached through the whole call path (lookup, resolution, test, marshalling, result). Element values are opaque numbers. c65_index_out_of_bounds_refuted: operator[] is unchecked."
  },
  {
   "property": "C66",
   "status": "proved",
   "theorems": [
    "c66_map_behaves",
    "c66_at_missing_aborts",
    "c66_const_view_has_no_index",
    "c66_history"
   ],
   "note": "Bodies of types/std/map.h; special members of maps not modelled. Iteration order of unordered_map is one fixed choice; the spec leaves it open."
  },
  {
   "property": "C67",
   "status": "proved",
   "theorems": [
    "c67_fit",
    "c67_method_call",
    "c67_method_call_value",
    "c67_method_missing",
    "c67_method_no_fit",
    "c67_type_stops",
    "c67_assign_stops",
    "c67_type_call",
    "c67_convert",
    "c67_convert_not_unique",
    "c67_construct",
    "c67_assign"
   ],
   "note": "Whole call path (lookup, resolution, carrying arguments into Values, marshalling, result) against the relations Fits, resolution_spec, CarriedAll, PassedAll, Returned. Hypotheses passable/returnable/result_ok say that the copy, move and conversion functions the chosen signature needs are registered."
  },
  {
   "property": "C68",
   "status": "proved",
   "theorems": [
    "c68_signature_unambiguous",
    "c68_signature_printed",
    "c68_odd_ids_refuted"
   ],
   "note": "Under the proviso on ids; c68_odd_ids_refuted shows it is needed."
  },
  {
   "property": "C69",
   "status": "proved",
   "theorems": [
    "c69_graph_stays_sound",
    "c69_below_its_parent",
    "c69_members",
    "c69_others",
    "c69_own_parent_refuted"
   ],
   "note": "c69_own_parent_refuted: is_base_of<T,T> lets a class name itself."
  },
  {
   "property": "C70",
   "status": "proved",
   "theorems": [
    "c70_loaded_in_full",
    "c70_order_irrelevant",
    "c70_permuted_requests",
    "c70_stable",
    "c70_terminates",
    "c70_always_loads",
    "c70_sound_result",
    "c70_library_loads",
    "c70_order_decides_refuted"
   ],
   "note": "ModelLoad runs whole reflect bodies with nested on-demand loading. c70_always_loads/c70_library_loads: no request fails when overloads are told apart by what is declared (well_kept) or come from the library; c70_order_decides_refuted is the code's order dependence. Aliases, missing loaders and threads: C17-C22."
  },
  {
   "property": "C71",
   "status": "proved",
   "theorems": [
    "c71_call",
    "c71_construct",
    "c71_destroy",
    "c71_history",
    "c71_no_leak",
    "c71_refused",
    "c71_raw",
    "c71_null_refuted",
    "c71_two_owners_refuted"
   ],
   "note": "c71_call: one call from any sound set of smart pointers; c71_destroy; c71_history/c71_no_leak: all histories (induction over client steps). Control blocks with counts are in the memory. c71_null_refuted and c71_two_owners_refuted are the two false parts. shared_ptr aliasing, weak_ptr, custom deleters are not reflected by the code."
  },
  {
   "property": "C72",
   "status": "proved",
   "theorems": [
    "c72_call",
    "c72_history",
    "c72_small_sum",
    "c72_unsigned_sum",
    "c72_overflow_refuted",
    "c72_new_refuted",
    "c72_refused",
    "c72_mixed"
   ],
   "note": "c72_call: one call, for every operation and memory (aliasing allowed); c72_history: all histories of calls; c72_small_sum, c72_unsigned_sum: when a sum always fits; c72_refused, c72_mixed: refusals; c72_overflow_refuted, c72_new_refuted: the false parts. The content of strings and class instances is opaque; floating point addition is an arbitrary function. c57_alloc_plumbing (PropPlain) covers loading."
  },
  {
   "property": "C73",
   "status": "proved",
   "theorems": [
    "c73_typed",
    "c73_typed_fails",
    "c73_refused",
    "c73_plus",
    "c73_vector_size",
    "c73_raw_truth",
    "c73_smart_truth",
    "c73_smart_equal",
    "c73_value_operators",
    "c73_comparisons",
    "c73_not",
    "c73_operators",
    "c73_no_truth_refuted"
   ],
   "note": "c73_typed, c73_typed_fails: any body, overload set and requested result that fits; c73_refused; c73_plus, c73_vector_size: instances; c73_raw_truth, c73_smart_truth, c73_smart_equal: operators on pointers; c73_operators: exactly the operators each library type has; c73_no_truth_refuted: the false part. Copies are modelled for numbers and raw pointers; a result of class type by value is not."
  },
  {
   "property": "C74",
   "status": "proved",
   "theorems": [
    "c74_map_step",
    "c74_map_session",
    "c74_vector_step",
    "c74_vector_session",
    "c74_no_assign",
    "c74_vector_no_assign"
   ],
   "note": "c74_map_step, c74_vector_step: one allowed call; c74_map_session, c74_vector_session: any session; c74_no_assign, c74_vector_no_assign: handles that cannot be written through. Moving a container into itself is excluded (the C++ library leaves it unspecified)."
  },
  {
   "property": "C75",
   "status": "proved",
   "theorems": [
    "c75_object",
    "c75_array",
    "c75_error_stops_object",
    "c75_error_stops_array",
    "c75_no_state_object",
    "c75_no_state_array",
    "c75_last_error_refuted"
   ],
   "note": "Callbacks are arbitrary functions on a state of any type; c75_no_state_* link to the printers of C40/C49; c75_last_error_refuted is the witness for the last clause."
  },
  {
   "property": "C76",
   "status": "proved",
   "theorems": [
    "c76_array",
    "c76_object",
    "c76_null",
    "c76_int",
    "c76_string",
    "c76_bool",
    "c76_skip",
    "c76_missing_colon_refuted",
    "c76_key_reference_refuted"
   ],
   "note": "Callbacks are arbitrary functions on a state of any type. The key is passed as a copy; c76_key_reference_refuted and c76_missing_colon_refuted are the witnesses."
  },
  {
   "property": "C77",
   "status": "proved",
   "theorems": [
    "c77_combined",
    "c77_grouping",
    "c77_each",
    "c77_alias_alone_refuted"
   ],
   "note": "Uninitialised memory is an arbitrary boolean; c77_alias_alone_refuted is the witness."
  },
  {
   "property": "C78",
   "status": "proved",
   "theorems": [
    "c78_text",
    "c78_read",
    "c78_read_zero",
    "c78_read_large",
    "c78_read_nearest",
    "c78_one_nearest",
    "c78_survives",
    "c78_stable",
    "c78_more_digits_refuted",
    "c78_whole_refuted",
    "c78_tiny_refuted",
    "c78_special_refuted"
   ],
   "note": "snprintf and strtod are modelled as correctly rounding (C11, glibc), over exact rationals; the _refuted theorems are the witnesses for the last sentence. The typed layer (C40, C41) works with number texts; c78 says which text a double has."
  },
  {
   "property": "C79",
   "status": "proved",
   "theorems": [
    "c79_lookup",
    "c79_fails_iff",
    "c79_again",
    "c79_history",
    "c79_reading",
    "c79_printing",
    "c79_custom",
    "c79_after_failure_refuted",
    "c79_duplicate_refuted"
   ],
   "note": "The mutex makes a lookup one step, so the schedules are the orders of lookups. c79_reading and c79_printing tie the codec objects to ModelJsonT (C39-C41, C49), which works by type; custom functions are arbitrary functions (c79_custom). The _refuted theorems are the witnesses for the last sentence."
  },
  {
   "property": "C80",
   "status": "proved",
   "theorems": [
    "c80_library_initialisers",
    "c80_any_order",
    "c80_all_registered",
    "c80_library_ok",
    "c80_integer_names",
    "c80_nested_class_refuted",
    "c80_early_lookup_refuted"
   ],
   "note": "Which builtin type a typedef names is taken for x86-64 Linux with glibc. Initialisers that look types up (reflectScope) are outside the guarded statement; c80_early_lookup_refuted shows why."
  },
  {
   "property": "C81",
   "status": "proved",
   "theorems": [
    "c81_registered",
    "c81_all_registered",
    "c81_twice",
    "c81_stays",
    "c81_read",
    "c81_write",
    "c81_refused",
    "c81_typed",
    "c81_history",
    "c81_function_registered",
    "c81_function_call",
    "c81_function_missing",
    "c81_inside",
    "c81_inside_names",
    "c81_scope_refuted"
   ],
   "note": "The values of variables are abstract payloads (as in C57/C67). c81_scope_refuted is the false part."
  },
  {
   "property": "C82",
   "status": "proved",
   "theorems": [
    "c82_order_free",
    "c82_like_map",
    "c82_like_map_dynamic",
    "c82_read",
    "c82_round_trip",
    "c82_round_trip_any_target",
    "c82_same_text_refuted"
   ],
   "note": "The position of an inserted pair and the shuffling of the others is a parameter (it may depend on the reader state, hence on the history); lawful says what the standard guarantees. c82_same_text_refuted is the false part."
  },
  {
   "property": "C83",
   "status": "proved",
   "theorems": [
    "c83_type_text",
    "c83_type_indent",
    "c83_type_unambiguous",
    "c83_type_shows",
    "c83_scope_text",
    "c83_scope_indent",
    "c83_scope_unambiguous",
    "c83_scope_shows",
    "c83_constness_refuted",
    "c83_scope_gap_refuted",
    "c83_cycle_refuted"
   ],
   "note": "Unambiguity assumes names a C++ registration can have (good_types, good_scopes: one line, trait and field names without blanks, colons or brackets). The false parts are the _refuted theorems. A negative indentation (Scope::print takes an int) is not modelled."
  },
  {
   "property": "C84",
   "status": "proved",
   "theorems": [
    "c84_print_graph",
    "c84_parse_tree",
    "c84_pointee_updated_in_place",
    "c84_only_reachable_changes",
    "c84_round_trip",
    "c84_shared_refuted",
    "c84_sharing_lost_refuted",
    "c84_cycle_refuted"
   ],
   "note": "Pointers designate whole objects and every object is kept alive by another owner (ModelJsonH), so use after free by resetting a last owner is not covered. The false parts are the _refuted theorems."
  },
  {
   "property": "C85",
   "status": "proved",
   "theorems": [
    "c85_what_is_there",
    "c85_raised_stays",
    "c85_reported_once",
    "c85_never_completed",
    "c85_loaded_in_full",
    "c85_unknown_raises",
    "c85_always_ends",
    "c85_same_without_errors",
    "c85_error_iff_abort",
    "c85_given_half_loaded_refuted",
    "c85_never_raised_refuted"
   ],
   "note": "No body catches an exception itself, and one thread. A registration line that raises leaves the type as it was, read off the code: each checks before it inserts. The false parts are the _refuted theorems."
  },
  {
   "property": "C86",
   "status": "proved",
   "theorems": [
    "c86_enough_stack",
    "c86_enough_stack_skip",
    "c86_skip_takes_the_depth",
    "c86_no_stack_is_enough_refuted"
   ],
   "note": "A level is one call of skip or of a parser's parse; all are taken to need the same room. Building the parsers of a type, which nests by the types only, is not counted. The false part is c86_no_stack_is_enough_refuted."
  },
  {
   "property": "C87",
   "status": "proved",
   "theorems": [
    "c87_no_destroyed_object_used",
    "c87_graph_stays_sound",
    "c87_owned_outside_stays",
    "c87_nothing_left_over",
    "c87_back_pointer_refuted",
    "c87_plain_beside_smart_refuted",
    "c87_left_dangling_refuted",
    "c87_plain_left_over_refuted",
    "c87_cycle_left_over_refuted"
   ],
   "note": "Owners are counted over the objects alive; a pointer that a constructor fills counts as owning. The false parts are c87_back_pointer_refuted, c87_plain_beside_smart_refuted, c87_left_dangling_refuted, c87_plain_left_over_refuted and c87_cycle_left_over_refuted."
  },
  {
   "property": "C88",
   "status": "proved",
   "theorems": [
    "c88_message",
    "c88_description_unique",
    "c88_short_documents_defined",
    "c88_place_recoverable",
    "c88_long_messages_refuted",
    "c88_long_token_refuted",
    "c88_nul_refuted",
    "c88_quoted_byte",
    "c88_end_of_text_refuted",
    "c88_unexpected_token",
    "c88_unexpected_token_text"
   ],
   "note": "The expansion of %s, %c and %x is modelled; an error made by the application itself has an arbitrary text and is excluded. The false parts are c88_long_messages_refuted, c88_long_token_refuted, c88_nul_refuted and c88_end_of_text_refuted."
  },
  {
   "property": "C89",
   "status": "proved",
   "theorems": [
    "c89_names_resolve",
    "c89_order_irrelevant",
    "c89_defined_twice_refuted",
    "c89_link_to_part_refuted",
    "c89_endless_refuted",
    "c89_link_to_present_part",
    "c89_set_part",
    "c89_part_of_nothing",
    "c89_read_part"
   ],
   "note": "The values' own operations (has, get, set of a path inside a Value) are a parameter of the model, quantified in the theorems. The false parts are c89_defined_twice_refuted, c89_link_to_part_refuted and c89_endless_refuted."
  },
  {
   "property": "C90",
   "status": "proved",
   "theorems": [
    "c90_plain_keys",
    "c90_links",
    "c90_no_name",
    "c90_typed_link_refuted"
   ],
   "note": "The false part is c90_typed_link_refuted."
  },
  {
   "property": "C91",
   "status": "proved",
   "theorems": [
    "c91_has_finds",
    "c91_has_answers",
    "c91_has_const",
    "c91_get_gives_the_part",
    "c91_get_finds",
    "c91_get_elsewhere",
    "c91_set_when",
    "c91_set",
    "c91_set_elsewhere",
    "c91_lists_end_at_the_index",
    "c91_fresh",
    "c91_const_get",
    "c91_const_stays",
    "c91_no_such_field",
    "c91_get_changes_refuted",
    "c91_set_cuts_refuted",
    "c91_const_refuted",
    "c91_undefined_refuted",
    "c91_config_part"
   ],
   "note": "The code calls Value::get<Value>(name) and Value::set, which no longer exist: they are read as field access and assignment to a field. Assignment takes a value of the same type (no conversions). The false parts are c91_get_changes_refuted, c91_set_cuts_refuted, c91_const_refuted and c91_undefined_refuted."
  },
  {
   "property": "C92",
   "status": "proved",
   "theorems": [
    "c92_document",
    "c92_only_documents",
    "c92_names",
    "c92_unknown_types",
    "c92_order_irrelevant",
    "c92_typed_array_refuted",
    "c92_empty_refuted",
    "c92_lists_refuted",
    "c92_typed_link_refuted",
    "c92_links_refuted"
   ],
   "note": "json.cpp is written against a token API that no longer exists and is not part of the build: it is modelled over the tokens of a document; trailing tokens are not looked at. c92_document and c92_only_documents hold for every store of values; c92_names and c92_order_irrelevant for the store of C91. The false parts are c92_typed_array_refuted, c92_empty_refuted, c92_lists_refuted, c92_typed_link_refuted and c92_links_refuted."
  },
  {
   "property": "C93",
   "status": "proved",
   "theorems": [
    "c93_own_fields",
    "c93_own_functions",
    "c93_field_trait",
    "c93_function_traits",
    "c93_function_trait",
    "c93_inherited_refuted"
   ],
   "note": "reflectFieldValue adds the same trait with a value, which is not modelled here (trait values: C48). The false part is c93_inherited_refuted."
  }
 ]
}