{
 "C01": {
  "status": "proved",
  "note": "Holds on every well-formed (acyclic) hierarchy; c01_cyclic_parents_refuted shows that the unchecked parent setter allows a cyclic hierarchy on which the query diverges."
 },
 "C08": {
  "status": "proved",
  "note": "The unconditional statement is false of the code: c08_order_independent_refuted and c08_registration_order_refuted."
 },
 "C09": {
  "status": "proved",
  "note": "The agreement stated in the property; the two _refuted theorems record that get() and call() may differ and that test() does not imply call() (ambiguity)."
 },
 "C25": {
  "status": "proved",
  "note": "Proved with the proviso in the statement; c25_refuted witnesses that it is needed."
 },
 "C21": {
  "status": "proved",
  "note": "Statement carries the proviso; three _refuted theorems are witnesses that the code as written needs it. c21_held_lock_serialises is about the evident intent (recursive lock held throughout), not the code."
 },
 "C22": {
  "status": "proved",
  "note": "c22_failed_loader_leaves_type_refuted records that a failing loader leaves its type registered."
 },
 "C16": {
  "status": "proved",
  "note": "c16_assignment_leaks_refuted is the witness for the proviso; c16_releasing_assignment_is_enough is about the repaired assignment."
 },
 "C43": {
  "status": "proved",
  "note": "c43_long_messages_refuted describes every message of 1023 bytes or more. The expansion of conversions by libc is not modelled."
 },
 "C46": {
  "status": "proved",
  "note": "The two _refuted theorems are the witnesses for the proviso on the separator."
 },
 "C47": {
  "status": "proved",
  "note": "The _refuted theorems record the non-idempotence and the divergence mentioned in the statement. volatile and member pointers are not modelled."
 },
 "C51": {
  "status": "proved",
  "note": "c51_isIndex_but_throws_refuted is the recorded exception."
 },
 "C29": {
  "status": "proved",
  "note": "Proved with the proviso in the statement (characters up to U+FFFF); c29_astral_refuted is the witness that it is needed."
 },
 "C30": {
  "status": "proved",
  "note": "Both halves, any continuation of the input."
 },
 "C31": {
  "status": "proved",
  "note": "Exact characterisation on both sides for strings without byte 0xFF; c31_byte_ff_refuted and c31_escaping_writer_overlong_refuted are the witnesses for the provisos."
 },
 "C32": {
  "status": "proved",
  "note": "Any text before and after the escape; error half for any number of good digits before the bad one."
 },
 "C33": {
  "status": "proved",
  "note": "Every delimiter that can end a number, and the end of the input."
 },
 "C34": {
  "status": "proved",
  "note": "Token level for every reader state; document level for every type environment without pure pointer cycles (which C++ cannot express)."
 },
 "C35": {
  "status": "proved",
  "note": "Every operation sequence including user callbacks (inductive relation uses)."
 },
 "C36": {
  "status": "proved",
  "note": "Insertion at any token boundary, observed through token types and values; integers in range of int64."
 },
 "C37": {
  "status": "proved",
  "note": "c37_number_at_end_refuted is the witness for the proviso."
 },
 "C38": {
  "status": "proved",
  "note": "The amended statement (token layer); c38_malformed_fatal_refuted witnesses that whole documents do not have the property."
 },
 "C42": {
  "status": "proved",
  "note": "Any sequence of reader uses; c42_line_and_column gives line and column (c42_line_counts_newlines: line alone); c42_comment_line_refuted is the witness for the proviso."
 },
 "C40": {
  "status": "proved",
  "note": "c40_round_trip is the claim; c40_round_trip_any_target extends it to doubles, pointers and skipped fields; the _refuted theorems are witnesses that the provisos are needed. Doubles are represented by their text (no rounding)."
 },
 "C41": {
  "status": "proved",
  "note": "List, map and class targets, plus frame theorems for arbitrary texts; the _refuted theorems are witnesses for the parenthesis."
 },
 "C49": {
  "status": "proved",
  "note": "c49_duplicate_alias_refuted is the witness for the proviso. c36_document_unambiguous makes the text determine the document."
 },
 "C39": {
  "status": "proved",
  "note": "Proved with the exception in the statement; c39_refuted gives the silently accepted prefixes. 'Accepted' is: parsing ends normally and the reader has no error; a prefix on which the code calls reflectError, throws or (unterminated string with validation, see C32) is undefined does not count as accepted."
 },
 "C14": {
  "status": "proved",
  "note": "Statement carries the provisos; five _refuted witnesses show each is needed. Callables, constructibility and address arithmetic come from an arbitrary environment record (cpp)."
 },
 "C15": {
  "status": "proved",
  "note": "The two holes (T&& cast, as<T>()) are part of the statement and proved as witnesses."
 },
 "C52": {
  "status": "proved",
  "note": "Provisos in the statement; witness for the move-only result."
 },
 "C53": {
  "status": "proved",
  "note": "The T&& converse is false of the code (witness)."
 },
 "C54": {
  "status": "proved",
  "note": "The two non-guarantees are proved as witnesses."
 },
 "C55": {
  "status": "proved",
  "note": ""
 },
 "C56": {
  "status": "proved",
  "note": "loads = register succeeds, well-formed, only T changes, carries exactly the list, copiable/movable as the class. The type objects named by signatures exist before the body runs."
 },
 "C57": {
  "status": "proved",
  "note": "One theorem per library body, for every element type. PP is the raw pointer type to the pointee of a smart pointer."
 },
 "C58": {
  "status": "proved",
  "note": "Holds for classes without operator*. c58_dereference_refuted: with one operator* the load aborts for every class."
 },
 "C59": {
  "status": "proved",
  "note": "On C++ type expressions (ModelClean/ModelSig). c59_pointee_const_refuted: const of pointees is lost."
 },
 "C60": {
  "status": "proved",
  "note": "cpp_binds is the C++ reference binding rule for non-pointer types, stated over C++ types."
 },
 "C61": {
  "status": "proved",
  "note": "c61_value_reference_refuted: asking for Value& from a by-value result passes the test."
 },
 "C62": {
  "status": "proved",
  "note": "Exact characterisation (both directions, c62_exactly_these). Grammar of accepted texts in SpecJsonA; c62_only_json_refuted lists texts outside JSON that are accepted."
 },
 "C63": {
  "status": "proved",
  "note": "Converse of C41: soundness of the typed parsers. c63_cut_list_refuted: the text ends early."
 },
 "C64": {
  "status": "proved",
  "note": "Ownership state machine of Value (ModelValOwn), every history. Two _refuted witnesses: field of a temporary, moved-from Value."
 },
 "C65": {
  "status": "proved",
  "note": "Bodies of types/std/vector.h over an explicit memory (ModelCont), reached through the whole call path (lookup, resolution, test, marshalling, result). Element values are opaque numbers. c65_index_out_of_bounds_refuted: operator[] is unchecked."
 },
 "C66": {
  "status": "proved",
  "note": "Bodies of types/std/map.h; special members of maps not modelled. Iteration order of unordered_map is one fixed choice; the spec leaves it open."
 },
 "C67": {
  "status": "proved",
  "note": "Whole call path (lookup, resolution, carrying arguments into Values, marshalling, result) against the relations Fits, resolution_spec, CarriedAll, PassedAll, Returned. Hypotheses passable/returnable/result_ok say that the copy, move and conversion functions the chosen signature needs are registered."
 },
 "C68": {
  "status": "proved",
  "note": "Under the proviso on ids; c68_odd_ids_refuted shows it is needed."
 },
 "C69": {
  "status": "proved",
  "note": "c69_own_parent_refuted: is_base_of<T,T> lets a class name itself."
 },
 "C70": {
  "status": "proved",
  "note": "ModelLoad runs whole reflect bodies with nested on-demand loading. c70_always_loads/c70_library_loads: no request fails when overloads are told apart by what is declared (well_kept) or come from the library; c70_order_decides_refuted is the code's order dependence. Aliases, missing loaders and threads: C17-C22."
 },
 "C71": {
  "status": "proved",
  "note": "c71_call: one call from any sound set of smart pointers; c71_destroy; c71_history/c71_no_leak: all histories (induction over client steps). Control blocks with counts are in the memory. c71_null_refuted and c71_two_owners_refuted are the two false parts. shared_ptr aliasing, weak_ptr, custom deleters are not reflected by the code."
 },
 "C72": {
  "status": "proved",
  "note": "c72_call: one call, for every operation and memory (aliasing allowed); c72_history: all histories of calls; c72_small_sum, c72_unsigned_sum: when a sum always fits; c72_refused, c72_mixed: refusals; c72_overflow_refuted, c72_new_refuted: the false parts. The content of strings and class instances is opaque; floating point addition is an arbitrary function. c57_alloc_plumbing (PropPlain) covers loading."
 },
 "C73": {
  "status": "proved",
  "note": "c73_typed, c73_typed_fails: any body, overload set and requested result that fits; c73_refused; c73_plus, c73_vector_size: instances; c73_raw_truth, c73_smart_truth, c73_smart_equal: operators on pointers; c73_operators: exactly the operators each library type has; c73_no_truth_refuted: the false part. Copies are modelled for numbers and raw pointers; a result of class type by value is not."
 },
 "C74": {
  "status": "proved",
  "note": "c74_map_step, c74_vector_step: one allowed call; c74_map_session, c74_vector_session: any session; c74_no_assign, c74_vector_no_assign: handles that cannot be written through. Moving a container into itself is excluded (the C++ library leaves it unspecified)."
 },
 "C75": {
  "status": "proved",
  "note": "Callbacks are arbitrary functions on a state of any type; c75_no_state_* link to the printers of C40/C49; c75_last_error_refuted is the witness for the last clause."
 },
 "C76": {
  "status": "proved",
  "note": "Callbacks are arbitrary functions on a state of any type. The key is passed as a copy; c76_key_reference_refuted and c76_missing_colon_refuted are the witnesses."
 },
 "C77": {
  "status": "proved",
  "note": "Uninitialised memory is an arbitrary boolean; c77_alias_alone_refuted is the witness."
 },
 "C78": {
  "status": "proved",
  "note": "snprintf and strtod are modelled as correctly rounding (C11, glibc), over exact rationals; the _refuted theorems are the witnesses for the last sentence. The typed layer (C40, C41) works with number texts; c78 says which text a double has."
 },
 "C79": {
  "status": "proved",
  "note": "The mutex makes a lookup one step, so the schedules are the orders of lookups. c79_reading and c79_printing tie the codec objects to ModelJsonT (C39-C41, C49), which works by type; custom functions are arbitrary functions (c79_custom). The _refuted theorems are the witnesses for the last sentence."
 },
 "C80": {
  "status": "proved",
  "note": "Which builtin type a typedef names is taken for x86-64 Linux with glibc. Initialisers that look types up (reflectScope) are outside the guarded statement; c80_early_lookup_refuted shows why."
 },
 "C81": {
  "status": "proved",
  "note": "The values of variables are abstract payloads (as in C57/C67). c81_scope_refuted is the false part."
 },
 "C82": {
  "status": "proved",
  "note": "The position of an inserted pair and the shuffling of the others is a parameter (it may depend on the reader state, hence on the history); lawful says what the standard guarantees. c82_same_text_refuted is the false part."
 },
 "C83": {
  "status": "proved",
  "note": "Unambiguity assumes names a C++ registration can have (good_types, good_scopes: one line, trait and field names without blanks, colons or brackets). The false parts are the _refuted theorems. A negative indentation (Scope::print takes an int) is not modelled."
 },
 "C84": {
  "status": "proved",
  "note": "Pointers designate whole objects and every object is kept alive by another owner (ModelJsonH), so use after free by resetting a last owner is not covered. The false parts are the _refuted theorems."
 },
 "C85": {
  "status": "proved",
  "note": "No body catches an exception itself, and one thread. A registration line that raises leaves the type as it was, read off the code: each checks before it inserts. The false parts are the _refuted theorems."
 },
 "C86": {
  "status": "proved",
  "note": "A level is one call of skip or of a parser's parse; all are taken to need the same room. Building the parsers of a type, which nests by the types only, is not counted. The false part is c86_no_stack_is_enough_refuted."
 },
 "C87": {
  "status": "proved",
  "note": "Owners are counted over the objects alive; a pointer that a constructor fills counts as owning. The false parts are c87_back_pointer_refuted, c87_plain_beside_smart_refuted, c87_left_dangling_refuted, c87_plain_left_over_refuted and c87_cycle_left_over_refuted."
 },
 "C88": {
  "status": "proved",
  "note": "The expansion of %s, %c and %x is modelled; an error made by the application itself has an arbitrary text and is excluded. The false parts are c88_long_messages_refuted, c88_long_token_refuted, c88_nul_refuted and c88_end_of_text_refuted."
 },
 "C89": {
  "status": "proved",
  "note": "The values' own operations (has, get, set of a path inside a Value) are a parameter of the model, quantified in the theorems. The false parts are c89_defined_twice_refuted, c89_link_to_part_refuted and c89_endless_refuted."
 },
 "C90": {
  "status": "proved",
  "note": "The false part is c90_typed_link_refuted."
 },
 "C91": {
  "status": "proved",
  "note": "The code calls Value::get<Value>(name) and Value::set, which no longer exist: they are read as field access and assignment to a field. Assignment takes a value of the same type (no conversions). The false parts are c91_get_changes_refuted, c91_set_cuts_refuted, c91_const_refuted and c91_undefined_refuted."
 },
 "C92": {
  "status": "proved",
  "note": "json.cpp is written against a token API that no longer exists and is not part of the build: it is modelled over the tokens of a document; trailing tokens are not looked at. c92_document and c92_only_documents hold for every store of values; c92_names and c92_order_irrelevant for the store of C91. The false parts are c92_typed_array_refuted, c92_empty_refuted, c92_lists_refuted, c92_typed_link_refuted and c92_links_refuted."
 },
 "C93": {
  "status": "proved",
  "note": "reflectFieldValue adds the same trait with a value, which is not modelled here (trait values: C48). The false part is c93_inherited_refuted."
 }
}