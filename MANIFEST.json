{
 "claims": [
  {
   "property": "C01",
   "status": "proved",
   "theorems": [
    "C01_uptr_roundtrip",
    "C01_uptr_prefix_free",
    "C01_uptr_size"
   ],
   "note": "All 64-bit words, any trailing bytes."
  },
  {
   "property": "C02",
   "status": "proved",
   "theorems": [
    "C02_fasl_roundtrip",
    "C02_fuel_irrelevant",
    "C02_fasl_injective",
    "C02_gensym_refuted",
    "C02_nul_string_refuted",
    "C02_truncated_input_refuted"
   ],
   "note": "Round trip for every faithful datum; the refuted theorems show that the side conditions (interned symbols, NUL-free strings, complete input) are needed."
  },
  {
   "property": "C03",
   "status": "proved",
   "theorems": [
    "C03_fasl_sequence"
   ],
   "note": "Any number of data on one port."
  },
  {
   "property": "C04",
   "status": "proved",
   "theorems": [
    "C04_fasl_write_rejects"
   ],
   "note": "Exact characterisation of the failure."
  },
  {
   "property": "C05",
   "status": "proved",
   "theorems": [
    "C05_hashtable_refines_map",
    "C05_spec_get_set",
    "C05_spec_get_delete"
   ],
   "note": "Pointer-level model of the whole table implementation; any history over any number of tables refines finite maps. Updater and hash/equivalence procedures are pure functions."
  },
  {
   "property": "C06",
   "status": "proved",
   "theorems": [
    "C06_isolation",
    "C06_copy_independent",
    "C06_observation_exists"
   ],
   "note": "Isolation between tables, and copies, for all later histories."
  },
  {
   "property": "C07",
   "status": "proved",
   "theorems": [
    "C07_entries_enumerate"
   ],
   "note": "Entries: no duplicates, none missing, count equals hashtable-size."
  },
  {
   "property": "C08",
   "status": "partial",
   "theorems": [
    "C08_history_completes",
    "C08_different_names",
    "C08_same_name_partial",
    "C08_same_name_small",
    "C08_same_name_refuted"
   ],
   "note": "Different names: proved for all histories. Same name: proved for every name not first interned at a growth point of the table (so for every history of up to 6157 calls); the full statement is false of the code, C08_same_name_refuted gives the history."
  },
  {
   "property": "C09",
   "status": "proved",
   "theorems": [
    "C09_gensym_fresh",
    "C09_gensym_names",
    "C09_gensym_name"
   ],
   "note": "Every gensym differs from the result of every other call in every history; names also differ for equal prefixes."
  },
  {
   "property": "C10",
   "status": "proved",
   "theorems": [
    "C10_environment_refines_map",
    "C10_get_after_set",
    "C10_new_empty",
    "C10_capture_reads",
    "C10_capture_writes"
   ],
   "note": "Any history over any number of environments refines finite maps; captured references stay valid across rehashing. set! on a missing top-level variable is undefined behaviour in the code and excluded by legal."
  },
  {
   "property": "C11",
   "status": "partial",
   "theorems": [
    "C11_isolation",
    "C11_copy_contents_partial",
    "C11_copy_all_contents",
    "C11_duplicate_names_refuted",
    "C11_immutable_copy_refuted"
   ],
   "note": "Contents and isolation of copies proved for duplicate-free name lists; with duplicate names the copy later returns stale values (C11_duplicate_names_refuted), and the mutable? flag is ignored (C11_immutable_copy_refuted)."
  },
  {
   "property": "C12",
   "status": "partial",
   "theorems": [
    "C12_add_exact",
    "C12_mul_exact",
    "C12_sub_exact",
    "C12_add_total",
    "C12_mul_total",
    "C12_sub_total",
    "C12_neg_total",
    "C12_add_type_error",
    "C12_sub_type_error",
    "C12_mul_type_error",
    "C12_add1",
    "C12_sub1",
    "C12_add1_type_error",
    "C12_remainder_type_error",
    "C12_div_zero_anywhere_refuted",
    "C12_div_name_refuted",
    "C12_div_partial",
    "C12_remainder",
    "C12_div_variadic_refuted",
    "C12_div_zero_refuted",
    "C12_mul_type_error_refuted",
    "C12_remainder_zero_refuted"
   ],
   "note": "+, -, * are exact and total (when running results fit) for any number of arguments; first non-number reported (+,-); two-argument / and remainder exact. Refuted parts: / with 3+ arguments subtracts, / by zero hits an unbound name, * blames the wrong argument, remainder/modulo by zero undefined. Type errors of *, add1, sub1 and remainder are settled too. Refuted: a division error for a zero divisor (it is an unbound-variable error), and the name in the error of / (it is -)."
  },
  {
   "property": "C13",
   "status": "partial",
   "theorems": [
    "C13_modulo_partial",
    "C13_modulo_unique",
    "C13_modulo_refuted",
    "C13_modulo_type_error"
   ],
   "note": "modulo satisfies its specification exactly when the divisor does not divide the dividend or the signs agree; refuted otherwise (modulo -4 2 is 2). The type error of modulo is settled."
  },
  {
   "property": "C14",
   "status": "proved",
   "theorems": [
    "C14_eq_chain",
    "C14_lt_chain",
    "C14_gt_chain",
    "C14_le_chain",
    "C14_ge_chain",
    "C14_lt_type_error",
    "C14_eq_type_error",
    "C14_gt_type_error",
    "C14_le_type_error",
    "C14_ge_type_error",
    "C14_lt_short_circuit",
    "C14_gt_short_circuit",
    "C14_le_short_circuit",
    "C14_ge_short_circuit",
    "C14_eq_short_circuit",
    "C14_one_argument_refuted"
   ],
   "note": "All five comparisons decide the pairwise chain for two or more fixnums; type errors and short-circuiting characterised. One-argument calls return the argument (finding). Type errors and short-circuiting of >, <=, >= and = are settled."
  },
  {
   "property": "C15",
   "status": "proved",
   "theorems": [
    "C15_equal_decides_structure",
    "C15_c_equal_decides_structure",
    "C15_eq_implies_equal",
    "C15_equivalence",
    "C15_hashtable_symmetry_refuted"
   ],
   "note": "Proved for all acyclic heap data, for the prelude's equal? and the C primitive. Hashtables are outside the property: equal? on them is not symmetric (C15_hashtable_symmetry_refuted)."
  },
  {
   "property": "C16",
   "status": "proved",
   "theorems": [
    "C16_equal_data_same_hash",
    "C16_hash_is_fixnum"
   ],
   "note": "Equal data have identical hash outcomes; the outcome is a fixnum for data below about 10^10 nodes. Hashtable keys raise an unbound-variable error (hashtable->list is not defined) and are outside."
  },
  {
   "property": "C17",
   "status": "proved",
   "theorems": [
    "C17_rejects_improper",
    "C17_append_rejects",
    "C17_map_rejects",
    "C17_map_lengths",
    "C17_rejects_indices",
    "C17_member_rejects",
    "C17_index_of_rejects",
    "C17_remove_rejects",
    "C17_assoc_rejects",
    "C17_assoc_no_pair",
    "C17_remove_star_rejects",
    "C17_list_ref_rejects",
    "C17_filter_rejects",
    "C17_foldl_rejects",
    "C17_foldr_rejects",
    "C17_list_set_rejects",
    "C17_assq_ref",
    "C17_assq_set",
    "C17_length",
    "C17_reverse",
    "C17_append",
    "C17_make_list",
    "C17_copy_list",
    "C17_for_each",
    "C17_map",
    "C17_andmap",
    "C17_ormap",
    "C17_calls_keep_arguments",
    "C17_iota",
    "C17_enumerate",
    "C17_cons_star",
    "C17_list_ref",
    "C17_list_set",
    "C17_filter",
    "C17_foldl",
    "C17_foldr",
    "C17_member",
    "C17_assoc",
    "C17_index_of",
    "C17_remove",
    "C17_remove_star",
    "C17_list_to_vector",
    "C17_vector_to_list"
   ],
   "note": "ormap returns #t (not the value) and member returns the element (not the tail), as the code does; procedure arguments are assumed to return or raise and not to mutate pairs ListErrThm.v settles what each list procedure does with an argument outside its domain."
  },
  {
   "property": "C18",
   "status": "partial",
   "theorems": [
    "C18_vector_ref",
    "C18_vector_set",
    "C18_ref_after_set",
    "C18_vector_length",
    "C18_vector_fill",
    "C18_vector_fill_name_refuted",
    "C18_vector",
    "C18_make_vector_partial",
    "C18_make_vector_refuted",
    "C18_make_vector_rejects",
    "C18_boxes"
   ],
   "note": "vector-ref/set!/fill!/length proved for every argument; make-vector writes out of bounds for lengths of 2^61-2 and more (size wraps around), refuted there and proved below. Out-of-range errors are argument errors blaming raise-range-error, since its arguments are swapped at the call Refuted: the error of vector-fill! names vector-fill! (it names vector->list)."
  },
  {
   "property": "C19",
   "status": "partial",
   "theorems": [
    "C19_string_length",
    "C19_string_ref",
    "C19_string_set",
    "C19_ref_after_set",
    "C19_set_nul_refuted",
    "C19_string_append",
    "C19_append_fresh_refuted",
    "C19_substring",
    "C19_substring_rejects",
    "C19_make_string",
    "C19_list_to_string",
    "C19_string_to_list_partial",
    "C19_string_to_list_refuted",
    "C19_list_to_string_inverse",
    "C19_conversions_reject",
    "C19_append_rejects",
    "C19_make_string_rejects",
    "C19_make_string_rejects_fill"
   ],
   "note": "all of the statement proved for characters other than NUL; string-set! with NUL shortens the string (refuted), one-argument string-append returns its argument, string->list appends a NUL character (refuted); wrong arguments raise the stated errors (C19_conversions_reject, C19_append_rejects, C19_make_string_rejects)"
  },
  {
   "property": "C20",
   "status": "partial",
   "theorems": [
    "C20_number_to_string",
    "C20_round_trip_partial",
    "C20_round_trip_refuted",
    "C20_decimal_text",
    "C20_rejects"
   ],
   "note": "round trip holds exactly for 32-bit integers: string->number uses atoi (glibc behaviour assumed outside int); the text accepted and the number it denotes are specified separately (C20_decimal_text)"
  },
  {
   "property": "C21",
   "status": "proved",
   "theorems": [
    "C21_sort_list",
    "C21_sort_vector",
    "C21_any_less",
    "C21_not_a_sequence"
   ],
   "note": "For lists and vectors; less? may allocate and read anything but not mutate existing objects. For an arbitrary less? the result is still a permutation (or less?'s own error)."
  },
  {
   "property": "C22",
   "status": "proved",
   "theorems": [
    "C22_sets_refine_finite_sets",
    "C22_arguments_unchanged",
    "C22_count_unique"
   ],
   "note": "set.min over the pointer-level hashtable model, any history of sets; elements not mutated while in a set; record wrapper, printer and equal/hash methods not modelled."
  },
  {
   "property": "C23",
   "status": "partial",
   "theorems": [
    "C23_write_read_partial",
    "C23_print_read_partial",
    "C23_write_injective_partial",
    "C23_write_sequence_partial",
    "C23_string_text",
    "C23_empty_vector_refuted",
    "C23_control_characters_refuted",
    "C23_least_fixnum_refuted",
    "C23_box_refuted",
    "C23_long_string_refuted",
    "C23_dot_refuted",
    "C23_print_quote_refuted",
    "C23_odd_symbol_refuted"
   ],
   "note": "Proved for the prelude's write and for the C printer on all readable data (unbounded nesting). Missing, and refuted by witnesses: the empty vector prints as #), control characters in strings use escapes the reader rejects, the least fixnum overflows in the reader, boxes print as #<garbage>, texts of 4096 characters and more, the symbol . inside a list; the C printer does not escape strings. C23_string_text gives the text written for a string character by character, from a table of escapes."
  },
  {
   "property": "C24",
   "status": "proved",
   "theorems": [
    "C24_blank_prefix",
    "C24_blank_in_list",
    "C24_blank_in_vector",
    "C24_last_comment",
    "C24_block_comment",
    "C24_datum_comment",
    "C24_comment_before_bracket_refuted"
   ],
   "note": "Every prefix of whitespace and line comments, before data and inside lists and vectors, for every outcome of read; also block and datum comments before a datum. Beyond the property: a block comment before a closing bracket is an error (refuted theorem)."
  },
  {
   "property": "C25",
   "status": "proved",
   "theorems": [
    "C25_list_ends_with_matching_bracket",
    "C25_vector_ends_with_bracket",
    "C25_digit_values",
    "C25_digits",
    "C25_grammar",
    "C25_mismatch_is_an_error",
    "C25_end_of_input_is_an_error",
    "C25_stray_bracket",
    "C25_unterminated_vector_refuted",
    "C25_quote_at_end_refuted"
   ],
   "note": "For every input: a list read ends with the matching bracket; full grammar equivalence (soundness and completeness) for inputs without byte 0xFF; mismatch, stray bracket and end of input are errors. Beyond the property: an unterminated vector makes the reader loop and a quote at the end of the input yields a null pointer (refuted theorems). C25_digits gives the value of each digit from a table."
  },
  {
   "property": "C26",
   "status": "proved",
   "theorems": [
    "C26_datum_to_syntax",
    "C26_syntax_of_syntax",
    "C26_syntax_to_datum",
    "C26_not_syntax_is_an_error",
    "C26_round_trip",
    "C26_syntax_to_list",
    "C26_list_elements"
   ],
   "note": "Stated over the object heap with mutable cells: the destructive loops of pair_to_syntax, vector_to_syntax and syntax_to_list are modelled cell by cell; existing objects are not changed."
  },
  {
   "property": "C27",
   "status": "partial",
   "theorems": [
    "C27_checker_returns",
    "C27_checker_accepts_core",
    "C27_accepted_parses_partial",
    "C27_operator_unchecked_refuted",
    "C27_call_with_values_refuted",
    "C27_internal_form_refuted",
    "C27_checker_undefined_refuted",
    "C27_rejects_others"
   ],
   "note": "The checker accepts exactly the grammar of core expressions (C27_checker_accepts_core), always returns, never accepts anything else, and expressions whose operators are core expressions are taken apart by the compiler without undefined behaviour. False in full: operators, call-with-values and internal forms are not checked, and the checker itself is undefined on (begin), (lambda) and malformed clauses (refuted theorems). C27_parse_denotes relates parsing of data with parsing of objects in memory."
  },
  {
   "property": "C28",
   "status": "proved",
   "theorems": [
    "C28_writing_succeeds",
    "C28_jumps_land_after_their_label",
    "C28_compilation_succeeds",
    "C28_compiled_jumps",
    "C28_targets_in_range",
    "C28_primitives_jump"
   ],
   "note": "For every expression the compiler accepts, and for the hand-written procedures: each jump of the written code is at the position of the first instruction after its label and inside the code object, recursively for the codes of nested procedures; compilation succeeds for every compilable core expression."
  },
  {
   "property": "C29",
   "status": "proved",
   "theorems": [
    "C29_slots_in_frame"
   ],
   "note": "Over the control-flow graph of every compiled code object: each local-variable instruction reachable with an environment of k slots addresses slots below k, and the captured cells fit."
  },
  {
   "property": "C30",
   "status": "partial",
   "theorems": [
    "C30_free_variables_partial",
    "C30_no_spurious_variable",
    "C30_define_hides_refuted"
   ],
   "note": "Exact for expressions without define-values; soundness for all. Refuted with define-values inside a procedure: the defined names are removed from the free variables of the right-hand side."
  },
  {
   "property": "C31",
   "status": "partial",
   "theorems": [
    "C31_programs_partial",
    "C31_programs_unique_partial",
    "C31_values_in_argument_refuted",
    "C31_inner_definition_refuted"
   ],
   "note": "Full simulation of the big-step semantics by the machine, for programs (lists of top-level expressions with shared globals), values, stores and errors, plus uniqueness of the machine's outcome. Missing: mv-values forms left in argument position and define-values inside procedures, for which the claim is refuted with witnesses; restricted to expressions satisfying wf and to an unbounded stack (segments are in C38). Programs that do not end are in C69."
  },
  {
   "property": "C32",
   "status": "partial",
   "theorems": [
    "C32_optimiser_terminates",
    "C32_optimiser_result_unique",
    "C32_optimised_programs_partial",
    "C32_atomic_results_partial",
    "C32_optimised_execution_partial",
    "C32_missing_argument_refuted",
    "C32_values_as_arguments_refuted",
    "C32_dropped_argument_refuted",
    "C32_consumer_order_refuted",
    "C32_rebound_values_refuted",
    "C32_assignment_value_refuted",
    "C32_nested_values_refuted",
    "C32_rest_consumer_refuted"
   ],
   "note": "The optimiser (L0, L1, L2) terminates on every source expression with a unique result (C32_optimiser_terminates, C32_optimiser_result_unique). For programs of any length and depth, with arbitrary primitives that allocate without depending on addresses, an optimised program has exactly one meaning and it equals the original one up to renaming of addresses: results, errors, heap, globals (C32_optimised_programs_partial), and the machine run on it yields that outcome (C32_optimised_execution_partial). Missing: programs whose outcome is an arity or result-count error; consumers of call-with-values that are not lambda expressions; rebinding values; immediate calls whose parameter list is empty while the argument list is not (or conversely); top-level expressions that both assign globals and call procedure expressions; programs that do not terminate. Each kind of condition is shown necessary by a _refuted theorem with a concrete program that the passes change."
  },
  {
   "property": "C33",
   "status": "proved",
   "theorems": [
    "C33_tail_calls_constant_continuation",
    "C33_top_level_loop"
   ],
   "note": "Continuation chain and frame base unchanged along any chain of tail calls, for any number of iterations; the loop examples show the hypotheses are met."
  },
  {
   "property": "C34",
   "status": "proved",
   "theorems": [
    "C34_clause_selected",
    "C34_arity_error"
   ],
   "note": "First accepting clause runs with parameters bound to arguments and rest list; arity error when no clause accepts."
  },
  {
   "property": "C35",
   "status": "partial",
   "theorems": [
    "C35_arity_partial",
    "C35_primitive_arity",
    "C35_arity_refuted",
    "C35_not_an_arity_refuted"
   ],
   "note": "Proved when no rest clause requires fewer arguments than an earlier clause. Refuted otherwise (update_arity keeps the old minimum), and the arity value need not even be a procedure-arity?. C35_primitive_arity: an arity error of a primitive for every wrong count."
  },
  {
   "property": "C36",
   "status": "partial",
   "theorems": [
    "C36_apply_spreads_partial",
    "C36_apply_rejects",
    "C36_apply_arity",
    "C36_long_list_refuted",
    "C36_list_moves_to_new_segment"
   ],
   "note": "Spread proved for every list on the machine with an unbounded stack; with the real stack, lists of 8190 to 64494 elements write out of bounds (C36_long_list_refuted). When a list does not fit, the new segment holds the arguments already pushed, the list, and nothing in between (C36_list_moves_to_new_segment)."
  },
  {
   "property": "C37",
   "status": "partial",
   "theorems": [
    "C37_values_returns",
    "C37_consumer_receives_partial",
    "C37_define_values_partial",
    "C37_let_values_partial",
    "C37_many_values_refuted"
   ],
   "note": "values/mv-call/define-values/mv-let proved for every value list at top level positions (other positions follow from C31); mv-values in argument position is refuted by C31_values_in_argument_refuted; with the real stack more than 8189 values overflow the segment (C37_many_values_refuted)."
  },
  {
   "property": "C38",
   "status": "partial",
   "theorems": [
    "C38_frames_preserved_partial",
    "C38_deep_recursion_refuted",
    "C38_return_address_lost_refuted",
    "C38_grown_segment_holds_arguments"
   ],
   "note": "Proved for every operation sequence whose frames fit in the first segment; beyond it the claim is refuted: recursion of depth 4095 writes out of bounds (esp computed in words from bytes), and any growth loses the return address."
  },
  {
   "property": "C39",
   "status": "partial",
   "theorems": [
    "C39_reachable_kept_partial",
    "C39_collection_keeps_reachable",
    "C39_total",
    "C39_realloc_refuted"
   ],
   "note": "Every operation keeps every block it was not asked to release, with its contents, unless it collects and the block is unreachable. Missing: during a reallocation that has to collect, references held only by the block being reallocated do not count (C39_realloc_refuted shows the loss)."
  },
  {
   "property": "C40",
   "status": "proved",
   "theorems": [
    "C40_unreachable_freed_once",
    "C40_reachable_not_freed",
    "C40_final_before_free",
    "C40_only_registered_freed",
    "C40_no_second_free",
    "C40_finalize_frees_all",
    "C40_finalize_total",
    "C40_free_finalizer_refuted"
   ],
   "note": "Collections free exactly the unreachable blocks, once, finalizer once and before the free; other operations free only registered blocks and never touch an unregistered address again; GC_finalize frees the rest. GC_free skips the finalizer although the README says otherwise (C40_free_finalizer_refuted)."
  },
  {
   "property": "C41",
   "status": "partial",
   "theorems": [
    "C41_registered_blocks",
    "C41_allocated",
    "C41_reachable",
    "C41_collectable_partial",
    "C41_collectable_refuted"
   ],
   "note": "Allocated bytes, number of blocks and reachable bytes are exact. GC_get_collectable subtracts from the number of buckets (C41_collectable_refuted)."
  },
  {
   "property": "C42",
   "status": "partial",
   "theorems": [
    "C42_root_persists",
    "C42_realloc",
    "C42_others_partial",
    "C42_free_root_refuted"
   ],
   "note": "Roots persist through every further history; realloc keeps rootness. Releasing a root can make its bucket predecessor a root (C42_free_root_refuted); proved for non-root releases."
  },
  {
   "property": "C43",
   "status": "partial",
   "theorems": [
    "C43_alloc_collects_iff_partial",
    "C43_calloc_collects_iff_partial",
    "C43_others_never_collect",
    "C43_paused_refuted"
   ],
   "note": "With malloc succeeding, allocation collects iff not paused and above the threshold. When malloc fails it collects even while paused (C43_paused_refuted)."
  },
  {
   "property": "C44",
   "status": "partial",
   "theorems": [
    "C44_ports_are_queues_partial",
    "C44_get_output_string_partial",
    "C44_read_string",
    "C44_get_twice_refuted",
    "C44_use_after_close_refuted",
    "C44_defined_without_close"
   ],
   "note": "All histories over any number of string ports refine the queue specification; get-output-string returns exactly the text written since the previous one (the code rewinds the stream, refuted witness), and use after close is undefined behaviour (refuted witness)."
  },
  {
   "property": "C45",
   "status": "proved",
   "theorems": [
    "C45_never_undefined",
    "C45_predicate",
    "C45_constructor",
    "C45_initial_value",
    "C45_no_overlap",
    "C45_rejects",
    "C45_last_store",
    "C45_sealed_refuted",
    "C45_immutable_refuted",
    "C45_writer_refuted",
    "C45_field_names_refuted",
    "C45_field_names"
   ],
   "note": "All parts of the statement, over every reachable world. Findings kept as _refuted theorems: sealed types can be extended, immutable fields can be mutated, types whose parent has a writer cannot be made, field descriptors are not checked."
  },
  {
   "property": "C46",
   "status": "partial",
   "theorems": [
    "C46_delay_macro",
    "C46_never_called_again",
    "C46_force_returns_last_result",
    "C46_cached_result_partial",
    "C46_reentrant_refuted",
    "C46_not_a_promise",
    "C46_lazy_forces_completely"
   ],
   "note": "never called again, and force returns the last result, proved for every program, fuel and interleaving; all forces equal only when no call of the producer is under way; refuted for a producer that forces its own promise. The macro delay is linked to its source text (C46_delay_macro)."
  },
  {
   "property": "C47",
   "status": "proved",
   "theorems": [
    "C47_path_list_elements",
    "C47_elements_unique",
    "C47_build_path_undoes_path_list",
    "C47_trailing_separator_dropped",
    "C47_split_path",
    "C47_absolute",
    "C47_empty_components_ignored",
    "C47_empty_path"
   ],
   "note": "absolute and relative paths; a single trailing separator is dropped (proved); strings as character lists, substring and string-append by C19."
  },
  {
   "property": "C48",
   "status": "proved",
   "theorems": [
    "C48_listing_inverts_writing",
    "C48_listing_exact"
   ],
   "note": "Listing a written code object gives back the resolved items, with only the leading label of each run kept."
  },
  {
   "property": "C49",
   "status": "partial",
   "theorems": [
    "C49_fprintf_partial",
    "C49_format_partial",
    "C49_argument_count",
    "C49_error_iff_partial",
    "C49_tilde_refuted",
    "C49_not_a_port"
   ],
   "note": "Proved for every format string without the directive ~~, which is always an error (refuted): the scanner refers to an unbound variable. What display and write print is a parameter; record writers with effects of their own are not modelled."
  },
  {
   "property": "C50",
   "status": "partial",
   "theorems": [
    "C50_raise_calls_handler",
    "C50_raise_without_handler",
    "C50_handler_installed",
    "C50_c_error_calls_handler_partial",
    "C50_c_error_becomes_error_partial",
    "C50_program_error_partial",
    "C50_top_level_refuted"
   ],
   "note": "raise calls the installed handler with the raised object in any machine state, in place of the continuation of the call (C50_raise_calls_handler); without a handler the process ends; the handler is the last one installed. Errors of C code call the handler of C errors with name, message and objects, and with the prelude's handler this is a call of the procedure error with those arguments, end to end for compiled programs. Missing: errors outside any call end the process whatever handler is installed (C50_top_level_refuted), the body of the prelude's error procedure is C63."
  },
  {
   "property": "C51",
   "status": "proved",
   "theorems": [
    "C51_rejects",
    "C51_char_round_trip",
    "C51_integer_round_trip",
    "C51_nonnegative_refuted",
    "C51_symbol_round_trip",
    "C51_string_round_trip"
   ],
   "note": "char->integer is negative for bytes above 127 (C51_nonnegative_refuted); arguments of the wrong type raise (C51_rejects)"
  },
  {
   "property": "C52",
   "status": "proved",
   "theorems": [
    "C52_accessors",
    "C52_names",
    "C52_set_car",
    "C52_set_cdr"
   ],
   "note": "table of 30 accessors transcribed from the prelude"
  },
  {
   "property": "C53",
   "status": "partial",
   "theorems": [
    "C53_both_readers_agree",
    "C53_write_read_partial",
    "C53_syntax_keeps_the_datum",
    "C53_read_deterministic",
    "C53_outcomes_exclusive",
    "C53_read_consumes_a_prefix",
    "C53_blanks_ignored",
    "C53_brackets_match",
    "C53_number_at_end_refuted",
    "C53_unterminated_comment_hangs_refuted",
    "C53_unterminated_vector_hangs_refuted",
    "C53_eof_inside_datum_refuted",
    "C53_comment_before_closing_refuted",
    "C53_tab_is_a_letter_refuted",
    "C53_readers_differ_refuted"
   ],
   "note": "Proved for every text of the common grammar (ctext) and everything write prints of the data in common; determinism, prefix, blanks and brackets for all texts. False outside of it: see the _refuted theorems (numbers at the end of the input, unterminated comments and vectors, tabs, end of file inside data, notations on which the readers differ)."
  },
  {
   "property": "C54",
   "status": "partial",
   "theorems": [
    "C54_evaluated_once",
    "C54_imports_first",
    "C54_starting_environment",
    "C54_expander_input",
    "C54_exports",
    "C54_import_loads_all",
    "C54_import_runs_only_imports",
    "C54_import_again",
    "C54_failed_import",
    "C54_cycle_never_loaded",
    "C54_acyclic_import_ends",
    "C54_import_deterministic",
    "C54_cyclic_import_hangs_refuted",
    "C54_one_evaluation_per_file_refuted",
    "C54_prompt_sees_definitions_refuted",
    "C54_own_definition_exported_refuted"
   ],
   "note": "Proved for every history, file system, expander and evaluator. Refuted parts: cyclic imports hang instead of failing, one evaluation per path spelling rather than per file, the prompt after load evaluates in the expansion environment, an imported transformer hides an exported definition."
  },
  {
   "property": "C55",
   "status": "partial",
   "theorems": [
    "C55_malformed_refused",
    "C55_improper_refused",
    "C55_malformed_definition_refused",
    "C55_redefinition_refused",
    "C55_begin_spliced",
    "C55_macros_at_use",
    "C55_module_macro_scope",
    "C55_local_macro_scope",
    "C55_unknown_variables",
    "C55_unknown_variables_rejected",
    "C55_module_variables",
    "C55_check_answers",
    "C55_accepted_module",
    "C55_expansion_deterministic",
    "C55_plain_code_unchanged",
    "C55_expanded_code_compiles",
    "C55_macro_recorded",
    "C55_prompt_macro",
    "C55_assigned_unknown_refuted",
    "C55_formals_unchecked_refuted",
    "C55_operator_becomes_keyword_refuted",
    "C55_own_macro_shadowed_refuted",
    "C55_local_shadows_macro_refuted",
    "C55_prompt_begin_refuted",
    "C55_extra_expression_dropped_refuted",
    "C55_duplicate_definition_refuted"
   ],
   "note": "Proved: acceptance is equivalent to every read variable being in scope, for every fully expanded module; termination of the check; determinism; identity on macro-free code; recording of macros under fresh names; acceptance by the compiler's check; refusal of malformed forms, malformed definitions and redefinitions; splicing of begin; scopes of macros. Refuted parts: assigned variables, formals, operators that expand to keywords, macros that redefine imported ones, local shadowing, begin at the prompt, extra and duplicate definitions in bodies. Missing: a proof that the expander's output is always in the grammar of expanded code (false in general, see the refutations)."
  },
  {
   "property": "C57",
   "status": "partial",
   "theorems": [
    "C57_internal_definitions",
    "C57_one_meaning",
    "C57_lambda_body",
    "C57_early_use",
    "C57_ends_in_definition_rejected",
    "C57_definitions_around_macro_refuted"
   ],
   "note": "Proved for every body without macro definitions inside it: it compiles and its evaluation is equivalent to running its items; determinism; lambda bodies; early use; bodies that end in a definition. Refuted part: bodies that define a macro between two definitions."
  },
  {
   "property": "C56",
   "status": "partial",
   "theorems": [
    "C56_accepted",
    "C56_refused",
    "C56_do_macro",
    "C56_case_macro",
    "C56_case_else_macro",
    "C56_case_test_macro",
    "C56_and",
    "C56_or_partial",
    "C56_cond",
    "C56_when",
    "C56_unless",
    "C56_let",
    "C56_letrec",
    "C56_let_star",
    "C56_named_let",
    "C56_do",
    "C56_case",
    "C56_case_without_else",
    "C56_define_top",
    "C56_define_variable",
    "C56_define_procedure",
    "C56_scope_entry",
    "C56_one_meaning",
    "C56_or_captures_refuted",
    "C56_case_captures_refuted",
    "C56_named_let_scope_refuted",
    "C56_do_captures_refuted",
    "C56_when_void_refuted",
    "C56_cond_test_only_refuted"
   ],
   "note": "Proved: every form compiles when its parts do and evaluates according to its rule, both directions; using a macro brings the macros its definition sees into scope; uniqueness. Refuted parts: capture of or-t, tmp, loop, the loop name of a named let, and void; test-only cond clauses. do and case, which the library writes with syntax-rules and syntax-case, are linked to their source text: C56_do_macro, C56_case_macro, C56_case_else_macro, C56_case_test_macro read the text with the model of the library's reader, build the macro with the model of syntax-rules and syntax-case and show it rewrites every use as the function the evaluation theorems use. C56_accepted gives exactly the uses each form's transformer accepts and C56_refused shows that every other use is an error of the expander. Partial because the claim as stated for every name is refuted by the captures listed above; the library has no let*-values and no let-syntax."
  },
  {
   "property": "C58",
   "status": "partial",
   "theorems": [
    "C58_match_partial",
    "C58_match",
    "C58_match_sound",
    "C58_unique",
    "C58_variables",
    "C58_datum_flat",
    "C58_first_clause",
    "C58_ellipsis_refused",
    "C58_wildcard_error_refuted",
    "C58_tail_literal_refuted",
    "C58_vector_ellipsis_refuted",
    "C58_wrapped_tail_refuted"
   ],
   "note": "Proved for patterns whose vectors have their ellipsis last: every match returned is right, #f is returned only when there is no match, uniqueness, variables and their depth. Without wildcards as list elements and literal tails: the matcher always answers and clauses are selected in order. Patterns with a misplaced ellipsis are refused. Refuted parts: errors for those patterns, vectors with elements after an ellipsis, wrapped tails."
  },
  {
   "property": "C59",
   "status": "partial",
   "theorems": [
    "C59_template_partial",
    "C59_instance",
    "C59_refused",
    "C59_roundtrip",
    "C59_tail_refuted",
    "C59_extra_ellipsis_refuted",
    "C59_second_ellipsis_refuted"
   ],
   "note": "Proved for templates whose lists with an ellipsis have no tail: result, errors, refusals, round trip with the matcher. Refuted parts: a tail after an ellipsis, an ellipsis without a variable to go through, two ellipses in a row."
  },
  {
   "property": "C60",
   "status": "partial",
   "theorems": [
    "C60_macro_text",
    "C60_define_enumeration",
    "C60_define_enumeration_refuses",
    "C60_constructor_macro",
    "C60_name_macro",
    "C60_two_enumerations_refuted",
    "C60_order",
    "C60_list",
    "C60_make",
    "C60_operations",
    "C60_types_apart",
    "C60_complement",
    "C60_constructor",
    "C60_roundtrip",
    "C60_subset",
    "C60_equal",
    "C60_equal_lists",
    "C60_projection",
    "C60_indexer",
    "C60_de_morgan",
    "C60_arguments_checked",
    "C60_list_partial",
    "C60_repeated_symbol_refuted"
   ],
   "note": "Everything proved for every set that can be made; that lists have no symbol twice holds only for universes without repetitions (refuted otherwise). The macro define-enumeration is taken from its source text: what a definition becomes, which forms are refused, what the two macros it defines do with each use. Refuted: two enumerations of one module can be given the same temporary (C60_two_enumerations_refuted)."
  },
  {
   "property": "C61",
   "status": "partial",
   "theorems": [
    "C61_accepted",
    "C61_method",
    "C61_in_bounds",
    "C61_instance",
    "C61_instance_other",
    "C61_method_arity",
    "C61_lambda",
    "C61_define",
    "C61_implementable",
    "C61_repeated_method_refuted",
    "C61_error_value_refuted"
   ],
   "note": "Everything proved for every sequence of calls, except that methods of the same name in one interface are not all reachable and the value shown by one error is wrong (both refuted). The caller's lists are taken not to be changed afterwards."
  },
  {
   "property": "C62",
   "status": "partial",
   "theorems": [
    "C62_form",
    "C62_full_form",
    "C62_other_forms",
    "C62_define",
    "C62_sealed",
    "C62_constructor",
    "C62_predicate",
    "C62_accessor",
    "C62_rejects",
    "C62_history",
    "C62_immutable",
    "C62_mutator",
    "C62_attributes",
    "C62_opaque",
    "C62_custom_write_parent_refuted"
   ],
   "note": "Form and programs proved for all clauses and histories. The theorems about programs concern definitions without protocol and methods clauses (methods are C61; the constructor of a type with a protocol is what the user's procedure returns). Refuted: a parent with a writer. With the record primitives themselves a program can extend sealed types and change immutable fields (C45)."
  },
  {
   "property": "C63",
   "status": "partial",
   "theorems": [
    "C63_argument_error",
    "C63_argument_error_refused",
    "C63_error",
    "C63_error_refused",
    "C63_errorf",
    "C63_errorf_refused",
    "C63_arity_error",
    "C63_arity_error_refused",
    "C63_range_error",
    "C63_range_error_refused",
    "C63_missing_error",
    "C63_missing_error_refused",
    "C63_missing_error_name_refuted",
    "C63_syntax_error",
    "C63_syntax_error_refused",
    "C63_kinds",
    "C63_report",
    "C63_always_exits",
    "C63_cyclic_arity_refuted",
    "C63_error_to_exit",
    "C63_types",
    "C63_types_stay"
   ],
   "note": "Proved for all arguments and states, with display, write and syntax->datum as parameters. Refuted: the name in complaints of raise-missing-error, and termination of the report of an arity exception whose arity (make-arity-exn takes any value) is a cyclic list; C63_always_exits covers every other value. Formats with ~~ in errorf are excluded (C49). The exception is given to the handler as in C50."
  },
  {
   "property": "C64",
   "status": "partial",
   "theorems": [
    "C64_load_partial",
    "C64_load_complete_partial",
    "C64_result_unique",
    "C64_missing_file",
    "C64_file_directory",
    "C64_change_directory",
    "C64_reported_directory_partial",
    "C64_inner_evaluation",
    "C64_bottom_evaluation",
    "C64_inner_evaluation_refuted",
    "C64_nested_load_partial",
    "C64_nested_load_refuted",
    "C64_directory_loaded_refuted",
    "C64_reported_directory_refuted",
    "C64_directory_not_restored_refuted"
   ],
   "note": "Proved for programs that change to absolute directories and call load in tail position of top-level forms (inner calls: only files without forms), without files whose first form is refused; completeness for programs that do not ask for the directory. Refuted: calls of load inside other expressions (C64_inner_evaluation: on the machine, from every state above the bottom frame, the inner evaluation never comes to an end), relative directories, directories as files, restoring after an error. No symbolic links, no change of the file system during a load, paths shorter than PATH_MAX."
  },
  {
   "property": "C65",
   "status": "partial",
   "theorems": [
    "C65_options",
    "C65_unknown_option",
    "C65_arguments_complete",
    "C65_prompt",
    "C65_unknown_option_exits",
    "C65_main",
    "C65_no_prompt_refuted"
   ],
   "note": "Refuted: minim -q (options only, without -i) shows no prompt (C65_no_prompt_refuted); void values among several values are written. Evaluation, reading and writing are parameters; the prompt's output is the list of written values."
  },
  {
   "property": "C66",
   "status": "partial",
   "theorems": [
    "C66_installed",
    "C66_inherited",
    "C66_equal_decides_partial",
    "C66_equivalence_partial",
    "C66_hash_partial",
    "C66_different_procedures",
    "C66_default_hash_refuted",
    "C66_default_transitivity_refuted"
   ],
   "note": "Decision, equivalence and hashing are proved without default procedures and for procedures that compare parts (any function from records to lists of values) and do not change the heap; which procedure a type has is proved for every history. Refuted: transitivity with a default procedure, the default hash procedure. Hashtables are outside (C15)."
  },
  {
   "property": "C67",
   "status": "partial",
   "theorems": [
    "C67_text",
    "C67_accepted",
    "C67_definition",
    "C67_use_partial",
    "C67_keyword",
    "C67_no_rules_refuted",
    "C67_with_syntax",
    "C67_hygiene_refuted",
    "C67_bare_use_refuted"
   ],
   "note": "The shape, the definition, the choice of the rule, the instance and with-syntax are proved for patterns without wildcards and literal tails among the arguments (C58 shows that those raise errors of car) and templates that C59 accepts. Refuted: hygiene, a use of the bare keyword, a definition without rules."
  },
  {
   "property": "C68",
   "status": "partial",
   "theorems": [
    "C68_refines_partial",
    "C68_set_then_ref",
    "C68_copy_is_separate",
    "C68_missing_key_refuted",
    "C68_missing_key_always",
    "C68_wrong_argument_refuted",
    "C68_undefined_variable_refuted",
    "C68_default_value_refuted"
   ],
   "note": "Proved for all histories whose environment-ref calls avoid the four refuted cases and whose copies name no symbol twice (C11 refutes those)."
  },
  {
   "property": "C69",
   "status": "proved",
   "theorems": [
    "C69_yields",
    "C69_diverges",
    "C69_deterministic",
    "C69_exclusive",
    "C69_progress",
    "C69_endless_programs_run_on",
    "C69_running_programs_are_endless",
    "C69_results_are_the_meaning",
    "C69_state_is_the_meaning",
    "C69_ends_or_runs_on"
   ],
   "note": "For the programs of C31 (compilable, and without the two forms C31 refutes); any primitives.  The machine is the one of C31, with an unbounded stack."
  },
  {
   "property": "C70",
   "status": "partial",
   "theorems": [
    "C70_text_to_output_partial",
    "C70_ill_formed_partial",
    "C70_denotation_unique"
   ],
   "note": "Partial: for the programs of C31 and C32 (their conditions are hypotheses here), and for sessions whose values are data (not procedures, records or environments).  All forms are read before the first is evaluated; in the code reading and evaluation alternate, but reading depends on nothing a program does.  The text of an error report is not modelled."
  },
  {
   "property": "C71",
   "status": "partial",
   "theorems": [
    "C71_distinct_partial",
    "C71_same_name",
    "C71_identifier",
    "C71_distinct_refuted",
    "C71_program_name_refuted"
   ],
   "note": "All temporaries differ when the names given do not end in a digit, and whenever the names are equal. Refuted: x1 with the first number and x with the eleventh are the same symbol; temporaries are ordinary symbols that a program can write."
  },
  {
   "property": "C72",
   "status": "partial",
   "theorems": [
    "C72_names_from_history",
    "C72_names_stay",
    "C72_defined_procedure",
    "C72_rename_partial",
    "C72_rename_keeps_argument_refuted",
    "C72_procedure_name",
    "C72_names_do_not_matter",
    "C72_written_name",
    "C72_arity_report_partial",
    "C72_arity_report_refuted",
    "C72_let_refuted",
    "C72_letrec_refuted",
    "C72_rename_refuted"
   ],
   "note": "Proved for every run: the name is the last renaming, or else the first binding. Refuted: let-values with two bindings and letrec-values name the procedure after a temporary; procedure-rename renames its argument; the report of an arity error with more than one count is no range."
  },
  {
   "property": "C73",
   "status": "partial",
   "theorems": [
    "C73_error_to_exit",
    "C73_error_ends",
    "C73_no_value",
    "C73_not_a_procedure",
    "C73_arity",
    "C73_results_partial",
    "C73_apply_partial",
    "C73_results_refuted",
    "C73_program_partial",
    "C73_apply_refuted"
   ],
   "note": "Proved for every error of the machine, in any state, below a call and outside any. Refuted: apply's report for a first argument that is not a procedure; counts of results from 32768 on. The procedure error and the default handler are the models of C63, not their compiled code; names are those of C72."
  },
  {
   "property": "C74",
   "status": "proved",
   "theorems": [
    "C74_prefix",
    "C74_durable",
    "C74_complete",
    "C74_read",
    "C74_round_trip",
    "C74_others_unchanged",
    "C74_missing",
    "C74_two_ports_refuted"
   ],
   "note": "For files with one open output port at a time; with two it is refuted (C74_two_ports_refuted). The C library and the file system are modelled: a buffer is written in pieces of any size at any time, fetched in pieces of any size; files are known by name, no links, no other process, no failing writes. Calls on a closed port are undefined behaviour and excluded."
  },
  {
   "property": "C75",
   "status": "partial",
   "theorems": [
    "C75_refused",
    "C75_accepted",
    "C75_reported_partial",
    "C75_range_partial",
    "C75_range_refuted",
    "C75_write_char_refuted",
    "C75_reported_refuted"
   ],
   "note": "That wrong arguments are refused without effect and right ones are not complained of is proved for all; the text of the report for all but six cases, which are refuted one by one. Refuted: the range error of put-string, write-char."
  },
  {
   "property": "C76",
   "status": "partial",
   "theorems": [
    "C76_one_argument",
    "C76_two_arguments_partial",
    "C76_environment_refuted",
    "C76_arity",
    "C76_meaning_partial",
    "C76_error_partial",
    "C76_no_expression",
    "C76_define",
    "C76_variable",
    "C76_set",
    "C76_captured",
    "C76_current_environment"
   ],
   "note": "Refuted: the environment after (eval e env) (C76_environment_refuted, for every e and env). Proved for every machine state: the call, the frame, the result, the arity, definitions and variables per environment. The meaning of e (C76_meaning_partial, C76_error_partial) is that of the optimised expression, in the initial environment, for expressions that do not call eval or the procedures on the current environment; errors about eval's own procedures are excluded."
  },
  {
   "property": "C77",
   "status": "partial",
   "theorems": [
    "C77_error_names",
    "C77_no_error",
    "C77_machine_partial",
    "C77_in_order",
    "C77_write_char_refuted",
    "C77_make_string_refuted"
   ],
   "note": "C77_error_names, C77_no_error and C77_in_order hold for every program under the language's semantics; C77_machine_partial carries the first over to the optimised and compiled program under the conditions of C32 (hence partial). C77_write_char_refuted and C77_make_string_refuted: library procedures that break the rule for their callers."
  },
  {
   "property": "C78",
   "status": "proved",
   "theorems": [
    "C78_only_assigned",
    "C78_library_kept",
    "C78_program_kept",
    "C78_copy_same"
   ],
   "note": "C78_only_assigned, C78_library_kept, C78_program_kept and C78_copy_same hold for every library and program under the language's semantics Sem.v; C31/C32 relate one environment's programs to the machine under their conditions and C76 gives the machine's view of the instructions on the variables of several environments. Primitives that work on environments (C68: environment-variable-set!, eval) are not among the primitives of Sem.v."
  },
  {
   "property": "C79",
   "status": "proved",
   "theorems": [
    "C79_texts_read",
    "C79_texts_load",
    "C79_texts_define",
    "C79_car",
    "C79_cdr",
    "C79_reverse",
    "C79_cons_star",
    "C79_first",
    "C79_second",
    "C79_third",
    "C79_fourth",
    "C79_fifth",
    "C79_sixth",
    "C79_seventh",
    "C79_eighth",
    "C79_ninth",
    "C79_tenth",
    "C79_list_ref",
    "C79_member",
    "C79_remove",
    "C79_remove_star",
    "C79_filter",
    "C79_foldl",
    "C79_foldr",
    "C79_assoc",
    "C79_index_of",
    "C79_list_set",
    "C79_member_of_false",
    "C79_only_outcome"
   ],
   "note": "The hand translations of C17 (Lists.v) are thereby matched by theorems about the text itself. Outcomes of calls whose given procedure raises an error or escapes are not described. The built-in procedures are described by contracts (relies); ex_relies gives a store that meets them. A call has only one outcome (C79_only_outcome)."
  },
  {
   "property": "C80",
   "status": "proved",
   "theorems": [
    "C80_boot_file",
    "C80_kept",
    "C80_file_data_unique",
    "C80_more_scope",
    "C80_boot_min",
    "C80_boot_min_definitions",
    "C80_read_back_refuted",
    "C80_boot_min_names",
    "C80_list_texts",
    "C80_list_min",
    "C80_registrations_refuted"
   ],
   "note": "Fuel 1000 bounds reading and expansion in the theorems about the committed texts. Import and export forms are not followed: transformers and scopes are given; syntax-case macros defined in the modules are not used by them and any transformer stands for them. Syntax objects without locations."
  },
  {
   "property": "C81",
   "status": "proved",
   "theorems": [
    "C81_texts",
    "C81_texts_read",
    "C81_is_absolute",
    "C81_path_list",
    "C81_build_path",
    "C81_split_path",
    "C81_joined_elements",
    "C81_fresh_slash_refuted"
   ],
   "note": "substring (proved from its text in C82, with the path procedures on top of it), string-append, reverse, car, cdr and the built-in procedures are given by contracts (car, cdr and reverse are proved from their texts in C79); px_ready shows a store in which all of them hold. The texts are loaded before substring is defined; the statements are for stores in which it is."
  },
  {
   "property": "C82",
   "status": "proved",
   "theorems": [
    "C82_text",
    "C82_text_read",
    "C82_substring",
    "C82_is_absolute",
    "C82_path_list",
    "C82_build_path",
    "C82_split_path"
   ],
   "note": "The built-in procedures are described by contracts (sub_relies, path_others); string_ready_example is a store that meets them. make-string may fill the string with any characters but NUL."
  },
  {
   "property": "C83",
   "status": "proved",
   "theorems": [
    "C83_texts",
    "C83_texts_read",
    "C83_identifier",
    "C83_free_identifier",
    "C83_stx_null",
    "C83_stx_pair",
    "C83_stx_list",
    "C83_stx_car",
    "C83_stx_cdr",
    "C83_cons_f",
    "C83_append_f",
    "C83_list_of_tails_refuted"
   ],
   "note": "The built-in procedures are described by contracts (stx_relies); stx_ready_example is a store that meets them and stx_objects_example has the objects. Not covered: stx-vector-ref, map/#f (split-stx-list is C84; stx-vector?, stx-null/#f and stx->list are C85)."
  },
  {
   "property": "C84",
   "status": "proved",
   "theorems": [
    "C84_texts",
    "C84_text_read",
    "C84_split",
    "C84_proper",
    "C84_demands_proper_refuted"
   ],
   "note": "The built-in procedures are described by contracts (split_ready); split_ready_example is a store that meets them. Proved of the text as it is; that the flag demands a proper list is refuted. Chains that never end are not covered: the recursion does not return."
  },
  {
   "property": "C85",
   "status": "proved",
   "theorems": [
    "C85_texts",
    "C85_texts_read",
    "C85_stx_vector",
    "C85_stx_null_f",
    "C85_stx_to_list",
    "C85_list_of_syntax_refuted"
   ],
   "note": "The built-in procedures are described by contracts (more_ready); more_ready_example is a store that meets them, with an andmap that is evaluated from text. Elements of a list must exist in the store. Chains that never end are not covered."
  },
  {
   "property": "C86",
   "status": "proved",
   "theorems": [
    "C86_text",
    "C86_text_read",
    "C86_contains",
    "C86_around"
   ],
   "note": "The procedures that the text calls are described by contracts (scope_ready); scope_ready_example is a store that meets them, with vectors for sets, and scope_objects_example two scopes in it. Not connected with the sets of set.min. Chains of scopes that never end are not covered."
  }
 ]
}