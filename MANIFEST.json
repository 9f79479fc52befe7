{
 "claims": [
  {
   "property": "C01",
   "status": "proved",
   "theorems": [
    "C01_access",
    "C01_access_out_of_range",
    "C01_construct",
    "C01_algebra",
    "C01_size",
    "C01_extremes",
    "C01_iteration",
    "C01_increment",
    "C01_rejects"
   ],
   "note": "Every SmallBitset method and both iterators; out-of-range access is an explicit failure."
  },
  {
   "property": "C02",
   "status": "proved",
   "theorems": [
    "C02_subsets",
    "C02_successor",
    "C02_subsets_first",
    "C02_half"
   ],
   "note": "Completeness, order, no duplicates, successor minimality, and the half enumeration used by the Opt enumerators."
  },
  {
   "property": "C03",
   "status": "proved",
   "theorems": [
    "C03_gosper_bmi2",
    "C03_gosper_from",
    "C03_gosper_portable",
    "C03_gosper_portable_refuted",
    "C03_zero_refuted"
   ],
   "note": "C03_gosper_bmi2, C03_gosper_from: BMI2 build. C03_gosper_portable: if-and-only-if for the portable build. C03_zero_refuted: k = 0 loops forever."
  },
  {
   "property": "C04",
   "status": "proved",
   "theorems": [
    "C04_subset_enumerator",
    "C04_portable",
    "C04_rejects"
   ],
   "note": "C04_subset_enumerator (BMI2 build), C04_portable (if and only if), C04_rejects."
  },
  {
   "property": "C05",
   "status": "proved",
   "theorems": [
    "C05_is_pow_2",
    "C05_ceil_to_pow_2",
    "C05_ceil_to_pow_2_narrow_refuted",
    "C05_ceil_to_multiple_of_pow_2",
    "C05_round_up_to_multiple",
    "C05_log2_floor",
    "C05_log2_ceil",
    "C05_log2_floor_narrow_refuted",
    "C05_ceil_to_next_page",
    "C05_is_page_aligned"
   ],
   "note": "Proved for 32/64-bit types (the widths the property quantifies over); the same templates are wrong for 8/16-bit types: C05_ceil_to_pow_2_narrow_refuted, C05_log2_floor_narrow_refuted."
  },
  {
   "property": "C06",
   "status": "proved",
   "theorems": [
    "C06_add",
    "C06_mul",
    "C06_sum",
    "C06_prod",
    "C06_sum_mixed_refuted",
    "C06_powi",
    "C06_powi_unsigned"
   ],
   "note": "Saturation proved for two operands of any widths and n operands of equal width; the variadic version over mixed widths returns a value that is neither the sum nor saturated: C06_sum_mixed_refuted."
  },
  {
   "property": "C07",
   "status": "proved",
   "theorems": [
    "C07_unescape_escape",
    "C07_escape_no_quote",
    "C07_escape_no_newline",
    "C07_unquote_quote",
    "C07_unquote",
    "C07_unescape",
    "C07_interpret",
    "C07_escape_char",
    "C07_replace_all",
    "C07_replace_all_empty_refuted",
    "C07_html_escape"
   ],
   "note": "C07_unescape (meaning of any text, if and only if), C07_unescape_escape, C07_escape_no_quote/no_newline, C07_unquote, C07_unquote_quote, C07_interpret, C07_replace_all, C07_html_escape; C07_replace_all_empty_refuted: infinite loop for the empty pattern."
  },
  {
   "property": "C08",
   "status": "proved",
   "theorems": [
    "C08_like",
    "C08_parse_unique"
   ],
   "note": "Both directions, including when InvalidEscapeSequence is thrown."
  },
  {
   "property": "C09",
   "status": "proved",
   "theorems": [
    "C09_reachable",
    "C09_reachable_within",
    "C09_neighbors",
    "C09_is_connected",
    "C09_is_connected_pair"
   ],
   "note": ""
  },
  {
   "property": "C10",
   "status": "proved",
   "theorems": [
    "C10_directed",
    "C10_undirected"
   ],
   "note": ""
  },
  {
   "property": "C11",
   "status": "proved",
   "theorems": [
    "C11_CSGs",
    "C11_all_CSGs"
   ],
   "note": "Termination included: the loop ends with enough fuel."
  },
  {
   "property": "C12",
   "status": "proved",
   "theorems": [
    "C12_order",
    "C12_order_acyclic",
    "C12_pairs",
    "C12_order_refuted"
   ],
   "note": "Exactly-once enumeration for all graphs; order for all distance-hereditary graphs (C12_order), in particular acyclic ones (C12_order_acyclic). False on cyclic graphs in general: C12_order_refuted."
  },
  {
   "property": "C13",
   "status": "proved",
   "theorems": [
    "C13_minimum_spanning_forest",
    "C13_directed_away",
    "C13_directed_tree",
    "C13_forest_can_be_directed"
   ],
   "note": "Finite doubles are modelled as integers (multiples of 2^-1074); std::priority_queue is any queue that yields some lightest element. NaN and infinite weights (IKKBZ's selectivity of empty tables) are not modelled."
  },
  {
   "property": "C14",
   "status": "proved",
   "theorems": [
    "C14_qsort",
    "C14_qsort_range",
    "C14_partition",
    "C14_verify_partition",
    "C14_verify_partition_exact",
    "C14_infinity_refuted"
   ],
   "note": "Values are ordered by a total preorder; the statement's restriction to values between numeric_limits::lowest() and max() is needed: C14_infinity_refuted."
  },
  {
   "property": "C15",
   "status": "proved",
   "theorems": [
    "C15_clause_or",
    "C15_clause_and",
    "C15_clause_not",
    "C15_and",
    "C15_or",
    "C15_not",
    "C15_to_CNF",
    "C15_to_CNF_total",
    "C15_clause_eq",
    "C15_eq",
    "C15_clause_eq_exact",
    "C15_eq_exact",
    "C15_or_exact",
    "C15_not_exact",
    "C15_empty_refuted"
   ],
   "note": "Exact domain of each operator (C15_or_exact, C15_not_exact); C15_empty_refuted shows the deviation on the empty CNF (TRUE)."
  },
  {
   "property": "C16",
   "status": "proved",
   "theorems": [
    "C16_array_index",
    "C16_equal_range",
    "C16_bulkload"
   ],
   "note": "std::sort is any function meeting its contract; query execution feeding bulkload is not modelled."
  },
  {
   "property": "C17",
   "status": "proved",
   "theorems": [
    "C17_lower",
    "C17_upper",
    "C17_past_end",
    "C17_lower_exact",
    "C17_upper_exact",
    "C17_lookup",
    "C17_not_finalized",
    "C17_refuted"
   ],
   "note": "Exact condition proved for every history with fewer than 2^53 entries; C17_refuted exhibits (in binary64) an existing key that is not found because the models predict one past the end. Undefined float-to-integer conversions (NaN) and overflowing key differences are excluded (predict = None)."
  },
  {
   "property": "C18",
   "status": "proved",
   "theorems": [
    "C18_history",
    "C18_history_any_load",
    "C18_lookup",
    "C18_insert_result",
    "C18_rehash_refuted",
    "C18_zero_load_refuted"
   ],
   "note": "Default load factor: total; other load factors: partial correctness, with C18_rehash_refuted/C18_zero_load_refuted showing the assertion failures. Load-factor arithmetic is exact rather than rounded to float."
  },
  {
   "property": "C19",
   "status": "proved",
   "theorems": [
    "C19_iterate",
    "C19_exact",
    "C19_empty_refuted",
    "C19_extra_refuted"
   ],
   "note": "Exact characterisation; the deviation (begin() yields slot 0 even if it is free) is exhibited by C19_empty_refuted, C19_extra_refuted."
  },
  {
   "property": "C20",
   "status": "proved",
   "theorems": [
    "C20_equal_handles_iff_equal_values",
    "C20_handle_stays_valid",
    "C20_no_duplicates",
    "C20_count_exact",
    "C20_no_data_race",
    "C20_table_accesses",
    "C20_progress"
   ],
   "note": "Thread-safe pool modelled on top of the reader-writer lock LTS (C21/C22 are used as lemmas), all schedules of n <= 65535 threads. Hash buckets of std::unordered_map are not modelled; a single-threaded pool is the one-thread case."
  },
  {
   "property": "C21",
   "status": "proved",
   "theorems": [
    "C21_mutual_exclusion",
    "C21_one_upgrader",
    "C21_upgrade_alone",
    "C21_no_assertion_fails",
    "C21_failure_changes_nothing",
    "C21_try_read_iff",
    "C21_try_write_iff",
    "C21_upgrade_fails_iff",
    "C21_lock_read",
    "C21_lock_write",
    "C21_unlock",
    "C21_upgrade",
    "C21_overflow_refuted"
   ],
   "note": "Transition system at the granularity of the mutex-protected sections plus notifications; proved by an inductive invariant for every schedule of n <= 65535 threads. C21_overflow_refuted: with 65537 threads the uint16_t reader counter wraps and a writer is admitted beside readers."
  },
  {
   "property": "C22",
   "status": "proved",
   "theorems": [
    "C22_notify",
    "C22_recheck",
    "C22_readers_not_forgotten",
    "C22_writers_not_forgotten",
    "C22_no_deadlock",
    "C22_upgrader_not_forgotten",
    "C22_refuted_upgrade_wakeup_lost"
   ],
   "note": "Readers and writers: no lost wake-up under any schedule (also with upgraders). Upgraders: proved when lock_write is not used; C22_refuted_upgrade_wakeup_lost exhibits the deadlock otherwise (notify_one on the shared condition variable wakes a writer instead of the upgrader). Fairness/starvation is not modelled."
  },
  {
   "property": "C23",
   "status": "proved",
   "theorems": [
    "C23_live_disjoint",
    "C23_bookkeeping_apart",
    "C23_all_freed",
    "C23_reuse",
    "C23_growth"
   ],
   "note": "Free list, size cells and regions modelled with exact address arithmetic; OS mmap is a parameter returning page-aligned unmapped ranges; writes by clients and to list nodes are arbitrary (havoc) within their words. Requests below 2^63 bytes (size+8 wraps above 2^64-8 in the code)."
  },
  {
   "property": "C24",
   "status": "proved",
   "theorems": [
    "C24_live_disjoint",
    "C24_free_accepts_live",
    "C24_free_rejects_unknown",
    "C24_frontier",
    "C24_all_freed",
    "C24_last_free_truncates",
    "C24_allocate_size",
    "C24_allocate_succeeds",
    "C24_huge_request_refuted"
   ],
   "note": "All histories of allocations (successful or failing below 2^63 bytes) and deallocations, any page size. C24_huge_request_refuted: wrap-around of offset_+aligned_size truncates live memory. The macOS branch is not modelled."
  },
  {
   "property": "C25",
   "status": "proved",
   "theorems": [
    "C25_no_loss",
    "C25_submission_order",
    "C25_isolation",
    "C25_one_at_a_time",
    "C25_close_fails_queued",
    "C25_closed_forever",
    "C25_no_lost_wakeup",
    "C25_progress",
    "C25_sleeps_only_without_work",
    "C25_termination",
    "C25_accepts",
    "C25_end_of_transaction",
    "C25_execution",
    "C25_refuted_order_after_undefined_behaviour",
    "C25_refuted_open_transaction_starves",
    "C25_refuted_close_of_idle_transaction"
   ],
   "note": "Serial scheduler as a transition system over submissions, worker steps and close: no command is lost or run twice, submission order per transaction, one open transaction at a time, close fails the queued commands, no lost wakeup, progress. Refutations: order after the undefined dereference of the reverse end iterator, an open transaction starves others, closing an idle transaction. Creation of the worker thread and id overflow not modelled."
  },
  {
   "property": "C26",
   "status": "proved",
   "theorems": [
    "C26_start_times",
    "C26_snapshot",
    "C26_row_version_visible",
    "C26_serial_sees_everything",
    "C26_refuted_abort"
   ],
   "note": "Start times are unique and increasing, snapshot filter visibility. C26_refuted_abort: rows of an aborted transaction stay visible (no rollback)."
  },
  {
   "property": "C27",
   "status": "proved",
   "theorems": [
    "C27_compact",
    "C27_slots",
    "C27_no_overlap",
    "C27_inside_row",
    "C27_aligned",
    "C27_refuted_alignment_without_reordering"
   ],
   "note": "RowLayoutFactory::make and the Interpreter's address computation. Types are represented by size and alignment; 64 bit sizes do not wrap."
  },
  {
   "property": "C28",
   "status": "proved",
   "theorems": [
    "C28_exists",
    "C28_geometry",
    "C28_no_overlap",
    "C28_inside_block",
    "C28_byte_columns",
    "C28_aligned",
    "C28_refuted_small_block",
    "C28_refuted_char_0"
   ],
   "note": "PAXLayoutFactory::make for NTuples and NBytes and all options (reordering, no NULL bitmap, one row less). Refuted: C28_refuted_small_block, C28_refuted_char_0."
  },
  {
   "property": "C29",
   "status": "proved",
   "theorems": [
    "C29_row_store_capacity",
    "C29_pax_store_capacity",
    "C29_column_store_capacity",
    "C29_append_drop",
    "C29_rows_exact",
    "C29_row_store",
    "C29_pax_store",
    "C29_column_store",
    "C29_refuted_default_layout_on_row_store",
    "C29_refuted_default_layout_on_pax_store",
    "C29_refuted_default_layout_on_column_store",
    "C29_refuted_large_rows",
    "C29_refuted_many_columns"
   ],
   "note": "Constructors and append/drop of RowStore, PaxStore, ColumnStore. Refuted: default layout PAX4M on any store (C29_refuted_default_layout_on_*), 32 bit row size (C29_refuted_large_rows), padding larger than a block (C29_refuted_many_columns)."
  },
  {
   "property": "C30",
   "status": "proved",
   "theorems": [
    "C30_new_is_all_null",
    "C30_set",
    "C30_null",
    "C30_null_not_null_restores",
    "C30_clear",
    "C30_read",
    "C30_insert",
    "C30_equality",
    "C30_hash_agrees_with_equality",
    "C30_clone",
    "C30_refuted_clone_null",
    "C30_refuted_string_equality",
    "C30_refuted_65_slots"
   ],
   "note": "Refutations: C30_refuted_clone_null (ORDER BY and joins clone tuples, so NULL becomes 0 there), C30_refuted_string_equality, C30_refuted_65_slots."
  },
  {
   "property": "C31",
   "status": "proved",
   "theorems": [
    "C31_evaluation_exact",
    "C31_fitting_expression_has_its_value",
    "C31_filter_exact",
    "C31_compiled_expression_correct",
    "C31_plain_expression_always_evaluates",
    "C31_rest_of_stack_untouched",
    "C31_compiled_filter_correct",
    "C31_refuted_division_by_null",
    "C31_refuted_modulo_of_different_scales",
    "C31_refuted_large_scale",
    "C31_refuted_257_constants",
    "C31_refuted_empty_clause"
   ],
   "note": "StackMachine.v / StackMachineProps.v. Floats and strings are not modelled. Refutations: division by NULL traps, % on different scales, INT / DECIMAL(.,18), 257 constants, empty clause."
  },
  {
   "property": "C32",
   "status": "proved",
   "theorems": [
    "C32_opcode_table_matches_interpreter",
    "C32_step_height",
    "C32_heights_sound",
    "C32_required_size_bounds_every_prefix",
    "C32_emitted_program_never_overruns",
    "C32_compiled_expression_fits",
    "C32_compiled_filter_fits",
    "C32_compiled_expression_never_over_or_underruns",
    "C32_refuted_emit_after_run"
   ],
   "note": "Refuted part: C32_refuted_emit_after_run (stack allocated once at the first run)."
  },
  {
   "property": "C33",
   "status": "proved",
   "theorems": [
    "C33_and",
    "C33_or",
    "C33_not"
   ],
   "note": "All payloads and NULL bits."
  },
  {
   "property": "C34",
   "status": "proved",
   "theorems": [
    "C34_operations",
    "C34_contents",
    "C34_no_leak",
    "C34_copy",
    "C34_insert_keeps_iterators",
    "C34_erase_keeps_iterators",
    "C34_refuted_erase_rbegin",
    "C34_refuted_iterator_at_insertion"
   ],
   "note": "Refinement of a sequence by induction over histories with a chain invariant of the XOR links; destructors of the values are not modelled."
  },
  {
   "property": "C35",
   "status": "proved",
   "theorems": [
    "C35_dpccp",
    "C35_dpccp_acyclic",
    "C35_subproblems",
    "C35_optimal",
    "C35_pe_all",
    "C35_valid_tree",
    "C35_dpccp_refuted"
   ],
   "note": "n < 64, BMI2 build. DPccp: optimal on distance-hereditary, in particular acyclic, join graphs (C35_dpccp, C35_dpccp_acyclic); false on cyclic graphs in general: C35_dpccp_refuted."
  },
  {
   "property": "C36",
   "status": "proved",
   "theorems": [
    "C36_dpccp_agree",
    "C36_agree",
    "C36_dpccp_refuted"
   ],
   "note": "Agreement proved for all enumerators on all graphs except DPccp, which agrees on distance-hereditary graphs (C36_dpccp_agree) and is refuted on a cycle (C36_dpccp_refuted)."
  },
  {
   "property": "C37",
   "status": "proved",
   "theorems": [
    "C37_lossless",
    "C37_concatenation",
    "C37_round_trip",
    "C37_unambiguous",
    "C37_dates_with_separators",
    "C37_refuted_date_without_separators",
    "C37_refuted_date_short_year",
    "C37_refuted_number_without_digits",
    "C37_refuted_nul",
    "C37_refuted_backslash_at_end"
   ],
   "note": "Lexer.v models Lexer.cpp/.hpp completely (except diagnostics). C37_lossless: termination, partition, positions, texts, soundness of kinds w.r.t. an independent grammar; C37_round_trip: completeness; C37_refuted_*: NUL bytes, trailing backslash, dates without separators, 0xp1."
  },
  {
   "property": "C38",
   "status": "proved",
   "theorems": [
    "C38_faithful",
    "C38_total",
    "C38_refuted_long_row",
    "C38_refuted_null_at_end",
    "C38_refuted_invalid_bool",
    "C38_refuted_skip_empty_header",
    "C38_refuted_ignored_quote",
    "C38_refuted_large_number"
   ],
   "note": "C38_faithful: spec = inductive grammar of cells/records/files/headers in DSVProps.v, result = import of the model (DSV.v, character by character). C38_total: any byte sequence. strtod is a parameter of the theorem; evaluation of the date literal is represented by the literal (its value: C42). Six refutations for inputs outside of the format. C38_nonvacuous / C38_example: a file meeting all hypotheses."
  },
  {
   "property": "C39",
   "status": "proved",
   "theorems": [
    "C39_join_commutative",
    "C39_join_total",
    "C39_join_idempotent",
    "C39_join_associative",
    "C39_join_exact",
    "C39_join_represents",
    "C39_join_upper_bound",
    "C39_refuted_int_decimal",
    "C39_refuted_decimal_scales",
    "C39_refuted_int_double",
    "C39_decimal_size",
    "C39_sizes",
    "C39_size_machine",
    "C39_hash"
   ],
   "note": "SpecFloat binary64/binary32 model of arithmetic_join and Numeric::size; kind/precision part enumerated over the 25 legal shapes inside the proof, scale and category symbolic. C39_join_represents is an exact iff. Refutations: C39_refuted_int_decimal, C39_refuted_decimal_scales, C39_refuted_int_double; C39_decimal_size is an iff (fails for p = 1, 19)."
  },
  {
   "property": "C40",
   "status": "proved",
   "theorems": [
    "C40_has",
    "C40_at",
    "C40_deduplicate",
    "C40_deduplicate_idempotent",
    "C40_drop_constants",
    "C40_concat",
    "C40_union",
    "C40_intersection",
    "C40_equality",
    "C40_equality_answers",
    "C40_equality_ambiguous",
    "C40_identifier_prefix",
    "C40_refuted_left_duplicates"
   ],
   "note": "Exceptions modelled as None. Type pointers are addresses. C40_refuted_left_duplicates: duplicates in the left operand survive | and &."
  },
  {
   "property": "C41",
   "status": "proved",
   "theorems": [
    "C41_monotone",
    "C41_count",
    "C41_range_float",
    "C41_range_signed",
    "C41_range_unsigned"
   ],
   "note": "binary32 and binary64 formats; NaN excluded by hypothesis."
  },
  {
   "property": "C42",
   "status": "proved",
   "theorems": [
    "C42_validation",
    "C42_round_trip",
    "C42_order",
    "C42_print_parse",
    "C42_print_format",
    "C42_parse_format",
    "C42_validation_exact",
    "C42_refuted_leap_year",
    "C42_refuted_large_years"
   ],
   "note": "Datetimes are not modelled. Refuted: leap years are not checked; years beyond 23 bits collide (unreachable: the lexer admits four digits)."
  },
  {
   "property": "C43",
   "status": "proved",
   "theorems": [
    "C43_block",
    "C43_erase_exactly_one",
    "C43_at"
   ],
   "note": "All capacities 1..64."
  },
  {
   "property": "C44",
   "status": "proved",
   "theorems": [
    "C44_setbit"
   ],
   "note": ""
  },
  {
   "property": "C45",
   "status": "proved",
   "theorems": [
    "C45_accepted",
    "C45_exact",
    "C45_insert",
    "C45_refuted_default",
    "C45_refuted_null_multi_versioning",
    "C45_refuted_not_null"
   ],
   "note": "Rows stored exactly when all elements are expressions, or there is neither DEFAULT nor a hidden attribute; DEFAULT, NULL with multi-versioning and NOT NULL refuted."
  },
  {
   "property": "C46",
   "status": "proved",
   "theorems": [
    "C46_run",
    "C46_scan",
    "C46_filter",
    "C46_disjunctive",
    "C46_project",
    "C46_project_once",
    "C46_inhabited"
   ],
   "note": "Whole-plan theorem over blocks, masks, frames and the limit exception; expressions are arbitrary functions of the row (their evaluation is C31). Conditions are the predicate safe of InterpSpec.v."
  },
  {
   "property": "C47",
   "status": "proved",
   "theorems": [
    "C47_join",
    "C47_hash_join_exact",
    "C47_refuted_null",
    "C47_refuted_strings",
    "C47_refuted_filter_above_hash_join",
    "C47_inhabited"
   ],
   "note": "Hash join characterised exactly; three counterexamples."
  },
  {
   "property": "C48",
   "status": "proved",
   "theorems": [
    "C48_limit",
    "C48_refuted_overflow",
    "C48_inhabited"
   ],
   "note": "Exact below 2^64, empty above."
  },
  {
   "property": "C49",
   "status": "proved",
   "theorems": [
    "C49_group",
    "C49_aggregate",
    "C49_refuted_string_keys",
    "C49_refuted_avg_null",
    "C49_refuted_sum_of_nothing",
    "C49_inhabited"
   ],
   "note": "Doubles are exact rationals; counters below 2^32 rows; three counterexamples."
  },
  {
   "property": "C50",
   "status": "proved",
   "theorems": [
    "C50_sort",
    "C50_refuted_null",
    "C50_inhabited"
   ],
   "note": "std::sort is a parameter with its specification; instantiated with insertion sort."
  },
  {
   "property": "C51",
   "status": "proved",
   "theorems": [
    "C51_from_where",
    "C51_dpccp",
    "C51_pe_all",
    "C51_inhabited",
    "C51_refuted_cross_product",
    "C51_refuted_ternary",
    "C51_refuted_negated_inequality",
    "C51_refuted_different_types"
   ],
   "note": "Optimizer.v models the classification of clauses, the join graph, the splitting of filters, the plans of the sources and the construction of the join tree from the plan table; the theorems combine it with the plan enumerators (C35) and the interpreter (C46). C51_refuted_* are findings. Attributes are addressed through the part of their source; schemas, data models and correlated clauses are left out."
  },
  {
   "property": "C52",
   "status": "proved",
   "theorems": [
    "C52_select",
    "C52_run",
    "C52_no_source",
    "C52_inhabited",
    "C52_refuted_limit_0",
    "C52_refuted_duplicates",
    "C52_refuted_function",
    "C52_refuted_capture",
    "C52_refuted_no_source"
   ],
   "note": "Model of the end of optimize_plan (Finish.v) and of the compilation of expressions to column positions, with the rule that an expression whose printed form is a column is already computed; C52_select: every answer; C52_run: the interpreter; C52_no_source; counterexamples C52_refuted_*. The plan below (joins, grouping) is given; types of columns and subqueries in expressions are not modelled; schema minimization is C53."
  },
  {
   "property": "C53",
   "status": "proved",
   "theorems": [
    "C53_minimize",
    "C53_run",
    "C53_without",
    "C53_inhabited",
    "C53_run_inhabited",
    "C53_refuted_nested_aggregate",
    "C53_refuted_nested_join",
    "C53_refuted_duplicates",
    "C53_refuted_computed",
    "C53_refuted_alias",
    "C53_refuted_second"
   ],
   "note": "Minimize.v models SchemaMinimizer, get_required, the schema operations and the schemas by which the interpreter finds columns; MinimizeSpec.v: plans by names and plans as built. C53_minimize, C53_run (execution by the interpreter), C53_without (no minimization). Types and constraints of schema entries, aggregates with several arguments and the loads from storage layouts (C27-C29) are not modelled. Refutations show where the program is wrong."
  },
  {
   "property": "C54",
   "status": "proved",
   "theorems": [
    "C54_load",
    "C54_store",
    "C54_store_rows",
    "C54_load_rows",
    "C54_round_trip",
    "C54_factories",
    "C54_table",
    "C54_refuted_many_columns",
    "C54_refuted_bit_stride",
    "C54_refuted_bit_offset",
    "C54_refuted_bitmap_offset"
   ],
   "note": "compile_data_layout is modelled completely (all emitted operations, context entries, one-byte indices). C54_load/C54_store: each execution; C54_store_rows/C54_load_rows/C54_round_trip: any number of rows; C54_factories/C54_table: row and PAX layouts of Layout.v. Refuted: more than 256 constants, bit strides other than 1, unaligned bit columns and bitmaps. Not modelled: 64-bit wrap-around of addresses, floats are bit patterns."
  },
  {
   "property": "C55",
   "status": "proved",
   "theorems": [
    "C55_enumerators",
    "C55_enumerators_subproblems",
    "C55_pe_all",
    "C55_dpccp",
    "C55_same_tables",
    "C55_lookup",
    "C55_update",
    "C55_update_succeeds",
    "C55_cheapest",
    "C55_equal_dense",
    "C55_equal_sparse",
    "C55_comparisons",
    "C55_get_subproblems",
    "C55_print_dense",
    "C55_refuted_equality",
    "C55_refuted_nan",
    "C55_refuted_reflexive",
    "C55_refuted_print"
   ],
   "note": "Both tables simulate a map, for all adaptive clients; update keeps the first of the cheapest offers over all histories. Doubles are NaN, infinities or rationals (only comparisons are used)."
  },
  {
   "property": "C56",
   "status": "proved",
   "theorems": [
    "C56_documented_grammar",
    "C56_documented_text",
    "C56_unambiguous",
    "C56_accepted_grammar",
    "C56_accepted_text",
    "C56_terminates",
    "C56_print_round_trip",
    "C56_print_injective",
    "C56_refuted_binary_not",
    "C56_refuted_not_operand",
    "C56_refuted_insert_null",
    "C56_refuted_print_import",
    "C56_refuted_print_decimal",
    "C56_refuted_print_index",
    "C56_refuted_print_nested"
   ],
   "note": "Error recovery, positions and the artificial aliases of nested queries are not modelled; phrases the parser accepts harmlessly beyond the document are taken into the grammar and marked (+) in ParserSpec.v, the others appear under b = false."
  },
  {
   "property": "C57",
   "status": "proved",
   "theorems": [
    "C57_interpreter",
    "C57_refuted_infinite",
    "C57_refuted_irreflexive"
   ],
   "note": "Conditions, costs and the hooks of the operators are parameters (equality of conditions decides equality, costs are strictly weakly ordered with monotone addition); post-conditions and costs depend on the logical operators matched and the inputs' conditions only, as for all operators of the repository."
  },
  {
   "property": "C58",
   "status": "proved",
   "theorems": [
    "C58_enumerates",
    "C58_no_relations",
    "C58_first",
    "C58_notation",
    "C58_json",
    "C58_refuted_json_second"
   ],
   "note": "Plan tables are read through left and right of an entry."
  },
  {
   "property": "C59",
   "status": "proved",
   "theorems": [
    "C59_implied_prefix",
    "C59_implied_exact",
    "C59_implied_order",
    "C59_refuted_undef",
    "C59_refuted_transitive",
    "C59_quicksort",
    "C59_noop_sorting",
    "C59_aggregation",
    "C59_filter",
    "C59_limit",
    "C59_join",
    "C59_merge_join",
    "C59_grouping_required",
    "C59_merge_join_promised",
    "C59_merge_fails",
    "C59_grouping",
    "C59_refuted_grouping",
    "C59_projection",
    "C59_refuted_projection",
    "C59_refuted_grouping_order",
    "C59_grouping_promised",
    "C59_conditions_eq",
    "C59_conditions_order",
    "C59_unsatisfiable",
    "C59_refuted_simd"
   ],
   "note": "What the generated code does to the rows is given by its relational meaning (a sorted permutation, a join in the order of the right input). Also: the orders promised by the sort-merge join on one pair of keys, for all choices of sorting the inputs, and by grouping."
  },
  {
   "property": "C60",
   "status": "proved",
   "theorems": [
    "C60_search",
    "C60_deterministic",
    "C60_each_once",
    "C60_num_points",
    "C60_refuted_num_points",
    "C60_sequence",
    "C60_refuted_sequence",
    "C60_constructor",
    "C60_near",
    "C60_near_descending",
    "C60_exact",
    "C60_ends",
    "C60_monotone",
    "C60_delta_in_range",
    "C60_small_types",
    "C60_refuted_upper_bound",
    "C60_floating",
    "C60_refuted_floating_end"
   ],
   "note": "Search: any number of spaces. Linear spaces: integers with bounds up to 2^49 in absolute value, doubles; rounding as in Flocq (standard library axioms of the real numbers, see DESIGN.md). Refuted: num_points modulo 2^32, sequence with 2^32-1 steps, 64-bit and floating-point upper bounds."
  },
  {
   "property": "C61",
   "status": "proved",
   "theorems": [
    "C61_effect",
    "C61_no_crash",
    "C61_crash",
    "C61_index",
    "C61_get_index",
    "C61_index_available",
    "C61_insert_invalidates",
    "C61_refuted_import",
    "C61_refuted_reference",
    "C61_refuted_twice",
    "C61_refuted_twice_index"
   ],
   "note": "For every history: the effect of each statement on the names (C61_effect; statements that name a table or an index twice excluded, C61_refuted_twice shows why), no crash while no referenced table is dropped (C61_no_crash; C61_refuted_reference otherwise), indexes hold exactly the current rows when no IMPORT goes into a table with an index in use (C61_index; C61_refuted_import otherwise), CREATE INDEX makes available, INSERT invalidates."
  },
  {
   "property": "C62",
   "status": "proved",
   "theorems": [
    "C62_parse",
    "C62_exit",
    "C62_total",
    "C62_dashes",
    "C62_signed",
    "C62_unsigned",
    "C62_list",
    "C62_refuted_empty",
    "C62_refuted_trailing",
    "C62_refuted_negative",
    "C62_refuted_list",
    "C62_refuted_unknown",
    "C62_refuted_forgotten"
   ],
   "note": "C62_parse and C62_exit characterise the outcome for every argument vector; numbers: C62_signed, C62_unsigned; lists: C62_list.  Refuted: no arguments at all (reads behind argv), trailing characters of numbers ignored, negative numbers accepted for unsigned options, the list of one empty string, unknown short options taken for positional arguments."
  },
  {
   "property": "C63",
   "status": "proved",
   "theorems": [
    "C63_exact",
    "C63_upper_bound",
    "C63_tight",
    "C63_order",
    "C63_join_all",
    "C63_identifier",
    "C63_identifier_injective",
    "C63_group_identifier_injective",
    "C63_injected",
    "C63_injected_order",
    "C63_injected_bound",
    "C63_injected_tight",
    "C63_injected_sound",
    "C63_injected_all",
    "C63_injected_all_bound",
    "C63_fallback",
    "C63_refuted_aggregate",
    "C63_refuted_overflow",
    "C63_refuted_join_all",
    "C63_refuted_order",
    "C63_refuted_identifier",
    "C63_refuted_namespace"
   ],
   "note": "C63_exact, C63_upper_bound and C63_tight for the Cartesian product (when its products fit 64 bits), C63_order and C63_join_all for join orders (also with overflow); C63_identifier, C63_identifier_injective, C63_group_identifier_injective, C63_injected, C63_injected_order, C63_injected_bound, C63_injected_all and C63_fallback for injected cardinalities, C63_injected_sound and C63_injected_tight for whole plans (estimates are the greatest numbers of rows possible as far as the table tells). Refuted: aggregations without keys over an empty table, products beyond 64 bits, joins of all sources at once without an entry (the first source is counted twice), independence of the join order when only some joins have entries, names that contain '$', one namespace for sources and groupings."
  },
  {
   "property": "C64",
   "status": "proved",
   "theorems": [
    "C64_goo",
    "C64_query",
    "C64_tree",
    "C64_no_cartesian_product",
    "C64_number",
    "C64_refuted_optimal",
    "C64_refuted_disconnected",
    "C64_topdown",
    "C64_topdown_query",
    "C64_topdown_cuts",
    "C64_topdown_bottom_up",
    "C64_refuted_topdown_optimal",
    "C64_refuted_topdown_disconnected"
   ],
   "note": "C64_goo and C64_query: from every partition whose union is connected a greedy sequence of joins (specification: greedy) is issued; C64_tree, C64_number and C64_no_cartesian_product say what such sequences are. C64_topdown and C64_topdown_query: the top-down variant issues the joins of trees of best cuts in postorder; C64_topdown_cuts and C64_topdown_bottom_up say what these are. Refuted: the results are not optimal; query graphs that are not connected dereference a null pointer bottom up and give Cartesian products top down."
  }
 ]
}