{
 "C01": {
  "note": "Every SmallBitset method and both iterators; out-of-range access is an explicit failure."
 },
 "C02": {
  "note": "Completeness, order, no duplicates, successor minimality, and the half enumeration used by the Opt enumerators."
 },
 "C03": {
  "note": "C03_gosper_bmi2, C03_gosper_from: BMI2 build. C03_gosper_portable: if-and-only-if for the portable build. C03_zero_refuted: k = 0 loops forever.",
  "status": "proved"
 },
 "C04": {
  "note": "C04_subset_enumerator (BMI2 build), C04_portable (if and only if), C04_rejects.",
  "status": "proved"
 },
 "C05": {
  "status": "proved",
  "note": "Proved for 32/64-bit types (the widths the property quantifies over); the same templates are wrong for 8/16-bit types: C05_ceil_to_pow_2_narrow_refuted, C05_log2_floor_narrow_refuted."
 },
 "C06": {
  "note": "Saturation proved for two operands of any widths and n operands of equal width; the variadic version over mixed widths returns a value that is neither the sum nor saturated: C06_sum_mixed_refuted."
 },
 "C07": {
  "note": "C07_unescape (meaning of any text, if and only if), C07_unescape_escape, C07_escape_no_quote/no_newline, C07_unquote, C07_unquote_quote, C07_interpret, C07_replace_all, C07_html_escape; C07_replace_all_empty_refuted: infinite loop for the empty pattern.",
  "status": "proved"
 },
 "C08": {
  "note": "Both directions, including when InvalidEscapeSequence is thrown."
 },
 "C09": {
  "note": ""
 },
 "C10": {
  "note": ""
 },
 "C11": {
  "note": "Termination included: the loop ends with enough fuel."
 },
 "C12": {
  "note": "Exactly-once enumeration for all graphs; order for all distance-hereditary graphs (C12_order), in particular acyclic ones (C12_order_acyclic). False on cyclic graphs in general: C12_order_refuted.",
  "status": "proved"
 },
 "C13": {
  "note": "Finite doubles are modelled as integers (multiples of 2^-1074); std::priority_queue is any queue that yields some lightest element. NaN and infinite weights (IKKBZ's selectivity of empty tables) are not modelled."
 },
 "C14": {
  "note": "Values are ordered by a total preorder; the statement's restriction to values between numeric_limits::lowest() and max() is needed: C14_infinity_refuted.",
  "status": "proved"
 },
 "C15": {
  "note": "Exact domain of each operator (C15_or_exact, C15_not_exact); C15_empty_refuted shows the deviation on the empty CNF (TRUE).",
  "status": "proved"
 },
 "C16": {
  "note": "std::sort is any function meeting its contract; query execution feeding bulkload is not modelled."
 },
 "C17": {
  "note": "Exact condition proved for every history with fewer than 2^53 entries; C17_refuted exhibits (in binary64) an existing key that is not found because the models predict one past the end. Undefined float-to-integer conversions (NaN) and overflowing key differences are excluded (predict = None).",
  "status": "proved"
 },
 "C18": {
  "note": "Default load factor: total; other load factors: partial correctness, with C18_rehash_refuted/C18_zero_load_refuted showing the assertion failures. Load-factor arithmetic is exact rather than rounded to float."
 },
 "C19": {
  "note": "Exact characterisation; the deviation (begin() yields slot 0 even if it is free) is exhibited by C19_empty_refuted, C19_extra_refuted.",
  "status": "proved"
 },
 "C20": {
  "note": "Thread-safe pool modelled on top of the reader-writer lock LTS (C21/C22 are used as lemmas), all schedules of n <= 65535 threads. Hash buckets of std::unordered_map are not modelled; a single-threaded pool is the one-thread case."
 },
 "C21": {
  "note": "Transition system at the granularity of the mutex-protected sections plus notifications; proved by an inductive invariant for every schedule of n <= 65535 threads. C21_overflow_refuted: with 65537 threads the uint16_t reader counter wraps and a writer is admitted beside readers."
 },
 "C22": {
  "note": "Readers and writers: no lost wake-up under any schedule (also with upgraders). Upgraders: proved when lock_write is not used; C22_refuted_upgrade_wakeup_lost exhibits the deadlock otherwise (notify_one on the shared condition variable wakes a writer instead of the upgrader). Fairness/starvation is not modelled."
 },
 "C23": {
  "note": "Free list, size cells and regions modelled with exact address arithmetic; OS mmap is a parameter returning page-aligned unmapped ranges; writes by clients and to list nodes are arbitrary (havoc) within their words. Requests below 2^63 bytes (size+8 wraps above 2^64-8 in the code)."
 },
 "C24": {
  "note": "All histories of allocations (successful or failing below 2^63 bytes) and deallocations, any page size. C24_huge_request_refuted: wrap-around of offset_+aligned_size truncates live memory. The macOS branch is not modelled."
 },
 "C25": {
  "note": "Serial scheduler as a transition system over submissions, worker steps and close: no command is lost or run twice, submission order per transaction, one open transaction at a time, close fails the queued commands, no lost wakeup, progress. Refutations: order after the undefined dereference of the reverse end iterator, an open transaction starves others, closing an idle transaction. Creation of the worker thread and id overflow not modelled."
 },
 "C26": {
  "note": "Start times are unique and increasing, snapshot filter visibility. C26_refuted_abort: rows of an aborted transaction stay visible (no rollback)."
 },
 "C27": {
  "note": "RowLayoutFactory::make and the Interpreter's address computation. Types are represented by size and alignment; 64 bit sizes do not wrap."
 },
 "C28": {
  "note": "PAXLayoutFactory::make for NTuples and NBytes and all options (reordering, no NULL bitmap, one row less). Refuted: C28_refuted_small_block, C28_refuted_char_0."
 },
 "C29": {
  "note": "Constructors and append/drop of RowStore, PaxStore, ColumnStore. Refuted: default layout PAX4M on any store (C29_refuted_default_layout_on_*), 32 bit row size (C29_refuted_large_rows), padding larger than a block (C29_refuted_many_columns)."
 },
 "C30": {
  "note": "Refutations: C30_refuted_clone_null (ORDER BY and joins clone tuples, so NULL becomes 0 there), C30_refuted_string_equality, C30_refuted_65_slots."
 },
 "C31": {
  "note": "StackMachine.v / StackMachineProps.v. Floats and strings are not modelled. Refutations: division by NULL traps, % on different scales, INT / DECIMAL(.,18), 257 constants, empty clause."
 },
 "C32": {
  "note": "Refuted part: C32_refuted_emit_after_run (stack allocated once at the first run)."
 },
 "C33": {
  "note": "All payloads and NULL bits."
 },
 "C34": {
  "note": "Refinement of a sequence by induction over histories with a chain invariant of the XOR links; destructors of the values are not modelled."
 },
 "C35": {
  "note": "n < 64, BMI2 build. DPccp: optimal on distance-hereditary, in particular acyclic, join graphs (C35_dpccp, C35_dpccp_acyclic); false on cyclic graphs in general: C35_dpccp_refuted.",
  "status": "proved"
 },
 "C36": {
  "note": "Agreement proved for all enumerators on all graphs except DPccp, which agrees on distance-hereditary graphs (C36_dpccp_agree) and is refuted on a cycle (C36_dpccp_refuted).",
  "status": "proved"
 },
 "C37": {
  "note": "Lexer.v models Lexer.cpp/.hpp completely (except diagnostics). C37_lossless: termination, partition, positions, texts, soundness of kinds w.r.t. an independent grammar; C37_round_trip: completeness; C37_refuted_*: NUL bytes, trailing backslash, dates without separators, 0xp1.",
  "status": "proved"
 },
 "C38": {
  "note": "C38_faithful: spec = inductive grammar of cells/records/files/headers in DSVProps.v, result = import of the model (DSV.v, character by character). C38_total: any byte sequence. strtod is a parameter of the theorem; evaluation of the date literal is represented by the literal (its value: C42). Six refutations for inputs outside of the format. C38_nonvacuous / C38_example: a file meeting all hypotheses.",
  "status": "proved"
 },
 "C39": {
  "note": "SpecFloat binary64/binary32 model of arithmetic_join and Numeric::size; kind/precision part enumerated over the 25 legal shapes inside the proof, scale and category symbolic. C39_join_represents is an exact iff. Refutations: C39_refuted_int_decimal, C39_refuted_decimal_scales, C39_refuted_int_double; C39_decimal_size is an iff (fails for p = 1, 19)."
 },
 "C40": {
  "note": "Exceptions modelled as None. Type pointers are addresses. C40_refuted_left_duplicates: duplicates in the left operand survive | and &."
 },
 "C41": {
  "note": "binary32 and binary64 formats; NaN excluded by hypothesis."
 },
 "C42": {
  "note": "Datetimes are not modelled. Refuted: leap years are not checked; years beyond 23 bits collide (unreachable: the lexer admits four digits)."
 },
 "C43": {
  "note": "All capacities 1..64."
 },
 "C44": {
  "note": ""
 },
 "C45": {
  "note": "Rows stored exactly when all elements are expressions, or there is neither DEFAULT nor a hidden attribute; DEFAULT, NULL with multi-versioning and NOT NULL refuted."
 },
 "C46": {
  "note": "Whole-plan theorem over blocks, masks, frames and the limit exception; expressions are arbitrary functions of the row (their evaluation is C31). Conditions are the predicate safe of InterpSpec.v.",
  "status": "proved"
 },
 "C47": {
  "note": "Hash join characterised exactly; three counterexamples.",
  "status": "proved"
 },
 "C48": {
  "note": "Exact below 2^64, empty above.",
  "status": "proved"
 },
 "C49": {
  "note": "Doubles are exact rationals; counters below 2^32 rows; three counterexamples.",
  "status": "proved"
 },
 "C50": {
  "note": "std::sort is a parameter with its specification; instantiated with insertion sort.",
  "status": "proved"
 },
 "C51": {
  "note": "Optimizer.v models the classification of clauses, the join graph, the splitting of filters, the plans of the sources and the construction of the join tree from the plan table; the theorems combine it with the plan enumerators (C35) and the interpreter (C46). C51_refuted_* are findings. Attributes are addressed through the part of their source; schemas, data models and correlated clauses are left out.",
  "status": "proved"
 },
 "C52": {
  "note": "Model of the end of optimize_plan (Finish.v) and of the compilation of expressions to column positions, with the rule that an expression whose printed form is a column is already computed; C52_select: every answer; C52_run: the interpreter; C52_no_source; counterexamples C52_refuted_*. The plan below (joins, grouping) is given; types of columns and subqueries in expressions are not modelled; schema minimization is C53."
 },
 "C53": {
  "note": "Minimize.v models SchemaMinimizer, get_required, the schema operations and the schemas by which the interpreter finds columns; MinimizeSpec.v: plans by names and plans as built. C53_minimize, C53_run (execution by the interpreter), C53_without (no minimization). Types and constraints of schema entries, aggregates with several arguments and the loads from storage layouts (C27-C29) are not modelled. Refutations show where the program is wrong.",
  "status": "proved"
 },
 "C54": {
  "note": "compile_data_layout is modelled completely (all emitted operations, context entries, one-byte indices). C54_load/C54_store: each execution; C54_store_rows/C54_load_rows/C54_round_trip: any number of rows; C54_factories/C54_table: row and PAX layouts of Layout.v. Refuted: more than 256 constants, bit strides other than 1, unaligned bit columns and bitmaps. Not modelled: 64-bit wrap-around of addresses, floats are bit patterns.",
  "status": "proved"
 },
 "C55": {
  "note": "Both tables simulate a map, for all adaptive clients; update keeps the first of the cheapest offers over all histories. Doubles are NaN, infinities or rationals (only comparisons are used).",
  "status": "proved"
 },
 "C56": {
  "note": "Error recovery, positions and the artificial aliases of nested queries are not modelled; phrases the parser accepts harmlessly beyond the document are taken into the grammar and marked (+) in ParserSpec.v, the others appear under b = false.",
  "status": "proved"
 },
 "C57": {
  "note": "Conditions, costs and the hooks of the operators are parameters (equality of conditions decides equality, costs are strictly weakly ordered with monotone addition); post-conditions and costs depend on the logical operators matched and the inputs' conditions only, as for all operators of the repository.",
  "status": "proved"
 },
 "C58": {
  "note": "Plan tables are read through left and right of an entry.",
  "status": "proved"
 },
 "C59": {
  "note": "What the generated code does to the rows is given by its relational meaning (a sorted permutation, a join in the order of the right input). Also: the orders promised by the sort-merge join on one pair of keys, for all choices of sorting the inputs, and by grouping.",
  "status": "proved"
 },
 "C60": {
  "note": "Search: any number of spaces. Linear spaces: integers with bounds up to 2^49 in absolute value, doubles; rounding as in Flocq (standard library axioms of the real numbers, see DESIGN.md). Refuted: num_points modulo 2^32, sequence with 2^32-1 steps, 64-bit and floating-point upper bounds.",
  "status": "proved"
 },
 "C61": {
  "note": "For every history: the effect of each statement on the names (C61_effect; statements that name a table or an index twice excluded, C61_refuted_twice shows why), no crash while no referenced table is dropped (C61_no_crash; C61_refuted_reference otherwise), indexes hold exactly the current rows when no IMPORT goes into a table with an index in use (C61_index; C61_refuted_import otherwise), CREATE INDEX makes available, INSERT invalidates.",
  "status": "proved"
 },
 "C62": {
  "note": "C62_parse and C62_exit characterise the outcome for every argument vector; numbers: C62_signed, C62_unsigned; lists: C62_list.  Refuted: no arguments at all (reads behind argv), trailing characters of numbers ignored, negative numbers accepted for unsigned options, the list of one empty string, unknown short options taken for positional arguments.",
  "status": "proved"
 },
 "C63": {
  "note": "C63_exact, C63_upper_bound and C63_tight for the Cartesian product (when its products fit 64 bits), C63_order and C63_join_all for join orders (also with overflow); C63_identifier, C63_identifier_injective, C63_group_identifier_injective, C63_injected, C63_injected_order, C63_injected_bound, C63_injected_all and C63_fallback for injected cardinalities, C63_injected_sound and C63_injected_tight for whole plans (estimates are the greatest numbers of rows possible as far as the table tells). Refuted: aggregations without keys over an empty table, products beyond 64 bits, joins of all sources at once without an entry (the first source is counted twice), independence of the join order when only some joins have entries, names that contain '$', one namespace for sources and groupings.",
  "status": "proved"
 },
 "C64": {
  "note": "C64_goo and C64_query: from every partition whose union is connected a greedy sequence of joins (specification: greedy) is issued; C64_tree, C64_number and C64_no_cartesian_product say what such sequences are. C64_topdown and C64_topdown_query: the top-down variant issues the joins of trees of best cuts in postorder; C64_topdown_cuts and C64_topdown_bottom_up say what these are. Refuted: the results are not optimal; query graphs that are not connected dereference a null pointer bottom up and give Cartesian products top down.",
  "status": "proved"
 }
}