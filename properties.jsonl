{"id": "C01", "title": "Small bit sets behave as finite sets", "statement": "A small bit set of capacity 64 behaves as the mathematical set of the element indices it contains: union, intersection, difference, subset test, cardinality, singleton/All construction, minimum/maximum element and the lo-masks all return exactly what the set operation returns, and iterating the set (forwards or in reverse) yields each contained index exactly once, in increasing (decreasing) order.", "quantifier": "all pairs of 64-bit sets and all indices 0..63", "why_tests_cant": "2^64 sets per operand; unit tests sample a handful of bit patterns and miss carries into bit 63 and empty-set corner cases", "anchors": ["include/mutable/util/ADT.hpp:SmallBitset", "include/mutable/util/ADT.hpp:SmallBitset::iterator", "include/mutable/util/ADT.hpp:SmallBitset::reverse_iterator"]}
{"id": "C02", "title": "Subset enumeration is complete and duplicate-free", "statement": "Starting at the least subset of a non-empty set and repeatedly advancing to the next subset enumerates every non-empty subset of that set exactly once, ends with the set itself, and then yields the empty set; every subset is visited after all of its own subsets.", "quantifier": "all non-empty 64-bit sets", "why_tests_cant": "the enumeration has up to 2^64-1 steps and depends on wrap-around arithmetic; tests only run small dense sets", "anchors": ["include/mutable/util/ADT.hpp:least_subset", "include/mutable/util/ADT.hpp:next_subset"]}
{"id": "C03", "title": "k-subset enumeration is complete", "statement": "Enumerating the subsets of size k of the first n elements (1 <= k <= n < 64), from the first or from a given one, yields exactly the (remaining) subsets with k elements, each exactly once and in increasing numeric order, then stops. The portable build (without BMI2 instructions) does so if and only if n <= 32, k = 1 or k = n (its 32-bit population count makes it yield sets of other sizes otherwise). With k = 0, which the API admits, the enumeration never ends in either build (proved).", "quantifier": "all k, n with 1 <= k <= n < 64", "why_tests_cant": "number of subsets is binomial(n,k); the word-level carry trick must be right for every pattern", "anchors": ["include/mutable/util/ADT.hpp:GospersHack"]}
{"id": "C04", "title": "Subset enumeration of an arbitrary set by size", "statement": "The size-restricted subset enumerator yields each size-k subset of a given (possibly sparse) set exactly once and nothing else, and then stops; in the portable build if and only if the set has at most 32 elements, k = 1 or k is the size of the set. Sets of 64 elements and sizes beyond the set are rejected.", "quantifier": "all sets with fewer than 64 elements and all 1 <= k <= size", "why_tests_cant": "exponentially many sets and subsets; bit deposit must be an order isomorphism for every mask", "anchors": ["include/mutable/util/ADT.hpp:SubsetEnumerator", "include/mutable/util/fn.hpp:_pdep_u64"]}
{"id": "C05", "title": "Power-of-two and rounding helpers are exact", "statement": "is_pow_2 decides being a power of two; ceil_to_pow_2 returns the least power of two not below its argument; ceil_to_multiple_of_pow_2, round_up_to_multiple and Ceil_To_Next_Page return the least multiple not below their argument; log2_floor/log2_ceil return the floor/ceiling of the base-2 logarithm \u2014 whenever the result is representable.", "quantifier": "all 32/64-bit arguments whose result is representable", "why_tests_cant": "boundary values around every power of two and near the top of the word", "anchors": ["include/mutable/util/fn.hpp:is_pow_2,ceil_to_pow_2,ceil_to_multiple_of_pow_2,round_up_to_multiple,log2_floor,log2_ceil", "include/mutable/util/memory.hpp:Ceil_To_Next_Page"]}
{"id": "C06", "title": "Saturating addition and multiplication", "statement": "add_wo_overflow and mul_wo_overflow return the exact sum/product when it is representable and the maximum representable value otherwise, never a wrapped value; powi returns the exact power when representable.", "quantifier": "all 64-bit operand pairs", "why_tests_cant": "2^128 operand pairs", "anchors": ["include/mutable/util/fn.hpp:add_wo_overflow,mul_wo_overflow,powi"]}
{"id": "C07", "title": "Escaping round-trips", "statement": "Unescaping an escaped string returns the original string (escape and quote characters other than 'n'); unescaping any text yields exactly its meaning (an escape before an escape or quote character or before n; other escapes stand for themselves) and has no result exactly when the text ends inside an escape; escaped text contains no raw newline and no unescaped quote; unquoting a quoted string returns it, an unquoted text is returned unchanged and unbalanced quotes are rejected; interpreting a quoted escaped string returns the original; replace_all replaces exactly the non-overlapping left-to-right occurrences of a non-empty pattern (with an empty pattern it never terminates, proved as counterexample) and html_escape substitutes exactly the three entities.", "quantifier": "all byte strings and all escape/quote characters the API allows", "why_tests_cant": "strings are unbounded; adjacent escape characters interact", "anchors": ["include/mutable/util/fn.hpp:escape,unescape,quote,unquote,interpret,replace_all", "src/util/fn.cpp"]}
{"id": "C08", "title": "LIKE implements SQL pattern matching", "statement": "like(text, pattern, escape) returns true iff the text is in the language of the pattern where '_' matches exactly one character, '%' matches any (possibly empty) character sequence, and the escape character makes the following '_', '%' or escape literal; it throws exactly when the pattern contains an invalid escape.", "quantifier": "all texts, patterns and escape characters", "why_tests_cant": "unbounded strings; '%' backtracking corner cases", "anchors": ["src/util/fn.cpp:like", "include/mutable/util/fn.hpp:like"]}
{"id": "C09", "title": "Graph reachability and connectedness", "statement": "On a join graph, reachable(S) is the set of nodes reachable from S, restricted reachability stays inside the given set, neighbors returns exactly the adjacent nodes outside the argument, is_connected(S) holds iff the induced subgraph is connected, and is_connected(L,R) iff some edge joins L and R.", "quantifier": "all symmetric graphs with up to 64 nodes and all node subsets", "why_tests_cant": "2^2016 graphs times 2^64 subsets", "anchors": ["include/mutable/util/AdjacencyMatrix.hpp:reachable,neighbors,is_connected"]}
{"id": "C10", "title": "Transitive closure", "statement": "The transitive closure relates u to v iff there is a non-empty path from u to v in the original graph (reflexive closure per connected component for the undirected variant exactly as documented), and changes nothing else.", "quantifier": "all directed / undirected graphs", "why_tests_cant": "needs induction over paths; tests cover a few graphs", "anchors": ["include/mutable/util/AdjacencyMatrix.hpp:transitive_closure_directed,transitive_closure_undirected", "src/util/AdjacencyMatrix.cpp"]}
{"id": "C11", "title": "Connected-subgraph enumeration", "statement": "Enumerating the connected subgraphs of an undirected graph calls the visitor exactly once for each non-empty connected node set within the given superset and for nothing else.", "quantifier": "all undirected graphs, all supersets", "why_tests_cant": "exponentially many graphs; duplicates/omissions depend on exclusion sets", "anchors": ["include/mutable/util/AdjacencyMatrix.hpp:for_each_CSG_undirected"]}
{"id": "C12", "title": "Connected-subgraph-pair enumeration", "statement": "Enumerating connected subgraph-complement pairs visits, for every unordered pair of disjoint, non-empty, connected and mutually adjacent node sets, exactly one of the two orders, exactly once; and if every connected subset of the graph preserves distances (graphs without cycles, cliques, complete bipartite graphs; not longer cycles, for which it fails), every pair is visited after all pairs whose union is one of its two sides.", "quantifier": "all undirected graphs (the order: all distance-hereditary ones)", "why_tests_cant": "same as C11, quadratically worse", "anchors": ["include/mutable/util/AdjacencyMatrix.hpp:for_each_CSG_pair_undirected"]}
{"id": "C13", "title": "Minimum spanning forest", "statement": "For finite symmetric weights, the minimum spanning forest is a subgraph of the input that is acyclic, connects exactly the vertices the input connects, and has minimal total weight among all such subgraphs, whichever of several lightest edges the priority queue yields; directing a graph away from a root yields exactly the edges that lead one step further away, so in a tree every reachable edge gets one direction and every reachable vertex but the root one parent.", "quantifier": "all undirected graphs and all edge weights", "why_tests_cant": "needs an exchange argument over all spanning forests", "anchors": ["src/util/AdjacencyMatrix.cpp:minimum_spanning_forest,tree_directed_away_from"]}
{"id": "C14", "title": "qsort sorts, partition partitions", "statement": "For values between the type's lowest and greatest finite value, the library's sort yields an ordered permutation of its input (and touches nothing outside the given range) under any total preorder, its partition function yields a permutation split at the returned point, and verify_partition decides exactly whether a range is so split; for other values (infinities) it additionally rejects lower parts above the greatest and upper parts below the lowest finite value.", "quantifier": "all arrays, all pivot choices, all strict weak orders", "why_tests_cant": "n! inputs of each length; recursion boundaries", "anchors": ["src/util/algorithms.hpp"]}
{"id": "C15", "title": "CNF operations preserve meaning", "statement": "Conversion of a boolean expression to CNF evaluates to the expression's value under every assignment, in SQL's three-valued logic, and never yields an empty CNF or clause; conjunction of CNFs is exact always, disjunction exactly when not just one operand is the empty CNF, negation exactly when the CNF has clauses and all or none of them are empty; equality compares clauses and CNFs as sets.", "quantifier": "all CNFs/expressions and all assignments to {true,false,null}", "why_tests_cant": "unbounded formulas; nested negation of (in)equality; empty-CNF corner cases", "anchors": ["include/mutable/IR/CNF.hpp", "src/IR/CNF.cpp"]}
{"id": "C16", "title": "Array index lookups are exact", "statement": "After bulk loading and finalizing, lower_bound(k)/upper_bound(k) delimit exactly the entries with keys not less than / greater than k, iteration is in key order and contains every added entry; lookups before finalization (or after a later add) are rejected.", "quantifier": "all multisets of entries, all keys, all interleavings of add/finalize/lookup", "why_tests_cant": "unbounded histories and duplicate keys", "anchors": ["include/mutable/storage/Index.hpp:ArrayIndex", "src/storage/Index.cpp"]}
{"id": "C17", "title": "Learned index agrees with binary search", "statement": "Whatever position the learned models predict (it is never more than one past the end), the recursive model index returns the same lower/upper bound as a binary search over the same sorted entries exactly when the prediction lies inside the array, or the memory behind the array holds a larger key, or the bound is the end; in all other cases it returns the end.", "quantifier": "all entry sets, all keys, every position the models may predict", "why_tests_cant": "model predictions are floating-point and data dependent: tests only see a few predictions", "anchors": ["include/mutable/storage/Index.hpp:RecursiveModelIndex", "src/storage/Index.cpp"]}
{"id": "C18", "title": "RefCountingHashMap is a multimap", "statement": "Any sequence of insertions (with or without duplicates), lookups, rehashes, resizes and shrinks behaves like an abstract multimap: find returns an entry iff one was inserted, for_all visits exactly the inserted values of the key, count returns their number, insertion without duplicates keeps the first value, and growth never loses or duplicates an entry.", "quantifier": "all operation sequences, all keys/values, all hash functions", "why_tests_cant": "collision patterns depend on the hash function and capacity; probing must cover the table", "anchors": ["src/util/container/RefCountingHashMap.hpp"]}
{"id": "C19", "title": "Iterating a RefCountingHashMap", "statement": "Iterating from begin() to end() visits every inserted entry exactly once; it visits nothing else exactly when the first slot of the table is in use, otherwise it yields one spurious entry first.", "quantifier": "all maps including empty ones", "why_tests_cant": "tests iterate few layouts", "anchors": ["src/util/container/RefCountingHashMap.hpp:begin,end,iterator"]}
{"id": "C20", "title": "Interning pool: equal values, equal handles", "statement": "Pooling two values returns the same handle iff the values are equal, whichever threads pool them and however their calls interleave; a handle stays valid forever and the reference count equals the number of handles; the table is never read while it is modified; and no call of the pool gets stuck.", "quantifier": "all operation histories and all thread interleavings", "why_tests_cant": "interleavings and histories are unbounded", "anchors": ["include/mutable/util/Pool.hpp"]}
{"id": "C21", "title": "Reader-writer lock mutual exclusion", "statement": "With at most 65535 threads, at no time does a thread hold the lock for writing while another holds it for reading or writing; an upgrade takes effect only when the upgrader is the only reader and at most one thread may be upgrading; try-operations fail exactly when the lock is unavailable and then leave it unchanged; no internal assertion fails.  (With 65537 threads the 16-bit reader counter wraps and exclusion is lost.)", "quantifier": "all numbers of threads up to 65535 and all interleavings of lock/try_lock/unlock/upgrade operations", "why_tests_cant": "schedules cannot be enumerated by tests", "anchors": ["include/mutable/util/reader_writer_lock.hpp"]}
{"id": "C22", "title": "Reader-writer lock liveness", "statement": "Whenever a thread waits for the lock (shared or exclusive) although the lock state would admit it, a wake-up is pending: no wake-up is lost and readers and writers never deadlock on a free lock.  The same holds for a thread waiting to upgrade as long as no thread uses the blocking lock_write(); if one does, the upgrader's wake-up can be lost and it blocks forever as the only holder of the lock.", "quantifier": "all schedules, including which waiter a notification wakes", "why_tests_cant": "depends on the scheduler's choice of the notified waiter", "anchors": ["include/mutable/util/reader_writer_lock.hpp"]}
{"id": "C23", "title": "list_allocator hands out disjoint memory", "statement": "Memory blocks returned by the list allocator and not yet freed are pairwise disjoint, lie within memory obtained from the system, and respect the requested size and alignment; a request goes to the system at most once, for at least the current minimal size (which doubles under the exponential strategy); when all blocks have been freed all memory is coalesced, is used for later requests that fit, and is returned at destruction.", "quantifier": "all sequences of allocations and deallocations of any size and alignment", "why_tests_cant": "fragmentation histories are unbounded", "anchors": ["include/mutable/util/list_allocator.hpp"]}
{"id": "C24", "title": "Linear (page) allocator", "statement": "Live allocations of the linear allocator are disjoint, page aligned, at least as large as requested and inside the memory file; freeing in any order reclaims memory as soon as all later allocations are freed (after all are freed the allocator is empty), freeing live memory succeeds and freeing an unknown or already freed region is rejected; a request succeeds exactly if the file extended by the rounded request stays within the largest file size and the system grants the mapping.  (A request of nearly 2^64 bytes, although it throws, truncates the file below live memory.)", "quantifier": "all sequences of allocate/deallocate", "why_tests_cant": "out-of-order frees accumulate marks; unbounded histories", "anchors": ["src/util/memory.cpp:LinearAllocator", "include/mutable/util/memory.hpp"]}
{"id": "C25", "title": "Serial scheduler isolation", "statement": "If clients close only transactions that have begun, the serial scheduler isolates transactions: once a command of a transaction is handed out, only its commands are handed out until it is closed. Commands execute one at a time, none is lost or duplicated, they are handed out in submission order as long as the undefined comparison in push yields false, the worker never sleeps through a command it could execute, and closing the scheduler fails every queued and every later command. Counterexamples proved: reordering if that comparison yields true, starvation of an open transaction behind another one's command, isolation lost when an idle transaction is closed.", "quantifier": "all interleavings of submissions, completions and close", "why_tests_cant": "schedules are unbounded", "anchors": ["src/catalog/SerialScheduler.cpp", "src/catalog/SerialScheduler.hpp"]}
{"id": "C26", "title": "Snapshot visibility under multi-versioning", "statement": "Start times are unique and ordered by the beginning of transactions; with timestamp filtering a query sees exactly the row versions created at or before its transaction's start and not deleted at or before it, hence exactly the rows inserted earlier by transactions that started no later; if clients use transactions as documented it sees all rows inserted before. Counterexample proved: rows of aborted transactions stay visible.", "quantifier": "all histories of inserts/deletes and all transaction start times", "why_tests_cant": "histories are unbounded", "anchors": ["src/catalog/Schema.cpp:apply_timestamp_filter", "include/mutable/catalog/Schema.hpp:MultiVersioningTable"]}
{"id": "C27", "title": "Row layout does not overlap", "statement": "In a row layout, for every non-empty list of column types, every attribute value and every NULL bit of every row occupies a bit range of its own inside the row's stride, which is a whole number of bytes; with reordering of attributes (the default) each attribute is aligned to its type's alignment. Without reordering it need not be (refuted).", "quantifier": "all attribute type lists, all pairs of (row, attribute)", "why_tests_cant": "unbounded schemas; padding arithmetic", "anchors": ["src/storage/DataLayoutFactory.cpp:RowLayoutFactory", "src/storage/RowStore.cpp"]}
{"id": "C28", "title": "PAX layout does not overlap", "statement": "In a PAX layout (blocks of a given number of tuples or bytes) every attribute value and NULL bit of every row has its own bit range inside its block, columns start at whole bytes, and attributes are aligned if reordered and the block size is a multiple of the alignments, provided a block given in bytes has room for one row with its padding. If a row fits only without the padding, NULL bits overlap the next block (refuted); CHAR(0) divides by zero (refuted).", "quantifier": "all attribute type lists, all block sizes, all pairs of (row, attribute)", "why_tests_cant": "unbounded schemas and block sizes", "anchors": ["src/storage/DataLayoutFactory.cpp:PAXLayoutFactory", "src/storage/DataLayout.cpp"]}
{"id": "C29", "title": "Stores never hand out memory they do not have", "statement": "Row, PAX and column stores admit, by their append check, only as many rows as their own offsets place, without overlap, in the memory they allocated (row stores: rows of less than 2^32 bits, also with the row layout; PAX stores: blocks below 512 MiB with room for the padding), and append/drop keep the row count exact. This does not extend to the layout CREATE TABLE combines them with by default: PAX with 4 MiB blocks places admitted rows outside the memory of row, PAX and column stores (refuted), nor to rows of 2^32 bits and more (refuted).", "quantifier": "all schemas and append/drop histories", "why_tests_cant": "capacity boundary needs millions of rows", "anchors": ["src/storage/RowStore.cpp", "src/storage/PaxStore.cpp", "src/storage/ColumnStore.cpp"]}
{"id": "C30", "title": "Tuples store values and NULLs faithfully", "statement": "For tuples of up to 64 attributes: after any history of set, null, not_null, clear and insert, reading index i returns the last value written to i (or NULL), writes do not interfere, inserting a tuple overwrites exactly the given range, null/not_null hides and restores the value, equality is equality of the slots (NULL or value), equal tuples hash alike, and cloning copies every value and string into memory of its own without touching the original. Counterexamples proved: clone turns NULLs into their payload; equality of character slots compares addresses; a tuple with more than 64 slots cannot be used.", "quantifier": "all tuples (any arity up to 64) and all write histories, all string contents", "why_tests_cant": "all histories and arities; the NULL bits beyond the arity must stay set in every history for equality to work", "anchors": ["include/mutable/IR/Tuple.hpp", "src/IR/Tuple.cpp"]}
{"id": "C31", "title": "Compiled expressions compute the expression", "statement": "Running the byte code compiled for a well-typed expression over BOOL, INT, DECIMAL and DATE attributes and constants (arithmetic, comparisons with rescaling, AND/OR/NOT, unary operators, IS NULL, INT()) or for a filter in CNF yields exactly one value on top of the untouched rest of the stack, and it is the value under SQL semantics over rational numbers with three-valued logic, decimals truncated to the result scale. The only other outcome is an arithmetic trap, which occurs exactly if some rescaled operand or arithmetic result, computed on the stored representations (also those of NULLs), leaves 64 bits or some divisor is zero; a filter traps exactly if one of its literals does. Limits, with counterexamples proved: at most 256 constants, scale factors up to 10^18, % on equal scales, no empty clause; x / NULL divides by the payload 0 of the NULL and traps.", "quantifier": "all well-typed expressions and CNF filters of any size and all input tuples incl. NULLs", "why_tests_cant": "unbounded expressions and all tuples", "anchors": ["src/backend/StackMachine.cpp", "src/backend/StackMachine.hpp", "src/tables/Opcodes.tbl", "src/parse/Sema.cpp"]}
{"id": "C32", "title": "Compiled code never overruns the operand stack", "statement": "The operand stack size computed while code is emitted is never exceeded while the code runs from an empty stack, for every sequence of emit calls in which untracked opcodes do not push; code compiled for any expression or CNF filter (non-empty clauses) in addition never lacks operands and leaves exactly one value. The per-opcode stack change used for the bookkeeping equals what the interpreter does, for every opcode. Not so for code emitted after a first run: the stack is not reallocated (counterexample proved).", "quantifier": "all opcodes, all emit sequences, all expressions and filters, all starting heights", "why_tests_cant": "unbounded programs", "anchors": ["src/backend/StackMachine.cpp:operator()", "src/backend/StackMachine.hpp:emit_X", "src/tables/Opcodes.tbl"]}
{"id": "C33", "title": "Boolean connectives follow Kleene logic", "statement": "AND, OR, NOT on values that may be NULL follow SQL's three-valued truth tables irrespective of the raw payload stored beside a NULL flag.", "quantifier": "all operand payloads and NULL flags, any stack below", "why_tests_cant": "payload of NULL is unspecified in tests", "anchors": ["src/backend/StackMachine.cpp:And_b,Or_b,Not_b"]}
{"id": "C34", "title": "Doubly linked list refines a sequence", "statement": "Any history of push, pop, insert (one value, copies, a range), erase, reverse and clear on the doubly linked list behaves as on a sequence, for any addresses the allocator returns: forward and reverse iteration, size, front, back, popped values and returned iterators are those of the sequence; exactly one node per element is allocated; a copy has the same elements. Inserting or erasing keeps the iterators at other places valid. Counterexamples proved: erasing through rbegin() corrupts the list; an iterator at the position of an insertion is lost.", "quantifier": "all operation histories, positions and allocator addresses", "why_tests_cant": "pointer XOR encoding must stay consistent through every history", "anchors": ["include/mutable/util/ADT.hpp:doubly_linked_list"]}
{"id": "C35", "title": "Join enumeration finds an optimal plan", "statement": "Each exhaustive plan enumerator (DPsize, DPsizeOpt, DPsizeSub, DPsub, DPsubOpt, TDbasic, TDMinCutAGaT, PEall, and DPccp on join graphs whose connected subsets preserve distances, in particular without cycles, but not on all cyclic ones) fills the plan table so that the final entry describes a valid join tree over all relations (without cross products unless the enumerator admits them) whose cost is minimal among all such join trees.", "quantifier": "all connected join graphs, all cardinalities, all additive cost functions", "why_tests_cant": "the number of join trees is exponential; optimality is a claim about all of them", "anchors": ["src/IR/PlanEnumerator.cpp", "include/mutable/IR/PlanTable.hpp", "include/mutable/catalog/CostFunctionCout.hpp"]}
{"id": "C36", "title": "Join enumerators agree", "statement": "All exhaustive enumerators without cross products (DPccp: on join graphs whose connected subsets preserve distances, e.g. without cycles) yield the same final cost, whichever plan table implementation is used.", "quantifier": "all connected join graphs and cardinalities", "why_tests_cant": "relational property over exponentially many graphs", "anchors": ["src/IR/PlanEnumerator.cpp", "include/mutable/IR/PlanTable.hpp"]}
{"id": "C37", "title": "Lexer loses nothing", "statement": "Tokenizing a text always terminates; the text is the concatenation of the consumed lexemes with white space and comments between them; every token carries the line and column of its first character and (unless the lexeme contains a NUL byte, or is an unterminated string ending in a backslash) exactly the consumed text; every token that is not an error token is a well-formed keyword, identifier, number, string, date, instruction or punctuator (except dates without separators and hexadecimal floats without mantissa digits, which are proved to be accepted), so any other malformed literal is reported as an error; conversely a text written as a sequence of well-formed tokens, each followed by a character that is not part of it, is read back as exactly these tokens, and the token grammar is unambiguous.", "quantifier": "all input texts (byte sequences) and all sequences of well-formed tokens", "why_tests_cant": "unbounded texts; one-character push-back, end-of-input at any place", "anchors": ["src/lex/Lexer.cpp", "src/lex/Lexer.hpp"]}
{"id": "C38", "title": "DSV import is faithful", "statement": "Importing a file in the documented format (any delimiter/quote/escape, with a naming header, a skipped header or none; Booleans, strings plain or quoted with escapes, integers and decimals within 64 bits, dates, floating-point texts, empty cells for NULL) appends to the table, in order, exactly one row per record with the record's values and NULLs at the attributes of their columns, all other attributes NULL and the time stamps set, cut off after the configured limit; a record with too few cells leaves no trace and cells of unknown columns are ignored. For every input whatever, the import terminates, keeps all old rows unchanged and appends at most `limit` rows. Outside of the format: a record with too many cells shifts later rows and leaves an unwritten row, a final NULL without line feed is read as 0, an invalid Boolean repeats the previous row's value, skipping an empty header line loses a record, a quote inside an ignored cell drops its record, and integers beyond 64 bits wrap (each proved as counterexample).", "quantifier": "all tables, files, delimiters, quotes, escapes, limits and old contents", "why_tests_cant": "unbounded inputs; malformed records anywhere", "anchors": ["src/io/DSVReader.cpp", "include/mutable/io/Reader.hpp"]}
{"id": "C39", "title": "Type arithmetic", "statement": "The common type of two numeric types (INT of 1, 2, 4, 8 bytes, FLOAT, DOUBLE, DECIMAL of up to 19 digits and any scale) always exists, is commutative, idempotent and associative; it has all values of both operands for two INTs, two floating-point types and two DECIMALs of equal scale, and in general an operand's values survive exactly under a stated arithmetic condition (counterexamples proved for INT with DECIMAL, DECIMALs of different scale, INT(8) with DOUBLE). The storage size of DECIMAL(p) holds all p-digit numbers exactly for p = 2..18 (it fails for p = 1 and for the maximal precision 19).", "quantifier": "all pairs of numeric types and all values", "why_tests_cant": "quantifies over all precisions, scales and values", "anchors": ["src/catalog/Type.cpp:arithmetic_join", "include/mutable/catalog/Type.hpp:Numeric"]}
{"id": "C40", "title": "Schemas behave as identifier sets", "statement": "Deduplication yields each identifier once with its first entry in order; union is the left schema followed by the first occurrences of the identifiers that only the right one has; intersection is the entries of the left schema whose identifier the right one has, with merged constraints; each of them, lookup and equality throw exactly when they meet an ambiguous identifier (intersection also on differing types). Schema equality, when it answers, is equality of the identifier sets. Duplicates of the left operand are kept by union and intersection (proved as counterexample).", "quantifier": "all schemas", "why_tests_cant": "unbounded schemas", "anchors": ["include/mutable/catalog/Schema.hpp:Schema"]}
{"id": "C41", "title": "Order-preserving number sequence", "statement": "The sequence number of a floating-point number is strictly monotone in the number (with -0 and +0 handled as documented), so the distance of sequence numbers counts representable values and range-width decisions are exact.", "quantifier": "all finite IEEE doubles/floats", "why_tests_cant": "2^64 values", "anchors": ["include/mutable/util/fn.hpp:sequence_number,is_range_wide_enough"]}
{"id": "C42", "title": "Dates are encoded injectively and in order", "statement": "Encoding calendar dates with years from -2^22 to 2^22-1 into a 32 bit integer preserves the calendar order and is invertible, a date prints as (-)YYYY-MM-DD and that text is read back as the same date, and the validation accepts exactly the dates with year != 0, month 1..12 and day 1..(29, 30 or 31 of the month). February 29 is accepted in every year (proved as counterexample; it is the only deviation from the Gregorian calendar).", "quantifier": "all calendar dates", "why_tests_cant": "all dates incl. years BC", "anchors": ["src/backend/Interpreter.hpp:eval", "src/IR/Tuple.cpp:Value::print", "src/parse/Sema.cpp:TK_DATE"]}
{"id": "C43", "title": "Vectorized blocks", "statement": "After any history of fill, erase and clear on a block of capacity 1 to 64, a tuple is alive iff the history says so, erasing removes exactly one tuple, fill revives all, size counts the alive tuples, iteration visits exactly the alive tuples in index order and never touches a dead one, and at(i) starts at the first alive tuple not before i.", "quantifier": "all capacities 1..64 and all operation sequences", "why_tests_cant": "all operation sequences", "anchors": ["src/backend/Interpreter.hpp:Block"]}
{"id": "C44", "title": "Setting one bit", "statement": "setbit(&x, b, n) gives bit n of x the value b and leaves every other bit of x as it was.", "quantifier": "all words, bit positions inside the word, and both bit values", "why_tests_cant": "2^64 words and every bit position", "anchors": ["include/mutable/util/fn.hpp:setbit"]}
{"id": "C45", "title": "INSERT stores the given rows", "statement": "An INSERT appends exactly one row per given tuple, in order, and every visible attribute of the row has the value given for it, if all values are expressions, or if they are expressions and NULLs and the table has no hidden attributes; with multi-versioning the hidden timestamps are the start time and 'infinity'. Counterexamples proved: DEFAULT repeats the value of the previous row of the statement; NULL goes to the wrong attribute of a table with multi-versioning; DEFAULT stores NULL in NOT NULL attributes.", "quantifier": "all tables (visible and hidden attributes) and all lists of tuples", "why_tests_cant": "unbounded statements and tables; state carried from row to row", "anchors": ["src/catalog/DatabaseCommand.cpp:InsertRecords::execute", "include/mutable/catalog/Schema.hpp:ConcreteTable::convert_id", "src/parse/Sema.cpp:InsertStmt"]}
{"id": "C46", "title": "The interpreter returns a correct answer for every plan", "statement": "Running any tree of scans, filters, disjunctive filters, joins, projections, limits, groupings, aggregations and sorts with the interpreter terminates without failed assertion and hands the root rows that are an answer of the plan by the rules of SQL, as long as no hash join meets a pair of NULLs or of strings, no filter or limit stands directly above a hash join, SUM and AVG do not meet the NULLs they mishandle, no group key is a string, ORDER BY columns are not NULL, and LIMIT + OFFSET is below 2^64 (each exception is proved to be a real one). Scans, filters, disjunctive filters and projections keep the order of the rows.", "quantifier": "all plans of any depth, all tables of any size, all predicates and expressions, any iteration order of hash tables and any correct std::sort", "why_tests_cant": "unbounded trees, tables and block boundaries", "anchors": ["src/backend/Interpreter.cpp:Pipeline", "src/backend/Interpreter.cpp:Interpreter", "src/backend/Interpreter.hpp"]}
{"id": "C47", "title": "Joins return the matching combinations", "statement": "A join operator returns, up to order, the combinations of its children's rows for which the join condition is TRUE, each as often as in the Cartesian product: nested loops for any number of children and any condition, hash join for conjunctions of equalities. Exactly what the hash join does on any keys is proved too: NULL matches NULL, and a string matches nothing (counterexamples to SQL). With a filter directly above, a hash join with more than 64 matches of one row fails an assertion (counterexample).", "quantifier": "all children, predicates, block boundaries and iteration orders of the hash table", "why_tests_cant": "unbounded tables; results are produced in blocks of 64", "anchors": ["src/backend/Interpreter.cpp:SimpleHashJoinData", "src/backend/Interpreter.cpp:NestedLoopsJoinData"]}
{"id": "C48", "title": "LIMIT and OFFSET", "statement": "LIMIT l OFFSET o returns the rows o .. o+l-1 of the child in the child's order (fewer if there are fewer), if l + o < 2^64; if l + o >= 2^64 it returns no row at all (counterexample).", "quantifier": "all plans below, all limits and offsets", "why_tests_cant": "unbounded inputs, all 64-bit limits, early termination through an exception", "anchors": ["src/backend/Interpreter.cpp:LimitOperator", "src/backend/Interpreter.cpp:LimitData"]}
{"id": "C49", "title": "Grouping and aggregation", "statement": "Grouping returns exactly one row per key that occurs, with COUNT, SUM, AVG, MIN, MAX of the rows with that key; aggregation without keys returns exactly one row. Counterexamples proved: a string key makes a group of its own at each occurrence; AVG counts NULLs in the divisor; SUM and AVG of no values are 0 instead of NULL.", "quantifier": "all inputs below 2^32 rows, all keys and aggregates, any order of the hash table", "why_tests_cant": "unbounded inputs", "anchors": ["src/backend/Interpreter.cpp:HashBasedGroupingData", "src/backend/Interpreter.cpp:AggregationData"]}
{"id": "C50", "title": "Sorting", "statement": "ORDER BY returns a permutation of the child's rows in which no row precedes an earlier one in the lexicographic order of the columns, each ascending or descending. A NULL in a column of ORDER BY makes an assertion fail as soon as there are two rows (counterexample).", "quantifier": "all inputs, all lists of columns and directions, any correct std::sort", "why_tests_cant": "unbounded inputs", "anchors": ["src/backend/Interpreter.cpp:SortingData"]}
{"id": "C51", "title": "Plans of FROM and WHERE", "statement": "For every query FROM t0, ..., tn-1 WHERE c1 AND c2 AND ... over complete tables (or plans), the optimizer ends with a plan, and every answer of this plan is, up to order, the set of combinations of one row per table for which every clause has a predicate that is TRUE; executed by the interpreter, the plan ends and delivers these rows. It holds for DPsize, DPsizeOpt, DPsizeSub, DPsub, DPsubOpt, TDbasic and TDMinCut if the sources are connected by clauses of two sources and no clause has more, for DPccp if moreover the join graph has no cycles (or is distance-hereditary), and for PEall without these conditions; execution needs that hash joins never compare two NULLs or strings. It does not hold without them (counterexamples): a cross product has no plan, a clause with three sources makes the search fail, NOT (a <> b) and an equality of columns of different types give a hash join that cannot be executed.", "quantifier": "all queries with 1 to 63 sources, all clauses, all tables, all cost models that are monotone, all orders in which the hash map of clauses is traversed, any correct std::sort", "why_tests_cant": "unbounded queries, tables and cost functions; the result must be the same for each order of joins", "anchors": ["src/IR/QueryGraph.cpp:QueryGraph::Build", "src/IR/QueryGraph.cpp:compute_adjacency_matrix", "src/IR/Optimizer.cpp:optimize_filter", "src/IR/Optimizer.cpp:optimize_source_plans", "src/IR/Optimizer.cpp:construct_join_order", "src/backend/Interpreter.cpp:SimpleHashJoinData"]}
{"id": "C52", "title": "SELECT, ORDER BY and LIMIT", "statement": "For a query SELECT e1 AS n1, ... ORDER BY k1, ... LIMIT m OFFSET o over a plan, the optimizer ends with a plan whose columns are e1, e2, ..., named by their aliases; every answer of it is obtained from the rows of the plan below by putting them in an order in which no row precedes another against k1, k2, ..., dropping o rows, keeping at most m, and taking the values of e1, e2, ..., also if ORDER BY mentions columns that SELECT does not deliver, or results of SELECT; executed by the interpreter, the plan ends with such an answer. It holds, before schema minimization, if the columns computed by the projection have different names wherever something is evaluated above it, no column is named like the printed form of another expression, functions in ORDER BY are whole keys, and the limit is not 0. It does not hold without them (counterexamples): LIMIT 0 delivers all rows; SELECT a, a ORDER BY b, ORDER BY b, b + 1 and ORDER BY ISNULL(a) + 1 have no plan; ORDER BY k + 1 sorts by another column that prints alike if k is both an alias and a key of GROUP BY; a query without FROM ignores LIMIT.", "quantifier": "all queries, expressions, schemas, tables and meanings of operators, any correct std::sort", "why_tests_cant": "unbounded queries and rows; ties can be in every order", "anchors": ["src/IR/Optimizer.cpp:compute_projections_required_for_order_by", "src/IR/Optimizer.cpp:optimize_plan", "src/IR/Operator.cpp:ProjectionOperator", "src/backend/StackMachine.cpp:StackMachineBuilder", "src/backend/Interpreter.cpp:SortingOperator"]}
{"id": "C53", "title": "Schema minimization", "statement": "Minimizing the schemas of a plan succeeds, keeps the columns of the result and their order, and does not change what the plan computes: every answer of the minimized plan, executed with its columns found by position as the interpreter does, is an answer of the original plan where every column is found by its name; so is every answer of the plan that was not minimized. Minimizing again changes nothing, unless a projection or aggregation below has no column left, and each scan only delivers columns that the result shows or that the remaining plan uses. It holds for plans as the optimizer builds them, of scans, filters, joins, projections, limits, groupings, aggregations and sorts, if no filter or sort stands directly above a nested query or a grouping where a join buffers it or where it is grouped or aggregated, and sorted columns have different names. It does not hold without them (counterexamples): SELECT SUM(q.y) FROM (SELECT a AS x, b AS y FROM t) AS q WHERE q.x sums x; the same query below a join loses the column; SELECT a, a FROM t ORDER BY a and SELECT a + b FROM t ORDER BY a have no plan; a table with an alias cannot be scanned; a nested query of which no column is used breaks the second minimization.", "quantifier": "all plans, schemas, tables, expressions and meanings of operators, any correct std::sort", "why_tests_cant": "unbounded depth of plans and numbers of columns and rows", "anchors": ["src/IR/Operator.cpp:SchemaMinimizer", "src/parse/AST.cpp:get_required", "include/mutable/IR/CNF.hpp:get_required", "include/mutable/catalog/Schema.hpp:Schema", "src/backend/Interpreter.cpp:compile_load", "src/backend/Interpreter.cpp:JoinData::emit_load_attrs"]}
{"id": "C54", "title": "Loading and storing rows", "statement": "The code compiled to store into a data layout from row r on stores the first tuple into row r, the next into row r + 1, and so on, across the blocks of the layout: afterwards each of these rows holds the values and NULL bits of its tuple, the value bits of attributes that are NULL and all other bits of the memory are as before. The code compiled to load from row r on gives, at its n-th execution, the tuple of row r + n - 1, and changes nothing in memory. So what is stored is loaded, also if other columns or a part of them are loaded, from any row on. It holds for every tree of linearizations with byte-aligned blocks in which no two attributes share bits, in particular for the row and PAX layouts of the factories and up to 17 columns, unless the compiled code needs more than 256 constants. It does not hold otherwise (counterexamples): storing the second row of 28 columns that can be NULL in a PAX layout writes wrong values silently; booleans with a stride of 2 bits, booleans that start within a byte in blocks of a number of rows that is not a multiple of 8, and NULL bitmaps that start within a byte are read at wrong positions although the data layout accepts them.", "quantifier": "all layouts, schemas, memory contents, base addresses, first rows, numbers of rows and tuples", "why_tests_cant": "unbounded trees, strides and numbers of rows; the compiled code keeps pointers, masks and counters from one row to the next", "anchors": ["src/backend/Interpreter.cpp:compile_data_layout", "src/backend/Interpreter.cpp:compile_load", "src/backend/Interpreter.cpp:compile_store", "src/backend/StackMachine.cpp:StackMachine::operator()", "include/mutable/storage/DataLayout.hpp:DataLayout", "src/storage/DataLayoutFactory.cpp"]}
{"id": "C55", "title": "Plan tables", "statement": "Whatever a client does with a plan table -- looking entries up, assigning to them, asking for plans, offering joins, resetting costs, deciding about each call with the results of the previous ones -- it sees the same results with the dense and with the sparse table, as long as it stays within the subproblems of the query and does not use at(), which throws for subproblems never touched in a sparse table. Reading changes no entry; writing changes one. update(l, r) fails only if a side is empty, a data model is missing or the entry is corrupt; it changes no entry but that of l|r, computes the data model of l|r only the first time, and after any sequence of offers the entry of a subproblem names the first of the cheapest plans offered, with its cost (no cost being NaN). reset_costs makes all costs but those of single sources infinite and keeps plans and models. Dense tables are equal iff all entries are; sparse tables iff the same subproblems were touched and their entries are equal, in whatever order the hash table lists them. The join enumerators of C35, run through this interface after the optimizer wrote the entries of the sources, never fail and leave cheapest plans with their costs in either table. Printing a dense table lists every nonempty set of sources once, in order, with the entries of those that have plans. (Refuted: sparse tables holding the same entries compare unequal after a mere lookup; an offer of cost NaN is never replaced; a table with a NaN is not equal to itself; printing a sparse table shows the first additional entry as a set of sources and inserts the entry of the final plan.)", "quantifier": "all clients (programs), numbers of sources, additional entries, cost functions reading the table, estimators and sequences of offers", "why_tests_cant": "all adaptive sequences of calls on two different data structures", "anchors": ["include/mutable/IR/PlanTable.hpp:PlanTableBase::update", "include/mutable/IR/PlanTable.hpp:PlanTableSmallOrDense", "include/mutable/IR/PlanTable.hpp:PlanTableLargeAndSparse", "src/IR/PlanTable.cpp:operator<<", "include/mutable/catalog/CostFunctionCout.hpp:CostFunctionCout"]}
{"id": "C56", "title": "Parsing and printing", "statement": "Every command of the grammar in doc/syntax-grammar.md is parsed into the syntax tree the grammar gives it (levels of precedence, grouping to the left), up to its semicolon and whatever follows it; the grammar is unambiguous. Every text without illegal tokens that is accepted is a command of the same grammar extended by a few phrases, and its tree is the one of this grammar. Every text is accepted or rejected, and each command uses up at least one token. A printed statement (names, constants and operators as the lexer produces them; none of the constructs listed below) is parsed back to the same statement, hence two statements that print alike are the same. Counterexamples proved: NOT and ~ are accepted between two operands; the operand of an inner NOT extends as far as possible; VALUES accepts no expression that begins with NULL; printing drops ESCAPE and QUOTE of an IMPORT, prints DECIMAL(10) as DECIMAL(10, 0), which is rejected, drops the parentheses of an index key, and prints the alias of a nested query in place of the query.", "quantifier": "all token sequences, all texts, all statements of any depth", "why_tests_cant": "unbounded nesting of expressions and queries; unbounded lengths of lists", "anchors": ["src/parse/Parser.cpp:Parser", "src/parse/Parser.hpp:Parser", "src/parse/ASTPrinter.cpp:ASTPrinter", "include/mutable/parse/AST.hpp", "src/catalog/Type.cpp:print", "doc/syntax-grammar.md"]}
{"id": "C57", "title": "The physical optimizer finds the cheapest plan", "statement": "A covering assigns physical operators to a logical plan: a registered operator whose pattern fits (the two inputs of a join in either order) and whose pre-conditions on its inputs are fulfilled by the post-conditions of their coverings; its cost is the cost of the operator plus those of its inputs. The optimizer has a plan if and only if a covering exists; every entry it computes is a covering with the post-condition and the cost stated; for every covering there is an entry with the same post-condition that costs no more; the plan extracted is a cheapest covering. The interpreter has a plan for every query, with exactly one physical operator per logical one. Counterexample proved: if only plans of infinite cost exist, there is a plan but extracting it uses an iterator that was never set.", "quantifier": "all logical plans of any shape, all sets of registered operators with any patterns, pre- and post-conditions, all costs with a monotone addition", "why_tests_cant": "unboundedly many coverings; the dynamic program must keep, for each post-condition, what is cheapest for the operators above, for each set of operators", "anchors": ["include/mutable/IR/PhysicalOptimizer.hpp:PhysicalOptimizerImpl,pattern_matcher_recursive,PhysicalOperator", "include/mutable/IR/PhysicalPlanTable.hpp", "src/IR/PhysicalPlanTable.hpp", "src/backend/InterpreterOperator.hpp", "include/mutable/IR/Operator.hpp:assign_post_order_ids"]}
{"id": "C58", "title": "Complete partial plans are enumerated exactly once", "statement": "Given a plan table with a final plan, the generator invokes its callback with every complete partial plan of this plan - a set of parts of the plan such that each relation occurs in exactly one of them - exactly once and with nothing else, the full plan first; it ends and no assertion fails; for a query without relations nothing is called. Trees are written in prefix notation, and the first output of the process is the JSON array of the plans. Counterexample proved: every further output begins with '[,' because the flag for the first element is static.", "quantifier": "all plan tables with a final plan over any number of relations, of any shape", "why_tests_cant": "the number of partial plans is exponential in the number of relations; the loop replays decisions from a stack and must restore the candidates exactly", "anchors": ["src/IR/PartialPlanGenerator.cpp:for_each_complete_partial_plan,write_partial_plans_JSON", "src/IR/PartialPlanGenerator.hpp"]}
{"id": "C59", "title": "Promised sort orders are fulfilled", "statement": "A promised sort order says that the rows are sorted by its attributes, first to last, and that those of undefined order have one value. An order without undefined attributes is implied by another exactly if every list of rows that fulfils the other fulfils it (it is a prefix); a sorting is dropped if and only if the rows are in the requested order already, repeated attributes included. What quicksort promises holds; filters, limits, nested-loops and hash joins keep the order of their (right) input; the sort-merge join delivers rows sorted by the left order and then by the right one, or by the right one and then by the left keys. Grouping sorted input is right if the keys are the first sorted attributes, in any order. A projection to the first sorted attributes, in order, keeps the renamed order. Equality of condition sets is equality, implication is a partial order, and nothing implies an unsatisfiable set. Counterexamples proved: if another sorted attribute precedes a grouping key, grouping by sorted input is chosen although groups are split; a projection that drops or permutes leading sorted attributes promises an order the rows do not have, and a later sorting is dropped; grouping promises the order in which keys are listed; with undefined orders, implication is neither sound nor transitive; no SIMD does not imply one SIMD lane.", "quantifier": "all sort orders, all lists of rows over any linearly ordered values, all requested orders, keys and renamings", "why_tests_cant": "implication must be right for every list of rows; whether a sort may be left out depends on the data and on the whole plan below", "anchors": ["include/mutable/IR/Condition.hpp:ConditionPropertyMap,Sortedness,ConditionSet", "src/IR/Condition.cpp:ConditionSet", "src/backend/WasmOperator.cpp:Quicksort,NoOpSorting,OrderedGrouping,Aggregation,Projection,SortMergeJoin,NestedLoopsJoin,SimpleHashJoin"]}
{"id": "C60", "title": "Grid search visits every point exactly once", "statement": "The search calls its function with every combination of positions exactly once, in lexicographic order, (n1+1)*...*(nk+1) times, with the values of the spaces at these positions, and ends. A linear space of integers (all types of up to 32 bits) starts at one bound and ends exactly at the other; its points are values between the bounds, in order, each within one of the exact division of the range, and exact if the steps divide it; no conversion is undefined. Points of floating-point spaces lie between the bounds and are in order, starting at the bound. Counterexamples proved: num_points() is computed modulo 2^32 (a grid of 65536 x 65536 has 0 points); sequence() does not end for 2^32-1 steps; a space of 64-bit integers may miss its upper bound, and so may one of doubles (ten steps from 0 to 1).", "quantifier": "all numbers and kinds of spaces, all bounds and numbers of steps", "why_tests_cant": "unboundedly many dimensions and steps; rounding errors depend on all bounds and numbers of steps", "anchors": ["src/util/GridSearch.hpp:GridSearch::search,num_points,make_args", "src/util/GridSearch.hpp:LinearSpace"]}
{"id": "C61", "title": "Data definition has exactly its effect, and indexes in use are never stale", "statement": "After any sequence of CREATE/DROP/USE DATABASE, CREATE/DROP TABLE, CREATE/DROP INDEX, INSERT, IMPORT and SELECT statements, a statement that ends without an error has exactly the effect the statement describes on databases, tables, rows and indexes (dropping a table drops its indexes; nothing else changes), and a statement that reports an error changes nothing and had no effect to have.  No statement crashes as long as no table is dropped that a remaining table refers to.  An index a query may use holds exactly the value and row of every row whose key is not NULL; a successful CREATE INDEX gives an index that may be used, and INSERT takes the indexes of its table from queries until they are made again.", "quantifier": "all histories of these statements, all names, declarations and rows", "why_tests_cant": "unboundedly many histories; a stale index or a dangling reference shows only after particular sequences", "anchors": ["src/catalog/DatabaseCommand.cpp", "src/catalog/Catalog.cpp:add_database,drop_database", "include/mutable/catalog/Schema.hpp:Database", "src/catalog/Schema.cpp:ConcreteTable::schema", "src/parse/Sema.cpp:CreateTableStmt,DropTableStmt,CreateIndexStmt,DropIndexStmt"]}
{"id": "C62", "title": "Command lines mean what they say", "statement": "Parsing a command line invokes the callbacks of exactly the given options, in the order in which they are given and with the values given to them, and keeps exactly the positional arguments, in their order, everything behind \"--\" included; it ends the program exactly when an option lacks its argument or has one that is not a value of its type.  Every decimal number in the range of the option's type is read as this number and every other one rejected; lists are split at commas and nowhere else.", "quantifier": "all sets of options with distinct names and all argument vectors and strings", "why_tests_cant": "unboundedly many argument vectors and numbers; the boundaries of all integral types", "anchors": ["src/util/ArgParser.cpp:ArgParser::parse_args,OptionImpl::parse,help_parse,check_next_arg", "include/mutable/util/ArgParser.hpp:ArgParser::add"]}
{"id": "C63", "title": "Cardinality estimates bound what plans produce and do not depend on the join order", "statement": "The Cartesian-product estimator's estimate of a plan is at least the number of rows the plan can produce, whatever its conditions and keys are, and no smaller bound exists that depends on the sizes of the tables only; the estimates of two join orders of the same sources, and of joining them all at once, are equal.  With injected cardinalities for all sets of sources, the estimate of every join order is the injected one of its sources; the entry is found whatever the order in which the sources are joined, and different sets of names have different entries; without entries the estimates are those of the Cartesian product; an estimate never exceeds the product of the estimates of its sources.", "quantifier": "all plans of scans, filters, limits, groupings and joins of any size and shape, all table sizes, all names and all tables of injected cardinalities", "why_tests_cant": "unboundedly many plans, join orders, table sizes and cardinality files", "anchors": ["src/catalog/CardinalityEstimator.cpp:CartesianProductEstimator,InjectionCardinalityEstimator,InjectionCardinalityEstimator::make_identifier", "include/mutable/catalog/CardinalityEstimator.hpp:CardinalityEstimator"]}
{"id": "C64", "title": "Greedy operator ordering issues a greedy join tree without Cartesian products", "statement": "From any state whose parts together are a connected query graph, in particular from the sources of a connected query, greedy operator ordering ends and never dereferences a null pointer; every join it issues combines two current parts that are adjacent in the query graph and have a result no larger than that of any other two adjacent parts; the joins are the inner nodes of a join tree over all parts (one join less than parts), and none is a Cartesian product: both sides are connected, disjoint and adjacent.  The top-down variant issues, bottom up, the joins of a tree in which every subproblem is cut into two connected sides such that no other cut has a smaller sum of cardinalities.", "quantifier": "all query graphs of up to 64 sources, all cardinality estimates and all states from which it can be started", "why_tests_cant": "unboundedly many graphs, estimates and states", "anchors": ["include/mutable/IR/PlanEnumerator.hpp:GOO::for_each_join,GOO::node,TDGOO::for_each_join", "src/IR/PlanEnumerator.cpp:GOO::operator(),TDGOO::operator()"]}
