#!/usr/bin/env python3
"""Generates /verif/properties.jsonl (one JSON object per line)."""
import json, os
P = []
def prop(id, title, statement, quantifier, why, anchors):
    P.append(dict(id=id, title=title, statement=statement, quantifier=quantifier,
                  why_tests_cant=why, anchors=anchors))
A = "include/mutable/util/ADT.hpp"
prop("C01", "Small bit sets behave as finite sets",
 "A small bit set of capacity 64 behaves as the mathematical set of the element indices it contains: union, intersection, difference, subset test, cardinality, singleton/All construction, minimum/maximum element and the lo-masks all return exactly what the set operation returns, and iterating the set (forwards or in reverse) yields each contained index exactly once, in increasing (decreasing) order.",
 "all pairs of 64-bit sets and all indices 0..63",
 "2^64 sets per operand; unit tests sample a handful of bit patterns and miss carries into bit 63 and empty-set corner cases",
 [A+":SmallBitset", A+":SmallBitset::iterator", A+":SmallBitset::reverse_iterator"])
prop("C02", "Subset enumeration is complete and duplicate-free",
 "Starting at the least subset of a non-empty set and repeatedly advancing to the next subset enumerates every non-empty subset of that set exactly once, ends with the set itself, and then yields the empty set; every subset is visited after all of its own subsets.",
 "all non-empty 64-bit sets",
 "the enumeration has up to 2^64-1 steps and depends on wrap-around arithmetic; tests only run small dense sets",
 [A+":least_subset", A+":next_subset"])
prop("C03", "k-subset enumeration is complete",
 "Enumerating the subsets of size k of the first n elements (1 <= k <= n < 64), from the first or from a given one, yields exactly the (remaining) subsets with k elements, each exactly once and in increasing numeric order, then stops. The portable build (without BMI2 instructions) does so if and only if n <= 32, k = 1 or k = n (its 32-bit population count makes it yield sets of other sizes otherwise). With k = 0, which the API admits, the enumeration never ends in either build (proved).",
 "all k, n with 1 <= k <= n < 64",
 "number of subsets is binomial(n,k); the word-level carry trick must be right for every pattern",
 [A+":GospersHack"])
prop("C04", "Subset enumeration of an arbitrary set by size",
 "The size-restricted subset enumerator yields each size-k subset of a given (possibly sparse) set exactly once and nothing else, and then stops; in the portable build if and only if the set has at most 32 elements, k = 1 or k is the size of the set. Sets of 64 elements and sizes beyond the set are rejected.",
 "all sets with fewer than 64 elements and all 1 <= k <= size",
 "exponentially many sets and subsets; bit deposit must be an order isomorphism for every mask",
 [A+":SubsetEnumerator", "include/mutable/util/fn.hpp:_pdep_u64"])
prop("C05", "Power-of-two and rounding helpers are exact",
 "is_pow_2 decides being a power of two; ceil_to_pow_2 returns the least power of two not below its argument; ceil_to_multiple_of_pow_2, round_up_to_multiple and Ceil_To_Next_Page return the least multiple not below their argument; log2_floor/log2_ceil return the floor/ceiling of the base-2 logarithm — whenever the result is representable.",
 "all 32/64-bit arguments whose result is representable",
 "boundary values around every power of two and near the top of the word",
 ["include/mutable/util/fn.hpp:is_pow_2,ceil_to_pow_2,ceil_to_multiple_of_pow_2,round_up_to_multiple,log2_floor,log2_ceil", "include/mutable/util/memory.hpp:Ceil_To_Next_Page"])
prop("C06", "Saturating addition and multiplication",
 "add_wo_overflow and mul_wo_overflow return the exact sum/product when it is representable and the maximum representable value otherwise, never a wrapped value; powi returns the exact power when representable.",
 "all 64-bit operand pairs",
 "2^128 operand pairs",
 ["include/mutable/util/fn.hpp:add_wo_overflow,mul_wo_overflow,powi"])
prop("C07", "Escaping round-trips",
 "Unescaping an escaped string returns the original string (escape and quote characters other than 'n'); unescaping any text yields exactly its meaning (an escape before an escape or quote character or before n; other escapes stand for themselves) and has no result exactly when the text ends inside an escape; escaped text contains no raw newline and no unescaped quote; unquoting a quoted string returns it, an unquoted text is returned unchanged and unbalanced quotes are rejected; interpreting a quoted escaped string returns the original; replace_all replaces exactly the non-overlapping left-to-right occurrences of a non-empty pattern (with an empty pattern it never terminates, proved as counterexample) and html_escape substitutes exactly the three entities.",
 "all byte strings and all escape/quote characters the API allows",
 "strings are unbounded; adjacent escape characters interact",
 ["include/mutable/util/fn.hpp:escape,unescape,quote,unquote,interpret,replace_all", "src/util/fn.cpp"])
prop("C08", "LIKE implements SQL pattern matching",
 "like(text, pattern, escape) returns true iff the text is in the language of the pattern where '_' matches exactly one character, '%' matches any (possibly empty) character sequence, and the escape character makes the following '_', '%' or escape literal; it throws exactly when the pattern contains an invalid escape.",
 "all texts, patterns and escape characters",
 "unbounded strings; '%' backtracking corner cases",
 ["src/util/fn.cpp:like", "include/mutable/util/fn.hpp:like"])
prop("C09", "Graph reachability and connectedness",
 "On a join graph, reachable(S) is the set of nodes reachable from S, restricted reachability stays inside the given set, neighbors returns exactly the adjacent nodes outside the argument, is_connected(S) holds iff the induced subgraph is connected, and is_connected(L,R) iff some edge joins L and R.",
 "all symmetric graphs with up to 64 nodes and all node subsets",
 "2^2016 graphs times 2^64 subsets",
 ["include/mutable/util/AdjacencyMatrix.hpp:reachable,neighbors,is_connected"])
prop("C10", "Transitive closure",
 "The transitive closure relates u to v iff there is a non-empty path from u to v in the original graph (reflexive closure per connected component for the undirected variant exactly as documented), and changes nothing else.",
 "all directed / undirected graphs",
 "needs induction over paths; tests cover a few graphs",
 ["include/mutable/util/AdjacencyMatrix.hpp:transitive_closure_directed,transitive_closure_undirected", "src/util/AdjacencyMatrix.cpp"])
prop("C11", "Connected-subgraph enumeration",
 "Enumerating the connected subgraphs of an undirected graph calls the visitor exactly once for each non-empty connected node set within the given superset and for nothing else.",
 "all undirected graphs, all supersets",
 "exponentially many graphs; duplicates/omissions depend on exclusion sets",
 ["include/mutable/util/AdjacencyMatrix.hpp:for_each_CSG_undirected"])
prop("C12", "Connected-subgraph-pair enumeration",
 "Enumerating connected subgraph-complement pairs visits, for every unordered pair of disjoint, non-empty, connected and mutually adjacent node sets, exactly one of the two orders, exactly once; and if every connected subset of the graph preserves distances (graphs without cycles, cliques, complete bipartite graphs; not longer cycles, for which it fails), every pair is visited after all pairs whose union is one of its two sides.",
 "all undirected graphs (the order: all distance-hereditary ones)",
 "same as C11, quadratically worse",
 ["include/mutable/util/AdjacencyMatrix.hpp:for_each_CSG_pair_undirected"])
prop("C13", "Minimum spanning forest",
 "For finite symmetric weights, the minimum spanning forest is a subgraph of the input that is acyclic, connects exactly the vertices the input connects, and has minimal total weight among all such subgraphs, whichever of several lightest edges the priority queue yields; directing a graph away from a root yields exactly the edges that lead one step further away, so in a tree every reachable edge gets one direction and every reachable vertex but the root one parent.",
 "all undirected graphs and all edge weights",
 "needs an exchange argument over all spanning forests",
 ["src/util/AdjacencyMatrix.cpp:minimum_spanning_forest,tree_directed_away_from"])
prop("C14", "qsort sorts, partition partitions",
 "For values between the type's lowest and greatest finite value, the library's sort yields an ordered permutation of its input (and touches nothing outside the given range) under any total preorder, its partition function yields a permutation split at the returned point, and verify_partition decides exactly whether a range is so split; for other values (infinities) it additionally rejects lower parts above the greatest and upper parts below the lowest finite value.",
 "all arrays, all pivot choices, all strict weak orders",
 "n! inputs of each length; recursion boundaries",
 ["src/util/algorithms.hpp"])
prop("C15", "CNF operations preserve meaning",
 "Conversion of a boolean expression to CNF evaluates to the expression's value under every assignment, in SQL's three-valued logic, and never yields an empty CNF or clause; conjunction of CNFs is exact always, disjunction exactly when not just one operand is the empty CNF, negation exactly when the CNF has clauses and all or none of them are empty; equality compares clauses and CNFs as sets.",
 "all CNFs/expressions and all assignments to {true,false,null}",
 "unbounded formulas; nested negation of (in)equality; empty-CNF corner cases",
 ["include/mutable/IR/CNF.hpp", "src/IR/CNF.cpp"])
prop("C16", "Array index lookups are exact",
 "After bulk loading and finalizing, lower_bound(k)/upper_bound(k) delimit exactly the entries with keys not less than / greater than k, iteration is in key order and contains every added entry; lookups before finalization (or after a later add) are rejected.",
 "all multisets of entries, all keys, all interleavings of add/finalize/lookup",
 "unbounded histories and duplicate keys",
 ["include/mutable/storage/Index.hpp:ArrayIndex", "src/storage/Index.cpp"])
prop("C17", "Learned index agrees with binary search",
 "Whatever position the learned models predict (it is never more than one past the end), the recursive model index returns the same lower/upper bound as a binary search over the same sorted entries exactly when the prediction lies inside the array, or the memory behind the array holds a larger key, or the bound is the end; in all other cases it returns the end.",
 "all entry sets, all keys, every position the models may predict",
 "model predictions are floating-point and data dependent: tests only see a few predictions",
 ["include/mutable/storage/Index.hpp:RecursiveModelIndex", "src/storage/Index.cpp"])
prop("C18", "RefCountingHashMap is a multimap",
 "Any sequence of insertions (with or without duplicates), lookups, rehashes, resizes and shrinks behaves like an abstract multimap: find returns an entry iff one was inserted, for_all visits exactly the inserted values of the key, count returns their number, insertion without duplicates keeps the first value, and growth never loses or duplicates an entry.",
 "all operation sequences, all keys/values, all hash functions",
 "collision patterns depend on the hash function and capacity; probing must cover the table",
 ["src/util/container/RefCountingHashMap.hpp"])
prop("C19", "Iterating a RefCountingHashMap",
 "Iterating from begin() to end() visits every inserted entry exactly once; it visits nothing else exactly when the first slot of the table is in use, otherwise it yields one spurious entry first.",
 "all maps including empty ones",
 "tests iterate few layouts",
 ["src/util/container/RefCountingHashMap.hpp:begin,end,iterator"])
prop("C20", "Interning pool: equal values, equal handles",
 "Pooling two values returns the same handle iff the values are equal, whichever threads pool them and however their calls interleave; a handle stays valid forever and the reference count equals the number of handles; the table is never read while it is modified; and no call of the pool gets stuck.",
 "all operation histories and all thread interleavings",
 "interleavings and histories are unbounded",
 ["include/mutable/util/Pool.hpp"])
prop("C21", "Reader-writer lock mutual exclusion",
 "With at most 65535 threads, at no time does a thread hold the lock for writing while another holds it for reading or writing; an upgrade takes effect only when the upgrader is the only reader and at most one thread may be upgrading; try-operations fail exactly when the lock is unavailable and then leave it unchanged; no internal assertion fails.  (With 65537 threads the 16-bit reader counter wraps and exclusion is lost.)",
 "all numbers of threads up to 65535 and all interleavings of lock/try_lock/unlock/upgrade operations",
 "schedules cannot be enumerated by tests",
 ["include/mutable/util/reader_writer_lock.hpp"])
prop("C22", "Reader-writer lock liveness",
 "Whenever a thread waits for the lock (shared or exclusive) although the lock state would admit it, a wake-up is pending: no wake-up is lost and readers and writers never deadlock on a free lock.  The same holds for a thread waiting to upgrade as long as no thread uses the blocking lock_write(); if one does, the upgrader's wake-up can be lost and it blocks forever as the only holder of the lock.",
 "all schedules, including which waiter a notification wakes",
 "depends on the scheduler's choice of the notified waiter",
 ["include/mutable/util/reader_writer_lock.hpp"])
prop("C23", "list_allocator hands out disjoint memory",
 "Memory blocks returned by the list allocator and not yet freed are pairwise disjoint, lie within memory obtained from the system, and respect the requested size and alignment; a request goes to the system at most once, for at least the current minimal size (which doubles under the exponential strategy); when all blocks have been freed all memory is coalesced, is used for later requests that fit, and is returned at destruction.",
 "all sequences of allocations and deallocations of any size and alignment",
 "fragmentation histories are unbounded",
 ["include/mutable/util/list_allocator.hpp"])
prop("C24", "Linear (page) allocator",
 "Live allocations of the linear allocator are disjoint, page aligned, at least as large as requested and inside the memory file; freeing in any order reclaims memory as soon as all later allocations are freed (after all are freed the allocator is empty), freeing live memory succeeds and freeing an unknown or already freed region is rejected; a request succeeds exactly if the file extended by the rounded request stays within the largest file size and the system grants the mapping.  (A request of nearly 2^64 bytes, although it throws, truncates the file below live memory.)",
 "all sequences of allocate/deallocate",
 "out-of-order frees accumulate marks; unbounded histories",
 ["src/util/memory.cpp:LinearAllocator", "include/mutable/util/memory.hpp"])
prop("C25", "Serial scheduler isolation",
 "If clients close only transactions that have begun, the serial scheduler isolates transactions: once a command of a transaction is handed out, only its commands are handed out until it is closed. Commands execute one at a time, none is lost or duplicated, they are handed out in submission order as long as the undefined comparison in push yields false, the worker never sleeps through a command it could execute, and closing the scheduler fails every queued and every later command. Counterexamples proved: reordering if that comparison yields true, starvation of an open transaction behind another one's command, isolation lost when an idle transaction is closed.",
 "all interleavings of submissions, completions and close",
 "schedules are unbounded",
 ["src/catalog/SerialScheduler.cpp", "src/catalog/SerialScheduler.hpp"])
prop("C26", "Snapshot visibility under multi-versioning",
 "Start times are unique and ordered by the beginning of transactions; with timestamp filtering a query sees exactly the row versions created at or before its transaction's start and not deleted at or before it, hence exactly the rows inserted earlier by transactions that started no later; if clients use transactions as documented it sees all rows inserted before. Counterexample proved: rows of aborted transactions stay visible.",
 "all histories of inserts/deletes and all transaction start times",
 "histories are unbounded",
 ["src/catalog/Schema.cpp:apply_timestamp_filter", "include/mutable/catalog/Schema.hpp:MultiVersioningTable"])
prop("C27", "Row layout does not overlap",
 "In a row layout, for every non-empty list of column types, every attribute value and every NULL bit of every row occupies a bit range of its own inside the row's stride, which is a whole number of bytes; with reordering of attributes (the default) each attribute is aligned to its type's alignment. Without reordering it need not be (refuted).",
 "all attribute type lists, all pairs of (row, attribute)",
 "unbounded schemas; padding arithmetic",
 ["src/storage/DataLayoutFactory.cpp:RowLayoutFactory", "src/storage/RowStore.cpp"])
prop("C28", "PAX layout does not overlap",
 "In a PAX layout (blocks of a given number of tuples or bytes) every attribute value and NULL bit of every row has its own bit range inside its block, columns start at whole bytes, and attributes are aligned if reordered and the block size is a multiple of the alignments, provided a block given in bytes has room for one row with its padding. If a row fits only without the padding, NULL bits overlap the next block (refuted); CHAR(0) divides by zero (refuted).",
 "all attribute type lists, all block sizes, all pairs of (row, attribute)",
 "unbounded schemas and block sizes",
 ["src/storage/DataLayoutFactory.cpp:PAXLayoutFactory", "src/storage/DataLayout.cpp"])
prop("C29", "Stores never hand out memory they do not have",
 "Row, PAX and column stores admit, by their append check, only as many rows as their own offsets place, without overlap, in the memory they allocated (row stores: rows of less than 2^32 bits, also with the row layout; PAX stores: blocks below 512 MiB with room for the padding), and append/drop keep the row count exact. This does not extend to the layout CREATE TABLE combines them with by default: PAX with 4 MiB blocks places admitted rows outside the memory of row, PAX and column stores (refuted), nor to rows of 2^32 bits and more (refuted).",
 "all schemas and append/drop histories",
 "capacity boundary needs millions of rows",
 ["src/storage/RowStore.cpp", "src/storage/PaxStore.cpp", "src/storage/ColumnStore.cpp"])
prop("C30", "Tuples store values and NULLs faithfully",
 "For tuples of up to 64 attributes: after any history of set, null, not_null, clear and insert, reading index i returns the last value written to i (or NULL), writes do not interfere, inserting a tuple overwrites exactly the given range, null/not_null hides and restores the value, equality is equality of the slots (NULL or value), equal tuples hash alike, and cloning copies every value and string into memory of its own without touching the original. Counterexamples proved: clone turns NULLs into their payload; equality of character slots compares addresses; a tuple with more than 64 slots cannot be used.",
 "all tuples (any arity up to 64) and all write histories, all string contents",
 "all histories and arities; the NULL bits beyond the arity must stay set in every history for equality to work",
 ["include/mutable/IR/Tuple.hpp", "src/IR/Tuple.cpp"])
prop("C31", "Compiled expressions compute the expression",
 "Running the byte code compiled for a well-typed expression over BOOL, INT, DECIMAL and DATE attributes and constants (arithmetic, comparisons with rescaling, AND/OR/NOT, unary operators, IS NULL, INT()) or for a filter in CNF yields exactly one value on top of the untouched rest of the stack, and it is the value under SQL semantics over rational numbers with three-valued logic, decimals truncated to the result scale. The only other outcome is an arithmetic trap, which occurs exactly if some rescaled operand or arithmetic result, computed on the stored representations (also those of NULLs), leaves 64 bits or some divisor is zero; a filter traps exactly if one of its literals does. Limits, with counterexamples proved: at most 256 constants, scale factors up to 10^18, % on equal scales, no empty clause; x / NULL divides by the payload 0 of the NULL and traps.",
 "all well-typed expressions and CNF filters of any size and all input tuples incl. NULLs",
 "unbounded expressions and all tuples",
 ["src/backend/StackMachine.cpp", "src/backend/StackMachine.hpp", "src/tables/Opcodes.tbl", "src/parse/Sema.cpp"])
prop("C32", "Compiled code never overruns the operand stack",
 "The operand stack size computed while code is emitted is never exceeded while the code runs from an empty stack, for every sequence of emit calls in which untracked opcodes do not push; code compiled for any expression or CNF filter (non-empty clauses) in addition never lacks operands and leaves exactly one value. The per-opcode stack change used for the bookkeeping equals what the interpreter does, for every opcode. Not so for code emitted after a first run: the stack is not reallocated (counterexample proved).",
 "all opcodes, all emit sequences, all expressions and filters, all starting heights",
 "unbounded programs",
 ["src/backend/StackMachine.cpp:operator()", "src/backend/StackMachine.hpp:emit_X", "src/tables/Opcodes.tbl"])
prop("C33", "Boolean connectives follow Kleene logic",
 "AND, OR, NOT on values that may be NULL follow SQL's three-valued truth tables irrespective of the raw payload stored beside a NULL flag.",
 "all operand payloads and NULL flags, any stack below",
 "payload of NULL is unspecified in tests",
 ["src/backend/StackMachine.cpp:And_b,Or_b,Not_b"])
prop("C34", "Doubly linked list refines a sequence",
 "Any history of push, pop, insert (one value, copies, a range), erase, reverse and clear on the doubly linked list behaves as on a sequence, for any addresses the allocator returns: forward and reverse iteration, size, front, back, popped values and returned iterators are those of the sequence; exactly one node per element is allocated; a copy has the same elements. Inserting or erasing keeps the iterators at other places valid. Counterexamples proved: erasing through rbegin() corrupts the list; an iterator at the position of an insertion is lost.",
 "all operation histories, positions and allocator addresses",
 "pointer XOR encoding must stay consistent through every history",
 [A+":doubly_linked_list"])
prop("C35", "Join enumeration finds an optimal plan",
 "Each exhaustive plan enumerator (DPsize, DPsizeOpt, DPsizeSub, DPsub, DPsubOpt, TDbasic, TDMinCutAGaT, PEall, and DPccp on join graphs whose connected subsets preserve distances, in particular without cycles, but not on all cyclic ones) fills the plan table so that the final entry describes a valid join tree over all relations (without cross products unless the enumerator admits them) whose cost is minimal among all such join trees.",
 "all connected join graphs, all cardinalities, all additive cost functions",
 "the number of join trees is exponential; optimality is a claim about all of them",
 ["src/IR/PlanEnumerator.cpp", "include/mutable/IR/PlanTable.hpp", "include/mutable/catalog/CostFunctionCout.hpp"])
prop("C36", "Join enumerators agree",
 "All exhaustive enumerators without cross products (DPccp: on join graphs whose connected subsets preserve distances, e.g. without cycles) yield the same final cost, whichever plan table implementation is used.",
 "all connected join graphs and cardinalities",
 "relational property over exponentially many graphs",
 ["src/IR/PlanEnumerator.cpp", "include/mutable/IR/PlanTable.hpp"])
prop("C37", "Lexer loses nothing",
 "Tokenizing a text always terminates; the text is the concatenation of the consumed lexemes with white space and comments between them; every token carries the line and column of its first character and (unless the lexeme contains a NUL byte, or is an unterminated string ending in a backslash) exactly the consumed text; every token that is not an error token is a well-formed keyword, identifier, number, string, date, instruction or punctuator (except dates without separators and hexadecimal floats without mantissa digits, which are proved to be accepted), so any other malformed literal is reported as an error; conversely a text written as a sequence of well-formed tokens, each followed by a character that is not part of it, is read back as exactly these tokens, and the token grammar is unambiguous.",
 "all input texts (byte sequences) and all sequences of well-formed tokens",
 "unbounded texts; one-character push-back, end-of-input at any place",
 ["src/lex/Lexer.cpp", "src/lex/Lexer.hpp"])
prop("C38", "DSV import is faithful",
 "Importing a file in the documented format (any delimiter/quote/escape, with a naming header, a skipped header or none; Booleans, strings plain or quoted with escapes, integers and decimals within 64 bits, dates, floating-point texts, empty cells for NULL) appends to the table, in order, exactly one row per record with the record's values and NULLs at the attributes of their columns, all other attributes NULL and the time stamps set, cut off after the configured limit; a record with too few cells leaves no trace and cells of unknown columns are ignored. For every input whatever, the import terminates, keeps all old rows unchanged and appends at most `limit` rows. Outside of the format: a record with too many cells shifts later rows and leaves an unwritten row, a final NULL without line feed is read as 0, an invalid Boolean repeats the previous row's value, skipping an empty header line loses a record, a quote inside an ignored cell drops its record, and integers beyond 64 bits wrap (each proved as counterexample).",
 "all tables, files, delimiters, quotes, escapes, limits and old contents",
 "unbounded inputs; malformed records anywhere",
 ["src/io/DSVReader.cpp", "include/mutable/io/Reader.hpp"])
prop("C39", "Type arithmetic",
 "The common type of two numeric types (INT of 1, 2, 4, 8 bytes, FLOAT, DOUBLE, DECIMAL of up to 19 digits and any scale) always exists, is commutative, idempotent and associative; it has all values of both operands for two INTs, two floating-point types and two DECIMALs of equal scale, and in general an operand's values survive exactly under a stated arithmetic condition (counterexamples proved for INT with DECIMAL, DECIMALs of different scale, INT(8) with DOUBLE). The storage size of DECIMAL(p) holds all p-digit numbers exactly for p = 2..18 (it fails for p = 1 and for the maximal precision 19).",
 "all pairs of numeric types and all values",
 "quantifies over all precisions, scales and values",
 ["src/catalog/Type.cpp:arithmetic_join", "include/mutable/catalog/Type.hpp:Numeric"])
prop("C40", "Schemas behave as identifier sets",
 "Deduplication yields each identifier once with its first entry in order; union is the left schema followed by the first occurrences of the identifiers that only the right one has; intersection is the entries of the left schema whose identifier the right one has, with merged constraints; each of them, lookup and equality throw exactly when they meet an ambiguous identifier (intersection also on differing types). Schema equality, when it answers, is equality of the identifier sets. Duplicates of the left operand are kept by union and intersection (proved as counterexample).",
 "all schemas",
 "unbounded schemas",
 ["include/mutable/catalog/Schema.hpp:Schema"])
prop("C41", "Order-preserving number sequence",
 "The sequence number of a floating-point number is strictly monotone in the number (with -0 and +0 handled as documented), so the distance of sequence numbers counts representable values and range-width decisions are exact.",
 "all finite IEEE doubles/floats",
 "2^64 values",
 ["include/mutable/util/fn.hpp:sequence_number,is_range_wide_enough"])
prop("C42", "Dates are encoded injectively and in order",
 "Encoding calendar dates with years from -2^22 to 2^22-1 into a 32 bit integer preserves the calendar order and is invertible, a date prints as (-)YYYY-MM-DD and that text is read back as the same date, and the validation accepts exactly the dates with year != 0, month 1..12 and day 1..(29, 30 or 31 of the month). February 29 is accepted in every year (proved as counterexample; it is the only deviation from the Gregorian calendar).",
 "all calendar dates",
 "all dates incl. years BC",
 ["src/backend/Interpreter.hpp:eval", "src/IR/Tuple.cpp:Value::print", "src/parse/Sema.cpp:TK_DATE"])
prop("C43", "Vectorized blocks",
 "After any history of fill, erase and clear on a block of capacity 1 to 64, a tuple is alive iff the history says so, erasing removes exactly one tuple, fill revives all, size counts the alive tuples, iteration visits exactly the alive tuples in index order and never touches a dead one, and at(i) starts at the first alive tuple not before i.",
 "all capacities 1..64 and all operation sequences",
 "all operation sequences",
 ["src/backend/Interpreter.hpp:Block"])
prop("C44", "Setting one bit",
 "setbit(&x, b, n) gives bit n of x the value b and leaves every other bit of x as it was.",
 "all words, bit positions inside the word, and both bit values",
 "2^64 words and every bit position",
 ["include/mutable/util/fn.hpp:setbit"])
prop("C45", "INSERT stores the given rows",
 "An INSERT appends exactly one row per given tuple, in order, and every visible attribute of the row has the value given for it, if all values are expressions, or if they are expressions and NULLs and the table has no hidden attributes; with multi-versioning the hidden timestamps are the start time and 'infinity'. Counterexamples proved: DEFAULT repeats the value of the previous row of the statement; NULL goes to the wrong attribute of a table with multi-versioning; DEFAULT stores NULL in NOT NULL attributes.",
 "all tables (visible and hidden attributes) and all lists of tuples",
 "unbounded statements and tables; state carried from row to row",
 ["src/catalog/DatabaseCommand.cpp:InsertRecords::execute", "include/mutable/catalog/Schema.hpp:ConcreteTable::convert_id", "src/parse/Sema.cpp:InsertStmt"])
prop("C46", "The interpreter returns a correct answer for every plan",
 "Running any tree of scans, filters, disjunctive filters, joins, projections, limits, groupings, aggregations and sorts with the interpreter terminates without failed assertion and hands the root rows that are an answer of the plan by the rules of SQL, as long as no hash join meets a pair of NULLs or of strings, no filter or limit stands directly above a hash join, SUM and AVG do not meet the NULLs they mishandle, no group key is a string, ORDER BY columns are not NULL, and LIMIT + OFFSET is below 2^64 (each exception is proved to be a real one). Scans, filters, disjunctive filters and projections keep the order of the rows.",
 "all plans of any depth, all tables of any size, all predicates and expressions, any iteration order of hash tables and any correct std::sort",
 "unbounded trees, tables and block boundaries",
 ["src/backend/Interpreter.cpp:Pipeline", "src/backend/Interpreter.cpp:Interpreter", "src/backend/Interpreter.hpp"])
prop("C47", "Joins return the matching combinations",
 "A join operator returns, up to order, the combinations of its children's rows for which the join condition is TRUE, each as often as in the Cartesian product: nested loops for any number of children and any condition, hash join for conjunctions of equalities. Exactly what the hash join does on any keys is proved too: NULL matches NULL, and a string matches nothing (counterexamples to SQL). With a filter directly above, a hash join with more than 64 matches of one row fails an assertion (counterexample).",
 "all children, predicates, block boundaries and iteration orders of the hash table",
 "unbounded tables; results are produced in blocks of 64",
 ["src/backend/Interpreter.cpp:SimpleHashJoinData", "src/backend/Interpreter.cpp:NestedLoopsJoinData"])
prop("C48", "LIMIT and OFFSET",
 "LIMIT l OFFSET o returns the rows o .. o+l-1 of the child in the child's order (fewer if there are fewer), if l + o < 2^64; if l + o >= 2^64 it returns no row at all (counterexample).",
 "all plans below, all limits and offsets",
 "unbounded inputs, all 64-bit limits, early termination through an exception",
 ["src/backend/Interpreter.cpp:LimitOperator", "src/backend/Interpreter.cpp:LimitData"])
prop("C49", "Grouping and aggregation",
 "Grouping returns exactly one row per key that occurs, with COUNT, SUM, AVG, MIN, MAX of the rows with that key; aggregation without keys returns exactly one row. Counterexamples proved: a string key makes a group of its own at each occurrence; AVG counts NULLs in the divisor; SUM and AVG of no values are 0 instead of NULL.",
 "all inputs below 2^32 rows, all keys and aggregates, any order of the hash table",
 "unbounded inputs",
 ["src/backend/Interpreter.cpp:HashBasedGroupingData", "src/backend/Interpreter.cpp:AggregationData"])
prop("C50", "Sorting",
 "ORDER BY returns a permutation of the child's rows in which no row precedes an earlier one in the lexicographic order of the columns, each ascending or descending. A NULL in a column of ORDER BY makes an assertion fail as soon as there are two rows (counterexample).",
 "all inputs, all lists of columns and directions, any correct std::sort",
 "unbounded inputs",
 ["src/backend/Interpreter.cpp:SortingData"])
prop("C51", "Plans of FROM and WHERE",
 "For every query FROM t0, ..., tn-1 WHERE c1 AND c2 AND ... over complete tables (or plans), the optimizer ends with a plan, and every answer of this plan is, up to order, the set of combinations of one row per table for which every clause has a predicate that is TRUE; executed by the interpreter, the plan ends and delivers these rows. It holds for DPsize, DPsizeOpt, DPsizeSub, DPsub, DPsubOpt, TDbasic and TDMinCut if the sources are connected by clauses of two sources and no clause has more, for DPccp if moreover the join graph has no cycles (or is distance-hereditary), and for PEall without these conditions; execution needs that hash joins never compare two NULLs or strings. It does not hold without them (counterexamples): a cross product has no plan, a clause with three sources makes the search fail, NOT (a <> b) and an equality of columns of different types give a hash join that cannot be executed.",
 "all queries with 1 to 63 sources, all clauses, all tables, all cost models that are monotone, all orders in which the hash map of clauses is traversed, any correct std::sort",
 "unbounded queries, tables and cost functions; the result must be the same for each order of joins",
 ["src/IR/QueryGraph.cpp:QueryGraph::Build", "src/IR/QueryGraph.cpp:compute_adjacency_matrix", "src/IR/Optimizer.cpp:optimize_filter", "src/IR/Optimizer.cpp:optimize_source_plans", "src/IR/Optimizer.cpp:construct_join_order", "src/backend/Interpreter.cpp:SimpleHashJoinData"])
prop("C52", "SELECT, ORDER BY and LIMIT",
 "For a query SELECT e1 AS n1, ... ORDER BY k1, ... LIMIT m OFFSET o over a plan, the optimizer ends with a plan whose columns are e1, e2, ..., named by their aliases; every answer of it is obtained from the rows of the plan below by putting them in an order in which no row precedes another against k1, k2, ..., dropping o rows, keeping at most m, and taking the values of e1, e2, ..., also if ORDER BY mentions columns that SELECT does not deliver, or results of SELECT; executed by the interpreter, the plan ends with such an answer. It holds, before schema minimization, if the columns computed by the projection have different names wherever something is evaluated above it, no column is named like the printed form of another expression, functions in ORDER BY are whole keys, and the limit is not 0. It does not hold without them (counterexamples): LIMIT 0 delivers all rows; SELECT a, a ORDER BY b, ORDER BY b, b + 1 and ORDER BY ISNULL(a) + 1 have no plan; ORDER BY k + 1 sorts by another column that prints alike if k is both an alias and a key of GROUP BY; a query without FROM ignores LIMIT.",
 "all queries, expressions, schemas, tables and meanings of operators, any correct std::sort",
 "unbounded queries and rows; ties can be in every order",
 ["src/IR/Optimizer.cpp:compute_projections_required_for_order_by", "src/IR/Optimizer.cpp:optimize_plan", "src/IR/Operator.cpp:ProjectionOperator", "src/backend/StackMachine.cpp:StackMachineBuilder", "src/backend/Interpreter.cpp:SortingOperator"])
prop("C53", "Schema minimization",
 "Minimizing the schemas of a plan succeeds, keeps the columns of the result and their order, and does not change what the plan computes: every answer of the minimized plan, executed with its columns found by position as the interpreter does, is an answer of the original plan where every column is found by its name; so is every answer of the plan that was not minimized. Minimizing again changes nothing, unless a projection or aggregation below has no column left, and each scan only delivers columns that the result shows or that the remaining plan uses. It holds for plans as the optimizer builds them, of scans, filters, joins, projections, limits, groupings, aggregations and sorts, if no filter or sort stands directly above a nested query or a grouping where a join buffers it or where it is grouped or aggregated, and sorted columns have different names. It does not hold without them (counterexamples): SELECT SUM(q.y) FROM (SELECT a AS x, b AS y FROM t) AS q WHERE q.x sums x; the same query below a join loses the column; SELECT a, a FROM t ORDER BY a and SELECT a + b FROM t ORDER BY a have no plan; a table with an alias cannot be scanned; a nested query of which no column is used breaks the second minimization.",
 "all plans, schemas, tables, expressions and meanings of operators, any correct std::sort",
 "unbounded depth of plans and numbers of columns and rows",
 ["src/IR/Operator.cpp:SchemaMinimizer", "src/parse/AST.cpp:get_required", "include/mutable/IR/CNF.hpp:get_required", "include/mutable/catalog/Schema.hpp:Schema", "src/backend/Interpreter.cpp:compile_load", "src/backend/Interpreter.cpp:JoinData::emit_load_attrs"])
prop("C54", "Loading and storing rows",
 "The code compiled to store into a data layout from row r on stores the first tuple into row r, the next into row r + 1, and so on, across the blocks of the layout: afterwards each of these rows holds the values and NULL bits of its tuple, the value bits of attributes that are NULL and all other bits of the memory are as before. The code compiled to load from row r on gives, at its n-th execution, the tuple of row r + n - 1, and changes nothing in memory. So what is stored is loaded, also if other columns or a part of them are loaded, from any row on. It holds for every tree of linearizations with byte-aligned blocks in which no two attributes share bits, in particular for the row and PAX layouts of the factories and up to 17 columns, unless the compiled code needs more than 256 constants. It does not hold otherwise (counterexamples): storing the second row of 28 columns that can be NULL in a PAX layout writes wrong values silently; booleans with a stride of 2 bits, booleans that start within a byte in blocks of a number of rows that is not a multiple of 8, and NULL bitmaps that start within a byte are read at wrong positions although the data layout accepts them.",
 "all layouts, schemas, memory contents, base addresses, first rows, numbers of rows and tuples",
 "unbounded trees, strides and numbers of rows; the compiled code keeps pointers, masks and counters from one row to the next",
 ["src/backend/Interpreter.cpp:compile_data_layout", "src/backend/Interpreter.cpp:compile_load", "src/backend/Interpreter.cpp:compile_store", "src/backend/StackMachine.cpp:StackMachine::operator()", "include/mutable/storage/DataLayout.hpp:DataLayout", "src/storage/DataLayoutFactory.cpp"])
prop("C55", "Plan tables",
 "Whatever a client does with a plan table -- looking entries up, assigning to them, asking for plans, offering joins, resetting costs, deciding about each call with the results of the previous ones -- it sees the same results with the dense and with the sparse table, as long as it stays within the subproblems of the query and does not use at(), which throws for subproblems never touched in a sparse table. Reading changes no entry; writing changes one. update(l, r) fails only if a side is empty, a data model is missing or the entry is corrupt; it changes no entry but that of l|r, computes the data model of l|r only the first time, and after any sequence of offers the entry of a subproblem names the first of the cheapest plans offered, with its cost (no cost being NaN). reset_costs makes all costs but those of single sources infinite and keeps plans and models. Dense tables are equal iff all entries are; sparse tables iff the same subproblems were touched and their entries are equal, in whatever order the hash table lists them. The join enumerators of C35, run through this interface after the optimizer wrote the entries of the sources, never fail and leave cheapest plans with their costs in either table. Printing a dense table lists every nonempty set of sources once, in order, with the entries of those that have plans. (Refuted: sparse tables holding the same entries compare unequal after a mere lookup; an offer of cost NaN is never replaced; a table with a NaN is not equal to itself; printing a sparse table shows the first additional entry as a set of sources and inserts the entry of the final plan.)",
 "all clients (programs), numbers of sources, additional entries, cost functions reading the table, estimators and sequences of offers",
 "all adaptive sequences of calls on two different data structures",
 ["include/mutable/IR/PlanTable.hpp:PlanTableBase::update", "include/mutable/IR/PlanTable.hpp:PlanTableSmallOrDense", "include/mutable/IR/PlanTable.hpp:PlanTableLargeAndSparse", "src/IR/PlanTable.cpp:operator<<", "include/mutable/catalog/CostFunctionCout.hpp:CostFunctionCout"])
prop("C56", "Parsing and printing",
 "Every command of the grammar in doc/syntax-grammar.md is parsed into the syntax tree the grammar gives it (levels of precedence, grouping to the left), up to its semicolon and whatever follows it; the grammar is unambiguous. Every text without illegal tokens that is accepted is a command of the same grammar extended by a few phrases, and its tree is the one of this grammar. Every text is accepted or rejected, and each command uses up at least one token. A printed statement (names, constants and operators as the lexer produces them; none of the constructs listed below) is parsed back to the same statement, hence two statements that print alike are the same. Counterexamples proved: NOT and ~ are accepted between two operands; the operand of an inner NOT extends as far as possible; VALUES accepts no expression that begins with NULL; printing drops ESCAPE and QUOTE of an IMPORT, prints DECIMAL(10) as DECIMAL(10, 0), which is rejected, drops the parentheses of an index key, and prints the alias of a nested query in place of the query.",
 "all token sequences, all texts, all statements of any depth",
 "unbounded nesting of expressions and queries; unbounded lengths of lists",
 ["src/parse/Parser.cpp:Parser", "src/parse/Parser.hpp:Parser", "src/parse/ASTPrinter.cpp:ASTPrinter", "include/mutable/parse/AST.hpp", "src/catalog/Type.cpp:print", "doc/syntax-grammar.md"])
prop("C57", "The physical optimizer finds the cheapest plan",
 "A covering assigns physical operators to a logical plan: a registered operator whose pattern fits (the two inputs of a join in either order) and whose pre-conditions on its inputs are fulfilled by the post-conditions of their coverings; its cost is the cost of the operator plus those of its inputs. The optimizer has a plan if and only if a covering exists; every entry it computes is a covering with the post-condition and the cost stated; for every covering there is an entry with the same post-condition that costs no more; the plan extracted is a cheapest covering. The interpreter has a plan for every query, with exactly one physical operator per logical one. Counterexample proved: if only plans of infinite cost exist, there is a plan but extracting it uses an iterator that was never set.",
 "all logical plans of any shape, all sets of registered operators with any patterns, pre- and post-conditions, all costs with a monotone addition",
 "unboundedly many coverings; the dynamic program must keep, for each post-condition, what is cheapest for the operators above, for each set of operators",
 ["include/mutable/IR/PhysicalOptimizer.hpp:PhysicalOptimizerImpl,pattern_matcher_recursive,PhysicalOperator", "include/mutable/IR/PhysicalPlanTable.hpp", "src/IR/PhysicalPlanTable.hpp", "src/backend/InterpreterOperator.hpp", "include/mutable/IR/Operator.hpp:assign_post_order_ids"])
prop("C58", "Complete partial plans are enumerated exactly once",
 "Given a plan table with a final plan, the generator invokes its callback with every complete partial plan of this plan - a set of parts of the plan such that each relation occurs in exactly one of them - exactly once and with nothing else, the full plan first; it ends and no assertion fails; for a query without relations nothing is called. Trees are written in prefix notation, and the first output of the process is the JSON array of the plans. Counterexample proved: every further output begins with '[,' because the flag for the first element is static.",
 "all plan tables with a final plan over any number of relations, of any shape",
 "the number of partial plans is exponential in the number of relations; the loop replays decisions from a stack and must restore the candidates exactly",
 ["src/IR/PartialPlanGenerator.cpp:for_each_complete_partial_plan,write_partial_plans_JSON", "src/IR/PartialPlanGenerator.hpp"])
prop("C59", "Promised sort orders are fulfilled",
 "A promised sort order says that the rows are sorted by its attributes, first to last, and that those of undefined order have one value. An order without undefined attributes is implied by another exactly if every list of rows that fulfils the other fulfils it (it is a prefix); a sorting is dropped if and only if the rows are in the requested order already, repeated attributes included. What quicksort promises holds; filters, limits, nested-loops and hash joins keep the order of their (right) input; the sort-merge join delivers rows sorted by the left order and then by the right one, or by the right one and then by the left keys. Grouping sorted input is right if the keys are the first sorted attributes, in any order. A projection to the first sorted attributes, in order, keeps the renamed order. Equality of condition sets is equality, implication is a partial order, and nothing implies an unsatisfiable set. Counterexamples proved: if another sorted attribute precedes a grouping key, grouping by sorted input is chosen although groups are split; a projection that drops or permutes leading sorted attributes promises an order the rows do not have, and a later sorting is dropped; grouping promises the order in which keys are listed; with undefined orders, implication is neither sound nor transitive; no SIMD does not imply one SIMD lane.",
 "all sort orders, all lists of rows over any linearly ordered values, all requested orders, keys and renamings",
 "implication must be right for every list of rows; whether a sort may be left out depends on the data and on the whole plan below",
 ["include/mutable/IR/Condition.hpp:ConditionPropertyMap,Sortedness,ConditionSet", "src/IR/Condition.cpp:ConditionSet", "src/backend/WasmOperator.cpp:Quicksort,NoOpSorting,OrderedGrouping,Aggregation,Projection,SortMergeJoin,NestedLoopsJoin,SimpleHashJoin"])
prop("C60", "Grid search visits every point exactly once",
 "The search calls its function with every combination of positions exactly once, in lexicographic order, (n1+1)*...*(nk+1) times, with the values of the spaces at these positions, and ends. A linear space of integers (all types of up to 32 bits) starts at one bound and ends exactly at the other; its points are values between the bounds, in order, each within one of the exact division of the range, and exact if the steps divide it; no conversion is undefined. Points of floating-point spaces lie between the bounds and are in order, starting at the bound. Counterexamples proved: num_points() is computed modulo 2^32 (a grid of 65536 x 65536 has 0 points); sequence() does not end for 2^32-1 steps; a space of 64-bit integers may miss its upper bound, and so may one of doubles (ten steps from 0 to 1).",
 "all numbers and kinds of spaces, all bounds and numbers of steps",
 "unboundedly many dimensions and steps; rounding errors depend on all bounds and numbers of steps",
 ["src/util/GridSearch.hpp:GridSearch::search,num_points,make_args", "src/util/GridSearch.hpp:LinearSpace"])
prop("C61", "Data definition has exactly its effect, and indexes in use are never stale",
 "After any sequence of CREATE/DROP/USE DATABASE, CREATE/DROP TABLE, CREATE/DROP INDEX, INSERT, IMPORT and SELECT statements, a statement that ends without an error has exactly the effect the statement describes on databases, tables, rows and indexes (dropping a table drops its indexes; nothing else changes), and a statement that reports an error changes nothing and had no effect to have.  No statement crashes as long as no table is dropped that a remaining table refers to.  An index a query may use holds exactly the value and row of every row whose key is not NULL; a successful CREATE INDEX gives an index that may be used, and INSERT takes the indexes of its table from queries until they are made again.",
 "all histories of these statements, all names, declarations and rows",
 "unboundedly many histories; a stale index or a dangling reference shows only after particular sequences",
 ["src/catalog/DatabaseCommand.cpp", "src/catalog/Catalog.cpp:add_database,drop_database", "include/mutable/catalog/Schema.hpp:Database", "src/catalog/Schema.cpp:ConcreteTable::schema", "src/parse/Sema.cpp:CreateTableStmt,DropTableStmt,CreateIndexStmt,DropIndexStmt"])
prop("C62", "Command lines mean what they say",
 "Parsing a command line invokes the callbacks of exactly the given options, in the order in which they are given and with the values given to them, and keeps exactly the positional arguments, in their order, everything behind \"--\" included; it ends the program exactly when an option lacks its argument or has one that is not a value of its type.  Every decimal number in the range of the option's type is read as this number and every other one rejected; lists are split at commas and nowhere else.",
 "all sets of options with distinct names and all argument vectors and strings",
 "unboundedly many argument vectors and numbers; the boundaries of all integral types",
 ["src/util/ArgParser.cpp:ArgParser::parse_args,OptionImpl::parse,help_parse,check_next_arg", "include/mutable/util/ArgParser.hpp:ArgParser::add"])
prop("C63", "Cardinality estimates bound what plans produce and do not depend on the join order",
 "The Cartesian-product estimator's estimate of a plan is at least the number of rows the plan can produce, whatever its conditions and keys are, and no smaller bound exists that depends on the sizes of the tables only; the estimates of two join orders of the same sources, and of joining them all at once, are equal.  With injected cardinalities for all sets of sources, the estimate of every join order is the injected one of its sources; the entry is found whatever the order in which the sources are joined, and different sets of names have different entries; without entries the estimates are those of the Cartesian product; an estimate never exceeds the product of the estimates of its sources.",
 "all plans of scans, filters, limits, groupings and joins of any size and shape, all table sizes, all names and all tables of injected cardinalities",
 "unboundedly many plans, join orders, table sizes and cardinality files",
 ["src/catalog/CardinalityEstimator.cpp:CartesianProductEstimator,InjectionCardinalityEstimator,InjectionCardinalityEstimator::make_identifier", "include/mutable/catalog/CardinalityEstimator.hpp:CardinalityEstimator"])
prop("C64", "Greedy operator ordering issues a greedy join tree without Cartesian products",
 "From any state whose parts together are a connected query graph, in particular from the sources of a connected query, greedy operator ordering ends and never dereferences a null pointer; every join it issues combines two current parts that are adjacent in the query graph and have a result no larger than that of any other two adjacent parts; the joins are the inner nodes of a join tree over all parts (one join less than parts), and none is a Cartesian product: both sides are connected, disjoint and adjacent.  The top-down variant issues, bottom up, the joins of a tree in which every subproblem is cut into two connected sides such that no other cut has a smaller sum of cardinalities.",
 "all query graphs of up to 64 sources, all cardinality estimates and all states from which it can be started",
 "unboundedly many graphs, estimates and states",
 ["include/mutable/IR/PlanEnumerator.hpp:GOO::for_each_join,GOO::node,TDGOO::for_each_join", "src/IR/PlanEnumerator.cpp:GOO::operator(),TDGOO::operator()"])
with open(os.path.join(os.path.dirname(__file__), "..", "properties.jsonl"), "w") as f:
    for p in P: f.write(json.dumps(p) + "\n")
print(len(P), "properties")
