# A Rocq (Coq 8.16.1) model of mutable-org/mutable

The model is in `rocq/theories`.  Every topic `X` has these kinds of files (small topics put the last three into one):

* `X.v` — the executable model: total Gallina functions, each with a comment citing the file and lines of `/repo` it
  models and the simplifications made;
* `XSpec.v` (or the head of the `Props` file) — the small independent specification the English property talks about;
* `XProofs.v` and others — invariants, refinement lemmas;
* `XProps.v` / `XClaims.v` — the theorems `Cnn_...`, each with an `Example` showing that a concrete, non-trivial
  instance meets the hypotheses.

Naming: a theorem `Cnn_..._partial` would prove part of a property (there is none at present);
`Cnn_refuted_...` / `..._refuted` proves that a stronger reading of the property is *false* of the faithful model, i.e. it
is a finding about the code.  Where a property holds only under a condition, the condition is in the property's text, and
the refutation (or an if-and-only-if theorem, `..._exact`) shows that it is needed.

## General modelling decisions

* Machine words are `N`/`Z` with explicit wrap-around where the code relies on it or where overflow is possible under the
  property's hypotheses (`Word.v`, `Arith.v`, `StackMachine.v`); other arithmetic is unbounded, and the comment says so.
* Undefined behaviour, failing `M_insist`s and exceptions are explicit outcomes (`option`/result types).
* Loops become structural recursion, folds, or fuel-recursion with an explicit out-of-fuel outcome; the theorems prove
  that some fuel is enough, so that termination is part of them.
* Concurrency (C20-C22, C25) is a labelled transition system at the granularity of critical sections; every theorem
  quantifies over all reachable states, i.e. all schedules.
* Library components (`std::sort`, `std::priority_queue`, iteration order of `std::unordered_map`, `mmap`) are section
  parameters with their contract as a hypothesis of the theorem; they are instantiated once to show that the contract can be met.
* Doubles: `SpecFloat` (IEEE) where rounding matters (C17, C39, C41), exact numbers or bit patterns elsewhere; the
  comment says which.

## Trusted base

* Coq's kernel (8.16.1), including `vm_compute` (used in examples and refutations on concrete inputs).
* `Print Assumptions` says "Closed under the global context" for every theorem `Cnn_...` except those of C60 about linear spaces, which use
  axioms of the standard library's real numbers; see "Assumptions".
* The reading of the C++ code: nothing is extracted or executed; each definition cites the source it models.
* The specifications: `GraphSpec.v`, `PlanSpec.v`, `InterpSpec.v`, `OptimizerSpec.v`, `FinishSpec.v`, `MinimizeSpec.v`,
  `LoadStoreSpec.v` and the first section of the other `Props` files.

## Per property: what is modelled and how it is proved

| id | files | modelled code | proof |
|----|-------|---------------|-------|
| C01 | `Bitset`, `BitsetProofs`, `BitsetProps` | every method of `SmallBitset` incl. iterators (`x & (x-1)`) | bitwise reasoning against the membership predicate; induction on popcount for iteration |
| C02 | same | `least_subset`, `next_subset` with wrap-around | order isomorphism: the k-th iterate is the deposit of k into the set |
| C03, C04 | `Bitset`, `GosperProofs`, `BitsetProps` | Gosper's hack with and without BMI2, `SubsetEnumerator` via pdep | next value is the least larger word with the same popcount; deposit is a popcount-preserving injection; exact condition for the portable build |
| C05, C06, C41, C44 | `Arith`, `ArithProps` | helpers of `util/fn.hpp`: powers of two, log2, ceiling division, checked/saturating sums, sequence numbers of floats, setbit | number theory on `N`, `SpecFloat` |
| C07, C08 | `Strings`, `StringsProps` | escaping, quoting, replacing, LIKE (the table row by row) | induction; DP row = denotational matching relation |
| C09-C12 | `Graph`, `GraphSpec`, `GraphProofs`, `ClosureProofs`, `CSGProofs`, `CSGOrder`, `GraphProps` | adjacency matrix: reachability, closure, connected subgraphs and pairs and their order | fixpoint invariants, induction over paths, the exclusion argument |
| C13 | `Msf`, `Forest`, `MsfProps` | `minimum_spanning_forest`, `tree_directed_away_from` | exchange argument, any priority queue |
| C14 | `QSort`, `QSortProps` | Hoare partition, quick sort | invariants, permutation and sortedness |
| C15 | `Cnf`, `CnfProps` | CNF algebra and generator | induction over formulas, Kleene semantics; exact domain |
| C16, C17 | `Index`, `IndexFloat`, `IndexProps` | sorted array index, learned index with exponential search | bounds invariants, float error bounds; exact condition |
| C18, C19 | `RCHash`, `RCHashProofs`, `RCHashProps` | reference-counting hash map with probing | refinement to a multimap; triangular numbers permute Z/2^k |
| C20 | `Pool`, `PoolProps` | interning pool under its lock | LTS invariant on top of C21 |
| C21, C22 | `RWLock`, `RWLockProps` | reader-writer lock | inductive invariant; a reachable lost wake-up |
| C23, C24 | `ListAlloc`, `LinAlloc`, `...Props` | allocators with exact address arithmetic | inductive invariants over histories |
| C25, C26 | `Scheduler`, `SchedulerProps` | serial scheduler, timestamps, visibility filter | LTS invariant; reduction of the filter |
| C27-C29 | `Layout`, `LayoutExact`, `LayoutProps` | row and PAX layouts, the three stores | disjointness of intervals, exact geometry |
| C30, C43 | `Tuple`, `TupleProps` | tuples and blocks of tuples | refinement to lists of optional values |
| C31-C33 | `StackMachine`, `StackMachineExact`, `StackMachineProps` | complete opcode table, compiler of expressions, three-valued logic | compiler correctness by induction; exact condition of failure |
| C34 | `XorList`, `XorListProps` | doubly linked list with XOR pointers | chain invariant, refinement to lists |
| C35, C36 | `PlanEnum`, `PlanSpec`, `PlanProofs`, `PlanInst`, `PlanAlgos`, `PlanTD`, `PlanMinCut`, `PlanTDInst`, `PlanCcp`, `PlanProps` | nine join enumerators over an abstract cost | invariant "entry = minimum over valid trees" |
| C37 | `Lexer`, `LexerProps` | the lexer | induction over the input against an independent grammar of tokens |
| C38 | `DSV`, `DSVProps` | DSV reader | round trip; refutations for malformed rows |
| C39 | `Types`, `TypesProps` | numeric types and their join | arithmetic; refutation by witness |
| C40 | `Schema`, `SchemaProps` | schemas | list/set reasoning |
| C42 | `Dates`, `DatesProps` | validation, encoding and printing of dates | bit-level arithmetic; exact set of accepted dates |
| C45 | `Insert`, `InsertProps` | INSERT | exact condition |
| C46-C50 | `Interp`, `InterpSpec`, `InterpProofs`, `InterpJoins`, `InterpOps`, `InterpAggs`, `InterpProps`, `InterpClaims` | the push-based interpreter: pipelines, blocks, masks, all operators, the limit exception | whole-plan theorem by induction over plans against the answers of SQL |
| C51 | `Optimizer`, `OptimizerSpec`, `OptimizerProofs`, `OptimizerProps`, `OptimizerClaims` | clauses, join graph, filters, plans from the plan table; uses C35 and C46 | tree of joins = filtered product |
| C52 | `Finish`, `FinishSpec`, `FinishProps` | projection, ORDER BY, LIMIT of `optimize_plan`, columns found by name | simulation of rows |
| C53 | `Minimize`, `MinimizeSpec`, `MinimizeSim`, `MinimizeSchemas`, `MinimizeRows`, `MinimizeSem`, `MinimizeSound`, `MinimizeProofs`, `MinimizeProps` | schema minimization and the schemas the interpreter uses | simulation between positions and names |
| C54 | `LoadStore`, `LoadStoreSpec`, `LoadStoreSim`, `...Tree`, `...Jump`, `...Strides`, `...Bits`, `...Access`, `...Run`, `...Static`, `...Main`, `...Proofs`, `...Layouts`, `...Props` | compilation of data layouts to loading and storing code, its operations and its context | simulation of the context by variables, invariant over executions; instance for the layouts of C27, C28 |
| C55 | `PlanTable`, `PlanTableSpec`, `PlanTableProofs`, `PlanTableProps`, `PlanTableEnum`, `PlanTableEnumProofs`, `PlanTableEnumProps` | dense and sparse plan tables, `update`, equality, printing; the enumerators of C35 as clients; clients are arbitrary adaptive programs, cost functions arbitrary readers of the table | both tables simulate a map from subproblems to entries; the enumerators as clients refine the functions of `PlanEnum` |
| C56 | `Parser`, `ParserSpec`, `ParserProofs`, `ParserStmt`, `ParserSound`, `ParserStmtSound`, `ParserTerm`, `ParserPrint`, `ParserPrint2`, `ParserPrint3`, `ParserProps` | the recursive-descent parser (expressions, SELECT, DDL, DML, IMPORT) on the tokens of C37, and the AST printer; not: error recovery, positions | the grammar of doc/syntax-grammar.md as inductive relations; completeness by induction on derivations, soundness and termination by induction on the fuel, printing through the completeness of the lexer and of the grammar |
| C57 | `PhysOpt`, `PhysOptSpec`, `PhysOptProofs`, `PhysOptProps` | post-order ids, the dynamic program over (operator, post-condition), the recursive pattern matcher, extraction, the interpreter's operators; conditions, costs and the operators' hooks are parameters; not: what an operator executes, decorated entries, references to the children's entries | coverings as an inductive relation; the matcher calls its continuation for exactly the ways a pattern fits, with all combinations of input entries; soundness and completeness of a slot by induction on the plan |
| C58 | `PartialPlan`, `PartialPlanSpec`, `PartialPlanProofs`, `PartialPlanProps` | both loops as one step function on the three stacks, the JSON writer with its static flag | the run over a forest restores its candidates (induction on the size); cuts of the tree = complete partial plans up to order, by induction on the tree |
| C59 | `Condition`, `ConditionSpec`, `ConditionProofs`, `ConditionProps` | maps of attributes to orders, implication, projection, sets of conditions, the sort orders required and promised by the Wasm operators; not: the generated code that sorts and joins (rows are given), costs, SIMD and predication beyond the comparison of conditions | lists of rows with a lexicographic order; implication = prefix by induction, and two rows that tell two orders apart |
| C60 | `GridSearch`, `GridSearchSpec`, `GridSearchProofs`, `GridSearchFloat`, `GridSearchProps` | the odometer of `GridSearch::search`, `num_points`, `LinearSpace` for integral types (conversions modulo 2^w) and for `double`, with Flocq's rounding to 53 bits in the modes the code sets; not: overflow of doubles to infinity, subnormal steps, exceptions thrown by the callback | the loop over `idx` computes the successor in the lexicographic order; enough iterations leave nothing out; error bounds of the two roundings |
| C61 | `Ddl`, `DdlSpec`, `DdlProofs`, `DdlStep`, `DdlProps` | the catalog with objects and addresses (following an address of a destroyed object is a crash), the checks of Sema and the execution of the statements for data definition, INSERT, IMPORT and a one-table query as far as they concern the catalog; specification: finite maps from names (`effect`), related to the catalog by `view`; invariants by induction over histories; not: UNIQUE and other constraints, the time-travel columns, the contents of index structures (C16, C17), transactions |
| C62 | `ArgParser`, `ArgSpec`, `ArgProofs`, `ArgProps` | `parse_args`, the key map, the reading of integers (with the standard library's `strtol`/`strtoul`), strings and lists; specification: command lines as sequences of items and decimal numerals; both directions by induction on the command line; not: options of floating-point types, the help text |
| C63 | `CardEst`, `CardEstSpec`, `CardEstProps` | the estimates of `CartesianProductEstimator` and `InjectionCardinalityEstimator` (with 64-bit products and the identifiers of sets of sources) over plans; specification: the numbers of rows a plan may produce (a relation) and join trees; by induction on plans; products are shown congruent modulo 2^64, identifiers injective by the order of strings; not: the spn-based estimator, the reading of the JSON file |
| C64 | `Goo`, `GooSpec`, `GooProps`, `TdGoo`, `TdGooSpec`, `TdGooProps` | `GOO::for_each_join` with its array of nodes (scan of all pairs, merge, swap with the last node) over the adjacency matrix of C09; specification: greedy sequences of joins of a partition, join trees; the loop refines the greedy sequences by induction on the number of parts, progress by leaving a part along a path of the query graph; cardinalities are a function of the subproblem; `TDGOO::for_each_join` with its worklist over the cuts of `MinCutAGaT` (C35), shown to be those of a tree of best cuts by induction on the worklist |

Every property of `properties.jsonl` is expressed in the model; none is `not_applicable`.

## Modelled and not modelled

Modelled: the functions cited in the table, function by function.  Left out of the model, for all properties:

* code generation: `WasmAlgo`, `WasmDSL`, `WasmOperator`, `WasmUtil`, `V8Engine` (their results would have to be compared
  with a semantics of WebAssembly), partial evaluation, SIMD support of data layouts;
* parser and semantic analysis beyond the pieces named in the table (dates, types, CNF); diagnostics and printing;
* cardinality estimation by sum-product networks, trained cost models: where costs and cardinalities are used they are
  parameters;
* the heuristic enumerators IKKBZ and LinearizedDP (GOO and TDGOO are C64) and heuristic search beyond C58;
* the operating system (`mmap`, `ftruncate`, files), the C++ memory model below the granularity of critical sections,
  exceptions thrown by allocation, destructors;
* wrap-around of sizes and addresses near 2^64 except where a theorem is about it (C05, C06, C23, C24, C54).

## Findings (theorems of the form `Cnn_..._refuted...`)

@@FINDINGS@@

## Testing the theorems against wrong programs

`tools/mutation/` holds the edits (one generator per topic) and the driver `mutate.py`.  It copies the project to a scratch
directory, applies one edit to a model, rebuilds everything that depends on it (replacing each proof that no longer works by
`Admitted` in the copy), and reports with `Print Assumptions` which theorems `Cnn_...` are lost.  An edit that breaks the
English claim but leaves its theorems standing means that a statement is too weak; it was then tightened.  Results are in
`seeded/LOG.jsonl` (one line per edit: definition, edit, claim broken, theorems that failed, theorems tightened).  Edits that
turned out to be harmless (equivalent programs) are recorded with a note.

## Assumptions

`Print Assumptions` of every theorem of C01 to C59 prints "Closed under the global context": no axioms are used, neither own ones nor
the standard library's (no functional extensionality, no classical logic, no axiomatic real numbers, no primitive floats or integers).
The theorems of C60 about linear spaces (`C60_constructor`, `_near`, `_near_descending`, `_exact`, `_ends`, `_monotone`,
`_delta_in_range`, `_refuted_upper_bound`, `_floating`, `_refuted_floating_end`, `_ex_linear`, `_ex_bytes`, `_ex_thirds`) speak about rounding as Flocq
defines it on the standard library's real numbers; `Print Assumptions` lists for them `ClassicalDedekindReals.sig_not_dec`,
`ClassicalDedekindReals.sig_forall_dec`, `FunctionalExtensionality.functional_extensionality_dep` and `Classical_Prop.classic`, all of the
standard library.  The other theorems of C60 (`C60_search`, `_deterministic`, `_each_once`, `_num_points`, `_sequence`, ...) are closed.
A listing of the axioms of all *loaded* libraries shows `Coq.ssr.ssrunder.Under_rel.*` (parameters of a module type
of the standard library, loaded indirectly by `Lia`/`Setoid`); no theorem uses them.
