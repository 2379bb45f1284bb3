# Formal model of logicng-rs in Rocq (Coq 8.16.1)

The development in `rocq/theories` models the Rust sources in `/repo/src` function by function as total
Gallina functions and proves the properties listed in `properties.jsonl` about these functions, for all
inputs.  `/repo` is only read as text, nothing in it is compiled or executed.

## Conventions

* A Rust function that can panic (`unwrap`, `assert!`, index out of range, `panic!`) returns `Panic` in the model.
* `&mut` parameters and the interior mutability of the factory become state passed in and out.
* Loops become structural recursion, folds, or recursion on explicit fuel; running out of fuel is a separate
  result (`NoFuel`) which no theorem treats as success.  Where the code terminates, a theorem gives a sufficient fuel.
* `HashMap`, `DashMap`, `HashSet`, `BTreeSet` become association lists / lists; iteration order of hash containers is
  either irrelevant for the statement or universally quantified.
* `u32`/`u64`/`i64` arithmetic: where a wrap or a truncation is observable the model computes with `N`/`Z` and an explicit
  `mod`; otherwise the definition's comment says that the machine bound is dropped.
* Heuristics (float activities, random numbers, hash iteration order) are oracles: the theorems quantify over them.
* Every definition carries a comment with the file and lines modelled and the simplifications made.

File naming: `*Model.v` holds definitions only, `*Proofs.v` lemmas, `*Spec.v` the independent specification,
`Properties_*.v` the final theorems (statement + `exact`), each followed by `Print Assumptions` and with an `Example`
that shows that the hypotheses are met by a concrete, non-trivial case.

## Plan and state per property

| id | modelled | how proved | files |
|----|----------|------------|-------|
| C01 | `formula_encoding.rs` bit packing on `N` with explicit 64/32 bit masks | bit arithmetic, all indices; the bounds 2^58 / 2^26 are shown necessary | EncodingModel/Proofs, Properties_Encoding |
| C02 | `formula_factory.rs` constructors over explicit cache tables (32 and 64 bit tables, reverse maps) | invariant `wf` of factory states, meaning of a handle by unfolding it into a formula tree (`denotes`) | FactoryModel, FactoryInv … FactoryOps, Properties_Factory |
| C03 | `pbc`, `cc`, `construct_cc_unsafe`, `is_cc`; `u32` truncation explicit | case analysis; refuted for right-hand sides >= 2^32 | same |
| C04 | same as C02 | `wf` contains the documented invariants and every constructor preserves it (below 2^26 entries per table); refuted beyond | InvariantSpec/Proofs |
| C05, C06, C07, C08 | reverse maps as association lists, `var_cache.rs`, counters | `wf` ties tables and reverse maps; every operation only extends tables | HashConsProofs, HistoryModel/Proofs |
| C09 | `evaluate`, `Assignment::evaluate_lit` | induction over the tree | EvalProofs |
| C10, C11 | `restriction.rs`, `substitution.rs` | induction; the operand iterators are lazy (`nary_lazy`), as in the code | OpsModel/Proofs, Properties_Ops |
| C12, C13 | `nnf/mod.rs` with cache and constraint encoding | induction on fuel with state invariant; C13 uses the encoding theorems and monotonicity | TransModel, NnfProofs, EncodeProofs |
| C14, C15, C49 | factorization with handler as a state machine | induction; handler answers universally quantified | CnfProofs, HandlerProofs |
| C16, C19 | predicates and operation caches | every cache entry is correct in every history (`xreachable`) | CacheModel, XHistory(+Proofs), WorldProofs |
| C17, C18 | Tseitin, Plaisted-Greenbaum, CnfEncoder (all algorithms, kept state) | explicit valuation of the auxiliary variables | TseitinProofs, PgProofs, EncoderProofs |
| C20, C21, C22 | `pbc_cc.rs` | integer arithmetic with explicit wrap-around | ConstraintModel/Proofs |
| C23-C26 | `cardinality_constraints/*` | explicit auxiliary assignment (completeness), counting (soundness), all encoders | CcModel, AmoProofs, TotalizerProofs, ModTotProofs, SorterProofs, CcFrontProofs |
| C27 | `pseudo_booleans/*` | as above | PbModel/Proofs |
| C28, C29 | `operations/functions/*` | induction over the tree | MetricsProofs |
| C30, C31 | `ubtree.rs`, `subsumption.rs` | induction over the tree; all visiting orders of the hash maps | UbTreeModel/Proofs, SubsumptionProofs |
| C32 | printer, grammar (pest semantics on bytes), evaluation of the parse tree | round trip by induction on the depth | ParserModel … ParserProofs, Properties_Parser |
| C33, C34 | `minisat2.rs`: clause store, watch lists, trail, analysis, minimisation, reduction, simplification; `minisat.rs` front | invariants: learnt clauses are consequences, watch invariant, trail invariant; heuristics are oracles | SatModel … SatFront, Properties_Sat |
| C35 | `save_state`/`load_state` | in the incremental mode the watch lists stay exact and the unit clauses are never implied by the clauses and units before them (`SatExact`), so that loading detaches exactly the later clauses and replays the units (`SatLoad`, `SatReplay`); invariant over histories (`SatHistory`); refuted for clauses added twice | SatState, SatExact, SatLoad, SatReplay, SatHistory, Properties_State |
| C36, C37, C38 | model enumeration, backbone, optimisation function | on top of C33/C34 for all call histories | MiniModel/Proofs, EnumProofs, BackboneProofs, OptModel/Proofs |
| C39-C41 | BDD kernel: node table with hash chains, reference counts, garbage collection, resizing, caches, all operations used by `from_formula`, restriction, quantification, normal forms, counting, enumeration | invariant of the node table (`BddTable`), meaning of a node (`BddDen`), call histories (`BddHist`) | BddModel, Bdd*.v, Properties_Bdd |
| C42 | `dnnf` model counting and vectors | induction | DnnfModel/Spec/Proofs |
| C43, C44 | lock-free vector and `get_or_insert` on a release/acquire memory: every thread has a view, reads may return stale values that the view allows, races on non-atomic accesses are detected | inductive invariant over all schedules of any number of threads | ConcModel, ConcProofs, ConcCache |
| C45 | `assignment.rs`, `model.rs` | direct | AssignmentModel |
| C46, C47 | anonymizer, pure expansion | C11 / C23 | AnonProofs, PureProofs |
| C48 | `lng_heap.rs` of the solver | heap invariant, index table | HeapModel/Proofs |
| C52 | `plaisted_greenbaum_on_solver.rs`, `MiniSat::add`, `add_proposition`, `reset` | one invariant for the factory and all solvers: the clauses of a solver say, in the world of the factory's auxiliary variables, what the added formulas say; cache entries are backed by clauses on the solver | PgSolverModel/Proofs, PgAddProofs, PgTakeProofs, PgHistory/Proofs, Properties_PgSolver |
| C53, C54 | `backbone_simplification.rs`, `backbones/mod.rs`, `predicates/sat.rs`, with their caches | further steps of the histories of C52: the solver of their own goes through C52's invariant, the cache entries are part of the factory's invariant | BbSimpModel/Proofs, SatPredModel, Properties_BbSimp |
| C55 | `dnnf_compiler.rs`, `dnnf_sat_solver.rs`, `dtree/*` | full claim refuted by a run of the model; proved for runs without a conflict by an invariant of solver, tree and cache (`DnnfCompTree`, `Val`, `Sat`, `Proofs`, `Load`, `Names`, `Main`) | DnnfCompModel, Properties_DnnfComp |
| C56 | `bdd/orderings/*`, `graphs/*` | depth and breadth first by induction over the tree; sorting by its specification; FORCE with `f64` as `SpecFloat` (binary64, round to even) and the number of rounds as fuel: every round keeps a permutation; non-termination by a run that alternates | OrderModel/Proofs, Properties_Order |
| C57 | `model_count.rs` (BDD algorithm, single formula), composed of the models of C47, C14, C56, C39 | the clause form by Tseitin or factorization has one model for each model of the formula (auxiliary variables determined); a bijection between models over the relevant variables and pairs of a model of the clause form and values of the unused variables; the BDD counts the models over its variables | CountModel/Proofs/Bdd/Main, Properties_Count |
| C58 | `model_count.rs` (BDD algorithm, conjunctions): shared encoder, backbone of the formulas that are literals, restriction, unused variables | the formulas' clause forms together have one model for each model of the conjunction; literals and restricted rest are equivalent to them, the rest has as many models over its own variables; a conjunction keeps the variables of its operands unless it is falsum; the fuel of the clause form is the number of nodes of the factory, proved to bound every depth | CountConjModel, CountNary, CountConj/ConjMain, Properties_CountConj |
| C59 | `bdd_prime.rs`: prime test and search for table sizes, machine integers, random numbers from an arbitrary function | Fermat's little theorem (multiplication permutes the residues) and the square roots of 1 modulo a prime along the invariant of the witness loop; both searches by induction with the prime as a bound; 2^31 - 1 and a chain of primes up to 2^24 by verified trial division | PrimeModel/KernelModel, PrimeFermat, PrimeProofs, PrimeGrow, Properties_Prime, Properties_PrimeKernel |
| C60 | `model_count.rs` (DNNF algorithm), composed of the models of C55 and C42 | partial: the clause form of a CNF is itself, the backbone simplification makes forced literals clauses and the subsumption keeps them, so the compiler's result is a DNNF in runs without conflict; its count is the number of models | CountDnnfModel, DnnfPrep, Properties_DnnfCount |
| C61 | `hashable_formula_set.rs`, reverse maps of `nary_formula_cache.rs` with hashes and slots | the hash is a sum modulo 2^64; refinement: whatever the orders of iterators, the hashes of operands and the layouts of the tables, the reverse map finds what the table of `FactoryModel` finds | HashSetModel, Properties_HashSet |
| C62 | `n_queens_generator.rs` (without the assignment to `f.config.cc_config`: the factory has this configuration already) | each line of the board is a constraint in the order of the loops; together they are equivalent to the independent statement about placements | NQueensModel, NQueensProofs, Properties_NQueens |
| C63 | `pseudo_boolean_parser.rs`, `formula_reader.rs` (models of C32, C50) | each step of the evaluation of a parse tree is a call with arguments the caller has (induction over parse trees) | ParserHistory, Properties_ParserHistory |
| C64 | `file_anonymizer.rs` (file contents are arguments) | composition of C63, C46 and `write_formula` | FileAnonModel, Properties_FileAnon |
| C65 | constructors, parser, writer (models of C32, C50) after histories of `xcall` | each operation keeps the invariant `pinv` of the stored implications and equivalences: it leaves the two tables alone (XFrame) or fills them through the constructors only (XRebuild) | XFrame, XRebuild, Properties_Rebuild |
| C50, C51 | DIMACS reader, formula writer and reader | texts as byte lists; C51 on top of C32 | IoModel/Spec/Proofs, Properties_Io |

The status of each property, the exact theorem names and the remaining restrictions are in `MANIFEST.json`.

## Trusted base

* The Coq 8.16.1 kernel (and the checker used by `vcheck`).
* `Print Assumptions` prints "Closed under the global context" for every theorem named in `MANIFEST.json`; the command
  stands after each of them.  No axiom is declared and no library axiom is used by a theorem.  (The gate also lists
  the axioms of modules that are merely loaded: the `Coq.ssr.ssrunder` constants that come with `ssreflect`.)
* The transcription from Rust to Gallina, documented definition by definition, and the Rust semantics assumed for it
  (next section).

### What the model takes from the outside

* Collections: `HashMap`/`DashMap`/`HashSet`/`BTreeSet`/`Vec` are lists and association lists with the documented
  behaviour of these types.  Iteration orders of hash containers are universally quantified where they matter
  (`ubtree`, subsumption, enumeration of variables).  Hash functions are trusted to be consistent with equality,
  except that of sets of operands, which is proved to be (C61).
* Heuristics of the SAT solver (activities as floats and their decay, the equality of clause activities, the restart
  sequence, the triggers of simplification and reduction, the order and choice of the learnt clauses that are dropped) are
  oracles that may answer anything.  The order heap (C48) and the saved polarities are modelled.  The search loop has fuel: every theorem is conditional on an answer; termination of CDCL is not claimed.
* Machine integers: `u32`/`u64`/`i64`/`isize` casts and wrap-arounds are explicit where a reachable input makes them
  observable; vector lengths and table sizes are otherwise unbounded up to the stated capacity (2^26 entries per table).
* Lazy iterators: `and`/`or` consume their operands lazily and stop at a tautology or contradiction.  The model keeps this
  where operands are created by the iterator (`nary_lazy`); for operands that exist already it makes no difference.
* `m_encode` (constraint encodings into a factory): the clauses of one encoder call are added to the factory after the call
  instead of one by one; the tables contain the same formulas, handles may be numbered differently.
* BDD kernel: the mark bit is a field of its own instead of a bit of `level`; prime numbers for table sizes come from an
  oracle that finds a larger size (`prime_ok`; `C59_growth` proves this of the code's own search for tables of 3 to 2^24 nodes, beyond that it is an assumption; `C59_count` restates C57 with the sizes so computed); the variable order is the identity mapping on levels (no reordering exists in the code); the operation caches are
  modelled with their real replacement policy; caches that are never read are omitted.
* Parser: pest is modelled by its documented semantics (ordered choice, possessive repetition, implicit white space); texts
  are bytes; the random factory identifier is a parameter.
* Files: operating-system errors and invalid UTF-8 are not modelled; only ASCII white space is trimmed.
* Concurrency: the memory is release/acquire with views (no load buffering), `DashMap` is one lock per shard around
  an association list, its own unsafe code is trusted.  Allocation failure, `usize` wrap-around and `Drop` are not modelled.

### Parts of the code that are not modelled

`maxsat`, `sharpsat`/external bindings, `count_models` with these, DRUP proofs and unsat cores, primes and `minterm` generation, graphical output,
configuration builders, random formula generation, statistics, and `Display` of types other than formulas.

## Findings (properties that fail in the code as written)

Each item is a theorem with suffix `_refuted` and a concrete witness computed in the model (or a proof for every input).

Formula factory and encodings
* `C01_overflow_refuted`, `C01_small_overflow_refuted`: indices from 2^58 (2^26 for the 32 bit form) on are not decoded.
* `C02_large_refuted`, `C02_large_drop_refuted`: literals with an index of at least 2^26, which parsing a reserved name can
  create, are confused with others: `and` of two different ones returns the first.
* `C03_pbc_u32_refuted`, `C22_u32_refuted`, `C11_u32_refuted`: a constraint with unit coefficients becomes a cardinality
  constraint whose right-hand side is cut to 32 bits (also after restriction of an equation and after substitution).
* `C04_equivalence_refuted`: `equivalence(~c, c)` is not simplified if `c` is a constraint.
* `C08_parsed_refuted`: parsing a reserved name gives an auxiliary variable that is later handed out as fresh.
* `C09_contradictory_refuted`, `C09_overflow_refuted`: evaluation under contradictory assignments; sums wrap at 64 bits.
* `C11_cc_negative_refuted`: replacing a variable of a cardinality constraint by a negative literal panics.
* `C21_overflow_refuted`: the sum of absolute coefficients wraps, an unsatisfiable constraint is normalised to true.
* `C29_overflow_refuted`: the number of nodes/atoms wraps on a small shared formula.
* `C13_aux_refuted`, `C17_state_aux_refuted`: formulas that mention auxiliary variables of cached encodings.
* `C32_implication_refuted`, `C32_equivalence_refuted`: `(A => C) => B` is printed as `A => C => B` and read back as an
  inequivalent formula; `C32_id_refuted`, `C32_name_refuted`: factory identifiers with small letters, names that are no
  identifiers.
* `C50_trailing_refuted`: a blank after the final 0 of a DIMACS line panics.

Cardinality and pseudo-Boolean encoders
* `C23_nested_diverges_refuted` (group size 3), `C23_product_diverges_refuted` (recursive bound 1),
  `C23_commander_diverges_refuted` (group size 1): unbounded recursion; `C23_commander_zero_refuted`,
  `C23_bimander_zero_refuted`: panic.
* `C24_network_duplicates_refuted`, `C24_sort_one_refuted`, `C25_lt_zero_refuted`, `C27_binary_merge_duplicates_refuted`:
  panics on repeated variables, for m = 1, for `< 0`.
* `C26_lower_overflow_refuted`, `C26_lower_underflow_refuted`: a new lower bound above the number of variables is silently
  unsound (totalizer) or underflows (the others).

SAT solver and functions on it
* `C34_no_minimization_refuted`: with `ClauseMinimization::None` learnt clauses are truncated and satisfiable problems are
  reported unsatisfiable.
* `C35_duplicates_refuted`: after `load_state` a clause that was added twice is detached wrongly (comparison by content).
* `C52_reset_refuted`: `reset` keeps `valid_states`; a state saved before it is accepted by `load_state` and restores nothing.
* `C54_aux_refuted`: `is_sat` answers False for a satisfiable formula that mentions auxiliary variables of a cached encoding.
* `C55_refuted`: `compile_dnnf` returns a formula that is false under a model of the input (20 variables, 26 clauses, no
  backbone, nothing subsumed): `cnf_aux` caches the result of `cnf2ddnnf` also if the call learnt a clause and was repeated;
  the repeated call conjoins all literals of the current decision level, which need not hold when the entry is used again.
* `C36_aux_refuted`, `C36_twice_refuted`, `C36_incremental_refuted`, `C36_count_refuted`; `C38_twice_refuted`.
* `C48_remove_refuted`: `remove` only percolates down and breaks the heap order.
* `C61_other_hasher_refuted`: `HashableFormulaSet::hash` keeps the contract of `Hash` only with the hasher `SimpleHashAdder`.
* `C62_empty_board_panics`: `generate_n_queens(0, f)` computes `n - 1` on `usize` and panics with overflow checks (in a release build
  the loop would run over `0..usize::MAX` and then index out of bounds).
* `C64_meaning_refuted`: `anonymize_file` turns a file with `(A => C) => B` into one with `v0 => v1 => v2`: five models become seven.

BDD
* `C57_with_vars_refuted`: `count_models_with_vars` of a formula without variables ignores the relevant variables: verum over two
  variables counts 1, not 4.  `C57_ends_refuted`: `count_models` with the BDD algorithm runs for ever on the formula of C56.
* `C58_with_vars_refuted`: the same for conjunctions of formulas that are all constants.  (The type parameter of
  `count_models_conjunction_with_vars` is not used in its signature, so that every caller has to name it; not modelled.)
* `C60_with_vars_refuted`: the same with the DNNF algorithm.
* `C59_composite_refuted`: the prime test is probabilistic: with unlucky random numbers (1 each time) it accepts 289 = 17 * 17.
  A table size need not be prime for the results to be right, so this costs speed only.
* `C59_large_composite_refuted`, `C59_large_prime_refuted`: `number_of_bits` looks at 31 bits, so above 2^31 the test is wrong:
  2^32 + 1 = 641 * 6700417 passes whatever is drawn, and the prime 2147483659 is rejected for some random numbers.
* `C59_small_refuted`: `prime_gte(1)` panics (empty range of random numbers); a kernel asks for 3 or more.
* `C56_force_ends_refuted`: `force_ordering` stops when a round changes nothing, with no bound on the rounds.  On a CNF with eight
  variables, three clauses and two units the rounded centers of gravity make it alternate between two orderings for ever.
  (`count_models` with the BDD algorithm uses this ordering.)
* `C40_restrict_result_refuted`: results of restrict, exists and for_all are not referenced and can be overwritten by a later
  garbage collection.
* `C41_projected_unique_refuted`, `C41_unknown_variable_refuted`, `C39_normal_form_unnamed_refuted`,
  `C39_contradictory_restrict_refuted`, `C39_counter_refuted`.

Observed while reading, not formalised
* `restrict`/`exists`/`for_all` of the BDD kernel leave a reference on their variable cube; `support` inserts malformed
  but unreferenced nodes; `from_formula` on constraints goes through `nnf_of` and may introduce auxiliary variables.
* `formula_on_solver` after `load_state` sees a stale level; `sat_with` without assumptions does not reset
  `last_computation_with_assumptions`.
* `AdvancedFactorizationConfig.atom_boundary` is never read; the adder network shifts by 64 and more for large right-hand sides.
* `compile_dnnf` uses `cnf_of`, which may introduce auxiliary variables; the exponent in the DNNF count is cast to `u32`.
* Names of TMP auxiliary variables are not recognised by `AUX_REGEX`.
* In the DIMACS reader a `0` in the middle of a line becomes the variable `v0`; the documentation of `write_formula` shows
  parentheses that are not written.

## Tests of the theorems against wrong programs

`seeded/LOG.jsonl` has one line per attempt: a definition of a model was changed as a realistic bug would, the development
rebuilt, and the theorems that no longer prove recorded.  Edits that break no claim are logged as such.

The script that runs the edits appended only the edits that made a theorem fail.  The edits that did not were added at the end of
the log afterwards from the run outputs that were still there; outputs that later runs overwrote are lost, so the log may
miss some survivors and the share of killed edits must not be read as a rate.  Open ones: `locked` (SatModel: locked
clauses are removed) survives, so no theorem notices this bug; `bexists` (twice), `not_goi` and `compute_tseitin` are
`inconclusive`: files did not build, but no failing theorem was reported.  The last series, on FactoryModel, was stopped
after 12 of 28 edits.  The theorems of C65 have not been tested against edits.
