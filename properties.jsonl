{"id": "C01", "title": "Formula handles decode to what was encoded", "statement": "An EncodedFormula packs an index, a formula type and a cache flag into one integer. For every index below 2^58, every encodable type and either flag, unpacking the handle returns exactly that index, type and flag, and two different (index, type, flag) triples of non-constant type never share a handle. If the index is below 2^26 the 32-bit form loses nothing.", "quantifier": "every index < 2^58 (2^26 for the 32-bit form), every encodable formula type, both cache flags", "why_tests_cant": "2^58 indices times 17 types cannot be enumerated; an off-by-one in a shift or mask only shows at a boundary.", "anchors": ["src/formulas/formula_cache/formula_encoding.rs: FormulaEncoding::encode, index, formula_type, is_large, as_32, SmallFormulaEncoding"]}
{"id": "C02", "title": "Constructors mean what their names say", "statement": "Evaluating the formula returned by and / or / not / negate / implication / equivalence / constant / clause under any assignment gives the Boolean combination (conjunction, disjunction, complement, ...) of the evaluations of the operands, whatever simplification (flattening, duplicate or constant removal, complement detection) the factory performed.", "quantifier": "every factory history, every list of operand handles of that factory, every assignment", "why_tests_cant": "Simplification depends on the operands, on their order and on what is already cached in the factory; the combinations are unbounded.", "anchors": ["src/formulas/formula_factory.rs: and, or, clause, not, negate, implication, equivalence, filter_flatten, contains_complement"]}
{"id": "C03", "title": "Constraint constructors mean what their names say", "statement": "Evaluating the formula returned by pbc(cmp, rhs, lits, coeffs) or cc(cmp, rhs, vars) (also amo, exo) under an assignment compares the weighted sum of true literals with rhs by cmp, including the empty and the trivially decided cases and the cases where pbc is turned into a cc.", "quantifier": "every comparator, right-hand side, literal and coefficient list, every factory history and assignment", "why_tests_cant": "Right-hand side, coefficients and number of literals are unbounded and interact with integer width.", "anchors": ["src/formulas/formula_factory.rs: cc, pbc, construct_cc_unsafe, is_lit_cc, is_cc, evaluate_trivial_pb_constraint", "src/formulas/pbc_cc.rs: evaluate"]}
{"id": "C04", "title": "The documented factory invariants hold for every formula", "statement": "Every formula reachable from a factory has: no constant as operand of any other formula, no conjunction directly inside a conjunction (same for disjunctions), a negation only over binary / n-ary / constraint formulas, at least two and pairwise distinct operands in an n-ary formula, and no operand together with its negation in one n-ary formula.", "quantifier": "every sequence of factory calls and every formula reachable after it", "why_tests_cant": "It is an invariant over all histories of the factory.", "anchors": ["src/formulas/formula_factory.rs:83-110 (documented invariants), and, or, not, implication, equivalence, filter_flatten"]}
{"id": "C05", "title": "Hash consing: equal formulas have equal handles", "statement": "Within one factory, two handles that unfold to the same formula up to the order of n-ary operands and of equivalence sides are the same handle; building the same formula again returns the old handle and adds no node.", "quantifier": "every factory history, every pair of handles", "why_tests_cant": "Uniqueness is a global invariant relating all cache tables after arbitrary histories.", "anchors": ["src/formulas/formula_cache/*.rs: get_or_insert", "src/formulas/formula_factory.rs"]}
{"id": "C06", "title": "Formulas are immutable", "statement": "A handle returned once keeps denoting the same formula (same operands in the same order, same names, same evaluation) no matter which factory operations are executed later.", "quantifier": "every handle and every later sequence of factory operations", "why_tests_cant": "The later sequence is arbitrary.", "anchors": ["src/formulas/formula_cache/*.rs", "src/collections/append_vec.rs", "src/formulas/formula_factory.rs"]}
{"id": "C07", "title": "Variables are identified by name", "statement": "variable(n1) and variable(n2) return the same handle exactly if n1 = n2, and the name of variable(n) is n, in every factory state.", "quantifier": "all names, all factory histories", "why_tests_cant": "Interaction with arbitrary earlier insertions.", "anchors": ["src/formulas/formula_cache/var_cache.rs", "src/formulas/formula_factory.rs: variable, var, literal"]}
{"id": "C08", "title": "Auxiliary variables are fresh", "statement": "Every auxiliary variable created by the factory (for CNF, cardinality and pseudo-Boolean encodings) differs from every auxiliary variable created before and from every user variable.", "quantifier": "every history of factory operations", "why_tests_cant": "Freshness is a property of the whole history.", "anchors": ["src/formulas/formula_factory.rs: new_auxiliary_variable, new_cnf_variable, new_cc_variable, new_pb_variable", "src/formulas/variable.rs"]}
{"id": "C09", "title": "evaluate implements propositional semantics", "statement": "evaluate(formula, assignment) terminates and returns the truth value of the formula under the total valuation in which exactly the positive variables of the assignment are true.", "quantifier": "every formula of every factory, every consistent assignment", "why_tests_cant": "Formulas are of unbounded depth and shape.", "anchors": ["src/formulas/formula_factory.rs: evaluate", "src/datastructures/assignment.rs: evaluate_lit"]}
{"id": "C10", "title": "restrict agrees with evaluation", "statement": "For every total extension of a partial assignment, the restricted formula evaluates like the original formula, and the restricted formula no longer contains any assigned variable.", "quantifier": "every formula, every partial assignment and every total extension of it", "why_tests_cant": "Exponentially many extensions, unbounded formulas, caches in between.", "anchors": ["src/operations/transformations/restriction.rs", "src/formulas/pbc_cc.rs: restrict", "src/datastructures/assignment.rs: restrict_lit"]}
{"id": "C11", "title": "Substitution lemma", "statement": "Evaluating substitute(formula, {v -> g, ...}) under an assignment equals evaluating the formula under the assignment in which each substituted v has the value of its g (all replacements simultaneous).", "quantifier": "every formula, every substitution into formulas of the factory, every assignment", "why_tests_cant": "Unbounded formulas and substitutions; variable capture-like mistakes appear only in particular combinations.", "anchors": ["src/operations/transformations/substitution.rs"]}
{"id": "C12", "title": "nnf preserves meaning and yields negation normal form", "statement": "For a formula without cardinality or pseudo-Boolean constraints, nnf_of returns an equivalent formula built from literals, constants, conjunctions and disjunctions only.", "quantifier": "every constraint-free formula in every factory state (including any cached intermediate results)", "why_tests_cant": "Unbounded formulas and cache states.", "anchors": ["src/operations/transformations/nnf/mod.rs: nnf, nnf_rec"]}
{"id": "C13", "title": "nnf with constraints is equivalent up to auxiliary variables", "statement": "For a formula with constraints, an assignment satisfies the formula iff it can be extended on the fresh auxiliary variables to an assignment satisfying nnf_of(formula).", "quantifier": "every formula, every factory state, every assignment", "why_tests_cant": "Involves an existential over exponentially many auxiliary assignments.", "anchors": ["src/operations/transformations/nnf/mod.rs", "src/formulas/pbc_cc.rs: encode", "src/cardinality_constraints", "src/pseudo_booleans"]}
{"id": "C14", "title": "CNF by factorization is an equivalent CNF", "statement": "If CNF factorization returns a formula, that formula is in CNF and evaluates like the (constraint-free) input under every assignment; the handler can only abort, never change the result.", "quantifier": "every formula, every handler limit, every assignment", "why_tests_cant": "Unbounded distribution blow-up; handler aborts at arbitrary points.", "anchors": ["src/operations/transformations/cnf/factorization.rs", "src/handlers/factorization_handler.rs"]}
{"id": "C15", "title": "DNF by factorization is an equivalent DNF", "statement": "If DNF factorization returns a formula, that formula is in DNF and evaluates like the (constraint-free) input under every assignment.", "quantifier": "every formula, every handler limit, every assignment", "why_tests_cant": "Unbounded distribution blow-up.", "anchors": ["src/operations/transformations/dnf/factorization.rs"]}
{"id": "C16", "title": "is_cnf / is_nnf / is_dnf answers are exact", "statement": "The predicates is_cnf, is_nnf and is_dnf return true exactly for formulas of that syntactic form, also when the answer comes from the cache that the constructors fill.", "quantifier": "every formula, every factory history", "why_tests_cant": "The cache content depends on the whole history.", "anchors": ["src/operations/predicates/*.rs", "src/formulas/formula_factory.rs: and, or (is_cnf cache)"]}
{"id": "C17", "title": "Tseitin transformation preserves satisfying assignments", "statement": "An assignment satisfies the input iff it can be extended on the fresh variables to satisfy the Tseitin CNF, and this extension is unique on them; the result is in CNF.", "quantifier": "every formula, boundary and factory state, every assignment", "why_tests_cant": "Quantifies over all assignments of input and auxiliary variables.", "anchors": ["src/operations/transformations/cnf/tseitin.rs"]}
{"id": "C18", "title": "Plaisted-Greenbaum transformation preserves satisfying assignments", "statement": "An assignment satisfies the input iff it can be extended on the fresh variables to satisfy the Plaisted-Greenbaum CNF; the result is in CNF.", "quantifier": "every formula, boundary and factory state, every assignment", "why_tests_cant": "Quantifies over all assignments of input and auxiliary variables.", "anchors": ["src/operations/transformations/cnf/plaisted_greenbaum_on_formula.rs"]}
{"id": "C19", "title": "Operation caches are transparent", "statement": "Results of cached operations (nnf, cnf, dnf, predicates, encodings) satisfy the same specification whether caching is switched on or off and whatever was computed before.", "quantifier": "every cache configuration and every history of operations on the factory", "why_tests_cant": "Histories are unbounded and a stale entry shows only in special orders.", "anchors": ["src/formulas/formula_cache/formula_factory_caches.rs", "src/formulas/operation_cache.rs", "src/formulas/cache_config.rs"]}
{"id": "C20", "title": "Negating a constraint gives its complement", "statement": "negate of a cardinality or pseudo-Boolean constraint evaluates to the opposite truth value under every assignment, for all five comparators.", "quantifier": "every constraint, every assignment", "why_tests_cant": "Unbounded coefficients and literal counts, all five comparators.", "anchors": ["src/formulas/pbc_cc.rs: CardinalityConstraint::negate, PbConstraint::negate"]}
{"id": "C21", "title": "Normalizing a pseudo-Boolean constraint preserves its meaning", "statement": "normalize returns a formula that evaluates like the constraint under every assignment and is built from constants and constraints `sum <= rhs` with positive coefficients over distinct variables and rhs >= 0, as long as no 64-bit sum overflows.", "quantifier": "every pseudo-Boolean constraint whose coefficient sums fit 64 bits, every assignment", "why_tests_cant": "Unbounded coefficients; repeated and complementary literals interact.", "anchors": ["src/formulas/pbc_cc.rs: normalize, normalize_le, gcd"]}
{"id": "C22", "title": "Restricting a constraint agrees with evaluating it", "statement": "restrict of a cc / pbc by a partial assignment evaluates like the constraint under every extension of the partial assignment (including early true/false detection by min/max values).", "quantifier": "every constraint, every partial assignment, every extension", "why_tests_cant": "Boundary cases of the min/max classification need all integers.", "anchors": ["src/formulas/pbc_cc.rs: restrict, evaluate_coeffs"]}
{"id": "C23", "title": "At-most-one encodings are exact", "statement": "For every AMO algorithm (pure, ladder, product, nested, commander, binary, bimander) an assignment of the constraint's variables makes at most one of them true iff it can be extended on the fresh auxiliary variables to satisfy all generated clauses.", "quantifier": "every number of variables, every assignment, every admissible group size", "why_tests_cant": "Group boundaries depend on the number of variables; auxiliary assignments are exponentially many.", "anchors": ["src/cardinality_constraints/amo_*.rs", "src/cardinality_constraints/cc_encoder.rs: amo, exo"]}
{"id": "C24", "title": "At-most-k / at-least-k / exactly-k encodings are exact", "statement": "For every algorithm (totalizer, modular totalizer, cardinality network) an assignment satisfies the constraint iff it extends on the auxiliary variables to satisfy the generated clauses.", "quantifier": "every number of variables n, every bound k, every assignment", "why_tests_cant": "Unbounded recursion and sizes.", "anchors": ["src/cardinality_constraints/cc_totalizer.rs", "cc_modular_totalizer.rs", "cc_cardinality_networks.rs", "cc_sorter.rs", "cc_encoder.rs"]}
{"id": "C25", "title": "The encoder front end covers every comparator and trivial case", "statement": "CcEncoder::encode applied to any cardinality constraint (EQ, LT, LE, GT, GE, any rhs relative to n) yields clauses that are satisfiable by an extension of an assignment iff the assignment satisfies the constraint.", "quantifier": "every comparator, rhs, variable list and assignment", "why_tests_cant": "Boundary cases (rhs 0, n-1, n, > n) combine with five comparators and all algorithms.", "anchors": ["src/cardinality_constraints/cc_encoder.rs: encode_constraint, amo, amk, alk, exo, exk"]}
{"id": "C26", "title": "Incremental bounds", "statement": "After an incremental encoding of `<= k` (`>= k`), adding the clauses of new_upper_bound(k') (new_lower_bound(k')) for any tighter k' gives exactly the assignments satisfying the tightened constraint.", "quantifier": "every n, every k, every sequence of tightened bounds, every assignment", "why_tests_cant": "Histories of bound updates are unbounded.", "anchors": ["src/cardinality_constraints/cc_incremental_data.rs"]}
{"id": "C27", "title": "Pseudo-Boolean encodings are exact", "statement": "For every algorithm (SWC, binary merge, adder networks) an assignment satisfies a normalized pseudo-Boolean constraint iff it extends on the auxiliary variables to satisfy the generated clauses.", "quantifier": "every coefficient vector, rhs and assignment", "why_tests_cant": "Unbounded weights and lengths.", "anchors": ["src/pseudo_booleans/pb_encoder.rs", "pb_swc.rs", "pb_binary_merge.rs", "pb_adder_networks.rs"]}
{"id": "C28", "title": "variables / literals / operands reports are exact", "statement": "variables(formula) is exactly the set of variables whose atom occurs in the formula, literals(formula) the set of occurring literals, and evaluation depends only on those variables.", "quantifier": "every formula, every pair of assignments agreeing on its variables", "why_tests_cant": "Universal over formulas and assignments.", "anchors": ["src/operations/functions/*.rs"]}
{"id": "C29", "title": "Formula metrics are exact", "statement": "number_of_atoms, number_of_nodes, formula_depth and sub_nodes return the values given by the tree unfolding of the formula (as long as the true value fits the machine integer).", "quantifier": "every formula", "why_tests_cant": "Shared sub-formulas and caching; unbounded depth.", "anchors": ["src/operations/functions/*.rs"]}
{"id": "C30", "title": "Subsumption keeps the meaning", "statement": "cnf_subsumption (dnf_subsumption) returns an equivalent CNF (DNF) in which no clause (term) is a superset of another one.", "quantifier": "every CNF / DNF, every assignment", "why_tests_cant": "Set families are unbounded.", "anchors": ["src/operations/transformations/subsumption.rs", "src/datastructures/ubtree.rs"]}
{"id": "C31", "title": "UBTree subset queries are exact", "statement": "After any sequence of add_set calls, first_subset(s) finds a stored subset of s iff one exists and all_sets returns exactly the stored non-empty sets.", "quantifier": "every sequence of insertions and every query", "why_tests_cant": "Sequences and sets are unbounded.", "anchors": ["src/datastructures/ubtree.rs"]}
{"id": "C32", "title": "Printing and parsing are inverse", "statement": "Parsing the text printed for a formula gives back the same formula (handle), for formulas whose variable names are grammatical identifiers.", "quantifier": "every formula of every factory", "why_tests_cant": "Precedence and associativity mistakes occur only in particular nestings of unbounded depth.", "anchors": ["src/formulas/formula.rs: to_string, nary_to_string, precedence", "src/parser/lng_pseudo_boolean_parser.pest", "src/parser/pseudo_boolean_parser.rs"]}
{"id": "C33", "title": "SAT solver: answer True comes with a correct model", "statement": "If sat (with or without assumptions) returns True, the stored model satisfies every clause added so far and every assumption.", "quantifier": "every sequence of added clauses and solve calls, every branching, restart and clause deletion heuristic", "why_tests_cant": "All clause sets, all search histories.", "anchors": ["src/solver/sat/minisat2.rs: add_clause, solve, search, propagate, analyze"]}
{"id": "C34", "title": "SAT solver: answer False is correct", "statement": "If sat returns False, no assignment satisfies all added clauses (together with the assumptions); the reported conflict clause follows from the added clauses and contains only negated assumptions.", "quantifier": "every clause set, every assumption list, every heuristic", "why_tests_cant": "All clause sets, all search histories.", "anchors": ["src/solver/sat/minisat2.rs: search, analyze, simplify_clause, analyze_final"]}
{"id": "C35", "title": "Saving and loading solver states", "statement": "After load_state(save_state()) the solver answers exactly about the clauses present when the state was saved: later additions have no effect on answers, earlier ones all count.", "quantifier": "every interleaving of add, solve, save and load", "why_tests_cant": "All histories.", "anchors": ["src/solver/sat/minisat2.rs: save_state, load_state", "src/solver/minisat_solver.rs: save_state, load_state"]}
{"id": "C36", "title": "Model enumeration is complete and free of duplicates", "statement": "enumerate_models on a variable set returns, without duplicates, exactly the restrictions of the models to this set.", "quantifier": "every clause set, every projection set, every solver heuristic", "why_tests_cant": "Number of models is exponential.", "anchors": ["src/solver/functions/model_enumeration.rs"]}
{"id": "C37", "title": "Backbone is exact", "statement": "compute_backbone reports a variable as positive (negative) backbone iff it is true (false) in all models, optional otherwise, and unsat iff there is no model, for all three backbone types and settings.", "quantifier": "every clause set, variable list, backbone type and heuristic", "why_tests_cant": "Universal over all models of all clause sets.", "anchors": ["src/solver/sat/minisat2.rs: compute_backbone ff.", "src/solver/functions/backbone_function.rs"]}
{"id": "C38", "title": "Optimization is optimal", "statement": "maximize (minimize) returns a model in which the number of true target literals is maximal (minimal) among all models, and None iff there is no model.", "quantifier": "every clause set, every target literal list", "why_tests_cant": "Universal over all models.", "anchors": ["src/solver/functions/optimization_function.rs"]}
{"id": "C39", "title": "BDD operations compute the right Boolean function", "statement": "The BDD built for a formula, and the results of negation, apply, restrict, exists and forall evaluate to the corresponding Boolean function; equal functions get equal nodes (canonicity).", "quantifier": "every formula without constraints, every variable order, every operation sequence", "why_tests_cant": "All Boolean functions and cache states.", "anchors": ["src/knowledge_compilation/bdd/bdd_kernel.rs", "bdd_construction.rs", "bdd_main.rs"]}
{"id": "C40", "title": "BDD garbage collection keeps referenced BDDs", "statement": "Node garbage collection, resizing and cache clearing never change the function of a BDD the user still holds.", "quantifier": "every sequence of BDD operations, every node table size", "why_tests_cant": "GC happens at arbitrary points of arbitrary histories.", "anchors": ["src/knowledge_compilation/bdd/bdd_kernel.rs: gbc, node_resize, add_ref, del_ref", "bdd_main.rs"]}
{"id": "C41", "title": "BDD model count and enumeration", "statement": "model_count of a BDD equals the number of satisfying assignments over the kernel's variables, and model enumeration yields each satisfying assignment exactly once.", "quantifier": "every BDD", "why_tests_cant": "Exponentially many assignments.", "anchors": ["src/knowledge_compilation/bdd/bdd_operations.rs", "bdd_model_enumeration.rs"]}
{"id": "C42", "title": "DNNF model counting", "statement": "For a decomposable, deterministic NNF, the DNNF count equals the number of satisfying assignments over the given variables.", "quantifier": "every d-DNNF", "why_tests_cant": "Exponentially many assignments.", "anchors": ["src/knowledge_compilation/dnnf/dnnf_model_counting.rs"]}
{"id": "C43", "title": "Append-only vector under concurrency", "statement": "In every interleaving of concurrent push and index operations: each push returns a distinct index, an index below len() always reads the value whose push returned it, and values never change.", "quantifier": "every number of threads, every schedule", "why_tests_cant": "Schedules cannot be enumerated; races need specific interleavings.", "anchors": ["src/collections/append_vec.rs"]}
{"id": "C44", "title": "Concurrent get_or_insert is linearizable", "statement": "In every interleaving of threads inserting into one formula cache, equal keys get equal handles, different keys get different handles, and looking up a returned handle gives the key.", "quantifier": "every number of threads, every schedule", "why_tests_cant": "Schedules cannot be enumerated.", "anchors": ["src/formulas/formula_cache/*.rs: get_or_insert", "src/collections/append_vec.rs"]}
{"id": "C45", "title": "Assignment and model conversions", "statement": "Converting between Assignment and Model, computing literals and the blocking clause: the blocking clause is false exactly under assignments agreeing with the given one on the requested variables; conversion keeps the variable sets.", "quantifier": "every assignment, every variable set", "why_tests_cant": "Set-valued inputs are unbounded.", "anchors": ["src/datastructures/assignment.rs", "src/datastructures/model.rs"]}
{"id": "C46", "title": "Anonymization is an injective renaming", "statement": "Anonymizing formulas renames each variable to a fresh numbered name, equal variables equally and different variables differently, and the result evaluates like the original under the renamed assignment.", "quantifier": "every sequence of formulas given to one anonymizer", "why_tests_cant": "Histories of one anonymizer.", "anchors": ["src/operations/transformations/anonymizer.rs"]}
{"id": "C47", "title": "Pure expansion of AMO/EXO is equivalent", "statement": "pure_expansion replaces AMO and EXO constraints by their pairwise clauses and preserves evaluation under every assignment.", "quantifier": "every formula, every assignment", "why_tests_cant": "Unbounded constraints and nesting.", "anchors": ["src/operations/transformations/pure_expansion.rs"]}
{"id": "C48", "title": "The solver's variable heap", "statement": "After any sequence of heap operations the heap contains exactly the inserted-but-not-removed variables, its index table is consistent, and remove_min on a heap in heap order returns a minimal element.", "quantifier": "every sequence of heap operations and priority changes", "why_tests_cant": "Unbounded sequences.", "anchors": ["src/collections/lng_heap.rs"]}
{"id": "C49", "title": "Handler limits only abort", "statement": "A factorization handler with limits either aborts the computation (no result) or leaves the result unchanged, and it aborts as soon as more distributions or clauses than allowed were made.", "quantifier": "every formula and every limit", "why_tests_cant": "Abort points are arbitrary.", "anchors": ["src/handlers/factorization_handler.rs", "src/operations/transformations/cnf/factorization.rs"]}
{"id": "C50", "title": "DIMACS reading", "statement": "The clause produced for a well-formed DIMACS line is the disjunction of its literals; comment, problem and blank lines produce nothing.", "quantifier": "every well-formed line", "why_tests_cant": "Unbounded input text.", "anchors": ["src/io/readers/dimacs_reader.rs"]}
{"id": "C51", "title": "Written formulas are read back", "statement": "A formula written to a file is read back as the same handle, under the conditions of C32; a conjunction is written with one line per operand.", "quantifier": "every formula of every factory", "why_tests_cant": "Unbounded formulas; the reader splits the text at line ends, the writer must never produce one inside an operand.", "anchors": ["src/io/writers/formula_writer.rs", "src/io/readers/formula_reader.rs"]}
{"id": "C52", "title": "Formulas on the solver", "statement": "After adding formulas to a solver (with any CNF method, through MiniSat::add or add_proposition), the answer of sat, the model, the backbone and the enumerated models are those of the conjunction of the added formulas, as far as variables created by name are concerned; auxiliary variables and the caches of the Plaisted-Greenbaum transformation never leak into the answers, also with several solvers on one factory and after reset.", "quantifier": "every history of calls on a factory and its solvers, every formula and CNF method", "why_tests_cant": "The transformation on the solver keeps definitions per formula and polarity between calls; whether a clause that was left out because of a cache entry is really on the solver depends on the whole history.", "anchors": ["src/operations/transformations/cnf/plaisted_greenbaum_on_solver.rs", "src/solver/minisat_solver.rs"]}
{"id": "C53", "title": "Backbone simplification", "statement": "The result of the backbone simplification implies the formula and contains no other variables; for formulas over variables created by name it is equivalent to the formula, it is False for an unsatisfiable formula, and otherwise each variable with the same value in all models occurs in the result exactly once, as a literal. The simplification does not panic.", "quantifier": "every history of calls on a factory and its solvers, every formula, every behaviour of the solver's heuristics", "why_tests_cant": "The result depends on a solver run, on the auxiliary variables of the transformation and on cache entries of earlier calls.", "anchors": ["src/operations/transformations/simplification/backbone_simplification.rs", "src/backbones/mod.rs", "src/solver/functions/backbone_function.rs"]}
{"id": "C54", "title": "Satisfiability and tautology predicates", "statement": "is_sat answers True only for satisfiable formulas and False only for unsatisfiable ones, is_tautology answers True exactly for tautologies, for formulas over variables created by name; the cache of answers stays correct in every history.", "quantifier": "every history of calls on a factory and its solvers, every formula, every CNF algorithm of the factory", "why_tests_cant": "The answers are cached under handles and shared by both predicates; a wrong entry only shows in a later call.", "anchors": ["src/operations/predicates/sat.rs", "src/solver/minisat_solver.rs"]}
{"id": "C55", "title": "Compilation to DNNF", "statement": "The result of compile_dnnf is a deterministic decomposable negation normal form that is equivalent to the formula.", "quantifier": "every formula and every history of the factory; every run of the solver, in particular with clauses learnt while sub-results are cached", "why_tests_cant": "A wrong result needs a conflict inside a component that is compiled again later under another assignment; random CNFs and the counts of their compilations do not show it.", "anchors": ["src/knowledge_compilation/dnnf/dnnf_compiler.rs", "src/knowledge_compilation/dnnf/dnnf_sat_solver.rs", "src/knowledge_compilation/dnnf/dtree/dtree_factory.rs", "src/knowledge_compilation/dnnf/dtree/dtree_generator.rs"]}
{"id": "C56", "title": "Variable orderings for BDDs", "statement": "Each ordering lists every variable of the formula exactly once: depth first in reading order, breadth first level by level, by occurrences sorted by their number with ties in depth-first order; FORCE never panics and every result it returns is such a list (that it always returns is refuted).", "quantifier": "every formula and every history of the factory; every number of rounds of FORCE", "why_tests_cant": "Tests compare a few small formulas with expected lists; that FORCE alternates between two orderings depends on the rounding of floating-point quotients for particular hypergraphs.", "anchors": ["src/knowledge_compilation/bdd/orderings/dfs_ordering.rs", "src/knowledge_compilation/bdd/orderings/bfs_ordering.rs", "src/knowledge_compilation/bdd/orderings/occurrence_ordering.rs", "src/knowledge_compilation/bdd/orderings/force_ordering.rs", "src/graphs/hypergraph.rs", "src/graphs/hypergraph_generator.rs"]}
{"id": "C57", "title": "Model counting with a BDD", "statement": "count_models and count_models_with_vars with the BDD algorithm return, whenever the ordering FORCE ends, the number of models over the relevant variables: auxiliary variables of the clause form neither add nor remove models, and every relevant variable that does not occur doubles the count; a panic exactly if a variable of the formula is not relevant (that it always ends, and the count of a formula without variables over relevant variables, are refuted).", "quantifier": "every formula whose constraints the pure expansion can expand, every history of the factory, every superset of its variables, every kernel size", "why_tests_cant": "Tests count a few small formulas; that the fallback Tseitin encoding keeps the count is only visible for formulas whose factorization exceeds the limits, and the count then depends on every auxiliary variable being determined.", "anchors": ["src/operations/functions/model_count.rs", "src/knowledge_compilation/bdd/bdd_main.rs", "src/operations/transformations/cnf/advanced.rs"]}
{"id": "C58", "title": "Model counting of conjunctions", "statement": "count_models_conjunction and count_models_conjunction_with_vars with the BDD algorithm return, whenever the ordering FORCE ends, the number of models of the conjunction over the relevant variables: formulas that are literals may be removed and propagated into the others, contradicting literals give 0, and variables that disappear or do not occur double the count; a panic exactly if a variable of a formula is not relevant (the count of constants over relevant variables is refuted).", "quantifier": "every list of formulas whose constraints the pure expansion can expand, every history of the factory, every superset of their variables, every kernel size", "why_tests_cant": "The count depends on which variables the restriction and the final conjunction drop; tests count a few benchmark formulas in which literals rarely make variables vanish or contradict each other.", "anchors": ["src/operations/functions/model_count.rs", "src/operations/transformations/restriction.rs"]}
{"id": "C59", "title": "Sizes of the tables of a BDD kernel", "statement": "prime_gte and prime_lte end without a panic for every request from 2 to 2^31 - 1 and from 3 to 2^31, whatever random numbers are drawn; no odd prime between the request and the result is skipped, and results have none of the factors 3, 5, 7, 11, 13 unless they are that factor. A node table of 3 to 2^24 nodes really grows when it is resized (that results are always prime, and that primes above 2^31 are accepted, is refuted).", "quantifier": "every request in the range, every sequence of random numbers, every table size from 3 to 2^24", "why_tests_cant": "The test draws random numbers, so a run says nothing about other draws; a wrongly rejected prime only shows as a longer search, and two billion requests times all draws cannot be run.", "anchors": ["src/knowledge_compilation/bdd/bdd_prime.rs: prime_gte, prime_lte, is_prime, is_witness, number_of_bits, mulmod", "src/knowledge_compilation/bdd/bdd_kernel.rs: new_with_num_vars, node_resize"]}
{"id": "C60", "title": "Model counting by compilation to DNNF", "statement": "count_models_with_vars with the DNNF algorithm returns the number of assignments of the relevant variables that satisfy the formula: clause form, backbone simplification, subsumption and compilation keep the models, and the count of the compiled formula takes variables that have disappeared into account. It panics if the formula has a variable that is not relevant (for formulas without variables the claim is refuted: verum counts 1 over any relevant variables).", "quantifier": "every formula, every set of relevant variables, every history of the factory, every order of hash sets and every choice of the solvers", "why_tests_cant": "The count is right for many formulas even when the compiled formula is wrong (errors cancel), and every variable that the simplification removes has to be counted again; benchmark formulas show few of these interactions.", "anchors": ["src/operations/functions/model_count.rs: count_models, count_formula", "src/knowledge_compilation/dnnf/dnnf_compiler.rs: compile_dnnf", "src/knowledge_compilation/dnnf/dnnf_model_counting.rs"]}
{"id": "C61", "title": "Hashes of sets of operands", "statement": "The hash of a set of operands with SimpleHashAdder is the sum of the operands' hashes modulo 2^64; it does not depend on the order in which the hash set is iterated, and equal sets have equal hashes. Therefore the reverse maps of the n-ary caches find a set again exactly if an equal set has been inserted, in every order, for every hash function of operands, also after the table has been resized (that HashableFormulaSet does so with other hashers is refuted).", "quantifier": "every sequence of insertions, every hash function of operands, every iteration order, every assignment of hashes to slots", "why_tests_cant": "HashSet iterates in an order that is random per process and hash collisions depend on it; a hash that depends on the order makes formulas occur twice only in some runs.", "anchors": ["src/formulas/formula_cache/hashable_formula_set.rs", "src/formulas/formula_cache/nary_formula_cache.rs: get_or_insert"]}
{"id": "C62", "title": "The n-queens generator", "statement": "For every board size n >= 1 (below 2^30) generate_n_queens returns a formula whose models are, up to auxiliary variables, exactly the placements of queens with one queen in each row and each column and no two queens on a diagonal; the variable of row i, column j is named v followed by i*n+j+1. No index is out of bounds. For n = 0 the subtraction n - 1 underflows.", "quantifier": "every board size, every reachable factory with the configuration of the generator, every valuation", "why_tests_cant": "A diagonal that is missing or cut short matters only for boards of a certain size and shape; tests count the models of a few sizes.", "anchors": ["src/util/n_queens_generator.rs: generate_n_queens, generate_vars"]}
{"id": "C63", "title": "Parsing is a history of constructor calls", "statement": "For every text whose names are not reserved names of this factory and whose right-hand sides are below 2^32: if parsing it (or reading a file of such lines) succeeds, the factory is in a state that the constructors could have reached, every handle of the caller is still known, and the result is known too. Hence all theorems about reachable factories apply to parsed formulas. A syntax error leaves the factory unchanged.", "quantifier": "every text, every reachable factory (also after operations with caches, encoders and anonymizers)", "why_tests_cant": "The parser calls the constructors in nestings and orders that depend on the text; tests parse a few texts into small factories.", "anchors": ["src/parser/pseudo_boolean_parser.rs", "src/io/readers/formula_reader.rs: read_formula"]}
{"id": "C64", "title": "Anonymising files", "statement": "The file written by anonymize_file is the text of the formula of the read file with its variables renamed: different variables get different names, each the prefix and a number; with a kept anonymizer earlier renamings are kept. That reading the written file gives a renaming of the original formula is refuted (nested implications).", "quantifier": "every file contents without reserved names and with right-hand sides below 2^32, every prefix, every reachable factory and anonymizer", "why_tests_cant": "The names in the file can collide with names the anonymizer chooses, depending on the order of the variables; tests use a few files.", "anchors": ["src/util/file_anonymizer.rs: anonymize_file, anonymize_file_with_anonymizer"]}
{"id": "C65", "title": "Stored formulas are found again", "statement": "After any history, calling the constructor of a known conjunction, disjunction, implication or equivalence with its operands returns the same handle and leaves the factory unchanged. Its printed text is parsed, and its written file is read, to the same handle, without a change of the factory (for formulas whose implications and equivalences are nested to the right, with proper names and numbers).", "quantifier": "every history of constructor calls, restrictions, substitutions, normal forms, pure expansion, CNF encoders with kept state, and anonymizers; every known formula", "why_tests_cant": "An operation that stores a formula the constructors would simplify is noticed only when that formula is built again; tests print and parse formulas that were built by the constructors.", "anchors": ["src/formulas/formula_factory.rs: and, or, implication, equivalence", "src/parser/pseudo_boolean_parser.rs", "src/io/readers/formula_reader.rs", "src/operations/transformations/restriction.rs"]}
