#!/usr/bin/env python3
# Writes /verif/properties.jsonl.  One entry per property: id, title, statement, quantifier, why_tests_cant, anchors.
import json, os
P = []
def p(id, title, statement, quantifier, why, anchors):
    P.append(dict(id=id, title=title, statement=statement, quantifier=quantifier, why_tests_cant=why, anchors=anchors))

p("C01", "Formula handles decode to what was encoded",
  "An EncodedFormula packs an index, a formula type and a cache flag into one integer. For every index below 2^58, every encodable type and either flag, unpacking the handle returns exactly that index, type and flag, and two different (index, type, flag) triples of non-constant type never share a handle. If the index is below 2^26 the 32-bit form loses nothing.",
  "every index < 2^58 (2^26 for the 32-bit form), every encodable formula type, both cache flags",
  "2^58 indices times 17 types cannot be enumerated; an off-by-one in a shift or mask only shows at a boundary.",
  ["src/formulas/formula_cache/formula_encoding.rs: FormulaEncoding::encode, index, formula_type, is_large, as_32, SmallFormulaEncoding"])
p("C02", "Constructors mean what their names say",
  "Evaluating the formula returned by and / or / not / negate / implication / equivalence / constant / clause under any assignment gives the Boolean combination (conjunction, disjunction, complement, ...) of the evaluations of the operands, whatever simplification (flattening, duplicate or constant removal, complement detection) the factory performed.",
  "every factory history, every list of operand handles of that factory, every assignment",
  "Simplification depends on the operands, on their order and on what is already cached in the factory; the combinations are unbounded.",
  ["src/formulas/formula_factory.rs: and, or, clause, not, negate, implication, equivalence, filter_flatten, contains_complement"])
p("C03", "Constraint constructors mean what their names say",
  "Evaluating the formula returned by pbc(cmp, rhs, lits, coeffs) or cc(cmp, rhs, vars) (also amo, exo) under an assignment compares the weighted sum of true literals with rhs by cmp, including the empty and the trivially decided cases and the cases where pbc is turned into a cc.",
  "every comparator, right-hand side, literal and coefficient list, every factory history and assignment",
  "Right-hand side, coefficients and number of literals are unbounded and interact with integer width.",
  ["src/formulas/formula_factory.rs: cc, pbc, construct_cc_unsafe, is_lit_cc, is_cc, evaluate_trivial_pb_constraint", "src/formulas/pbc_cc.rs: evaluate"])
p("C04", "The documented factory invariants hold for every formula",
  "Every formula reachable from a factory has: no constant as operand of any other formula, no conjunction directly inside a conjunction (same for disjunctions), a negation only over binary / n-ary / constraint formulas, at least two and pairwise distinct operands in an n-ary formula, and no operand together with its negation in one n-ary formula.",
  "every sequence of factory calls and every formula reachable after it",
  "It is an invariant over all histories of the factory.",
  ["src/formulas/formula_factory.rs:83-110 (documented invariants), and, or, not, implication, equivalence, filter_flatten"])
p("C05", "Hash consing: equal formulas have equal handles",
  "Within one factory, two handles that unfold to the same formula up to the order of n-ary operands and of equivalence sides are the same handle; building the same formula again returns the old handle and adds no node.",
  "every factory history, every pair of handles",
  "Uniqueness is a global invariant relating all cache tables after arbitrary histories.",
  ["src/formulas/formula_cache/*.rs: get_or_insert", "src/formulas/formula_factory.rs"])
p("C06", "Formulas are immutable",
  "A handle returned once keeps denoting the same formula (same operands in the same order, same names, same evaluation) no matter which factory operations are executed later.",
  "every handle and every later sequence of factory operations",
  "The later sequence is arbitrary.",
  ["src/formulas/formula_cache/*.rs", "src/collections/append_vec.rs", "src/formulas/formula_factory.rs"])
p("C07", "Variables are identified by name",
  "variable(n1) and variable(n2) return the same handle exactly if n1 = n2, and the name of variable(n) is n, in every factory state.",
  "all names, all factory histories",
  "Interaction with arbitrary earlier insertions.",
  ["src/formulas/formula_cache/var_cache.rs", "src/formulas/formula_factory.rs: variable, var, literal"])
p("C08", "Auxiliary variables are fresh",
  "Every auxiliary variable created by the factory (for CNF, cardinality and pseudo-Boolean encodings) differs from every auxiliary variable created before and from every user variable.",
  "every history of factory operations",
  "Freshness is a property of the whole history.",
  ["src/formulas/formula_factory.rs: new_auxiliary_variable, new_cnf_variable, new_cc_variable, new_pb_variable", "src/formulas/variable.rs"])
p("C09", "evaluate implements propositional semantics",
  "evaluate(formula, assignment) terminates and returns the truth value of the formula under the total valuation in which exactly the positive variables of the assignment are true.",
  "every formula of every factory, every consistent assignment",
  "Formulas are of unbounded depth and shape.",
  ["src/formulas/formula_factory.rs: evaluate", "src/datastructures/assignment.rs: evaluate_lit"])
p("C10", "restrict agrees with evaluation",
  "For every total extension of a partial assignment, the restricted formula evaluates like the original formula, and the restricted formula no longer contains any assigned variable.",
  "every formula, every partial assignment and every total extension of it",
  "Exponentially many extensions, unbounded formulas, caches in between.",
  ["src/operations/transformations/restriction.rs", "src/formulas/pbc_cc.rs: restrict", "src/datastructures/assignment.rs: restrict_lit"])
p("C11", "Substitution lemma",
  "Evaluating substitute(formula, {v -> g, ...}) under an assignment equals evaluating the formula under the assignment in which each substituted v has the value of its g (all replacements simultaneous).",
  "every formula, every substitution into formulas of the factory, every assignment",
  "Unbounded formulas and substitutions; variable capture-like mistakes appear only in particular combinations.",
  ["src/operations/transformations/substitution.rs"])
p("C12", "nnf preserves meaning and yields negation normal form",
  "For a formula without cardinality or pseudo-Boolean constraints, nnf_of returns an equivalent formula built from literals, constants, conjunctions and disjunctions only.",
  "every constraint-free formula in every factory state (including any cached intermediate results)",
  "Unbounded formulas and cache states.",
  ["src/operations/transformations/nnf/mod.rs: nnf, nnf_rec"])
p("C13", "nnf with constraints is equivalent up to auxiliary variables",
  "For a formula with constraints, an assignment satisfies the formula iff it can be extended on the fresh auxiliary variables to an assignment satisfying nnf_of(formula).",
  "every formula, every factory state, every assignment",
  "Involves an existential over exponentially many auxiliary assignments.",
  ["src/operations/transformations/nnf/mod.rs", "src/formulas/pbc_cc.rs: encode", "src/cardinality_constraints", "src/pseudo_booleans"])
p("C14", "CNF by factorization is an equivalent CNF",
  "If CNF factorization returns a formula, that formula is in CNF and evaluates like the (constraint-free) input under every assignment; the handler can only abort, never change the result.",
  "every formula, every handler limit, every assignment",
  "Unbounded distribution blow-up; handler aborts at arbitrary points.",
  ["src/operations/transformations/cnf/factorization.rs", "src/handlers/factorization_handler.rs"])
p("C15", "DNF by factorization is an equivalent DNF",
  "If DNF factorization returns a formula, that formula is in DNF and evaluates like the (constraint-free) input under every assignment.",
  "every formula, every handler limit, every assignment",
  "Unbounded distribution blow-up.",
  ["src/operations/transformations/dnf/factorization.rs"])
p("C16", "is_cnf / is_nnf / is_dnf answers are exact",
  "The predicates is_cnf, is_nnf and is_dnf return true exactly for formulas of that syntactic form, also when the answer comes from the cache that the constructors fill.",
  "every formula, every factory history",
  "The cache content depends on the whole history.",
  ["src/operations/predicates/*.rs", "src/formulas/formula_factory.rs: and, or (is_cnf cache)"])
p("C17", "Tseitin transformation preserves satisfying assignments",
  "An assignment satisfies the input iff it can be extended on the fresh variables to satisfy the Tseitin CNF, and this extension is unique on them; the result is in CNF.",
  "every formula, boundary and factory state, every assignment",
  "Quantifies over all assignments of input and auxiliary variables.",
  ["src/operations/transformations/cnf/tseitin.rs"])
p("C18", "Plaisted-Greenbaum transformation preserves satisfying assignments",
  "An assignment satisfies the input iff it can be extended on the fresh variables to satisfy the Plaisted-Greenbaum CNF; the result is in CNF.",
  "every formula, boundary and factory state, every assignment",
  "Quantifies over all assignments of input and auxiliary variables.",
  ["src/operations/transformations/cnf/plaisted_greenbaum_on_formula.rs"])
p("C19", "Operation caches are transparent",
  "Results of cached operations (nnf, cnf, dnf, predicates, encodings) satisfy the same specification whether caching is switched on or off and whatever was computed before.",
  "every cache configuration and every history of operations on the factory",
  "Histories are unbounded and a stale entry shows only in special orders.",
  ["src/formulas/formula_cache/formula_factory_caches.rs", "src/formulas/operation_cache.rs", "src/formulas/cache_config.rs"])
p("C20", "Negating a constraint gives its complement",
  "negate of a cardinality or pseudo-Boolean constraint evaluates to the opposite truth value under every assignment, for all five comparators.",
  "every constraint, every assignment",
  "Unbounded coefficients and literal counts, all five comparators.",
  ["src/formulas/pbc_cc.rs: CardinalityConstraint::negate, PbConstraint::negate"])
p("C21", "Normalizing a pseudo-Boolean constraint preserves its meaning",
  "normalize returns a formula that evaluates like the constraint under every assignment and is built from constants and constraints `sum <= rhs` with positive coefficients over distinct variables and rhs >= 0, as long as no 64-bit sum overflows.",
  "every pseudo-Boolean constraint whose coefficient sums fit 64 bits, every assignment",
  "Unbounded coefficients; repeated and complementary literals interact.",
  ["src/formulas/pbc_cc.rs: normalize, normalize_le, gcd"])
p("C22", "Restricting a constraint agrees with evaluating it",
  "restrict of a cc / pbc by a partial assignment evaluates like the constraint under every extension of the partial assignment (including early true/false detection by min/max values).",
  "every constraint, every partial assignment, every extension",
  "Boundary cases of the min/max classification need all integers.",
  ["src/formulas/pbc_cc.rs: restrict, evaluate_coeffs"])
p("C23", "At-most-one encodings are exact",
  "For every AMO algorithm (pure, ladder, product, nested, commander, binary, bimander) an assignment of the constraint's variables makes at most one of them true iff it can be extended on the fresh auxiliary variables to satisfy all generated clauses.",
  "every number of variables, every assignment, every admissible group size",
  "Group boundaries depend on the number of variables; auxiliary assignments are exponentially many.",
  ["src/cardinality_constraints/amo_*.rs", "src/cardinality_constraints/cc_encoder.rs: amo, exo"])
p("C24", "At-most-k / at-least-k / exactly-k encodings are exact",
  "For every algorithm (totalizer, modular totalizer, cardinality network) an assignment satisfies the constraint iff it extends on the auxiliary variables to satisfy the generated clauses.",
  "every number of variables n, every bound k, every assignment",
  "Unbounded recursion and sizes.",
  ["src/cardinality_constraints/cc_totalizer.rs", "cc_modular_totalizer.rs", "cc_cardinality_networks.rs", "cc_sorter.rs", "cc_encoder.rs"])
p("C25", "The encoder front end covers every comparator and trivial case",
  "CcEncoder::encode applied to any cardinality constraint (EQ, LT, LE, GT, GE, any rhs relative to n) yields clauses that are satisfiable by an extension of an assignment iff the assignment satisfies the constraint.",
  "every comparator, rhs, variable list and assignment",
  "Boundary cases (rhs 0, n-1, n, > n) combine with five comparators and all algorithms.",
  ["src/cardinality_constraints/cc_encoder.rs: encode_constraint, amo, amk, alk, exo, exk"])
p("C26", "Incremental bounds",
  "After an incremental encoding of `<= k` (`>= k`), adding the clauses of new_upper_bound(k') (new_lower_bound(k')) for any tighter k' gives exactly the assignments satisfying the tightened constraint.",
  "every n, every k, every sequence of tightened bounds, every assignment",
  "Histories of bound updates are unbounded.",
  ["src/cardinality_constraints/cc_incremental_data.rs"])
p("C27", "Pseudo-Boolean encodings are exact",
  "For every algorithm (SWC, binary merge, adder networks) an assignment satisfies a normalized pseudo-Boolean constraint iff it extends on the auxiliary variables to satisfy the generated clauses.",
  "every coefficient vector, rhs and assignment",
  "Unbounded weights and lengths.",
  ["src/pseudo_booleans/pb_encoder.rs", "pb_swc.rs", "pb_binary_merge.rs", "pb_adder_networks.rs"])
p("C28", "variables / literals / operands reports are exact",
  "variables(formula) is exactly the set of variables whose atom occurs in the formula, literals(formula) the set of occurring literals, and evaluation depends only on those variables.",
  "every formula, every pair of assignments agreeing on its variables",
  "Universal over formulas and assignments.",
  ["src/operations/functions/*.rs"])
p("C29", "Formula metrics are exact",
  "number_of_atoms, number_of_nodes, formula_depth and sub_nodes return the values given by the tree unfolding of the formula (as long as the true value fits the machine integer).",
  "every formula",
  "Shared sub-formulas and caching; unbounded depth.",
  ["src/operations/functions/*.rs"])
p("C30", "Subsumption keeps the meaning",
  "cnf_subsumption (dnf_subsumption) returns an equivalent CNF (DNF) in which no clause (term) is a superset of another one.",
  "every CNF / DNF, every assignment",
  "Set families are unbounded.",
  ["src/operations/transformations/subsumption.rs", "src/datastructures/ubtree.rs"])
p("C31", "UBTree subset queries are exact",
  "After any sequence of add_set calls, first_subset(s) finds a stored subset of s iff one exists and all_sets returns exactly the stored non-empty sets.",
  "every sequence of insertions and every query",
  "Sequences and sets are unbounded.",
  ["src/datastructures/ubtree.rs"])
p("C32", "Printing and parsing are inverse",
  "Parsing the text printed for a formula gives back the same formula (handle), for formulas whose variable names are grammatical identifiers.",
  "every formula of every factory",
  "Precedence and associativity mistakes occur only in particular nestings of unbounded depth.",
  ["src/formulas/formula.rs: to_string, nary_to_string, precedence", "src/parser/lng_pseudo_boolean_parser.pest", "src/parser/pseudo_boolean_parser.rs"])
p("C33", "SAT solver: answer True comes with a correct model",
  "If sat (with or without assumptions) returns True, the stored model satisfies every clause added so far and every assumption.",
  "every sequence of added clauses and solve calls, every branching, restart and clause deletion heuristic",
  "All clause sets, all search histories.",
  ["src/solver/sat/minisat2.rs: add_clause, solve, search, propagate, analyze"])
p("C34", "SAT solver: answer False is correct",
  "If sat returns False, no assignment satisfies all added clauses (together with the assumptions); the reported conflict clause follows from the added clauses and contains only negated assumptions.",
  "every clause set, every assumption list, every heuristic",
  "All clause sets, all search histories.",
  ["src/solver/sat/minisat2.rs: search, analyze, simplify_clause, analyze_final"])
p("C35", "Saving and loading solver states",
  "After load_state(save_state()) the solver answers exactly about the clauses present when the state was saved: later additions have no effect on answers, earlier ones all count.",
  "every interleaving of add, solve, save and load",
  "All histories.",
  ["src/solver/sat/minisat2.rs: save_state, load_state", "src/solver/minisat_solver.rs: save_state, load_state"])
p("C36", "Model enumeration is complete and free of duplicates",
  "enumerate_models on a variable set returns, without duplicates, exactly the restrictions of the models to this set.",
  "every clause set, every projection set, every solver heuristic",
  "Number of models is exponential.",
  ["src/solver/functions/model_enumeration.rs"])
p("C37", "Backbone is exact",
  "compute_backbone reports a variable as positive (negative) backbone iff it is true (false) in all models, optional otherwise, and unsat iff there is no model, for all three backbone types and settings.",
  "every clause set, variable list, backbone type and heuristic",
  "Universal over all models of all clause sets.",
  ["src/solver/sat/minisat2.rs: compute_backbone ff.", "src/solver/functions/backbone_function.rs"])
p("C38", "Optimization is optimal",
  "maximize (minimize) returns a model in which the number of true target literals is maximal (minimal) among all models, and None iff there is no model.",
  "every clause set, every target literal list",
  "Universal over all models.",
  ["src/solver/functions/optimization_function.rs"])
p("C39", "BDD operations compute the right Boolean function",
  "The BDD built for a formula, and the results of negation, apply, restrict, exists and forall evaluate to the corresponding Boolean function; equal functions get equal nodes (canonicity).",
  "every formula without constraints, every variable order, every operation sequence",
  "All Boolean functions and cache states.",
  ["src/knowledge_compilation/bdd/bdd_kernel.rs", "bdd_construction.rs", "bdd_main.rs"])
p("C40", "BDD garbage collection keeps referenced BDDs",
  "Node garbage collection, resizing and cache clearing never change the function of a BDD the user still holds.",
  "every sequence of BDD operations, every node table size",
  "GC happens at arbitrary points of arbitrary histories.",
  ["src/knowledge_compilation/bdd/bdd_kernel.rs: gbc, node_resize, add_ref, del_ref", "bdd_main.rs"])
p("C41", "BDD model count and enumeration",
  "model_count of a BDD equals the number of satisfying assignments over the kernel's variables, and model enumeration yields each satisfying assignment exactly once.",
  "every BDD",
  "Exponentially many assignments.",
  ["src/knowledge_compilation/bdd/bdd_operations.rs", "bdd_model_enumeration.rs"])
p("C42", "DNNF model counting",
  "For a decomposable, deterministic NNF, the DNNF count equals the number of satisfying assignments over the given variables.",
  "every d-DNNF",
  "Exponentially many assignments.",
  ["src/knowledge_compilation/dnnf/dnnf_model_counting.rs"])
p("C43", "Append-only vector under concurrency",
  "In every interleaving of concurrent push and index operations: each push returns a distinct index, an index below len() always reads the value whose push returned it, and values never change.",
  "every number of threads, every schedule",
  "Schedules cannot be enumerated; races need specific interleavings.",
  ["src/collections/append_vec.rs"])
p("C44", "Concurrent get_or_insert is linearizable",
  "In every interleaving of threads inserting into one formula cache, equal keys get equal handles, different keys get different handles, and looking up a returned handle gives the key.",
  "every number of threads, every schedule",
  "Schedules cannot be enumerated.",
  ["src/formulas/formula_cache/*.rs: get_or_insert", "src/collections/append_vec.rs"])
p("C45", "Assignment and model conversions",
  "Converting between Assignment and Model, computing literals and the blocking clause: the blocking clause is false exactly under assignments agreeing with the given one on the requested variables; conversion keeps the variable sets.",
  "every assignment, every variable set",
  "Set-valued inputs are unbounded.",
  ["src/datastructures/assignment.rs", "src/datastructures/model.rs"])
p("C46", "Anonymization is an injective renaming",
  "Anonymizing formulas renames each variable to a fresh numbered name, equal variables equally and different variables differently, and the result evaluates like the original under the renamed assignment.",
  "every sequence of formulas given to one anonymizer",
  "Histories of one anonymizer.",
  ["src/operations/transformations/anonymizer.rs"])
p("C47", "Pure expansion of AMO/EXO is equivalent",
  "pure_expansion replaces AMO and EXO constraints by their pairwise clauses and preserves evaluation under every assignment.",
  "every formula, every assignment",
  "Unbounded constraints and nesting.",
  ["src/operations/transformations/pure_expansion.rs"])
p("C48", "The solver's variable heap",
  "After any sequence of heap operations the heap contains exactly the inserted-but-not-removed variables, its index table is consistent, and remove_min on a heap in heap order returns a minimal element.",
  "every sequence of heap operations and priority changes",
  "Unbounded sequences.",
  ["src/collections/lng_heap.rs"])
p("C49", "Handler limits only abort",
  "A factorization handler with limits either aborts the computation (no result) or leaves the result unchanged, and it aborts as soon as more distributions or clauses than allowed were made.",
  "every formula and every limit",
  "Abort points are arbitrary.",
  ["src/handlers/factorization_handler.rs", "src/operations/transformations/cnf/factorization.rs"])
p("C50", "DIMACS reading",
  "The clause produced for a well-formed DIMACS line is the disjunction of its literals; comment, problem and blank lines produce nothing.",
  "every well-formed line",
  "Unbounded input text.",
  ["src/io/readers/dimacs_reader.rs"])
p("C51", "Written formulas are read back",
  "A formula written to a file is read back as the same handle, under the conditions of C32; a conjunction is written with one line per operand.",
  "every formula of every factory",
  "Unbounded formulas; the reader splits the text at line ends, the writer must never produce one inside an operand.",
  ["src/io/writers/formula_writer.rs", "src/io/readers/formula_reader.rs"])
p("C52", "Formulas on the solver",
  "After adding formulas to a solver (with any CNF method, through MiniSat::add or add_proposition), the answer of sat, the model, the backbone and the enumerated models are those of the conjunction of the added formulas, as far as variables created by name are concerned; auxiliary variables and the caches of the Plaisted-Greenbaum transformation never leak into the answers, also with several solvers on one factory and after reset.",
  "every history of calls on a factory and its solvers, every formula and CNF method",
  "The transformation on the solver keeps definitions per formula and polarity between calls; whether a clause that was left out because of a cache entry is really on the solver depends on the whole history.",
  ["src/operations/transformations/cnf/plaisted_greenbaum_on_solver.rs", "src/solver/minisat_solver.rs"])
p("C53", "Backbone simplification",
  "The result of the backbone simplification implies the formula and contains no other variables; for formulas over variables created by name it is equivalent to the formula, it is False for an unsatisfiable formula, and otherwise each variable with the same value in all models occurs in the result exactly once, as a literal. The simplification does not panic.",
  "every history of calls on a factory and its solvers, every formula, every behaviour of the solver's heuristics",
  "The result depends on a solver run, on the auxiliary variables of the transformation and on cache entries of earlier calls.",
  ["src/operations/transformations/simplification/backbone_simplification.rs", "src/backbones/mod.rs", "src/solver/functions/backbone_function.rs"])
p("C54", "Satisfiability and tautology predicates",
  "is_sat answers True only for satisfiable formulas and False only for unsatisfiable ones, is_tautology answers True exactly for tautologies, for formulas over variables created by name; the cache of answers stays correct in every history.",
  "every history of calls on a factory and its solvers, every formula, every CNF algorithm of the factory",
  "The answers are cached under handles and shared by both predicates; a wrong entry only shows in a later call.",
  ["src/operations/predicates/sat.rs", "src/solver/minisat_solver.rs"])
p("C55", "Compilation to DNNF",
  "The result of compile_dnnf is a deterministic decomposable negation normal form that is equivalent to the formula.",
  "every formula and every history of the factory; every run of the solver, in particular with clauses learnt while sub-results are cached",
  "A wrong result needs a conflict inside a component that is compiled again later under another assignment; random CNFs and the counts of their compilations do not show it.",
  ["src/knowledge_compilation/dnnf/dnnf_compiler.rs", "src/knowledge_compilation/dnnf/dnnf_sat_solver.rs", "src/knowledge_compilation/dnnf/dtree/dtree_factory.rs", "src/knowledge_compilation/dnnf/dtree/dtree_generator.rs"])
p("C56", "Variable orderings for BDDs",
  "Each ordering lists every variable of the formula exactly once: depth first in reading order, breadth first level by level, by occurrences sorted by their number with ties in depth-first order; FORCE never panics and every result it returns is such a list (that it always returns is refuted).",
  "every formula and every history of the factory; every number of rounds of FORCE",
  "Tests compare a few small formulas with expected lists; that FORCE alternates between two orderings depends on the rounding of floating-point quotients for particular hypergraphs.",
  ["src/knowledge_compilation/bdd/orderings/dfs_ordering.rs", "src/knowledge_compilation/bdd/orderings/bfs_ordering.rs", "src/knowledge_compilation/bdd/orderings/occurrence_ordering.rs", "src/knowledge_compilation/bdd/orderings/force_ordering.rs", "src/graphs/hypergraph.rs", "src/graphs/hypergraph_generator.rs"])
p("C57", "Model counting with a BDD",
  "count_models and count_models_with_vars with the BDD algorithm return, whenever the ordering FORCE ends, the number of models over the relevant variables: auxiliary variables of the clause form neither add nor remove models, and every relevant variable that does not occur doubles the count; a panic exactly if a variable of the formula is not relevant (that it always ends, and the count of a formula without variables over relevant variables, are refuted).",
  "every formula whose constraints the pure expansion can expand, every history of the factory, every superset of its variables, every kernel size",
  "Tests count a few small formulas; that the fallback Tseitin encoding keeps the count is only visible for formulas whose factorization exceeds the limits, and the count then depends on every auxiliary variable being determined.",
  ["src/operations/functions/model_count.rs", "src/knowledge_compilation/bdd/bdd_main.rs", "src/operations/transformations/cnf/advanced.rs"])
p("C58", "Model counting of conjunctions",
  "count_models_conjunction and count_models_conjunction_with_vars with the BDD algorithm return, whenever the ordering FORCE ends, the number of models of the conjunction over the relevant variables: formulas that are literals may be removed and propagated into the others, contradicting literals give 0, and variables that disappear or do not occur double the count; a panic exactly if a variable of a formula is not relevant (the count of constants over relevant variables is refuted).",
  "every list of formulas whose constraints the pure expansion can expand, every history of the factory, every superset of their variables, every kernel size",
  "The count depends on which variables the restriction and the final conjunction drop; tests count a few benchmark formulas in which literals rarely make variables vanish or contradict each other.",
  ["src/operations/functions/model_count.rs", "src/operations/transformations/restriction.rs"])
p("C59", "Sizes of the tables of a BDD kernel",
  "prime_gte and prime_lte end without a panic for every request from 2 to 2^31 - 1 and from 3 to 2^31, whatever random numbers are drawn; no odd prime between the request and the result is skipped, and results have none of the factors 3, 5, 7, 11, 13 unless they are that factor. A node table of 3 to 2^24 nodes really grows when it is resized (that results are always prime, and that primes above 2^31 are accepted, is refuted).",
  "every request in the range, every sequence of random numbers, every table size from 3 to 2^24",
  "The test draws random numbers, so a run says nothing about other draws; a wrongly rejected prime only shows as a longer search, and two billion requests times all draws cannot be run.",
  ["src/knowledge_compilation/bdd/bdd_prime.rs: prime_gte, prime_lte, is_prime, is_witness, number_of_bits, mulmod", "src/knowledge_compilation/bdd/bdd_kernel.rs: new_with_num_vars, node_resize"])
p("C60", "Model counting by compilation to DNNF",
  "count_models_with_vars with the DNNF algorithm returns the number of assignments of the relevant variables that satisfy the formula: clause form, backbone simplification, subsumption and compilation keep the models, and the count of the compiled formula takes variables that have disappeared into account. It panics if the formula has a variable that is not relevant (for formulas without variables the claim is refuted: verum counts 1 over any relevant variables).",
  "every formula, every set of relevant variables, every history of the factory, every order of hash sets and every choice of the solvers",
  "The count is right for many formulas even when the compiled formula is wrong (errors cancel), and every variable that the simplification removes has to be counted again; benchmark formulas show few of these interactions.",
  ["src/operations/functions/model_count.rs: count_models, count_formula", "src/knowledge_compilation/dnnf/dnnf_compiler.rs: compile_dnnf", "src/knowledge_compilation/dnnf/dnnf_model_counting.rs"])
p("C61", "Hashes of sets of operands",
  "The hash of a set of operands with SimpleHashAdder is the sum of the operands' hashes modulo 2^64; it does not depend on the order in which the hash set is iterated, and equal sets have equal hashes. Therefore the reverse maps of the n-ary caches find a set again exactly if an equal set has been inserted, in every order, for every hash function of operands, also after the table has been resized (that HashableFormulaSet does so with other hashers is refuted).",
  "every sequence of insertions, every hash function of operands, every iteration order, every assignment of hashes to slots",
  "HashSet iterates in an order that is random per process and hash collisions depend on it; a hash that depends on the order makes formulas occur twice only in some runs.",
  ["src/formulas/formula_cache/hashable_formula_set.rs", "src/formulas/formula_cache/nary_formula_cache.rs: get_or_insert"])
p("C62", "The n-queens generator",
  "For every board size n >= 1 (below 2^30) generate_n_queens returns a formula whose models are, up to auxiliary variables, exactly the placements of queens with one queen in each row and each column and no two queens on a diagonal; the variable of row i, column j is named v followed by i*n+j+1. No index is out of bounds. For n = 0 the subtraction n - 1 underflows.",
  "every board size, every reachable factory with the configuration of the generator, every valuation",
  "A diagonal that is missing or cut short matters only for boards of a certain size and shape; tests count the models of a few sizes.",
  ["src/util/n_queens_generator.rs: generate_n_queens, generate_vars"])
p("C63", "Parsing is a history of constructor calls",
  "For every text whose names are not reserved names of this factory and whose right-hand sides are below 2^32: if parsing it (or reading a file of such lines) succeeds, the factory is in a state that the constructors could have reached, every handle of the caller is still known, and the result is known too. Hence all theorems about reachable factories apply to parsed formulas. A syntax error leaves the factory unchanged.",
  "every text, every reachable factory (also after operations with caches, encoders and anonymizers)",
  "The parser calls the constructors in nestings and orders that depend on the text; tests parse a few texts into small factories.",
  ["src/parser/pseudo_boolean_parser.rs", "src/io/readers/formula_reader.rs: read_formula"])
p("C64", "Anonymising files",
  "The file written by anonymize_file is the text of the formula of the read file with its variables renamed: different variables get different names, each the prefix and a number; with a kept anonymizer earlier renamings are kept. That reading the written file gives a renaming of the original formula is refuted (nested implications).",
  "every file contents without reserved names and with right-hand sides below 2^32, every prefix, every reachable factory and anonymizer",
  "The names in the file can collide with names the anonymizer chooses, depending on the order of the variables; tests use a few files.",
  ["src/util/file_anonymizer.rs: anonymize_file, anonymize_file_with_anonymizer"])
p("C65", "Stored formulas are found again",
  "After any history, calling the constructor of a known conjunction, disjunction, implication or equivalence with its operands returns the same handle and leaves the factory unchanged. Its printed text is parsed, and its written file is read, to the same handle, without a change of the factory (for formulas whose implications and equivalences are nested to the right, with proper names and numbers).",
  "every history of constructor calls, restrictions, substitutions, normal forms, pure expansion, CNF encoders with kept state, and anonymizers; every known formula",
  "An operation that stores a formula the constructors would simplify is noticed only when that formula is built again; tests print and parse formulas that were built by the constructors.",
  ["src/formulas/formula_factory.rs: and, or, implication, equivalence", "src/parser/pseudo_boolean_parser.rs", "src/io/readers/formula_reader.rs", "src/operations/transformations/restriction.rs"])
out = os.path.join(os.path.dirname(os.path.dirname(os.path.abspath(__file__))), "properties.jsonl")
with open(out, "w") as fh:
    for e in P:
        fh.write(json.dumps(e) + "\n")
print(len(P))
