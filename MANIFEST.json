{
 "claims": [
  {
   "property": "C01",
   "status": "proved",
   "theorems": [
    "C01_decode",
    "C01_injective",
    "C01_small",
    "C01_large",
    "C01_overflow_refuted",
    "C01_small_overflow_refuted"
   ],
   "note": "All indices below 2^58 (2^26 for the 32 bit form); the refuted theorems show both bounds are needed."
  },
  {
   "property": "C02",
   "status": "proved",
   "theorems": [
    "handles_denote",
    "C02_and",
    "C02_or",
    "C02_clause",
    "C02_not",
    "C02_negate",
    "C02_implication",
    "C02_equivalence",
    "C02_constant",
    "C02_literal",
    "C02_large_refuted",
    "C02_large_drop_refuted"
   ],
   "note": "Every reachable factory with at most 2^26 entries per table; refuted for literals with index >= 2^26 (parsed auxiliary variables)."
  },
  {
   "property": "C03",
   "status": "proved",
   "theorems": [
    "C03_pbc",
    "C03_cc",
    "C03_amo",
    "C03_exo",
    "C03_pbc_u32_refuted"
   ],
   "note": "For constraints that become cardinality constraints the right-hand side must be below 2^32; refuted without this bound."
  },
  {
   "property": "C04",
   "status": "proved",
   "theorems": [
    "C04_invariants",
    "C04_equivalence_refuted"
   ],
   "note": "Stated on unfolded trees; reachable factories with at most 2^26 entries per table."
  },
  {
   "property": "C05",
   "status": "proved",
   "theorems": [
    "C05_canonical",
    "C05_again",
    "C05_no_new_node"
   ],
   "note": ""
  },
  {
   "property": "C06",
   "status": "proved",
   "theorems": [
    "C06_immutable"
   ],
   "note": ""
  },
  {
   "property": "C07",
   "status": "proved",
   "theorems": [
    "C07_names"
   ],
   "note": ""
  },
  {
   "property": "C08",
   "status": "proved",
   "theorems": [
    "C08_fresh",
    "C08_user_variable",
    "C08_parsed_refuted"
   ],
   "note": "Refuted for auxiliary variables introduced by parsing their names."
  },
  {
   "property": "C09",
   "status": "proved",
   "theorems": [
    "C09_evaluate",
    "C09_contradictory_refuted",
    "C09_overflow_refuted"
   ],
   "note": "Consistent assignments, sums within 64 bits."
  },
  {
   "property": "C10",
   "status": "proved",
   "theorems": [
    "C10_restrict",
    "C10_restrict_lit"
   ],
   "note": "Pseudo-Boolean leaves: sums within 64 bits; equations as in C22."
  },
  {
   "property": "C11",
   "status": "proved",
   "theorems": [
    "C11_substitute",
    "C11_cc_negative_refuted",
    "C11_u32_refuted"
   ],
   "note": "Variables of constraints may only be replaced by constants and (positive, for cardinality constraints) literals, otherwise the code panics; refuted without the 32 bit bound."
  },
  {
   "property": "C20",
   "status": "proved",
   "theorems": [
    "C20_cc",
    "C20_pbc"
   ],
   "note": ""
  },
  {
   "property": "C21",
   "status": "proved",
   "theorems": [
    "C21_normalize",
    "C21_overflow_refuted"
   ],
   "note": "Coefficient sums within 64 bits (refuted beyond), fewer than 2^32 literals."
  },
  {
   "property": "C22",
   "status": "proved",
   "theorems": [
    "C22_cc",
    "C22_pbc",
    "C22_u32_refuted"
   ],
   "note": "Sums within 64 bits; for equations the remaining right-hand side must fit 32 bits (refuted otherwise)."
  },
  {
   "property": "C23",
   "status": "proved",
   "theorems": [
    "C23_amo",
    "C23_exo",
    "C23_nested_diverges_refuted",
    "C23_product_diverges_refuted",
    "C23_commander_diverges_refuted",
    "C23_commander_zero_refuted",
    "C23_bimander_zero_refuted"
   ],
   "note": "Admissible parameters: product bound >= 2, nested group >= 4, commander group >= 2, bimander group >= 1; for smaller ones the encoders loop or panic (refuted theorems)."
  },
  {
   "property": "C24",
   "status": "proved",
   "theorems": [
    "C24_amk",
    "C24_alk",
    "C24_exk",
    "C24_network_duplicates_refuted",
    "C24_sort_one_refuted"
   ],
   "note": "Cardinality networks: distinct variables, fewer than 2^31; refuted for repeated variables (the comparators panic)."
  },
  {
   "property": "C25",
   "status": "proved",
   "theorems": [
    "C25_encode",
    "C25_encode_incremental",
    "C25_lt_zero_refuted"
   ],
   "note": "All comparators and right-hand sides except `< 0`, which panics."
  },
  {
   "property": "C26",
   "status": "proved",
   "theorems": [
    "C26_upper",
    "C26_lower",
    "C26_lower_overflow_refuted",
    "C26_lower_underflow_refuted"
   ],
   "note": "Every chain of tightened bounds; lower bounds up to the number of variables (refuted above it)."
  },
  {
   "property": "C27",
   "status": "proved",
   "theorems": [
    "C27_encode",
    "C27_swc",
    "C27_binary_merge",
    "C27_adder_networks",
    "C27_binary_merge_duplicates_refuted"
   ],
   "note": "Normalized constraints (positive coefficients, distinct literals); binary merge without the watch dog needs fewer than 2^31 literals."
  },
  {
   "property": "C12",
   "status": "proved",
   "theorems": [
    "C12_nnf"
   ],
   "note": "Over all histories of operations with all caches and kept encoders (xreachable)."
  },
  {
   "property": "C13",
   "status": "proved",
   "theorems": [
    "C13_nnf_constraints",
    "C13_aux_refuted"
   ],
   "note": "Conservative: sound for all valuations, extensible for formulas over named variables; refuted for formulas that mention auxiliary variables of a cached encoding."
  },
  {
   "property": "C14",
   "status": "proved",
   "theorems": [
    "C14_cnf",
    "C14_cnf_constraints"
   ],
   "note": ""
  },
  {
   "property": "C15",
   "status": "proved",
   "theorems": [
    "C15_dnf",
    "C15_dnf_constraints"
   ],
   "note": ""
  },
  {
   "property": "C16",
   "status": "proved",
   "theorems": [
    "C16_is_cnf",
    "C16_is_cnf_extended",
    "C16_is_nnf",
    "C16_is_dnf",
    "C16_contains_pbc"
   ],
   "note": ""
  },
  {
   "property": "C17",
   "status": "proved",
   "theorems": [
    "C17_tseitin",
    "C17_tseitin_state",
    "C17_state_aux_refuted"
   ],
   "note": "Fresh state: every valuation of the existing variables extends (uniquely on the definitions); kept state: formulas over named variables, refuted otherwise."
  },
  {
   "property": "C18",
   "status": "proved",
   "theorems": [
    "C18_plaisted_greenbaum",
    "C18_plaisted_greenbaum_state",
    "C18_encoder",
    "C18_encoder_state"
   ],
   "note": "All four algorithms of the encoder, with and without kept state."
  },
  {
   "property": "C19",
   "status": "proved",
   "theorems": [
    "C19_is_nnf",
    "C19_is_dnf",
    "C19_contains_pbc",
    "C19_depth",
    "C19_atoms",
    "C19_nodes",
    "C19_variables",
    "C19_literals",
    "C19_nnf",
    "C19_cnf",
    "C19_dnf",
    "C06_extended"
   ],
   "note": "Two arbitrary histories and cache configurations: equal values, equivalent normal forms."
  },
  {
   "property": "C28",
   "status": "proved",
   "theorems": [
    "C28_variables",
    "C28_literals",
    "C28_evaluation",
    "C28_contains_variable",
    "C28_profile"
   ],
   "note": ""
  },
  {
   "property": "C29",
   "status": "proved",
   "theorems": [
    "C29_atoms",
    "C29_nodes",
    "C29_depth",
    "C29_sub_nodes",
    "C29_contains_node",
    "C29_overflow_refuted"
   ],
   "note": "Values below 2^64; refuted beyond: the counters wrap around on a small shared formula."
  },
  {
   "property": "C30",
   "status": "proved",
   "theorems": [
    "C30_cnf",
    "C30_dnf",
    "C30_refuses"
   ],
   "note": "For every visiting order of the hash maps of the tree."
  },
  {
   "property": "C31",
   "status": "proved",
   "theorems": [
    "C31_ubtree",
    "C31_canonical"
   ],
   "note": "For every element type with a total order and every visiting order; the empty set is never stored."
  },
  {
   "property": "C32",
   "status": "proved",
   "theorems": [
    "C32_print_parse",
    "C32_implication_refuted",
    "C32_equivalence_refuted",
    "C32_id_refuted",
    "C32_name_refuted"
   ],
   "note": "Every formula of a factory built by constructor calls, of any depth: the printed text is parsed to the same handle and the factory is unchanged, if no implication (equivalence) is the left operand of an implication (equivalence). The refuted theorems show that this condition, grammatical names and an identifier of digits and capitals are needed: (A => C) => B is printed as A => C => B."
  },
  {
   "property": "C33",
   "status": "proved",
   "theorems": [
    "C33_model",
    "C33_model_total",
    "C33_no_panic",
    "C33_front",
    "C33_front_no_panic"
   ],
   "note": "All sequences of new variables, clauses and calls with assumptions, all heuristics (oracle), ClauseMinimization Basic and Deep; literals of existing variables. Total correctness is not claimed: the search may run out of fuel."
  },
  {
   "property": "C34",
   "status": "proved",
   "theorems": [
    "C34_unsat",
    "C34_conflict",
    "C34_add",
    "C34_front",
    "C34_no_minimization_refuted"
   ],
   "note": "ClauseMinimization Basic and Deep; refuted for ClauseMinimization::None, which truncates learnt clauses."
  },
  {
   "property": "C35",
   "status": "proved",
   "theorems": [
    "C35_states_restored",
    "C35_load_restores",
    "C35_duplicates_refuted"
   ],
   "note": "All histories of new variables, additions, solver calls, saves and loads, if at each load no clause added since the save is stored with the literals of another stored clause; answers, models and freedom of panics. Refuted when a clause is added twice: detaching compares clauses by content."
  },
  {
   "property": "C36",
   "status": "proved",
   "theorems": [
    "C36_enumerate",
    "C36_count",
    "C36_aux_refuted",
    "C36_twice_refuted",
    "C36_incremental_refuted",
    "C36_count_refuted"
   ],
   "note": "Soundness, pairwise difference, bound and completeness for all histories of formulas, solver calls, backbones and enumerations, each of which saves and loads the solver state. Refuted: projected auxiliary variables that are not in the models; additional variables twice in a model; panic without the incremental mode; count_models exceeds its bound by one."
  },
  {
   "property": "C37",
   "status": "proved",
   "theorems": [
    "C37_backbone",
    "C33_front_no_panic"
   ],
   "note": "All backbone types, settings, histories and heuristics; in the incremental mode also after earlier backbones and enumerations on the same solver."
  },
  {
   "property": "C38",
   "status": "proved",
   "theorems": [
    "C38_optimize",
    "C38_no_panic",
    "C38_twice_refuted"
   ],
   "note": "All histories, target literals, encoder configurations and heuristics; selector variables fresh for the solver; a second optimisation without the incremental mode is refuted."
  },
  {
   "property": "C39",
   "status": "proved",
   "theorems": [
    "C39_created",
    "C39_no_panic",
    "C39_build",
    "C39_build_handler",
    "C39_canonical",
    "C39_constants",
    "C39_restrict",
    "C39_exists",
    "C39_forall",
    "C39_to_formula",
    "C39_normal_form",
    "C39_normal_form_unnamed_refuted",
    "C39_contradictory_restrict_refuted",
    "C39_counter_refuted"
   ],
   "note": "All formulas without constraints, orders, table sizes and call sequences with fewer than 2^31 - 1 quantifying calls; negation and apply are the steps of the construction. Refuted: normal forms of kernels with unused slots panic, contradictory restrictions are ignored, the set counter passes its reset."
  },
  {
   "property": "C40",
   "status": "partial",
   "theorems": [
    "C40_held",
    "C40_preserved",
    "C40_restrict_result_refuted"
   ],
   "note": "Proved for every BDD built from a formula; refuted for the results of restrict, exists and for_all, whose nodes are not referenced."
  },
  {
   "property": "C41",
   "status": "proved",
   "theorems": [
    "C41_count",
    "C41_enumerate",
    "C41_projected_partial",
    "C41_projected_unique_refuted",
    "C41_unknown_variable_refuted"
   ],
   "note": "Counting over the slots of the kernel, enumeration over all its variables; enumeration projected to fewer variables is complete and sound but repeats models (refuted)."
  },
  {
   "property": "C42",
   "status": "proved",
   "theorems": [
    "C42_count",
    "C42_vectors",
    "C42_vectors_values"
   ],
   "note": "Fewer than 2^32 variables (the exponent is cast to u32); the compilation into DNNF is not modelled."
  },
  {
   "property": "C43",
   "status": "proved",
   "theorems": [
    "C43_no_race",
    "C43_distinct",
    "C43_read",
    "C43_available",
    "C43_quiescent",
    "C43_progress",
    "C43_capacity"
   ],
   "note": "All schedules of any number of threads on a release/acquire memory with stale reads and race detection; allocation failure, wrap-around of usize and drop are not modelled."
  },
  {
   "property": "C44",
   "status": "proved",
   "theorems": [
    "C44_handles",
    "C44_encoded",
    "C44_lookup",
    "C43_no_race",
    "C43_progress"
   ],
   "note": "All schedules; DashMap is modelled as one lock per shard with an association list, its own implementation is trusted."
  },
  {
   "property": "C45",
   "status": "proved",
   "theorems": [
    "C45_add_literal",
    "C45_from_literals",
    "C45_literals",
    "C45_model_conversion",
    "C45_assignment_conversion",
    "C45_compare",
    "C45_model_literals",
    "C45_blocking_clause",
    "C45_blocking_clause_all",
    "C45_names",
    "C45_from_names"
   ],
   "note": ""
  },
  {
   "property": "C46",
   "status": "proved",
   "theorems": [
    "C46_anonymize"
   ],
   "note": "Constraints with sums within the machine integers, see C11."
  },
  {
   "property": "C47",
   "status": "proved",
   "theorems": [
    "C47_pure_expansion"
   ],
   "note": "Formulas whose constraints are all AMO or EXO; others panic in the code."
  },
  {
   "property": "C48",
   "status": "proved",
   "theorems": [
    "C48_in_heap",
    "C48_insert",
    "C48_remove_min",
    "C48_decrease",
    "C48_remove",
    "C48_build",
    "C48_history",
    "C48_remove_refuted"
   ],
   "note": "remove keeps contents and index table; its heap order is refuted (it only percolates down)."
  },
  {
   "property": "C49",
   "status": "proved",
   "theorems": [
    "C49_handler_only_aborts",
    "C49_limits",
    "C49_result"
   ],
   "note": ""
  },
  {
   "property": "C50",
   "status": "proved",
   "theorems": [
    "C50_read_cnf",
    "C50_trailing_refuted"
   ],
   "note": "Every well-formed file (comment, problem and blank lines anywhere, LF or CRLF, blanks and tabs, last line with or without line end), every prefix and factory state. Refuted: a blank after the final 0 panics."
  },
  {
   "property": "C51",
   "status": "proved",
   "theorems": [
    "C51_write_read",
    "C51_layout"
   ],
   "note": "Same conditions as C32."
  },
  {
   "property": "C52",
   "status": "proved",
   "theorems": [
    "C52_sat",
    "C52_unsat",
    "C52_no_panic",
    "C52_sat_no_panic",
    "C52_backbone",
    "C52_enumerate",
    "C52_functions_no_panic",
    "C52_reset_refuted"
   ],
   "note": "Any number of solvers on one factory, every CNF method of the solver configuration (Plaisted-Greenbaum on the solver with both caches, factory CNF with every algorithm), formulas with constraints, add_proposition, reset, backbones and enumerations as steps of the history (enumerations in the incremental mode); states saved by the caller are the subject of C35. Refuted: a state saved before reset is still accepted by load_state."
  },
  {
   "property": "C53",
   "status": "proved",
   "theorems": [
    "C53_simplify"
   ],
   "note": "In every history of the factory and its solvers (C52), with the cache; conditional on the loops ending and the capacity of the factory."
  },
  {
   "property": "C54",
   "status": "proved",
   "theorems": [
    "C54_sat",
    "C54_tautology",
    "C54_aux_refuted"
   ],
   "note": "In every history, every CNF algorithm, with the cache both predicates share. Refuted for formulas that mention auxiliary variables of a cached encoding: is_sat answers False for a satisfiable formula."
  },
  {
   "property": "C55",
   "status": "partial",
   "theorems": [
    "C55_compile_partial",
    "C55_compile_dnnf_partial",
    "C55_refuted"
   ],
   "note": "The full claim is false: the compilation of a CNF is false under one of its models (literals of a decision level are cached after a conflict). Proved: in every history, the DNNF of a CNF over variables created by name whose forced literals are clauses is equivalent to it, deterministic and decomposable, in all runs in which no decision leads to a conflict. C55_compile_dnnf_partial includes the steps before the compiler, and needs no assumption on forced literals. Missing: runs with a conflict, formulas in other forms."
  },
  {
   "property": "C56",
   "status": "proved",
   "theorems": [
    "C56_dfs",
    "C56_bfs",
    "C56_once",
    "C56_levels",
    "C56_min_to_max",
    "C56_max_to_min",
    "C56_force",
    "C56_force_constraints",
    "C56_force_ends_refuted"
   ],
   "note": "All orderings list every variable once, in the stated order. FORCE never panics; that it ends is false: on a CNF over eight variables the rounding makes two orderings alternate for ever."
  },
  {
   "property": "C57",
   "status": "proved",
   "theorems": [
    "C57_number_unique",
    "C57_with_vars",
    "C57_superset",
    "C57_count",
    "C57_with_vars_refuted",
    "C57_ends_refuted"
   ],
   "note": "The count is the number of models over the relevant variables, by the clause form (each auxiliary variable is determined by the formula's variables) and the BDD's count. Refuted: it need not end, as FORCE need not; verum over relevant variables counts 1."
  },
  {
   "property": "C58",
   "status": "proved",
   "theorems": [
    "C58_with_vars",
    "C58_superset",
    "C58_count",
    "C58_with_vars_refuted"
   ],
   "note": "The count is the number of models of the conjunction over the relevant variables, also when literals are split off and propagated. Refuted: constants over relevant variables count 1."
  },
  {
   "property": "C59",
   "status": "proved",
   "theorems": [
    "C59_prime_accepted",
    "C59_no_easy_factor",
    "C59_gte",
    "C59_lte",
    "C59_resize",
    "C59_table_size",
    "C59_growth",
    "C59_count",
    "C59_composite_refuted",
    "C59_large_composite_refuted",
    "C59_large_prime_refuted",
    "C59_small_refuted"
   ],
   "note": "Both searches end and skip no odd prime, for all random numbers; tables of up to 2^24 nodes grow, and C57 holds with the sizes so computed. Refuted: results are prime (289 with unlucky draws, 2^32 + 1 always); primes above 2^31 can be rejected."
  },
  {
   "property": "C60",
   "status": "partial",
   "theorems": [
    "C60_count_partial",
    "C60_with_vars_partial",
    "C60_models_partial",
    "C60_constant",
    "C60_superset",
    "C60_with_vars_refuted"
   ],
   "note": "Proved for count_formula (compile_dnnf, then count) on a CNF over variables created by name, and for count_models and count_models_with_vars on any formula whose clause form has no auxiliary variables, in all runs in which no decision of the compiler leads to a conflict. Missing: runs with a conflict (no wrong count is known: on the formula of C55_refuted the number is right), clause forms with auxiliary variables. Refuted: constants over relevant variables count 1."
  },
  {
   "property": "C61",
   "status": "proved",
   "theorems": [
    "C61_sum",
    "C61_order",
    "C61_equal",
    "C61_refines",
    "C61_found",
    "C61_other_hasher_refuted"
   ],
   "note": "Hash tables with arbitrary operand hashes, iteration orders and slots refine the table of FactoryModel. Refuted: the order does not matter for other hashers."
  },
  {
   "property": "C62",
   "status": "proved",
   "theorems": [
    "C62_queens",
    "C62_empty_board_panics"
   ],
   "note": "For factories that already have the configuration of the generator (the assignment to f.config is not modelled)."
  },
  {
   "property": "C63",
   "status": "proved",
   "theorems": [
    "C63_parse",
    "C63_parse_any_state",
    "C63_read_formula",
    "C63_error",
    "C63_read_lines"
   ],
   "note": "Reserved names of the same factory and large right-hand sides are excluded (C08_parsed_refuted, C03_pbc_u32_refuted)."
  },
  {
   "property": "C64",
   "status": "proved",
   "theorems": [
    "C64_with_anonymizer",
    "C64_anonymize_file",
    "C64_meaning_refuted"
   ],
   "note": "For constraints within the bounds of C46. Refuted: the written text can mean another formula, because (A => C) => B is printed without parentheses."
  },
  {
   "property": "C65",
   "status": "proved",
   "theorems": [
    "C65_rebuild",
    "C65_print_parse",
    "C65_write_read"
   ],
   "note": "For the operations of the extended histories (xcall). The printed text is read back for right-nested formulas only (as in C32). C65_rebuild does not cover literals, negations and constraints."
  }
 ]
}
