{
 "claims": [
  {
   "property": "C01",
   "status": "proved",
   "theorems": [
    "C01_nnf_equivalent",
    "C01_nnf_result_not_a_formula",
    "C01_nnf_refuted"
   ],
   "note": "Exact: C01_nnf_equivalent on the formulas of the statement, C01_nnf_result_not_a_formula on all the others (nnf.py:29-33 stores class objects); the unrestricted claim is refuted (C01_nnf_refuted)."
  },
  {
   "property": "C02",
   "status": "proved",
   "theorems": [
    "C02_nnf_idempotent",
    "C02_nnf_twice",
    "C02_nnf_same_atoms"
   ],
   "note": "Idempotence on NNF formulas, NNF of an NNF result, preservation of the atom sequence."
  },
  {
   "property": "C03",
   "status": "proved",
   "theorems": [
    "C03_cnf_equivalent",
    "C03_cnf_rejects_quantifiers",
    "C03_cnf_refuted",
    "C03_negated_constant"
   ],
   "note": "Exact: C03_negated_constant covers the remaining formulas."
  },
  {
   "property": "C04",
   "status": "proved",
   "theorems": [
    "C04_clauses",
    "C04_single_clause_lost",
    "C04_clauses_refuted"
   ],
   "note": "Exact: C04_clauses and C04_single_clause_lost cover both shapes (cnf.py:85-88 never flushes current_clause); the unrestricted claim is refuted (C04_clauses_refuted)."
  },
  {
   "property": "C05",
   "status": "proved",
   "theorems": [
    "C05_absorption",
    "C05_absorption_refuted",
    "C05_absorption_exact"
   ],
   "note": "Exact for every well-formed formula with binary built-in atoms: C05_absorption_exact. The unrestricted equivalence is refuted (C05_absorption_refuted)."
  },
  {
   "property": "C06",
   "status": "proved",
   "theorems": [
    "C06_prenex",
    "C06_prenex_quantifier_free",
    "C06_prenex_conjunction_refuted",
    "C06_prenex_alternation_refuted",
    "C06_prenex_capture_refuted",
    "C06_prenex_shared_variable_raises",
    "C06_prenex_third_member_refuted",
    "C06_prenex_empty_sort_refuted"
   ],
   "note": "Positive part under the stated provisos, each of which has its own refutation."
  },
  {
   "property": "C07",
   "status": "proved",
   "theorems": [
    "C07_quantifier_elimination",
    "C07_empty_sort_raises",
    "C07_builtin_sort_raises",
    "C07_quantifier_elimination_refuted",
    "C07_wrong_truth_value_refuted"
   ],
   "note": "The unrestricted claim (with rebinding) is refuted."
  },
  {
   "property": "C08",
   "status": "proved",
   "theorems": [
    "C08_substitution_lemma",
    "C08_substitution_lemma_terms",
    "C08_free_occurrences_replaced",
    "C08_capture_refuted",
    "C08_bound_occurrence_refuted"
   ],
   "note": "Both failures without the proviso are refutation theorems."
  },
  {
   "property": "C09",
   "status": "proved",
   "theorems": [
    "C09_free_variables",
    "C09_free_variables_sound",
    "C09_truth_depends_on_free_variables",
    "C09_free_variables_raises_iff",
    "C09_free_variables_refuted",
    "C09_free_variables_exact"
   ],
   "note": "Exact for every well-formed formula: C09_free_variables_exact, C09_free_variables_raises_iff."
  },
  {
   "property": "C10",
   "status": "proved",
   "theorems": [
    "C10_flatten"
   ],
   "note": ""
  },
  {
   "property": "C11",
   "status": "proved",
   "theorems": [
    "C11_land",
    "C11_lor",
    "C11_neg_implies_equiv",
    "C11_quantified",
    "C11_quantified_rejects"
   ],
   "note": ""
  },
  {
   "property": "C12",
   "status": "proved",
   "theorems": [
    "C12_evaluator_sound",
    "C12_term_evaluator_sound",
    "C12_agreeing_structure_exists",
    "C12_evaluator_complete",
    "C12_nested_ite_refuted",
    "C12_quantified_raises",
    "C12_equality_is_not_a_congruence"
   ],
   "note": "Soundness for every reachable model and well-formed formula; completeness except directly nested if-then-else terms (refuted: AssertionError). Equality compares names only, so it is not a congruence (C12_equality_is_not_a_congruence)."
  },
  {
   "property": "C13",
   "status": "proved",
   "theorems": [
    "C13_reflexive",
    "C13_symmetric",
    "C13_transitive",
    "C13_equal_hash",
    "C13_equal_hash_refuted",
    "C13_walk_changes_identity"
   ],
   "note": "Equivalence relation proved; hash compatibility proved without float names and refuted with them (1 and 1.0). Walking a formula in place changes its identity (C13_walk_changes_identity)."
  },
  {
   "property": "C14",
   "status": "proved",
   "theorems": [
    "C14_model_history",
    "C14_add_frame",
    "C14_failure_changes_nothing",
    "C14_shared_signature_refuted"
   ],
   "note": "All histories, under the language invariant that no predicate and function share a signature; without it remove_symbol removes the wrong one (C14_shared_signature_refuted)."
  },
  {
   "property": "C15",
   "status": "proved",
   "theorems": [
    "C15_same_extensions_equal",
    "C15_equal_same_extensions",
    "C15_equality_refuted"
   ],
   "note": "Extensional equality implies ==; the converse holds for unambiguous printed names and is refuted in general (constants 1:Natural and 1:Integer)."
  },
  {
   "property": "C16",
   "status": "proved",
   "theorems": [
    "C16_one_element_per_name",
    "C16_lookup",
    "C16_redeclaration_raises",
    "C16_declaration_defines",
    "C16_removal_undefines",
    "C16_failures_change_nothing",
    "C16_partial_failures"
   ],
   "note": "All histories; failures of attach_sort (foreign parent) and attach_arithmetic_sorts may leave elements behind (C16_partial_failures)."
  },
  {
   "property": "C17",
   "status": "proved",
   "theorems": [
    "C17_sorts_form_a_tree",
    "C17_is_subtype",
    "C17_queries_are_pure",
    "C17_partial_order",
    "C17_parent_as_declared",
    "C17_most_restricted_type",
    "C17_set_parent_refuted"
   ],
   "note": "All histories of declarations and queries. set_parent, a lower-level entry point, can break the tree (C17_set_parent_refuted)."
  },
  {
   "property": "C18",
   "status": "proved",
   "theorems": [
    "C18_domain_exact",
    "C18_domain_monotone",
    "C18_interval_constants_refuted"
   ],
   "note": "Exact for uninterpreted sorts; constants of interval sorts do not enter ancestor domains (C18_interval_constants_refuted)."
  },
  {
   "property": "C19",
   "status": "proved",
   "theorems": [
    "C19_interval_values",
    "C19_domain_enumerable",
    "C19_constant_creation",
    "C19_numeric_inclusion_refuted",
    "C19_cast_of_numeral_string",
    "C19_shared_number_refuted"
   ],
   "note": "Exact for integers and every reachable interval sort; inclusion in the parent's domain refuted, cast of numeral strings does not return the string, numbers are shared between interval sorts. Floats are not modelled."
  },
  {
   "property": "C20",
   "status": "proved",
   "theorems": [
    "C20_ids_contiguous",
    "C20_below_interval_refuted",
    "C20_mixed_names_refuted"
   ],
   "note": "Proved for every history in which no uninterpreted sort is declared below a numeric sort and each sort's constants are all string-named or all integer-named; both hypotheses are necessary (C20_below_interval_refuted, C20_mixed_names_refuted)."
  },
  {
   "property": "C21",
   "status": "proved",
   "theorems": [
    "C21_consistent",
    "C21_add",
    "C21_duplicate_names_refuted"
   ],
   "note": "Consistency and next-id behaviour proved for every history of add and for a constructor call with distinct objects; a constructor call with duplicate objects leaves holes (C21_duplicate_names_refuted)."
  },
  {
   "property": "C22",
   "status": "proved",
   "theorems": [
    "C22_bijection",
    "C22_add",
    "C22_make"
   ],
   "note": ""
  },
  {
   "property": "C23",
   "status": "proved",
   "theorems": [
    "C23_delete_then_add",
    "C23_succeeds",
    "C23_order"
   ],
   "note": ""
  },
  {
   "property": "C24",
   "status": "proved",
   "theorems": [
    "C24_simultaneous",
    "C24_order",
    "C24_conditional_refuted",
    "C24_swap_refuted",
    "C24_increase_refuted"
   ],
   "note": "Proved when no effect writes a symbol that another effect reads (and, for order, no point is assigned two values); refuted otherwise: effects see the updates of earlier ones, x:=y,y:=x does not swap, increase overwrites."
  },
  {
   "property": "C25",
   "status": "proved",
   "theorems": [
    "C25_exhaustive",
    "C25_unbounded_complete",
    "C25_terminates",
    "C25_bounded",
    "C25_ground_problems"
   ],
   "note": "Generic over the search model; instantiated for ground problems whose printed names are unambiguous (model equality is textual, see C15)."
  },
  {
   "property": "C26",
   "status": "proved",
   "theorems": [
    "C26_plans",
    "C26_negation_free",
    "C26_conflict_refuted",
    "C26_conditional_refuted",
    "C26_disjunction_refuted",
    "C26_no_precondition_refuted"
   ],
   "note": "C26_plans: the same plans run, with the same goal value and complementary new predicates, for literal-conjunction preconditions and plans whose steps have no add/delete conflict and whose effect conditions do not mention changed predicates; C26_negation_free. The unrestricted claim is false: C26_conflict_refuted, C26_conditional_refuted, C26_disjunction_refuted, C26_no_precondition_refuted."
  },
  {
   "property": "C27",
   "status": "proved",
   "theorems": [
    "C27_no_nested_deletes",
    "C27_conflict_free",
    "C27_no_universal",
    "C27_delete_inside_refuted",
    "C27_nested_refuted"
   ],
   "note": "Same computation without deletes inside universal effects; same state when the expansion is independent and conflict-free; refuted when a universal effect deletes what an earlier effect adds, and for nested universal effects."
  },
  {
   "property": "C28",
   "status": "proved",
   "theorems": [
    "C28_delete_free",
    "C28_superset",
    "C28_negation_refuted"
   ],
   "note": "Plans whose ground conditions are negation-free, defined in the initial state and type-correct; refuted with negated preconditions."
  },
  {
   "property": "C29",
   "status": "proved",
   "theorems": [
    "C29_effect_sets",
    "C29_literals",
    "C29_positive",
    "C29_complete",
    "C29_sound",
    "C29_refuted",
    "C29_operator",
    "C29_problem",
    "C29_collect"
   ],
   "note": "Exact characterisation of what the recognisers accept proved; refuted: disjunctions, double negations and single negative literals are accepted."
  },
  {
   "property": "C30",
   "status": "proved",
   "theorems": [
    "C30_removed_parameters",
    "C30_precondition",
    "C30_raises",
    "C30_instances",
    "C30_condition_refuted",
    "C30_shadowing_refuted"
   ],
   "note": "C30_removed_parameters characterises what is removed, C30_precondition and C30_raises the resulting schema, C30_instances the ground instances (applicability for some extension, same effects hence same successor) when no effect mentions a removed parameter; the claim is false otherwise: C30_condition_refuted, C30_shadowing_refuted."
  },
  {
   "property": "C31",
   "status": "proved",
   "theorems": [
    "C31_expression",
    "C31_without_model",
    "C31_evaluation",
    "C31_action",
    "C31_plans",
    "C31_plans_reflected",
    "C31_reduced",
    "C31_nonvacuous",
    "C31_reflected_nonvacuous",
    "C31_empty_sort_refuted",
    "C31_true_goal_refuted",
    "C31_true_precondition_refuted",
    "C31_compound_delete_refuted",
    "C31_universal_condition_refuted",
    "C31_ite_refuted"
   ],
   "note": "C31_expression, C31_without_model, C31_evaluation, C31_reduced (expressions), C31_action, C31_plans and C31_plans_reflected (problems). Refutations outside the hypotheses: C31_empty_sort_refuted, C31_compound_delete_refuted, C31_universal_condition_refuted; C31_true_goal_refuted and C31_true_precondition_refuted (RuntimeError). Not expressible: Python nodes shared between expressions. The language is shared with the given problem, so the removal of symbols also affects the latter even with inplace=False."
  },
  {
   "property": "C32",
   "status": "proved",
   "theorems": [
    "C32_simplify_existential",
    "C32_quantifier_free",
    "C32_body_refuted",
    "C32_nested_refuted",
    "C32_trivial_equality_refuted",
    "C32_sort_refuted",
    "C32_circular_refuted",
    "C32_capture_refuted"
   ],
   "note": "Each precondition is needed: C32_body_refuted (negated or disjunctive bodies become true), C32_nested_refuted (nested existentials become true), C32_trivial_equality_refuted (with an atom z = z the wrong conjunct is dropped), C32_sort_refuted, C32_circular_refuted, C32_capture_refuted. If-then-else terms are modelled but excluded from the theorem."
  },
  {
   "property": "C33",
   "status": "proved",
   "theorems": [
    "C33_transitive_closure",
    "C33_least"
   ],
   "note": "For every finite relation; the loop runs at most (number of nodes)^2+1 times."
  },
  {
   "property": "C34",
   "status": "proved",
   "theorems": [
    "C34_min_distance",
    "C34_unreachable"
   ],
   "note": "For every pair of finite sets and every finite relation; distances are capped at sys.maxsize."
  },
  {
   "property": "C35",
   "status": "proved",
   "theorems": [
    "C35_concept_denotation",
    "C35_role_denotation",
    "C35_composition_any",
    "C35_composition_refuted",
    "C35_composition_order_refuted",
    "C35_star_not_reflexive_refuted",
    "C35_features",
    "C35_size",
    "C35_changes"
   ],
   "note": "The model object is not in the repository and is modelled by an interpretation of the primitives. Refuted beyond the statement: C35_composition_refuted (composition with a non-functional second role), C35_composition_order_refuted (the answer depends on set order), C35_star_not_reflexive_refuted."
  },
  {
   "property": "C36",
   "status": "proved",
   "theorems": [
    "C36_acyclicity"
   ],
   "note": "True exactly for hypergraphs with a join tree, for every iteration order of the Python sets."
  },
  {
   "property": "C37",
   "status": "proved",
   "theorems": [
    "C37_back",
    "C37_distinct",
    "C37_stable",
    "C37_clash_raises",
    "C37_nonvacuous",
    "C37_order_refuted",
    "C37_clash_example"
   ],
   "note": "Strings are ASCII. C37_order_refuted is the counterexample named in the statement; C37_clash_example shows the error. Legality of the names for gringo beyond the absence of hyphens is not modelled."
  },
  {
   "property": "C38",
   "status": "proved",
   "theorems": [
    "C38_atoms",
    "C38_actions",
    "C38_goal",
    "C38_nonvacuous",
    "C38_interval_parameter_refuted",
    "C38_variable_case_refuted"
   ],
   "note": "Least-model semantics of the rules as data (printing of rules and the gringo binary are not modelled). Reachable states are defined in AspSpec.v by the usual simultaneous delete-then-add semantics, with arbitrary function values. C38_interval_parameter_refuted and C38_variable_case_refuted are the failures named in the statement."
  },
  {
   "property": "C39",
   "status": "proved",
   "theorems": [
    "C39_signature_bindings",
    "C39_ground_actions",
    "C39_ground_symbols",
    "C39_partially_grounded",
    "C39_all_state_variables",
    "C39_state_variable_ground",
    "C39_repeated_variable_refuted",
    "C39_variable_sort_ignored"
   ],
   "note": "Exact enumeration for signatures, actions, symbols, partially ground terms and state variables, each binding once; TarskiError exactly for non-enumerable sorts. Repeated variables in create_all_possible_state_variables are instantiated independently (C39_repeated_variable_refuted)."
  },
  {
   "property": "C40",
   "status": "proved",
   "theorems": [
    "C40_fluents",
    "C40_statics_never_change",
    "C40_partition",
    "C40_total_cost_refuted"
   ],
   "note": "Statics never change along any plan, fluents are exactly the written symbols, partition proved for symbols other than total-cost (refuted for it: C40_total_cost_refuted)."
  },
  {
   "property": "C41",
   "status": "proved",
   "theorems": [
    "C41_simplify_preserves_value",
    "C41_simplify_extends_domain_refuted",
    "C41_simplify_exceptions",
    "C41_division_by_zero_detected",
    "C41_subtraction_from_zero_refuted",
    "C41_simplify_normal_form",
    "C41_not_idempotent_refuted",
    "C41_summation",
    "C41_product",
    "C41_aggregates_succeed",
    "C41_empty_domain_refuted",
    "C41_builtin_sort_variable"
   ],
   "note": "Exact arithmetic over an arbitrary field (float rounding is not modelled). Refuted beyond the statement: 0/x becomes 0 where x may be 0, simplify is not idempotent, empty domains raise IndexError, 0 - x over Natural raises ValueError. Matrices and aggregate terms are not modelled."
  },
  {
   "property": "C42",
   "status": "proved",
   "theorems": [
    "C42_round_trip",
    "C42_same_formula",
    "C42_unambiguous",
    "C42_printing_errors",
    "C42_numeric_argument_refuted",
    "C42_sort_name_refuted",
    "C42_reserved_name_refuted",
    "C42_upper_case_refuted",
    "C42_rebinding_refuted",
    "C42_contradiction_refuted",
    "C42_operator_refuted",
    "C42_two_spellings_refuted"
   ],
   "note": "Lexer, bracket structure and visitor rules of the reader are modelled in PddlRead.v (raise_on_error parsing; the ANTLR-generated parser is represented by a direct reading of the grammar; words that ANTLR would split, comments and fractional numbers are errors in the model). The seven ..._refuted theorems exhibit the failures named in the statement; C42_two_spellings_refuted the changed meaning."
  },
  {
   "property": "C43",
   "status": "proved",
   "theorems": [
    "C43_conflicts",
    "C43_raises"
   ],
   "note": ""
  },
  {
   "property": "C44",
   "status": "proved",
   "theorems": [
    "C44_domain",
    "C44_other_formulas_raise",
    "C44_tuples_are_the_conjuncts",
    "C44_sorts_are_lost"
   ],
   "note": "The tuples are exactly the (names, constant names) of the conjuncts, every other formula raises; sorts are lost (C44_sorts_are_lost)."
  },
  {
   "property": "C45",
   "status": "proved",
   "theorems": [
    "C45_collect_sound",
    "C45_collect_complete",
    "C45_collect_once",
    "C45_collect_once_refuted",
    "C45_argument_left_behind",
    "C45_argument_changed_refuted",
    "C45_is_ground",
    "C45_is_function_free",
    "C45_is_quantifier_free",
    "C45_all_variables",
    "C45_function_names",
    "C45_state_variable_shape"
   ],
   "note": "Sound, complete; each node once when no float constant names occur (C45_collect_once, refuted otherwise: 1 vs 1.0); argument containers are turned into lists (C45_argument_left_behind is exact)."
  },
  {
   "property": "C46",
   "status": "proved",
   "theorems": [
    "C46_reading",
    "C46_all_or_none",
    "C46_plan_costs",
    "C46_plan_costs_converse",
    "C46_accepts",
    "C46_constant",
    "C46_unit",
    "C46_zero",
    "C46_nonvacuous",
    "C46_summands_refuted",
    "C46_changed_symbol_refuted",
    "C46_quantified_increase_refuted",
    "C46_missing_costs"
   ],
   "note": "Reading modelled on actions after parsing (the ANTLR parser itself is not). Costs are integers; the converse direction needs the codomain of total-cost to accept integers and the running totals to stay in Tarski's integer bounds, both stated. The three refuted theorems delimit the preconditions."
  },
  {
   "property": "C47",
   "status": "proved",
   "theorems": [
    "C47_exists",
    "C47_not",
    "C47_forall",
    "C47_and",
    "C47_or",
    "C47_equal",
    "C47_restrict",
    "C47_composition",
    "C47_equality_sound",
    "C47_unbounded_refuted"
   ],
   "note": "One theorem per create_ operation; C47_unbounded_refuted: with an Or concept, whose sort attribute is the smaller sort, a non-empty concept is pruned. compute_dl_vocabulary is not modelled."
  },
  {
   "property": "C48",
   "status": "proved",
   "theorems": [
    "C48_reading",
    "C48_nested_terms_rejected",
    "C48_actions",
    "C48_plans",
    "C48_unsolvable",
    "C48_no_plan",
    "C48_state_variables",
    "C48_nonvacuous",
    "C48_plans_nonvacuous",
    "C48_schema_groundings_refuted",
    "C48_second_call_refuted"
   ],
   "note": "The solver is a parameter: any function from rules to text whose text, if any, lists the least model (answers, LpGroundSpec.v). Names must survive translation (clear_names) for the typing of action tuples. C48_schema_groundings_refuted and C48_second_call_refuted are the two failures named in the statement. C48_plans and C48_no_plan say the same of whole executions: no step of any execution is missing from the ground actions, and after the exception no execution reaches the goal."
  },
  {
   "property": "C49",
   "status": "proved",
   "theorems": [
    "C49_operators",
    "C49_plans",
    "C49_total",
    "C49_nonvacuous"
   ],
   "note": "States, applicability and successors as in AspSpec.v (delete-then-add, arbitrary function values). Operators are compared with actions in all states (is_instance, OperatorSpec.v) and plans are lists of names. The solver is a parameter as in C48."
  },
  {
   "property": "C50",
   "status": "proved",
   "theorems": [
    "C50_round_trip",
    "C50_same_action",
    "C50_unambiguous",
    "C50_conditional_universal_refuted",
    "C50_rebinding_refuted",
    "C50_builtin_atom_refuted",
    "C50_total_cost_refuted",
    "C50_increase_refuted",
    "C50_grouped_effects",
    "C50_grouped_nonvacuous"
   ],
   "note": "The lexer, bracket structure and rules are those of C42 plus actionDef. Meaning is stated by same_action (PddlActionSpec.v): per-effect, in all structures with standard numerals, variables assigned under their printed names. The ..._refuted theorems exhibit the failures named in the statement."
  },
  {
   "property": "C51",
   "status": "proved",
   "theorems": [
    "C51_round_trip",
    "C51_constants_refuted",
    "C51_subsort_refuted",
    "C51_default_name_refuted",
    "C51_integer_name_refuted",
    "C51_sort_name_refuted",
    "C51_numeric_codomain_refuted",
    "C51_action_costs_refuted",
    "C51_derived_refuted",
    "C51_repeated_constant_refuted"
   ],
   "note": "The theorem takes the language as the result of any sequence of declarations (C16-C18), so all names are distinct and parents are declared first. Sets are lists in an arbitrary order (the initial state's points, the requirements). Restrictions are the clauses of writable (PddlProblemSpec.v); a _refuted theorem exhibits the failure for each. Interval sorts and their :bounds are modelled in the writer, not in the round trip."
  },
  {
   "property": "C52",
   "status": "proved",
   "theorems": [
    "C52_hypergraph",
    "C52_primal_graph",
    "C52_acyclic",
    "C52_names_refuted",
    "C52_no_precondition_refuted"
   ],
   "note": "Acyclicity is stated as existence of a join tree over the atoms of the precondition (HypergraphSpec.v), not in terms of the edges computed."
  },
  {
   "property": "C53",
   "status": "proved",
   "theorems": [
    "C53_solutions",
    "C53_total",
    "C53_inapplicable",
    "C53_disjunction_refuted",
    "C53_no_precondition_refuted",
    "C53_functions_refuted",
    "C53_clash_refuted"
   ],
   "note": "Solutions are defined in CspSchemaSpec.v on the variables, bounds and constraints of the CSP only. The set of state variables is arbitrary. Composes the numbering of constants (C20), the simplification with static symbols (C31) and the evaluator. Refutations accompany the restrictions."
  },
  {
   "property": "C54",
   "status": "proved",
   "theorems": [
    "C54_constraints",
    "C54_sensors",
    "C54_differential_constraints",
    "C54_reactions",
    "C54_existential_refuted",
    "C54_wide_conjunction_refuted",
    "C54_shared_instance_refuted"
   ],
   "note": "The iteration order of the set of variables and Python's comparison of formulas are parameters (the comparison is only assumed not to identify different formulas). Restrictions are the clauses of groundable_constraint and good_* (NaiveGroundSpec.v)."
  },
  {
   "property": "C55",
   "status": "proved",
   "theorems": [
    "C55_actions",
    "C55_total",
    "C55_temporal_actions",
    "C55_temporal_total",
    "C55_later_domain_refuted",
    "C55_guarded_constraint_refuted"
   ],
   "note": "Truth of constraints is truth in every structure that agrees with the state (EvalSpec.v). The type of delays and the texts of constants are parameters. good_schema and good_temporal ask that no variable of the schema is rebound inside it and that transitions are of function terms."
  },
  {
   "property": "C56",
   "status": "proved",
   "theorems": [
    "C56_document",
    "C56_types_of_variables_refuted",
    "C56_other_sorts_refuted",
    "C56_positions_refuted",
    "C56_no_arithmetic_refuted"
   ],
   "note": "The document is modelled, not its serialisation by the json library. The texts of terms are a parameter. Refutations accompany the restrictions."
  },
  {
   "property": "C57",
   "status": "proved",
   "theorems": [
    "C57_text_determines_instance",
    "C57_total",
    "C57_no_actions_refuted"
   ],
   "note": "The reader is a witness of the theorem (SasTextProofs.v); what it returns is related to the instance by describes (SasTextSpec.v), which does not mention the writer. The texts of terms are a parameter."
  },
  {
   "property": "C58",
   "status": "proved",
   "theorems": [
    "C58_terms",
    "C58_comparisons",
    "C58_evaluator",
    "C58_evaluator_comparisons",
    "C58_builds",
    "C58_compares",
    "C58_theory_needed",
    "C58_nonvacuous",
    "C58_nonvacuous_value",
    "C58_literals_refuted"
   ],
   "note": "The meaning of an expression to Python is pyvalue and the rules for building it are builds and compares (TheoriesSpec.v). Strings that read as numbers are excluded by no_numeral except in the refutation; integers beyond 2^53 next to terms of real sorts are outside the model (rounding). Arrays of terms, unary operators and terms of two languages are not modelled."
  },
  {
   "property": "C59",
   "status": "proved",
   "theorems": [
    "C59_twice",
    "C59_load",
    "C59_declares",
    "C59_failed",
    "C59_symbols",
    "C59_load_all",
    "C59_load_all_declares",
    "C59_order",
    "C59_language",
    "C59_nonvacuous",
    "C59_atomic_refuted"
   ],
   "note": "The built-in symbols are members of an Enum and live apart from names (t_symbols, t_handlers). Names that are no theory are not modelled. Languages of histories with theories are languages of histories of declarations (trun_lrun), so C16-C19 apply to them."
  },
  {
   "property": "C60",
   "status": "proved",
   "theorems": [
    "C60_classes",
    "C60_passes",
    "C60_more_passes",
    "C60_rejects",
    "C60_order",
    "C60_separate",
    "C60_changes",
    "C60_state_variables",
    "C60_universal_refuted",
    "C60_static_instance_refuted",
    "C60_comparison_refuted",
    "C60_conditional_refuted"
   ],
   "note": "The fluent terms are an inductive definition (FluentsSpec.v). Limits shown by refutations: effects inside universal effects are ignored, terms are compared syntactically (p(a) is static although p(?x) is deleted), comparisons are reported as static, a constraint that is a single equation links nothing, and if-then-else terms hide their subterms. ChoiceEffect and hybrid problems are not modelled."
  },
  {
   "property": "C61",
   "status": "proved",
   "theorems": [
    "C61_generates",
    "C61_initial",
    "C61_plans_are_moves",
    "C61_moves_are_plans",
    "C61_places",
    "C61_goal",
    "C61_solvable",
    "C61_inequalities_redundant"
   ],
   "note": "A world is a list of towers and a hand (BlocksSpec.v); states are related to worlds by what is true in them. Plans bind parameters to any constants (binding_plan: no rewriting of formulas). The functional variant (move with loc) is not modelled: its effect adds clear(loc(x)), an atom with a non-constant argument."
  },
  {
   "property": "C62",
   "status": "proved",
   "theorems": [
    "C62_assignment",
    "C62_generates",
    "C62_initial",
    "C62_goal",
    "C62_bounds",
    "C62_no_successors",
    "C62_solvable_refuted",
    "C62_nonvacuous",
    "C62_nonvacuous_none"
   ],
   "note": "A finding: Model.set rejects the values that the evaluator computes (sort Integer) for functions whose codomain is an interval, so the counters benchmark cannot be executed by progress(). Bindings of plans map parameters to terms and rewrite nothing else (parameter_binding)."
  },
  {
   "property": "C63",
   "status": "proved",
   "theorems": [
    "C63_expression",
    "C63_terms",
    "C63_formulas",
    "C63_numbers",
    "C63_constraints",
    "C63_constraints_refuted",
    "C63_cpfs",
    "C63_reward",
    "C63_connectives_refuted",
    "C63_negation_refuted",
    "C63_conditional_captures_refuted",
    "C63_aggregate_captures_refuted",
    "C63_question_mark_refuted",
    "C63_power_refuted",
    "C63_nonvacuous",
    "C63_nonvacuous_captured",
    "C63_nonvacuous_conditional",
    "C63_nonvacuous_conjuncts",
    "C63_variables_refuted",
    "C63_nonvacuous_sections"
   ],
   "note": "RDDL is specified by a reader of texts (lexer and parser) and a semantics in RddlSpec.v; conditionals, quantifiers and aggregates extend to the right as in the RDDL grammar, and operator chains, whose reading depends on precedences, are refused by the reader (the writer never emits them). Findings, as refuting theorems: sumterm(v, a) + b is read as sumterm(v, a + b), conditionals likewise, land(a, b, c) loses c, negations print a Python list. Floats are opaque numerals. The types, fluent and object declarations and the initial state of the file are not covered."
  },
  {
   "property": "C64",
   "status": "proved",
   "theorems": [
    "C64_meaning",
    "C64_accepts",
    "C64_unsupported",
    "C64_rest_ignored",
    "C64_two_variables_refuted",
    "C64_supertype_refuted",
    "C64_requantified_refuted"
   ],
   "note": "The input is the syntax tree of the external parser pyrddl (as seen through etype and args), not the text. tt.X(p(..)) is represented as an atom of a primed symbol. Floats are opaque numerals. Findings, as refuting theorems: only the first variable of a sum, product or forall is read, and the next one is taken as the body; a variable given to a fluent declared on a supertype is left free; a forall that rebinds a summed variable comes back quantifying over a constant."
  },
  {
   "property": "C65",
   "status": "proved",
   "theorems": [
    "C65_language",
    "C65_names",
    "C65_hierarchy",
    "C65_domains",
    "C65_accepts",
    "C65_state",
    "C65_initial",
    "C65_default_refuted",
    "C65_function_default_refuted",
    "C65_later_false_refuted",
    "C65_overloading_refuted",
    "C65_enumerated_refuted"
   ],
   "note": "The input is what the external parser pyrddl delivers. Hypotheses: numbers are not used as object types and no object or fluent is called real or int (ordinary); entries have no variables as arguments and integers are exact as floats. Findings, as refuting theorems: defaults are ignored (a Boolean default true is lost, a function with a default has no value), a later false entry does not undo a true one, p/1 and p/2 clash, enumerated types are rejected."
  },
  {
   "property": "C66",
   "status": "proved",
   "theorems": [
    "C66_accepts",
    "C66_types",
    "C66_hierarchy",
    "C66_supertype",
    "C66_domains",
    "C66_objects",
    "C66_signatures",
    "C66_variables",
    "C66_nonvacuous",
    "C66_order_matters",
    "C66_cycle_diverges",
    "C66_object_keyword",
    "C66_object_variables",
    "C66_constants_first"
   ],
   "note": "The input is what the grammar delivers: entries of a types or constants section, lists of variables and types. Not modelled: the LALR grammar itself, and that names followed by the keyword object, number or either drop the rest of a types section. Constants must come after the types (C66_constants_first shows why). Findings, as theorems: C66_order_matters, C66_cycle_diverges (non-termination, for every number of steps), C66_object_keyword, C66_object_variables, C66_constants_first."
  },
  {
   "property": "C67",
   "status": "proved",
   "theorems": [
    "C67_actions",
    "C67_goals",
    "C67_parameters",
    "C67_preconditions",
    "C67_goal_meaning",
    "C67_effects",
    "C67_scale_down",
    "C67_durative_actions",
    "C67_durative_conditions",
    "C67_durative_effects",
    "C67_initial_facts",
    "C67_initial_values",
    "C67_nonvacuous",
    "C67_scale_down_wrong",
    "C67_numeric_atoms",
    "C67_refused",
    "C67_durative_example"
   ],
   "note": "The input is the tree that the grammar delivers; the lexer and the LALR tables are not modelled. Success is stated for all numbers of search steps above a bound that depends on the domain (the Python search has none). Meaning theorems ask that atoms are over predicates; C67_numeric_atoms shows what happens otherwise. Not modelled: comparing functions or types as objects (=), decimals beyond 2^53, derived predicates, the metric, nested conjunctions in durative conditions. Findings, as theorems: C67_scale_down(_wrong), C67_numeric_atoms, C67_refused (KeyError for a rebound variable, TypeError for negative numbers, negated initial facts and empty durative conditions)."
  },
  {
   "property": "C68",
   "status": "proved",
   "theorems": [
    "C68_document",
    "C68_written_again",
    "C68_written_again_refuted",
    "C68_max_actions_refuted",
    "C68_boolean_default_refuted",
    "C68_subtype_objects",
    "C68_left_out_refuted",
    "C68_nonvacuous",
    "C68_nonvacuous_boolean",
    "C68_object_range_refuted"
   ],
   "note": "The reader of documents (RddlDocSpec) is a specification of the RDDL text format for the sections the writer uses, not the external parser pyrddl. A fluent is given by its symbol, a default, horizon, discount or bound by the text Python gives for it. Assumed: the symbols of the state are still those of the language (not removed or redefined). Findings, as theorems: C68_max_actions_refuted, C68_written_again_refuted, C68_boolean_default_refuted, C68_left_out_refuted, C68_subtype_objects."
  },
  {
   "property": "C69",
   "status": "proved",
   "theorems": [
    "C69_round_trip",
    "C69_subtypes_refuted",
    "C69_nonvacuous",
    "C69_nonvacuous_subtypes"
   ],
   "note": "The step from the document to what the reader gets (RddlRoundSpec.delivered) specifies the external parser pyrddl; which words are numbers is a parameter. Expressions (transition functions, reward, constraints) are the subject of C63 and C64 and not repeated here. Values of functions must be constants of the codomain itself. Finding, as a theorem: C69_subtypes_refuted."
  },
  {
   "property": "C70",
   "status": "proved",
   "theorems": [
    "C70_values",
    "C70_literal",
    "C70_product",
    "C70_shapes",
    "C70_integers_refuted",
    "C70_sum_refuted",
    "C70_elementwise",
    "C70_transpose",
    "C70_transpose_value",
    "C70_transpose_product",
    "C70_transpose_form",
    "C70_scalars",
    "C70_transpose_expressions_refuted",
    "C70_transpose_scalar_refuted",
    "C70_nonvacuous"
   ],
   "note": "Floats are an arbitrary structure (no laws assumed; commutativity of multiplication only where stated). numpy is modelled as lists of lists with a shape. Sorts other than Real and Integer, ** and %, nested matrices and variables are not in the model; that a transposed matrix is a view of the same array is not modelled. Refutations: C70_integers_refuted, C70_sum_refuted, C70_transpose_expressions_refuted, C70_transpose_scalar_refuted."
  },
  {
   "property": "C71",
   "status": "proved",
   "theorems": [
    "C71_actions",
    "C71_reactions",
    "C71_derived",
    "C71_sensors",
    "C71_grows",
    "C71_diff",
    "C71_answers",
    "C71_derived_mismatch_refuted",
    "C71_diff_replaced_refuted",
    "C71_diff_reaction_refuted",
    "C71_diff_builtin_refuted",
    "C71_nonvacuous"
   ],
   "note": "The containers of the three problem classes are in one record. Refutations of what the classes mean to do: C71_diff_replaced_refuted, C71_diff_reaction_refuted, C71_diff_builtin_refuted, C71_derived_mismatch_refuted. The printed forms and dump() are not modelled."
  },
  {
   "property": "C72",
   "status": "proved",
   "theorems": [
    "C72_lock",
    "C72_level",
    "C72_built",
    "C72_accepts",
    "C72_parts",
    "C72_effect_time",
    "C72_horizon",
    "C72_nonvacuous",
    "C72_release_refuted",
    "C72_atom_refuted",
    "C72_condition_refuted"
   ],
   "note": "Times are exact rationals (floats in Python). _release_refuted, _atom_refuted, _condition_refuted: max_eff_time ignores when a lock starts; an assignment to an atom raises RuntimeError; quantified or false preconditions are refused."
  },
  {
   "property": "C73",
   "status": "proved",
   "theorems": [
    "C73_value",
    "C73_sort",
    "C73_integers",
    "C73_integer_extrema_refuted",
    "C73_naturals_refuted",
    "C73_special",
    "C73_plain_numbers_refuted",
    "C73_constants",
    "C73_reals",
    "C73_special_unary",
    "C73_power",
    "C73_not_loaded",
    "C73_undefined",
    "C73_nonvacuous"
   ],
   "note": "Floats are an arbitrary structure (no laws assumed). The random functions and intervals declared by the user are not in the model; ZeroDivisionError is represented by an arbitrary exception. Refutations: C73_integer_extrema_refuted, C73_naturals_refuted, C73_plain_numbers_refuted."
  },
  {
   "property": "C74",
   "status": "proved",
   "theorems": [
    "C74_reads",
    "C74_safe",
    "C74_atoms",
    "C74_actions",
    "C74_goal",
    "C74_nonvacuous",
    "C74_reserved_word_refuted",
    "C74_capital_refuted",
    "C74_outer_comparison_refuted"
   ],
   "note": "How gringo reads text is a specification of ours (the fragment: facts, rules, atoms, comparisons; the anonymous variable is left out). The order comparisons never hold, as in C38. C74_reserved_word_refuted, C74_capital_refuted, C74_outer_comparison_refuted are the failures."
  },
  {
   "property": "C75",
   "status": "proved",
   "theorems": [
    "C75_random",
    "C75_random_exists",
    "C75_refuses",
    "C75_generates",
    "C75_initial",
    "C75_goal",
    "C75_move",
    "C75_covered_stays",
    "C75_solvable",
    "C75_domains",
    "C75_language",
    "C75_reversal_refuted",
    "C75_nonvacuous"
   ],
   "note": "The constant None is represented by a constant named None. A layout that names a sort or a symbol instead of a constant is not modelled. The subtype relation the theorems assume (places_typed) is that of the generated language, for every number of blocks: C75_language, which also gives the constants. C75_reversal_refuted: a tower of two blocks cannot be turned round."
  },
  {
   "property": "C76",
   "status": "proved",
   "theorems": [
    "C76_reads",
    "C76_pieces",
    "C76_written",
    "C76_capitals",
    "C76_types",
    "C76_no_dt",
    "C76_inputs",
    "C76_checks",
    "C76_skips_refuted",
    "C76_nonvacuous"
   ],
   "note": "Characters are bytes. ply's Lexer.token is part of the model (order of the rules, skipping, t_error). The value of a decimal number is exact: rounding by float is not modelled. C76_skips_refuted lists the known limits."
  },
  {
   "property": "C77",
   "status": "proved",
   "theorems": [
    "C77_known",
    "C77_unknown",
    "C77_accepted",
    "C77_again",
    "C77_object_fluents_refuted",
    "C77_nonvacuous"
   ],
   "note": "The section is read alone; how the parser recovers from a syntax error (p_error) is not modelled. C77_object_fluents_refuted is the known limit."
  },
  {
   "property": "C78",
   "status": "proved",
   "theorems": [
    "C78_visits",
    "C78_run",
    "C78_once",
    "C78_keeps",
    "C78_meaning",
    "C78_meaning_expressions",
    "C78_suppressed_effects",
    "C78_suppressed_atoms",
    "C78_undefined",
    "C78_symbols",
    "C78_symbols_agree",
    "C78_affected_agree",
    "C78_universal_condition_refuted",
    "C78_nonvacuous",
    "C78_substitution_agree",
    "C78_existential_agree"
   ],
   "note": "A suppressed node that is not in a list (a condition, the body of a quantifier, the side of an assignment) is stored in the tree by the code as the WalkerAction itself: not modelled, and neither are methods that return something that is not a node. After an exception the walker is not used again. C78_universal_condition_refuted: the condition of a universal effect is not visited, and a conjunction can become empty."
  },
  {
   "property": "C79",
   "status": "proved",
   "theorems": [
    "C79_operators",
    "C79_accepts",
    "C79_weak_until_refuted",
    "C79_connectives",
    "C79_and_or",
    "C79_quantifiers",
    "C79_substitution",
    "C79_substitution_constants",
    "C79_substitution_timeless",
    "C79_free_variables",
    "C79_flatten",
    "C79_first_order",
    "C79_nnf",
    "C79_substitution_changing_refuted"
   ],
   "note": "Trace semantics (LtlSpec.v): universe, sorts and constants fixed, functions and predicates vary; U and R with more than two operands associate to the right in the specification (the code gives them no meaning). Dictionaries with formulas as keys, temporal operators in the conditions of if-then-else terms and the evaluator (which raises on temporal formulas) are not modelled. Findings: C79_weak_until_refuted, C79_substitution_changing_refuted."
  },
  {
   "property": "C80",
   "status": "proved",
   "theorems": [
    "C80_text",
    "C80_total",
    "C80_solutions",
    "C80_applicable",
    "C80_relevant_refuted",
    "C80_functions_refuted",
    "C80_no_variable_refuted",
    "C80_words_refuted",
    "C80_files"
   ],
   "note": "The file is modelled as text, line by line; C80_text and C80_applicable exhibit a reader. Assumes one-word names, state variables that are atoms, and predicate names that are not overloaded among true atoms. The order in which the set of effect-relevant variables is iterated is that of the parameters in the model. Opening the file and the check for the directory are not modelled."
  },
  {
   "property": "C81",
   "status": "proved",
   "theorems": [
    "C81_terms",
    "C81_formulas",
    "C81_temporal",
    "C81_vocabulary",
    "C81_vocabulary_terms",
    "C81_prefix",
    "C81_sorts_refuted",
    "C81_constants_refuted",
    "C81_punctuation_refuted",
    "C81_digits_refuted"
   ],
   "note": "Names are assumed to be words (no parenthesis, comma or space), constants not to be named like variables, and no function to be called ite/2. Aggregates, matrices and symbol references are not modelled. Four refuted variants show that the assumptions are needed."
  },
  {
   "property": "C82",
   "status": "proved",
   "theorems": [
    "C82_words",
    "C82_sound",
    "C82_complete",
    "C82_undefined",
    "C82_arity",
    "C82_roundtrip",
    "C82_model",
    "C82_model_succeeds",
    "C82_model_roundtrip",
    "C82_nullary_refuted",
    "C82_numbers_refuted",
    "C82_layout_refuted"
   ],
   "note": "ASCII texts. The name of a function as the head of a text (which gives a compound term, refused by Model.add) is not modelled. Languages are those reached from the empty one by declarations; built-in symbols are registered under enumeration members and are never found by a word. C82_nullary_refuted, C82_numbers_refuted and C82_layout_refuted are the known limits."
  },
  {
   "property": "C83",
   "status": "proved",
   "theorems": [
    "C83_hits",
    "C83_found",
    "C83_not_searchable",
    "C83_collect_variables",
    "C83_equalities",
    "C83_variables_refuted",
    "C83_quantifier_refuted",
    "C83_conditional_refuted",
    "C83_constants_refuted"
   ],
   "note": "Places are ways down through arguments, operands and bodies; the variables after a quantifier are no places. First-order syntax only (temporal operators are visited like connectives by the code and not modelled here). C83_*_refuted are the known limits; CollectVariables does not work at all because terms are not hashable."
  },
  {
   "property": "C84",
   "status": "proved",
   "theorems": [
    "C84_accepted",
    "C84_pddl_accepted",
    "C84_head",
    "C84_facts",
    "C84_file",
    "C84_file_order",
    "C84_undeclared",
    "C84_wrong_head",
    "C84_metric_accepted",
    "C84_metric_refused",
    "C84_metric_meaning",
    "C84_no_metric",
    "C84_nonvacuous",
    "C84_extra_variable",
    "C84_refused",
    "C84_metric_examples"
   ],
   "note": "From the trees of the grammar, like C67. C84_extra_variable, C84_undeclared, C84_wrong_head and C84_metric_refused are the known limits. Only the derived facts of one definition are given a meaning, not fixpoints over several definitions: tarski does not compute those."
  },
  {
   "property": "C85",
   "status": "proved",
   "theorems": [
    "C85_round_trip",
    "C85_injective",
    "C85_shortest",
    "C85_overflow",
    "C85_overflow_example",
    "C85_defined",
    "C85_range",
    "C85_joined",
    "C85_collision",
    "C85_names",
    "C85_copies",
    "C85_nonvacuous"
   ],
   "note": "SHA-256 is an arbitrary function of bytes; object.__hash__ is an arbitrary number for every object. Texts are ASCII. C85_overflow, C85_joined, C85_collision and C85_copies are the known limits."
  },
  {
   "property": "C86",
   "status": "proved",
   "theorems": [
    "C86_operator_names",
    "C86_instances",
    "C86_ident",
    "C86_order",
    "C86_commas",
    "C86_nonvacuous"
   ],
   "note": "operator_name is that of the model of C49, instance_name that of its specification. Code points as characters: ASCII. C86_commas is the known limit."
  }
 ]
}