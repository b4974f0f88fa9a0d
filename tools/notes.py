n('C01','proved','Exact: C01_nnf_equivalent on the formulas of the statement, C01_nnf_result_not_a_formula on all the others (nnf.py:29-33 stores class objects); the unrestricted claim is refuted (C01_nnf_refuted).')
n('C02','proved',"Idempotence on NNF formulas, NNF of an NNF result, preservation of the atom sequence.")
n('C03','proved','Exact: C03_negated_constant covers the remaining formulas.')
n('C04','proved','Exact: C04_clauses and C04_single_clause_lost cover both shapes (cnf.py:85-88 never flushes current_clause); the unrestricted claim is refuted (C04_clauses_refuted).')
n('C05','proved','Exact for every well-formed formula with binary built-in atoms: C05_absorption_exact. The unrestricted equivalence is refuted (C05_absorption_refuted).')
n('C06','proved','Positive part under the stated provisos, each of which has its own refutation.')
n('C07','proved','The unrestricted claim (with rebinding) is refuted.')
n('C08','proved','Both failures without the proviso are refutation theorems.')
n('C09','proved','Exact for every well-formed formula: C09_free_variables_exact, C09_free_variables_raises_iff.')
n('C10','proved',"")
n('C11','proved',"")
n('C12','proved',"Soundness for every reachable model and well-formed formula; completeness except directly nested if-then-else terms (refuted: AssertionError). Equality compares names only, so it is not a congruence (C12_equality_is_not_a_congruence).")
n('C13','proved',"Equivalence relation proved; hash compatibility proved without float names and refuted with them (1 and 1.0). Walking a formula in place changes its identity (C13_walk_changes_identity).")
n('C14','proved',"All histories, under the language invariant that no predicate and function share a signature; without it remove_symbol removes the wrong one (C14_shared_signature_refuted).")
n('C15','proved',"Extensional equality implies ==; the converse holds for unambiguous printed names and is refuted in general (constants 1:Natural and 1:Integer).")
n('C16','proved',"All histories; failures of attach_sort (foreign parent) and attach_arithmetic_sorts may leave elements behind (C16_partial_failures).")
n('C17','proved',"All histories of declarations and queries. set_parent, a lower-level entry point, can break the tree (C17_set_parent_refuted).")
n('C18','proved',"Exact for uninterpreted sorts; constants of interval sorts do not enter ancestor domains (C18_interval_constants_refuted).")
n('C19','proved',"Exact for integers and every reachable interval sort; inclusion in the parent's domain refuted, cast of numeral strings does not return the string, numbers are shared between interval sorts. Floats are not modelled.")
n('C20','proved',"Proved for every history in which no uninterpreted sort is declared below a numeric sort and each sort's constants are all string-named or all integer-named; both hypotheses are necessary (C20_below_interval_refuted, C20_mixed_names_refuted).")
n('C21','proved',"Consistency and next-id behaviour proved for every history of add and for a constructor call with distinct objects; a constructor call with duplicate objects leaves holes (C21_duplicate_names_refuted).")
n('C22','proved',"")
n('C23','proved',"")
n('C24','proved',"Proved when no effect writes a symbol that another effect reads (and, for order, no point is assigned two values); refuted otherwise: effects see the updates of earlier ones, x:=y,y:=x does not swap, increase overwrites.")
n('C27','proved',"Same computation without deletes inside universal effects; same state when the expansion is independent and conflict-free; refuted when a universal effect deletes what an earlier effect adds, and for nested universal effects.")
n('C25','proved',"Generic over the search model; instantiated for ground problems whose printed names are unambiguous (model equality is textual, see C15).")
n('C28','proved',"Plans whose ground conditions are negation-free, defined in the initial state and type-correct; refuted with negated preconditions.")
n('C29','proved',"Exact characterisation of what the recognisers accept proved; refuted: disjunctions, double negations and single negative literals are accepted.")
n('C43','proved',"")
n('C30','proved',"C30_removed_parameters characterises what is removed, C30_precondition and C30_raises the resulting schema, C30_instances the ground instances (applicability for some extension, same effects hence same successor) when no effect mentions a removed parameter; the claim is false otherwise: C30_condition_refuted, C30_shadowing_refuted.")
n('C26','proved',"C26_plans: the same plans run, with the same goal value and complementary new predicates, for literal-conjunction preconditions and plans whose steps have no add/delete conflict and whose effect conditions do not mention changed predicates; C26_negation_free. The unrestricted claim is false: C26_conflict_refuted, C26_conditional_refuted, C26_disjunction_refuted, C26_no_precondition_refuted.")
n('C33','proved',"For every finite relation; the loop runs at most (number of nodes)^2+1 times.")
n('C34','proved',"For every pair of finite sets and every finite relation; distances are capped at sys.maxsize.")
n('C36','proved',"True exactly for hypergraphs with a join tree, for every iteration order of the Python sets.")
n('C44','proved',"The tuples are exactly the (names, constant names) of the conjuncts, every other formula raises; sorts are lost (C44_sorts_are_lost).")
n('C45','proved',"Sound, complete; each node once when no float constant names occur (C45_collect_once, refuted otherwise: 1 vs 1.0); argument containers are turned into lists (C45_argument_left_behind is exact).")
n('C39','proved',"Exact enumeration for signatures, actions, symbols, partially ground terms and state variables, each binding once; TarskiError exactly for non-enumerable sorts. Repeated variables in create_all_possible_state_variables are instantiated independently (C39_repeated_variable_refuted).")
n('C40','proved',"Statics never change along any plan, fluents are exactly the written symbols, partition proved for symbols other than total-cost (refuted for it: C40_total_cost_refuted).")
n('C41','proved',"Exact arithmetic over an arbitrary field (float rounding is not modelled). Refuted beyond the statement: 0/x becomes 0 where x may be 0, simplify is not idempotent, empty domains raise IndexError, 0 - x over Natural raises ValueError. Matrices and aggregate terms are not modelled.")
n('C35','proved',"The model object is not in the repository and is modelled by an interpretation of the primitives. Refuted beyond the statement: C35_composition_refuted (composition with a non-functional second role), C35_composition_order_refuted (the answer depends on set order), C35_star_not_reflexive_refuted.")
n('C47','proved',"One theorem per create_ operation; C47_unbounded_refuted: with an Or concept, whose sort attribute is the smaller sort, a non-empty concept is pruned. compute_dl_vocabulary is not modelled.")
n('C31','proved',"C31_expression, C31_without_model, C31_evaluation, C31_reduced (expressions), C31_action, C31_plans and C31_plans_reflected (problems). Refutations outside the hypotheses: C31_empty_sort_refuted, C31_compound_delete_refuted, C31_universal_condition_refuted; C31_true_goal_refuted and C31_true_precondition_refuted (RuntimeError). Not expressible: Python nodes shared between expressions. The language is shared with the given problem, so the removal of symbols also affects the latter even with inplace=False.")
n('C32','proved',"Each precondition is needed: C32_body_refuted (negated or disjunctive bodies become true), C32_nested_refuted (nested existentials become true), C32_trivial_equality_refuted (with an atom z = z the wrong conjunct is dropped), C32_sort_refuted, C32_circular_refuted, C32_capture_refuted. If-then-else terms are modelled but excluded from the theorem.")
n('C46','proved',"Reading modelled on actions after parsing (the ANTLR parser itself is not). Costs are integers; the converse direction needs the codomain of total-cost to accept integers and the running totals to stay in Tarski's integer bounds, both stated. The three refuted theorems delimit the preconditions.")
n('C37','proved',"Strings are ASCII. C37_order_refuted is the counterexample named in the statement; C37_clash_example shows the error. Legality of the names for gringo beyond the absence of hyphens is not modelled.")

n('C38','proved',"Least-model semantics of the rules as data (printing of rules and the gringo binary are not modelled). Reachable states are defined in AspSpec.v by the usual simultaneous delete-then-add semantics, with arbitrary function values. C38_interval_parameter_refuted and C38_variable_case_refuted are the failures named in the statement.")

n('C42','proved',"Lexer, bracket structure and visitor rules of the reader are modelled in PddlRead.v (raise_on_error parsing; the ANTLR-generated parser is represented by a direct reading of the grammar; words that ANTLR would split, comments and fractional numbers are errors in the model). The seven ..._refuted theorems exhibit the failures named in the statement; C42_two_spellings_refuted the changed meaning.")

n('C48','proved',"The solver is a parameter: any function from rules to text whose text, if any, lists the least model (answers, LpGroundSpec.v). Names must survive translation (clear_names) for the typing of action tuples. C48_schema_groundings_refuted and C48_second_call_refuted are the two failures named in the statement. C48_plans and C48_no_plan say the same of whole executions: no step of any execution is missing from the ground actions, and after the exception no execution reaches the goal.")

n('C49','proved',"States, applicability and successors as in AspSpec.v (delete-then-add, arbitrary function values). Operators are compared with actions in all states (is_instance, OperatorSpec.v) and plans are lists of names. The solver is a parameter as in C48.")

n('C50','proved',"The lexer, bracket structure and rules are those of C42 plus actionDef. Meaning is stated by same_action (PddlActionSpec.v): per-effect, in all structures with standard numerals, variables assigned under their printed names. The ..._refuted theorems exhibit the failures named in the statement.")

n('C51','proved',"The theorem takes the language as the result of any sequence of declarations (C16-C18), so all names are distinct and parents are declared first. Sets are lists in an arbitrary order (the initial state's points, the requirements). Restrictions are the clauses of writable (PddlProblemSpec.v); a _refuted theorem exhibits the failure for each. Interval sorts and their :bounds are modelled in the writer, not in the round trip.")

n('C52','proved',"Acyclicity is stated as existence of a join tree over the atoms of the precondition (HypergraphSpec.v), not in terms of the edges computed.")
n('C53','proved',"Solutions are defined in CspSchemaSpec.v on the variables, bounds and constraints of the CSP only. The set of state variables is arbitrary. Composes the numbering of constants (C20), the simplification with static symbols (C31) and the evaluator. Refutations accompany the restrictions.")
n('C54','proved',"The iteration order of the set of variables and Python's comparison of formulas are parameters (the comparison is only assumed not to identify different formulas). Restrictions are the clauses of groundable_constraint and good_* (NaiveGroundSpec.v).")
n('C55','proved',"Truth of constraints is truth in every structure that agrees with the state (EvalSpec.v). The type of delays and the texts of constants are parameters. good_schema and good_temporal ask that no variable of the schema is rebound inside it and that transitions are of function terms.")
n('C56','proved',"The document is modelled, not its serialisation by the json library. The texts of terms are a parameter. Refutations accompany the restrictions.")
n('C57','proved',"The reader is a witness of the theorem (SasTextProofs.v); what it returns is related to the instance by describes (SasTextSpec.v), which does not mention the writer. The texts of terms are a parameter.")
n('C58','proved',"The meaning of an expression to Python is pyvalue and the rules for building it are builds and compares (TheoriesSpec.v). Strings that read as numbers are excluded by no_numeral except in the refutation; integers beyond 2^53 next to terms of real sorts are outside the model (rounding). Arrays of terms, unary operators and terms of two languages are not modelled.")
n('C59','proved',"The built-in symbols are members of an Enum and live apart from names (t_symbols, t_handlers). Names that are no theory are not modelled. Languages of histories with theories are languages of histories of declarations (trun_lrun), so C16-C19 apply to them.")
n('C60','proved',"The fluent terms are an inductive definition (FluentsSpec.v). Limits shown by refutations: effects inside universal effects are ignored, terms are compared syntactically (p(a) is static although p(?x) is deleted), comparisons are reported as static, a constraint that is a single equation links nothing, and if-then-else terms hide their subterms. ChoiceEffect and hybrid problems are not modelled.")
n('C61','proved',"A world is a list of towers and a hand (BlocksSpec.v); states are related to worlds by what is true in them. Plans bind parameters to any constants (binding_plan: no rewriting of formulas). The functional variant (move with loc) is not modelled: its effect adds clear(loc(x)), an atom with a non-constant argument.")
n('C62','proved',"A finding: Model.set rejects the values that the evaluator computes (sort Integer) for functions whose codomain is an interval, so the counters benchmark cannot be executed by progress(). Bindings of plans map parameters to terms and rewrite nothing else (parameter_binding).")
n('C63','proved',"RDDL is specified by a reader of texts (lexer and parser) and a semantics in RddlSpec.v; conditionals, quantifiers and aggregates extend to the right as in the RDDL grammar, and operator chains, whose reading depends on precedences, are refused by the reader (the writer never emits them). Findings, as refuting theorems: sumterm(v, a) + b is read as sumterm(v, a + b), conditionals likewise, land(a, b, c) loses c, negations print a Python list. Floats are opaque numerals. The types, fluent and object declarations and the initial state of the file are not covered.")
n('C64','proved',"The input is the syntax tree of the external parser pyrddl (as seen through etype and args), not the text. tt.X(p(..)) is represented as an atom of a primed symbol. Floats are opaque numerals. Findings, as refuting theorems: only the first variable of a sum, product or forall is read, and the next one is taken as the body; a variable given to a fluent declared on a supertype is left free; a forall that rebinds a summed variable comes back quantifying over a constant.")
n('C65','proved',"The input is what the external parser pyrddl delivers. Hypotheses: numbers are not used as object types and no object or fluent is called real or int (ordinary); entries have no variables as arguments and integers are exact as floats. Findings, as refuting theorems: defaults are ignored (a Boolean default true is lost, a function with a default has no value), a later false entry does not undo a true one, p/1 and p/2 clash, enumerated types are rejected.")
n('C66','proved',"The input is what the grammar delivers: entries of a types or constants section, lists of variables and types. Not modelled: the LALR grammar itself, and that names followed by the keyword object, number or either drop the rest of a types section. Constants must come after the types (C66_constants_first shows why). Findings, as theorems: C66_order_matters, C66_cycle_diverges (non-termination, for every number of steps), C66_object_keyword, C66_object_variables, C66_constants_first.")
n('C67','proved',"The input is the tree that the grammar delivers; the lexer and the LALR tables are not modelled. Success is stated for all numbers of search steps above a bound that depends on the domain (the Python search has none). Meaning theorems ask that atoms are over predicates; C67_numeric_atoms shows what happens otherwise. Not modelled: comparing functions or types as objects (=), decimals beyond 2^53, derived predicates, the metric, nested conjunctions in durative conditions. Findings, as theorems: C67_scale_down(_wrong), C67_numeric_atoms, C67_refused (KeyError for a rebound variable, TypeError for negative numbers, negated initial facts and empty durative conditions).")
n('C68','proved',"The reader of documents (RddlDocSpec) is a specification of the RDDL text format for the sections the writer uses, not the external parser pyrddl. A fluent is given by its symbol, a default, horizon, discount or bound by the text Python gives for it. Assumed: the symbols of the state are still those of the language (not removed or redefined). Findings, as theorems: C68_max_actions_refuted, C68_written_again_refuted, C68_boolean_default_refuted, C68_left_out_refuted, C68_subtype_objects.")
n('C69','proved',"The step from the document to what the reader gets (RddlRoundSpec.delivered) specifies the external parser pyrddl; which words are numbers is a parameter. Expressions (transition functions, reward, constraints) are the subject of C63 and C64 and not repeated here. Values of functions must be constants of the codomain itself. Finding, as a theorem: C69_subtypes_refuted.")
n('C70','proved',"Floats are an arbitrary structure (no laws assumed; commutativity of multiplication only where stated). numpy is modelled as lists of lists with a shape. Sorts other than Real and Integer, ** and %, nested matrices and variables are not in the model; that a transposed matrix is a view of the same array is not modelled. Refutations: C70_integers_refuted, C70_sum_refuted, C70_transpose_expressions_refuted, C70_transpose_scalar_refuted.")
n('C71','proved',"The containers of the three problem classes are in one record. Refutations of what the classes mean to do: C71_diff_replaced_refuted, C71_diff_reaction_refuted, C71_diff_builtin_refuted, C71_derived_mismatch_refuted. The printed forms and dump() are not modelled.")
n('C72','proved',"Times are exact rationals (floats in Python). _release_refuted, _atom_refuted, _condition_refuted: max_eff_time ignores when a lock starts; an assignment to an atom raises RuntimeError; quantified or false preconditions are refused.")
n('C73','proved',"Floats are an arbitrary structure (no laws assumed). The random functions and intervals declared by the user are not in the model; ZeroDivisionError is represented by an arbitrary exception. Refutations: C73_integer_extrema_refuted, C73_naturals_refuted, C73_plain_numbers_refuted.")
n('C74','proved',"How gringo reads text is a specification of ours (the fragment: facts, rules, atoms, comparisons; the anonymous variable is left out). The order comparisons never hold, as in C38. C74_reserved_word_refuted, C74_capital_refuted, C74_outer_comparison_refuted are the failures.")
n('C75','proved',"The constant None is represented by a constant named None. A layout that names a sort or a symbol instead of a constant is not modelled. The subtype relation the theorems assume (places_typed) is that of the generated language, for every number of blocks: C75_language, which also gives the constants. C75_reversal_refuted: a tower of two blocks cannot be turned round.")
n('C76','proved',"Characters are bytes. ply's Lexer.token is part of the model (order of the rules, skipping, t_error). The value of a decimal number is exact: rounding by float is not modelled. C76_skips_refuted lists the known limits.")
n('C77','proved',"The section is read alone; how the parser recovers from a syntax error (p_error) is not modelled. C77_object_fluents_refuted is the known limit.")
n('C78','proved',"A suppressed node that is not in a list (a condition, the body of a quantifier, the side of an assignment) is stored in the tree by the code as the WalkerAction itself: not modelled, and neither are methods that return something that is not a node. After an exception the walker is not used again. C78_universal_condition_refuted: the condition of a universal effect is not visited, and a conjunction can become empty.")
n('C79','proved',"Trace semantics (LtlSpec.v): universe, sorts and constants fixed, functions and predicates vary; U and R with more than two operands associate to the right in the specification (the code gives them no meaning). Dictionaries with formulas as keys, temporal operators in the conditions of if-then-else terms and the evaluator (which raises on temporal formulas) are not modelled. Findings: C79_weak_until_refuted, C79_substitution_changing_refuted.")
n('C80','proved',"The file is modelled as text, line by line; C80_text and C80_applicable exhibit a reader. Assumes one-word names, state variables that are atoms, and predicate names that are not overloaded among true atoms. The order in which the set of effect-relevant variables is iterated is that of the parameters in the model. Opening the file and the check for the directory are not modelled.")
n('C81','proved',"Names are assumed to be words (no parenthesis, comma or space), constants not to be named like variables, and no function to be called ite/2. Aggregates, matrices and symbol references are not modelled. Four refuted variants show that the assumptions are needed.")
n('C82','proved',"ASCII texts. The name of a function as the head of a text (which gives a compound term, refused by Model.add) is not modelled. Languages are those reached from the empty one by declarations; built-in symbols are registered under enumeration members and are never found by a word. C82_nullary_refuted, C82_numbers_refuted and C82_layout_refuted are the known limits.")
n('C83','proved',"Places are ways down through arguments, operands and bodies; the variables after a quantifier are no places. First-order syntax only (temporal operators are visited like connectives by the code and not modelled here). C83_*_refuted are the known limits; CollectVariables does not work at all because terms are not hashable.")

n('C84','proved',"From the trees of the grammar, like C67. C84_extra_variable, C84_undeclared, C84_wrong_head and C84_metric_refused are the known limits. Only the derived facts of one definition are given a meaning, not fixpoints over several definitions: tarski does not compute those.")

n('C85','proved',"SHA-256 is an arbitrary function of bytes; object.__hash__ is an arbitrary number for every object. Texts are ASCII. C85_overflow, C85_joined, C85_collision and C85_copies are the known limits.")

n('C86','proved',"operator_name is that of the model of C49, instance_name that of its specification. Code points as characters: ASCII. C86_commas is the known limit.")
