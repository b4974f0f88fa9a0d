# A Rocq model of aig-upf/tarski

## Method

* Model files (second column of the table) hold executable Gallina functions that mirror the Python functions
  branch by branch; each definition cites file and lines in `/repo`. They contain no proofs.
* Python exceptions are values (`res A := Ok a | Err e`, `Base.v`). Loops are structural recursion, or recursion
  on fuel whose exhaustion is a distinguished error that the theorems exclude.
* In-place mutation of a tree that the code copied first is modelled by returning the new tree. Where
  aliasing is observable the comment of the definition says so.
* Python sets and dictionaries are lists; where the result depends on an iteration order, the theorem
  quantifies over all orders or a refutation shows the dependence.
* Specifications are separate: `Semantics.v` (Tarskian truth over arbitrary structures) and the `*Spec.v`
  files, which do not use the functions of the model (only its data types, and exceptions where stated at their top).
* Proofs are in `*Proofs*.v` and `Props*.v`. `Props*.v` holds the property theorems (`Theorem Cnn_...`), the
  `Example`s showing that their hypotheses are met by non-trivial objects, and `Print Assumptions`.
* A claim that is false of the code is proved false: `Cnn_..._refuted` theorems exhibit the
  witness. The statement in `properties.jsonl` then names the exact precondition and the failure.

## Per property

| id | title | model | specification | theorems in | method |
|----|----|----|----|----|----|
| C01 C02 | NNF is equivalent and is an NNF; NNF is idempotent and never grows the atom count | Nnf | Semantics, FolSpec | PropsFol | structural induction; the class object stored for a negated constant is an explicit error value |
| C03 C04 | CNF is equivalent and is a CNF; quantifiers are rejected; The clause list of a formula is equivalent to the formula | Cnf | Semantics, FolSpec | PropsFol, PropsFol2 | induction on formula size; both accumulators of collect_clauses are modelled |
| C05 | Absorbing negated built-ins preserves meaning | NegBuiltin | Semantics, FolSpec, FolSpec2 | PropsFol, PropsFol2 | induction; exact criterion for all formulas |
| C06 | Prenex form is equivalent and prenex | Prenex | Semantics, PrenexSpec, SubstSpec | PropsPrenex | quantifier-movement lemmas over qsem; one refutation per proviso |
| C07 C08 | Quantifier elimination is equivalent and removes the requested quantifiers; Substitution lemma | Subst, QElim | Semantics, SubstSpec | PropsFol | substitution lemma by mutual induction |
| C09 | free_variables reports exactly the variables that occur free | FreeVars | SubstSpec, FolSpec2 | PropsFol, PropsFol2 | mutual induction, invariant of the visitor's stack |
| C10 C11 | flatten preserves meaning and flattens; Formula constructors mean what they say | Build | Semantics, FolSpec | PropsFol | induction |
| C12 | The evaluator is sound and complete for ground quantifier-free formulas | Eval | Semantics, EvalSpec | PropsModel | mutual induction: agreement of the evaluator with every structure that agrees with the model |
| C13 | Syntactic equality of references is an equivalence compatible with hashing | HashEq | HashEq (key equality), Syntax | PropsModel | induction |
| C14 | A Model is a map from points to values and a set of true atoms | ModelState | ModelSpec | PropsModel | refinement of every history of operations to a set and a partial map |
| C15 | Model equality is extensional equality | ModelText | ModelTextSpec | PropsModel | sorting and uniqueness of printed lines |
| C16 C17 C18 C19 | A name denotes at most one language element; The sort hierarchy is a tree and is_subtype is its reflexive-transitive closure; Sort domains are exactly the constants of the sort and its subsorts; Intervals contain exactly the values between their bounds | Lang | LangSpec | PropsLang | invariants over all histories of declarations (state machine with failing steps) |
| C20 | Sort id assignment is a bijection with contiguous sort ranges | SortIds, Lang | LangSpec | PropsLang2 | induction on the sort tree reached by any history |
| C21 C22 | VariableBinding keeps name, order and position consistent; SymbolIndex is a bijection between elements and 0..n-1 | Index | PropsIndex (section headers) | PropsIndex | invariants over histories |
| C23 C24 C27 | Progression is delete-then-add for unconditional effects; Effects are simultaneous; Expanding universal effects preserves progression | Effects | ProgressSpec | PropsProgress | induction on effect lists, frame lemmas |
| C25 | Breadth-first search visits exactly the reachable states | Bfs, SearchModel | PropsSearch (paths), ModelTextSpec | PropsSearch | loop invariant with fuel that is proved sufficient |
| C26 | Compiling negated preconditions away preserves the reachable behaviour | Represent | CompileSpec | PropsCompile | simulation of plans |
| C28 | The delete-free relaxation over-approximates reachability | Represent | RelaxSpec | PropsRelax | monotonicity along plans |
| C29 C43 | STRIPS recognisers accept exactly STRIPS; Effect-conflict computation finds exactly the conflicting atoms | Represent | RepresentSpec | PropsRepresent | induction, exact characterisations |
| C30 | Projecting away effect-free parameters preserves transitions | Represent | ProjectSpec | PropsProject | substitution lemma |
| C31 | Static simplification preserves truth | Simplify | SimplifySpec, Semantics | PropsSimplify | simulation of plans; locality of evaluation |
| C32 | Simplifying existential quantification preserves truth | SimplifyEx | SimplifyExSpec, Semantics | PropsSimplifyEx | elimination of equalities by rank |
| C33 C34 | transitive_closure computes the least transitive superset; compute_min_distance is the shortest-path distance | Algorithms | AlgorithmsSpec | PropsAlgorithms | loop invariants, termination bound |
| C35 C47 | Description-logic denotations are set-theoretic; The description-logic factory prunes only redundant elements | Dl | DlSpec | PropsDl | induction on concepts and roles |
| C36 | Hypergraph acyclicity test is correct | Csp | CspSpec | PropsCsp | invariance of ear removal under every iteration order |
| C37 | Name translation to logic programs is invertible | Asp | AspNamesSpec | PropsAspNames | induction on strings and name lists |
| C38 | The reachability program over-approximates reachable actions and atoms | Asp | AspSpec | PropsAsp | invariant of reachable states against derivability |
| C39 C40 | Naive grounding enumerates exactly the type-consistent bindings; Static symbols never change | Grounding | GroundingSpec | PropsGrounding | enumeration lemmas; invariant along plans |
| C41 | Arithmetic simplification preserves values | Arith | ArithSpec | PropsArith | induction over arbitrary fields |
| C42 | Formulas survive printing and reading in PDDL | PddlText, PddlRead | PddlSpec, Semantics | PropsPddl | induction: lexing, bracket matching, visitor |
| C44 | Ground-atom extraction is exact | GroundAtoms | GroundAtomsSpec | PropsGround | induction |
| C45 | Node collection is exhaustive | Nodes | NodesSpec | PropsNodes | induction; invariant of the seen set |
| C46 | Reading action costs preserves what a plan costs | Costs | CostsSpec | PropsCosts | invariant along plans |
| C48 | Grounding with the logic program returns exactly the reported instances | LpGround, Asp | LpGroundSpec, AspSpec | PropsLpGround, PropsLpGround2 | string lemmas for the reader; invariant of all rules the compiler emits; composition with C38 and C40 |
| C49 | Grounding a problem into operators keeps its plans | LpGround, Represent | OperatorSpec, AspSpec, LpGroundSpec | PropsOperators | substitution lemma for effects; bisimulation of plans; composition with C48 |
| C50 | Actions survive printing and reading in PDDL | PddlAction, PddlText, PddlRead, Costs | PddlActionSpec, PddlSpec | PropsPddlAction | induction on effects: every printed effect is one phrase that is read as its canonical form; canonical forms mean the same (C42) |
| C51 | Planning problems survive being written and read in PDDL | PddlProblem, PddlAction, Lang, ModelState | PddlProblemSpec, PddlActionSpec, LangSpec | PropsPddlProblem | the invariant that a language holds exactly the given declarations is followed through the reader; each section of the template is one phrase that is read as the declarations; views of the two languages agree, so C42 and C50 apply |
| C52 | The constraint hypergraph of an action schema is that of its precondition | CspSchema, Csp | HypergraphSpec, CspSpec | PropsHypergraph | induction on the precondition; join trees are invariant under renaming and under replacing a family of sets by one with the same maximal sets (C36) |
| C53 | The solutions of an action schema's CSP are its applicable instances | CspSchema, SortIds, Simplify, Represent, Eval | CspSchemaSpec, LangSpec, RelaxSpec | PropsCspSchema | compilation invariant (every CSP variable has the bounds of a parameter's sort or the number of a constant); truth of the simplified precondition in reached states (C31); numbering is a bijection (C20) |
| C54 | Grounding by enumeration keeps the meaning of constraints, sensors, reactions and differential constraints | NaiveGround, QElim, NegBuiltin, Cnf, Subst | NaiveGroundSpec, FolSpec, SubstSpec | PropsNaiveGround | the form of constraints is kept by elimination and instantiation, so C05, C03, C07 and the substitution lemma compose; normal forms introduce no variable; the index is an invariant over the loop |
| C55 | Grounding SAS schemas enumerates exactly the instances that satisfy the constraints | Sas, Subst, Eval, ModelState | SasSpec, NaiveGroundSpec, EvalSpec | PropsSas | induction over the product of the domains; evaluating the instantiated constraint decides its truth (C25) and the substitution lemma moves the values into the environment |
| C56 | The JSON document of a SAS instance points at the right variables and values | SasText, Index | SasTextSpec | PropsSasText | the indices are the positions in the list of first occurrences (C22); induction over transitions and values |
| C57 | The Fast Downward text of a SAS instance determines the instance | SasText, Index | SasTextSpec | PropsSasText | the text is a list of lines without breaks; sections are counted or end in a line that is not a pair of numbers, so a line reader inverts them |
| C58 | Python operators over terms build the term or formula that means what Python computes | Theories, Lang, Eval | TheoriesSpec, EvalSpec, LangSpec | PropsTermOps, PropsTermOps2 | induction on expressions; the sort check of the handlers is the subtype relation (C17), so the rules are sound and complete; symbols are usable exactly with their theory (C59) |
| C59 | Theories give exactly their symbols, once, in any order | Theories, Lang | TheoriesSpec, LangSpec | PropsTheories | each step of a load extends the names by one free name (or raises); an invariant over histories ties symbols, handlers and sorts to the theories; theories do not touch what others need, so lists commute |
| C60 | Fluent and static terms of a problem with constraints | Fluents, Grounding, Effects | FluentsSpec, GroundingSpec, RelaxSpec | PropsFluents | each visit of a constraint is sound for every closed set and closes the connectives it meets; the sets only grow, and a pass that adds a fluent completes one more constraint; frame lemma per atom along executions |
| C61 | The blocksworld benchmark is blocksworld | Blocks, Represent, Effects | BlocksSpec, RelaxSpec | PropsBlocks | one step of a plan is one move: the facts of the next world are those the effects leave; invariant: every block is once in the towers or in the hand; all configurations are connected because moves can be undone and everything can be put on the table; induction on the shuffled list for patterns |
| C62 | The counters benchmark, and assignments of arithmetic values | Counters, Theories, Lang, Effects, Represent | CountersSpec, RelaxSpec, GroundingSpec | PropsCounters | the language is computed for every number of counters by induction on the declarations; the goal is a chain over the sorted names, equivalent to the order on all pairs; the sort of an arithmetic value is Integer, which the subtype search never relates to the interval |
| C63 | Expressions written in RDDL say what they mean | Rddl | RddlSpec, Semantics | PropsRddl, PropsRddl2 | induction on expressions: the text of an expression is lexed into its tokens whatever follows, its tokens are parsed back whatever follows that is no operator or bracket, and the parsed expression has the same value because assignments correspond variable by variable |
| C64 | Reading an RDDL expression keeps its meaning | RddlRead, Theories, Arith, Build | RddlReadSpec, ArithSpec, Semantics | PropsRddlRead | structural induction on the tree: each case inverts the constructor that was called; sums and products are those of C41, with the bound variables of the body tracked; acceptance by induction on a typing relation whose types give the sorts the constructors check, in languages where an invariant over all declarations keeps the theories' symbols and sorts |
| C65 | Reading RDDL instances: language and initial state | RddlInit, RddlRead, Theories, Lang, ModelState | RddlInitSpec, LangSpec | PropsRddlInit | an invariant of the declarations made so far (names, parents, plain sorts) is established by the theories and extended by every declaration with a fresh name, which is the only way a declaration succeeds; the state by induction on the entries from the right |
| C66 | The types, constants and symbols of a PDDL domain (io/pddl) | PddlInstance, Lang, Theories | PddlInstanceSpec, LangSpec | PropsPddlInstance | re-parenting breaks the invariant of C16 (a type may have ancestors other than those of its parent chain), so a new invariant relates the stored ancestors to the declared pairs, with a rank that decreases along them and is recomputed at each declaration; the search terminates by a weight over ranks |
| C67 | Conditions, effects and actions of a PDDL domain (io/pddl) | PddlExpr, PddlInstance, Theories, Build | PddlExprSpec, Semantics | PropsPddlExpr | nested structural induction on conditions and expressions with the scope as a finite map; a relation between scopes and typing contexts (matches) is kept by every accepted condition because rebinding is refused; acceptance against an inductive typing relation needs the subtype search to decide conformance, from the invariant of C66 and facts about the sorts of numbers; meaning by relating environments of typed variables to values of names; a durative action is reduced to the action with the conjunction of its conditions |
| C68 | The RDDL document that is written for a task | RddlDoc, Rddl, Lang, ModelState | RddlDocSpec, RddlSpec, LangSpec | PropsRddlDoc, PropsRddlDoc2 | each line is lexed into its tokens whatever follows (C63), the template is a list of such pieces, and a reader of balanced blocks inverts the pieces; the objects are the domains of the sorts (C18); an invariant of the state (symbols of the language, constants) is kept by every update, so the entries are the values; writers are followed over any number of uses |
| C69 | RDDL tasks survive being written and read again | RddlDoc, RddlInit, Lang, ModelState | RddlRoundSpec, RddlDocSpec, RddlInitSpec | PropsRddlRound, PropsRddlRound2 | the instance delivered for a document that describes the task (C68) is shown well formed and ordinary, so C65 gives its language and state; every entry of the state comes from an operation of its history, so points are objects of the language and texts determine them |
| C70 | Matrix expressions evaluate to matrix algebra | Matrix | MatrixSpec | PropsMatrix | matrices as tables indexed by row and column; induction on the inner dimension for the sums of products; evaluation of entries by inversion |
| C71 | Problems keep the actions, derived predicates, sensors, reactions and constraints they are given | Containers, Lang, Effects | ContainersSpec | PropsContainers | induction on the history from its end; a register that keeps the first (the last) acceptable definition, instantiated for each container |
| C72 | Temporal actions keep their requirements, effects and times | Ndl, Theories | NdlSpec | PropsNdl | induction on the lists with accumulators; C58_compares for assignments |
| C73 | The values of numeric terms | Numeric | NumericSpec | PropsNumeric | induction on the term and on the derivation of the value |
| C74 | The text of the reachability program is read as that program | AspText, Asp | AspTextSpec | PropsAspText | reader of gringo's syntax by tokens; a Hoare logic for the compiler's monad (every rule written so far is readable, resp. safe); induction on formulas, preserved by substitution and expansion |
| C75 | The functional blocksworld benchmark | FBlocks | FBlocksSpec | PropsFBlocks, FBlocksLangProofs | the generated language in closed form for every number of blocks; a state is a location for each block and a set of clear places; induction on plans for the invariant that covered blocks stay; induction on the construction of the goal for the plan |
| C76 | The tokens of a PDDL text (io/pddl) | PddlLex | PddlLexSpec | PropsPddlLex | pieces of a text with what may follow them; each regular expression is a function on the rest of the text, whose result is characterised by induction; existence of the pieces by induction on the length |
| C77 | The requirements of a PDDL domain or problem (io/pddl) | PddlReq, PddlLex | PddlReqSpec | PropsPddlReq | the pieces of the section (C76), induction on the words |
| C78 | Walkers over problems and expressions | Walker | WalkerSpec | PropsWalker, PropsWalker2 | a walker that keeps nodes plays a list of events (induction on the nested syntax); the events are the places in order; meaning by induction over the semantics; suppression by induction on effects |
| C79 | Temporal formulas keep their meaning | Ltl | LtlSpec | PropsLtl, PropsLtl2 | structural induction on formulas; substitution through a relation between assignments that does not depend on the time; free variables through a first-order formula of the same shape (C09) |
| C80 | The CSP file of an action schema says what the schema says | CspText | CspTextSpec, CspSchemaSpec | PropsCspText | a reader of lines and words that inverts the writer; solutions of the read description equal those of the CSP, then C53_solutions |
| C81 | The text of a formula determines it | FormulaText | FormulaTextSpec | PropsFormulaText | unique readability: what may follow a text (nothing, a parenthesis, a comma, a connective) is an invariant; induction on the tree with the rest of the text, names are split off at the first punctuation |
| C82 | Atoms and models are read from texts as they are written | ParseAtom, Lang, ModelState | ParseAtomSpec, LangSpec | PropsParseAtom | the words found by the code are characterised by a relation on texts (strip, replace, split: existence and uniqueness by induction on the text); look-up and sorts through C16 and C17; models through C14 |
| C83 | Searching expressions | Visitors | VisitorsSpec | PropsVisitors | places as paths; no expression is a proper part of itself (induction on expressions, rotating the path); the list of places is built along the visit |
| C84 | Derived predicates and metrics of PDDL files | PddlDerived | PddlDerivedSpec | PropsPddlDerived | a definition is read like the parameters and precondition of an action (C67), plus the check of the head against the declared predicate; what is derived is compared in every world; metrics by induction on the expression |
| C85 | Hashes over bytes | HashBytes | HashBytesSpec | PropsHashBytes | bytes of numbers by division with remainder; bounds from the number of binary digits; the digest function is arbitrary |
| C86 | The texts of actions and ground operators identify them | OpNames, LpGround | OpNamesSpec, OperatorSpec | PropsOpNames | texts are split at their first separator; induction on the list of names |

## Trusted base

* Coq 8.16.1's kernel (and `vm_compute`, which is part of it). No axioms: `Print Assumptions` answers
  "Closed under the global context" for every theorem; it is run on the main theorems in the `Props*.v` files. No library other
  than Coq's standard library is imported. No functors, module types, section variables that survive their section, or plugins.
* The reading of the Python code recorded in the comments of the model files. Nothing extracts the model from
  the code and nothing runs the code; `seeded/LOG.jsonl` records how the theorems react to realistic bugs in the model.

## What is modelled

Paths are relative to `src/tarski`.

* `syntax/terms.py`, `formulas.py`, `predicate.py`, `function.py`, `builtins.py` (trees, constructors, structural equality and hashing),
  `syntax/symrefs.py`, `syntax/visitors.py`, `syntax/walker.py` (as used by substitution), `syntax/ops.py`
  (flatten, free variables, searching (C83), node collection, constant numbering, casts), `syntax/sorts.py` (inheritance, intervals, domains),
  `syntax/util.py`, `syntax/arithmetic/__init__.py`, `syntax/algebra/matrix.py`.
* `syntax/transform/`: nnf, cnf, neg_builtin, prenex, quantifier_elimination, substitutions, simplifications.
* `syntax/temporal/ltl.py` (C79); the text (`str`) of terms, formulas and temporal formulas (C81). `theories.py` (loading), operators of terms (`syntax/terms.py`, `syntax/factory.py`).
* `fol.py` (all declarations and queries), `model.py`, `evaluators/simple.py`, `util.py`, `utils/algorithms.py`, `utils/helpers.py` (C82), `utils/hashing.py` (C85).
* `fstrips/`: effects, actions, problems' data (`fstrips.py`, `action.py`, `problem.py`), `representation.py`, `ops.py`, `walker.py` (C78),
  `visitors.py`, `manipulation/simplify.py`; `search/` (operations, model, blind).
* `fstrips/problem.py`, `fstrips/hybrid/`, `fstrips/contingent/`, `fstrips/derived.py`: the containers a problem keeps (C71); `ndl/temporal.py` (C72); `funcsym/__init__.py`, `syntax/arithmetic/special.py` (C73).
* `grounding/`: naive grounding, LP grounding, ops, common; `reachability/asp.py` (names, the compilation to rules and the text of the program), `reachability/clingo_wrapper.py` (reading the answer); `analysis/csp.py`, `analysis/csp_schema.py`;
  `sas/` (grounding of actions and temporal actions), `io/sas/` (both writers);
  `dl/` (concepts, roles, features, factory); `benchmarks/blocksworld.py`, `benchmarks/counters.py`.
* `io/fstrips.py` (writer: terms, formulas, effects, actions, domain and instance; reader), `io/_fstrips/reader.py` (terms, formulas, effects, actions, cost extraction, domain and instance sections),
  `io/pddl/lexer.py` (C76), `io/pddl/instance.py`, `io/pddl/parser.py` (requirements, from the text: C77; types, constants, variables, predicates and functions, after the grammar: C66; conditions, expressions, effects, actions, durative actions and initial facts, after the grammar: C67; derived predicates and metrics, after the grammar: C84),
  `io/_fstrips/common.py`, the two templates, and the corresponding rules of `utils/parsers/grammars/fstrips.g4`.

## What is not modelled

* Floating-point numbers: constants are strings or integers (HashEq.v has integral floats for C13); C41 is over an arbitrary exact field.
* Strings beyond ASCII; identity of Python objects except where a comment mentions aliasing; memory, time and recursion limits.
* Aggregate terms (`sumterm`, `prodterm`) and probabilistic terms (`syntax/arithmetic/random.py`), 
  `rddl` (except the writer, and the expressions, language and initial state of the reader: C63, C64, C65, C68), the semantics of processes and events.
* The ANTLR-generated lexer and parser (a direct reading of the grammar is modelled instead), the clingo/gringo binaries, files and subprocesses.

## Theorems

Every theorem below is closed under the global context (`Print Assumptions` lists no axiom for any of them).

* C01: `C01_nnf_equivalent`, `C01_nnf_result_not_a_formula`, `C01_nnf_refuted`
* C02: `C02_nnf_idempotent`, `C02_nnf_twice`, `C02_nnf_same_atoms`
* C03: `C03_cnf_equivalent`, `C03_cnf_rejects_quantifiers`, `C03_cnf_refuted`, `C03_negated_constant`
* C04: `C04_clauses`, `C04_single_clause_lost`, `C04_clauses_refuted`
* C05: `C05_absorption`, `C05_absorption_refuted`, `C05_absorption_exact`
* C06: `C06_prenex`, `C06_prenex_quantifier_free`, `C06_prenex_conjunction_refuted`, `C06_prenex_alternation_refuted`, `C06_prenex_capture_refuted`, `C06_prenex_shared_variable_raises`, `C06_prenex_third_member_refuted`, `C06_prenex_empty_sort_refuted`
* C07: `C07_quantifier_elimination`, `C07_empty_sort_raises`, `C07_builtin_sort_raises`, `C07_quantifier_elimination_refuted`, `C07_wrong_truth_value_refuted`
* C08: `C08_substitution_lemma`, `C08_substitution_lemma_terms`, `C08_free_occurrences_replaced`, `C08_capture_refuted`, `C08_bound_occurrence_refuted`
* C09: `C09_free_variables`, `C09_free_variables_sound`, `C09_truth_depends_on_free_variables`, `C09_free_variables_raises_iff`, `C09_free_variables_refuted`, `C09_free_variables_exact`
* C10: `C10_flatten`
* C11: `C11_land`, `C11_lor`, `C11_neg_implies_equiv`, `C11_quantified`, `C11_quantified_rejects`
* C12: `C12_evaluator_sound`, `C12_term_evaluator_sound`, `C12_agreeing_structure_exists`, `C12_evaluator_complete`, `C12_nested_ite_refuted`, `C12_quantified_raises`, `C12_equality_is_not_a_congruence`
* C13: `C13_reflexive`, `C13_symmetric`, `C13_transitive`, `C13_equal_hash`, `C13_equal_hash_refuted`, `C13_walk_changes_identity`
* C14: `C14_model_history`, `C14_add_frame`, `C14_failure_changes_nothing`, `C14_shared_signature_refuted`
* C15: `C15_same_extensions_equal`, `C15_equal_same_extensions`, `C15_equality_refuted`
* C16: `C16_one_element_per_name`, `C16_lookup`, `C16_redeclaration_raises`, `C16_declaration_defines`, `C16_removal_undefines`, `C16_failures_change_nothing`, `C16_partial_failures`
* C17: `C17_sorts_form_a_tree`, `C17_is_subtype`, `C17_queries_are_pure`, `C17_partial_order`, `C17_parent_as_declared`, `C17_most_restricted_type`, `C17_set_parent_refuted`
* C18: `C18_domain_exact`, `C18_domain_monotone`, `C18_interval_constants_refuted`
* C19: `C19_interval_values`, `C19_domain_enumerable`, `C19_constant_creation`, `C19_numeric_inclusion_refuted`, `C19_cast_of_numeral_string`, `C19_shared_number_refuted`
* C20: `C20_ids_contiguous`, `C20_below_interval_refuted`, `C20_mixed_names_refuted`
* C21: `C21_consistent`, `C21_add`, `C21_duplicate_names_refuted`
* C22: `C22_bijection`, `C22_add`, `C22_make`
* C23: `C23_delete_then_add`, `C23_succeeds`, `C23_order`
* C24: `C24_simultaneous`, `C24_order`, `C24_conditional_refuted`, `C24_swap_refuted`, `C24_increase_refuted`
* C25: `C25_exhaustive`, `C25_unbounded_complete`, `C25_terminates`, `C25_bounded`, `C25_ground_problems`
* C26: `C26_plans`, `C26_negation_free`, `C26_conflict_refuted`, `C26_conditional_refuted`, `C26_disjunction_refuted`, `C26_no_precondition_refuted`
* C27: `C27_no_nested_deletes`, `C27_conflict_free`, `C27_no_universal`, `C27_delete_inside_refuted`, `C27_nested_refuted`
* C28: `C28_delete_free`, `C28_superset`, `C28_negation_refuted`
* C29: `C29_effect_sets`, `C29_literals`, `C29_positive`, `C29_complete`, `C29_sound`, `C29_refuted`, `C29_operator`, `C29_problem`, `C29_collect`
* C30: `C30_removed_parameters`, `C30_precondition`, `C30_raises`, `C30_instances`, `C30_condition_refuted`, `C30_shadowing_refuted`
* C31: `C31_expression`, `C31_without_model`, `C31_evaluation`, `C31_action`, `C31_plans`, `C31_plans_reflected`, `C31_reduced`, `C31_nonvacuous`, `C31_reflected_nonvacuous`, `C31_empty_sort_refuted`, `C31_true_goal_refuted`, `C31_true_precondition_refuted`, `C31_compound_delete_refuted`, `C31_universal_condition_refuted`, `C31_ite_refuted`
* C32: `C32_simplify_existential`, `C32_quantifier_free`, `C32_body_refuted`, `C32_nested_refuted`, `C32_trivial_equality_refuted`, `C32_sort_refuted`, `C32_circular_refuted`, `C32_capture_refuted`
* C33: `C33_transitive_closure`, `C33_least`
* C34: `C34_min_distance`, `C34_unreachable`
* C35: `C35_concept_denotation`, `C35_role_denotation`, `C35_composition_any`, `C35_composition_refuted`, `C35_composition_order_refuted`, `C35_star_not_reflexive_refuted`, `C35_features`, `C35_size`, `C35_changes`
* C36: `C36_acyclicity`
* C37: `C37_back`, `C37_distinct`, `C37_stable`, `C37_clash_raises`, `C37_nonvacuous`, `C37_order_refuted`, `C37_clash_example`
* C38: `C38_atoms`, `C38_actions`, `C38_goal`, `C38_nonvacuous`, `C38_interval_parameter_refuted`, `C38_variable_case_refuted`
* C39: `C39_signature_bindings`, `C39_ground_actions`, `C39_ground_symbols`, `C39_partially_grounded`, `C39_all_state_variables`, `C39_state_variable_ground`, `C39_repeated_variable_refuted`, `C39_variable_sort_ignored`
* C40: `C40_fluents`, `C40_statics_never_change`, `C40_partition`, `C40_total_cost_refuted`
* C41: `C41_simplify_preserves_value`, `C41_simplify_extends_domain_refuted`, `C41_simplify_exceptions`, `C41_division_by_zero_detected`, `C41_subtraction_from_zero_refuted`, `C41_simplify_normal_form`, `C41_not_idempotent_refuted`, `C41_summation`, `C41_product`, `C41_aggregates_succeed`, `C41_empty_domain_refuted`, `C41_builtin_sort_variable`
* C42: `C42_round_trip`, `C42_same_formula`, `C42_unambiguous`, `C42_printing_errors`, `C42_numeric_argument_refuted`, `C42_sort_name_refuted`, `C42_reserved_name_refuted`, `C42_upper_case_refuted`, `C42_rebinding_refuted`, `C42_contradiction_refuted`, `C42_operator_refuted`, `C42_two_spellings_refuted`
* C43: `C43_conflicts`, `C43_raises`
* C44: `C44_domain`, `C44_other_formulas_raise`, `C44_tuples_are_the_conjuncts`, `C44_sorts_are_lost`
* C45: `C45_collect_sound`, `C45_collect_complete`, `C45_collect_once`, `C45_collect_once_refuted`, `C45_argument_left_behind`, `C45_argument_changed_refuted`, `C45_is_ground`, `C45_is_function_free`, `C45_is_quantifier_free`, `C45_all_variables`, `C45_function_names`, `C45_state_variable_shape`
* C46: `C46_reading`, `C46_all_or_none`, `C46_plan_costs`, `C46_plan_costs_converse`, `C46_accepts`, `C46_constant`, `C46_unit`, `C46_zero`, `C46_nonvacuous`, `C46_summands_refuted`, `C46_changed_symbol_refuted`, `C46_quantified_increase_refuted`, `C46_missing_costs`
* C47: `C47_exists`, `C47_not`, `C47_forall`, `C47_and`, `C47_or`, `C47_equal`, `C47_restrict`, `C47_composition`, `C47_equality_sound`, `C47_unbounded_refuted`
* C48: `C48_reading`, `C48_nested_terms_rejected`, `C48_actions`, `C48_plans`, `C48_unsolvable`, `C48_no_plan`, `C48_state_variables`, `C48_nonvacuous`, `C48_plans_nonvacuous`, `C48_schema_groundings_refuted`, `C48_second_call_refuted`
* C49: `C49_operators`, `C49_plans`, `C49_total`, `C49_nonvacuous`
* C50: `C50_round_trip`, `C50_same_action`, `C50_unambiguous`, `C50_conditional_universal_refuted`, `C50_rebinding_refuted`, `C50_builtin_atom_refuted`, `C50_total_cost_refuted`, `C50_increase_refuted`, `C50_grouped_effects`, `C50_grouped_nonvacuous`
* C51: `C51_round_trip`, `C51_constants_refuted`, `C51_subsort_refuted`, `C51_default_name_refuted`, `C51_integer_name_refuted`, `C51_sort_name_refuted`, `C51_numeric_codomain_refuted`, `C51_action_costs_refuted`, `C51_derived_refuted`, `C51_repeated_constant_refuted`
* C52: `C52_hypergraph`, `C52_primal_graph`, `C52_acyclic`, `C52_names_refuted`, `C52_no_precondition_refuted`
* C53: `C53_solutions`, `C53_total`, `C53_inapplicable`, `C53_disjunction_refuted`, `C53_no_precondition_refuted`, `C53_functions_refuted`, `C53_clash_refuted`
* C54: `C54_constraints`, `C54_sensors`, `C54_differential_constraints`, `C54_reactions`, `C54_existential_refuted`, `C54_wide_conjunction_refuted`, `C54_shared_instance_refuted`
* C55: `C55_actions`, `C55_total`, `C55_temporal_actions`, `C55_temporal_total`, `C55_later_domain_refuted`, `C55_guarded_constraint_refuted`
* C56: `C56_document`, `C56_types_of_variables_refuted`, `C56_other_sorts_refuted`, `C56_positions_refuted`, `C56_no_arithmetic_refuted`
* C57: `C57_text_determines_instance`, `C57_total`, `C57_no_actions_refuted`
* C58: `C58_terms`, `C58_comparisons`, `C58_evaluator`, `C58_evaluator_comparisons`, `C58_builds`, `C58_compares`, `C58_theory_needed`, `C58_nonvacuous`, `C58_nonvacuous_value`, `C58_literals_refuted`
* C59: `C59_twice`, `C59_load`, `C59_declares`, `C59_failed`, `C59_symbols`, `C59_load_all`, `C59_load_all_declares`, `C59_order`, `C59_language`, `C59_nonvacuous`, `C59_atomic_refuted`
* C60: `C60_classes`, `C60_passes`, `C60_more_passes`, `C60_rejects`, `C60_order`, `C60_separate`, `C60_changes`, `C60_state_variables`, `C60_universal_refuted`, `C60_static_instance_refuted`, `C60_comparison_refuted`, `C60_conditional_refuted`
* C61: `C61_generates`, `C61_initial`, `C61_plans_are_moves`, `C61_moves_are_plans`, `C61_places`, `C61_goal`, `C61_solvable`, `C61_inequalities_redundant`
* C62: `C62_assignment`, `C62_generates`, `C62_initial`, `C62_goal`, `C62_bounds`, `C62_no_successors`, `C62_solvable_refuted`, `C62_nonvacuous`, `C62_nonvacuous_none`
* C63: `C63_expression`, `C63_terms`, `C63_formulas`, `C63_numbers`, `C63_constraints`, `C63_constraints_refuted`, `C63_cpfs`, `C63_reward`, `C63_connectives_refuted`, `C63_negation_refuted`, `C63_conditional_captures_refuted`, `C63_aggregate_captures_refuted`, `C63_question_mark_refuted`, `C63_power_refuted`, `C63_nonvacuous`, `C63_nonvacuous_captured`, `C63_nonvacuous_conditional`, `C63_nonvacuous_conjuncts`, `C63_variables_refuted`, `C63_nonvacuous_sections`
* C64: `C64_meaning`, `C64_accepts`, `C64_unsupported`, `C64_rest_ignored`, `C64_two_variables_refuted`, `C64_supertype_refuted`, `C64_requantified_refuted`
* C65: `C65_language`, `C65_names`, `C65_hierarchy`, `C65_domains`, `C65_accepts`, `C65_state`, `C65_initial`, `C65_default_refuted`, `C65_function_default_refuted`, `C65_later_false_refuted`, `C65_overloading_refuted`, `C65_enumerated_refuted`
* C66: `C66_accepts`, `C66_types`, `C66_hierarchy`, `C66_supertype`, `C66_domains`, `C66_objects`, `C66_signatures`, `C66_variables`, `C66_nonvacuous`, `C66_order_matters`, `C66_cycle_diverges`, `C66_object_keyword`, `C66_object_variables`, `C66_constants_first`
* C67: `C67_actions`, `C67_goals`, `C67_parameters`, `C67_preconditions`, `C67_goal_meaning`, `C67_effects`, `C67_scale_down`, `C67_durative_actions`, `C67_durative_conditions`, `C67_durative_effects`, `C67_initial_facts`, `C67_initial_values`, `C67_nonvacuous`, `C67_scale_down_wrong`, `C67_numeric_atoms`, `C67_refused`, `C67_durative_example`
* C68: `C68_document`, `C68_written_again`, `C68_written_again_refuted`, `C68_max_actions_refuted`, `C68_boolean_default_refuted`, `C68_subtype_objects`, `C68_left_out_refuted`, `C68_nonvacuous`, `C68_nonvacuous_boolean`, `C68_object_range_refuted`
* C69: `C69_round_trip`, `C69_subtypes_refuted`, `C69_nonvacuous`, `C69_nonvacuous_subtypes`
* C70: `C70_values`, `C70_literal`, `C70_product`, `C70_shapes`, `C70_integers_refuted`, `C70_sum_refuted`, `C70_elementwise`, `C70_transpose`, `C70_transpose_value`, `C70_transpose_product`, `C70_transpose_form`, `C70_scalars`, `C70_transpose_expressions_refuted`, `C70_transpose_scalar_refuted`, `C70_nonvacuous`
* C71: `C71_actions`, `C71_reactions`, `C71_derived`, `C71_sensors`, `C71_grows`, `C71_diff`, `C71_answers`, `C71_derived_mismatch_refuted`, `C71_diff_replaced_refuted`, `C71_diff_reaction_refuted`, `C71_diff_builtin_refuted`, `C71_nonvacuous`
* C72: `C72_lock`, `C72_level`, `C72_built`, `C72_accepts`, `C72_parts`, `C72_effect_time`, `C72_horizon`, `C72_nonvacuous`, `C72_release_refuted`, `C72_atom_refuted`, `C72_condition_refuted`
* C73: `C73_value`, `C73_sort`, `C73_integers`, `C73_integer_extrema_refuted`, `C73_naturals_refuted`, `C73_special`, `C73_plain_numbers_refuted`, `C73_constants`, `C73_reals`, `C73_special_unary`, `C73_power`, `C73_not_loaded`, `C73_undefined`, `C73_nonvacuous`
* C74: `C74_reads`, `C74_safe`, `C74_atoms`, `C74_actions`, `C74_goal`, `C74_nonvacuous`, `C74_reserved_word_refuted`, `C74_capital_refuted`, `C74_outer_comparison_refuted`
* C75: `C75_random`, `C75_random_exists`, `C75_refuses`, `C75_generates`, `C75_initial`, `C75_goal`, `C75_move`, `C75_covered_stays`, `C75_solvable`, `C75_domains`, `C75_language`, `C75_reversal_refuted`, `C75_nonvacuous`
* C76: `C76_reads`, `C76_pieces`, `C76_written`, `C76_capitals`, `C76_types`, `C76_no_dt`, `C76_inputs`, `C76_checks`, `C76_skips_refuted`, `C76_nonvacuous`
* C77: `C77_known`, `C77_unknown`, `C77_accepted`, `C77_again`, `C77_object_fluents_refuted`, `C77_nonvacuous`
* C78: `C78_visits`, `C78_run`, `C78_once`, `C78_keeps`, `C78_meaning`, `C78_meaning_expressions`, `C78_suppressed_effects`, `C78_suppressed_atoms`, `C78_undefined`, `C78_symbols`, `C78_symbols_agree`, `C78_affected_agree`, `C78_universal_condition_refuted`, `C78_nonvacuous`, `C78_substitution_agree`, `C78_existential_agree`
* C79: `C79_operators`, `C79_accepts`, `C79_weak_until_refuted`, `C79_connectives`, `C79_and_or`, `C79_quantifiers`, `C79_substitution`, `C79_substitution_constants`, `C79_substitution_timeless`, `C79_free_variables`, `C79_flatten`, `C79_first_order`, `C79_nnf`, `C79_substitution_changing_refuted`
* C80: `C80_text`, `C80_total`, `C80_solutions`, `C80_applicable`, `C80_relevant_refuted`, `C80_functions_refuted`, `C80_no_variable_refuted`, `C80_words_refuted`, `C80_files`
* C81: `C81_terms`, `C81_formulas`, `C81_temporal`, `C81_vocabulary`, `C81_vocabulary_terms`, `C81_prefix`, `C81_sorts_refuted`, `C81_constants_refuted`, `C81_punctuation_refuted`, `C81_digits_refuted`
* C82: `C82_words`, `C82_sound`, `C82_complete`, `C82_undefined`, `C82_arity`, `C82_roundtrip`, `C82_model`, `C82_model_succeeds`, `C82_model_roundtrip`, `C82_nullary_refuted`, `C82_numbers_refuted`, `C82_layout_refuted`
* C83: `C83_hits`, `C83_found`, `C83_not_searchable`, `C83_collect_variables`, `C83_equalities`, `C83_variables_refuted`, `C83_quantifier_refuted`, `C83_conditional_refuted`, `C83_constants_refuted`
* C84: `C84_accepted`, `C84_pddl_accepted`, `C84_head`, `C84_facts`, `C84_file`, `C84_file_order`, `C84_undeclared`, `C84_wrong_head`, `C84_metric_accepted`, `C84_metric_refused`, `C84_metric_meaning`, `C84_no_metric`, `C84_nonvacuous`, `C84_extra_variable`, `C84_refused`, `C84_metric_examples`
* C85: `C85_round_trip`, `C85_injective`, `C85_shortest`, `C85_overflow`, `C85_overflow_example`, `C85_defined`, `C85_range`, `C85_joined`, `C85_collision`, `C85_names`, `C85_copies`, `C85_nonvacuous`
* C86: `C86_operator_names`, `C86_instances`, `C86_ident`, `C86_order`, `C86_commas`, `C86_nonvacuous`
