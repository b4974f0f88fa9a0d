{"id": "C01", "title": "NNF is equivalent and is an NNF", "statement": "to_negation_normal_form(phi) returns a formula that has the same truth value as phi in every structure and under every variable assignment, and in which negation is applied to atoms only, for every phi without a truth constant (top, bot) under an odd number of negations. For every phi with such a constant the code is wrong: a class object instead of a formula ends up in the result.", "quantifier": "all well-formed first-order formulas (any nesting, any connective arity, quantifiers, ite terms), all finite-sorted structures, all assignments", "why_tests_cant": "Equivalence quantifies over all formulas and all interpretations; a test samples a few formulas on a few models.", "anchors": ["src/tarski/syntax/transform/nnf.py: NNFTransformation._convert, to_negation_normal_form"]}
{"id": "C02", "title": "NNF is idempotent and never grows the atom count", "statement": "Converting a formula already in NNF returns it unchanged; conversion preserves the sequence of atoms, so the result has exactly the atoms of the input in the same order.", "quantifier": "all well-formed formulas", "why_tests_cant": "The claim covers every formula shape.", "anchors": ["src/tarski/syntax/transform/nnf.py: NNFTransformation._convert"]}
{"id": "C03", "title": "CNF is equivalent and is a CNF; quantifiers are rejected", "statement": "For every phi without a truth constant under an odd number of negations, to_conjunctive_normal_form(lang, phi) either raises TransformationError because phi has a quantifier, or returns a conjunction of disjunctions of literals with the same truth value as phi in every structure. For every other phi the result is not a formula (as in C01).", "quantifier": "all well-formed formulas, all structures and assignments", "why_tests_cant": "Distribution is recursive and exponential; only an inductive proof covers all depths and arities.", "anchors": ["src/tarski/syntax/transform/cnf.py: CNFTransformation.distribute, CNFTransformation._convert, to_conjunctive_normal_form"]}
{"id": "C04", "title": "The clause list of a formula is equivalent to the formula", "statement": "Whenever the conjunctive normal form of phi is a conjunction, to_conjunctive_normal_form_clauses(lang, phi) returns a list of clauses (lists of literals) such that phi is true in a structure exactly when every clause has a true literal. Whenever it is a single clause, the code is wrong: the clause is lost and the list is empty.", "quantifier": "all quantifier-free well-formed formulas, all structures and assignments", "why_tests_cant": "The accumulator-based collector has history-dependent state; tests only cover some shapes (the single-clause shape is not covered).", "anchors": ["src/tarski/syntax/transform/cnf.py: CNFTransformation.collect_clauses, to_conjunctive_normal_form_clauses"]}
{"id": "C05", "title": "Absorbing negated built-ins preserves meaning", "statement": "NegatedBuiltinAbsorption.rewrite(lang, phi).formula has no negated built-in atom below its conjunctions, disjunctions and quantifiers and, in every structure that interprets the built-in comparison symbols standardly, the truth value of the formula obtained from phi by cutting each conjunction and disjunction (outside negations) after its second member; so it has phi's truth value when connectives are binary, and not in general for flat n-ary formulas.", "quantifier": "all well-formed formulas, all structures, all assignments", "why_tests_cant": "Covers all arities; flat n-ary formulas are a shape that tests miss.", "anchors": ["src/tarski/syntax/transform/neg_builtin.py: NegatedBuiltinAbsorption._convert", "src/tarski/syntax/builtins.py: negate_builtin_atom, symbol_complements"]}
{"id": "C06", "title": "Prenex form is equivalent and prenex", "statement": "to_prenex_negation_normal_form(lang, phi) has the same truth value as phi in every structure without empty sorts, all its quantifiers are in an outermost prefix and it has no new free variables, provided the negation normal form of phi has binary connectives, quantifiers of one kind only, no conjunction with two quantified members, and bound variables that are pairwise distinct and not free; quantifier-free formulas are returned in NNF. Each proviso is necessary (proved): otherwise the truth value can change (conjunctions become disjunctions, alternations are swapped, variables are captured, third members are ignored, empty sorts), or TypeError is raised.", "quantifier": "all well-formed formulas, all structures, all assignments", "why_tests_cant": "Soundness of quantifier movement depends on variable capture and quantifier alternation, over all formulas.", "anchors": ["src/tarski/syntax/transform/prenex.py: PrenexTransformation"]}
{"id": "C07", "title": "Quantifier elimination is equivalent and removes the requested quantifiers", "statement": "If no quantifier of phi binds a variable again inside its scope, remove_quantifiers(lang, phi, mode) returns a formula with the same truth value as phi in every structure whose sort domains are the language's constants and without quantifiers of the requested mode; it raises TransformationError when a quantified sort is empty, and UnableToGroundError or TransformationError when one cannot be enumerated. With rebinding the code is wrong: the inner bound variable is replaced by a constant, giving an ill-formed quantifier or a wrong truth value.", "quantifier": "all well-formed formulas, all finite languages, all three modes, all structures", "why_tests_cant": "Expansion depth and domain size are unbounded.", "anchors": ["src/tarski/syntax/transform/quantifier_elimination.py: QuantifierElimination._convert, _expand", "src/tarski/grounding/naive/instantiation.py: enumerate_groundings"]}
{"id": "C08", "title": "Substitution lemma", "statement": "If no quantifier in phi binds a replaced variable or a variable of a replacement, substitute_expression(phi, {x: t, ...}) evaluates, in any structure and assignment, to what phi evaluates to once each x is assigned the value of its t, and its free variables are exactly those of phi with every replaced variable exchanged for the variables of its replacement; likewise for terms. Otherwise the code is wrong: free variables of t are captured, and bound occurrences of x (and the binder itself) are replaced.", "quantifier": "all formulas and terms, all substitutions of variables, all structures and assignments", "why_tests_cant": "Capture and shadowing make this false for particular nestings; tests cover few of them.", "anchors": ["src/tarski/syntax/transform/substitutions.py: substitute_expression, create_substitution", "src/tarski/syntax/walker.py: FOLWalker.visit_expression"]}
{"id": "C09", "title": "free_variables reports exactly the variables that occur free", "statement": "For every formula in which no quantifier binds a variable that is already bound at that point (or the same variable twice), free_variables(phi) returns each variable with a free occurrence outside if-then-else terms exactly once and no other variable; so, without such terms, exactly the free variables, and the truth of phi depends only on them. It raises KeyError exactly on the other formulas. (That variables of if-then-else terms are missed, and KeyError, are defects of the code.)", "quantifier": "all formulas with arbitrary nesting of quantifiers", "why_tests_cant": "Scoping is a property of all nestings; the visitor mutates a set while it recurses.", "anchors": ["src/tarski/syntax/visitors.py: CollectFreeVariables", "src/tarski/syntax/ops.py: free_variables"]}
{"id": "C10", "title": "flatten preserves meaning and flattens", "statement": "flatten(phi) has the same truth value as phi in every structure, no direct child of the result carries the root connective, and flattening again changes nothing.", "quantifier": "all well-formed formulas, all structures", "why_tests_cant": "Arbitrary nesting depth.", "anchors": ["src/tarski/syntax/ops.py: flatten, _flatten"]}
{"id": "C11", "title": "Formula constructors mean what they say", "statement": "land/lor/neg/implies/equiv/forall/exists build formulas whose truth value is the conjunction, disjunction, negation, implication, equivalence, quantification of their arguments, for any number of arguments, flat or not; ill-formed argument lists are rejected.", "quantifier": "all argument lists of any length, both values of `flat`, all structures", "why_tests_cant": "Any number of arguments; right-nesting of the binary tree.", "anchors": ["src/tarski/syntax/formulas.py: land, lor, neg, implies, equiv, quantified, _to_binary_tree, CompoundFormula._check_well_formed"]}
{"id": "C12", "title": "The evaluator is sound and complete for ground quantifier-free formulas", "statement": "For every model built by Model operations: if evaluate(phi, m) returns a truth value it is the Tarskian truth value of phi in every structure agreeing with m (there is one), and the value of a term is its value there; if phi has a defined value in m, evaluate returns it, unless phi has an if-then-else term that is directly a branch of another one, where AssertionError can be raised; quantified formulas raise NotImplementedError. Equality compares constant names only, so it is not a congruence.", "quantifier": "all formulas, all models", "why_tests_cant": "Ranges over all formulas and all partial models, including short-circuiting around undefined terms.", "anchors": ["src/tarski/evaluators/simple.py: evaluate, evaluate_atom, evaluate_term, evaluate_builtin_predicate"]}
{"id": "C13", "title": "Syntactic equality of references is an equivalence compatible with hashing", "statement": "symref(a) == symref(b) is reflexive, symmetric and transitive, and equal references without float constant names have equal hashes, so they can be dictionary keys. With floats the code is wrong (1 == 1.0 with different hashes); a traversal that rewrites argument tuples as lists keeps the hash of a formula but makes it different from a copy of what it was, exactly when it has a tuple of subformulas.", "quantifier": "all pairs and triples of terms and formulas", "why_tests_cant": "Congruence over arbitrary nested structures.", "anchors": ["src/tarski/syntax/symrefs.py: TermReference", "src/tarski/syntax/terms.py: is_syntactically_equal, hash", "src/tarski/syntax/formulas.py: __eq__, __hash__"]}
{"id": "C14", "title": "A Model is a map from points to values and a set of true atoms", "statement": "After any history of add/set/remove/discard/remove_symbol, holds and value return exactly what a set of atoms and a last-write-wins map would; operations on one symbol or point never affect another, and failing operations leave the model unchanged.", "quantifier": "all finite histories of operations, all symbols and points", "why_tests_cant": "History-quantified refinement.", "anchors": ["src/tarski/model.py: Model, ExtensionalFunctionDefinition, wrap_tuple"]}
{"id": "C15", "title": "Model equality is extensional equality", "statement": "Models with the same true atoms and function values compare equal and have the same text (hence hash), after any two histories of operations; models that compare equal have the same atoms and values if, among the symbols and constants used, equal printed text means equal. Otherwise they may differ: constants with one name and two sorts are printed alike.", "quantifier": "all pairs of models", "why_tests_cant": "String-based equality must be injective over all extensions and names.", "anchors": ["src/tarski/model.py: Model.__eq__, Model.__hash__, Model.__str__, Model.as_atoms"]}
{"id": "C16", "title": "A name denotes at most one language element", "statement": "After any history of sort/interval/constant/predicate/function declarations and symbol removals, no name is registered in two containers, and re-declaring a defined name raises and leaves the language unchanged.", "quantifier": "all finite histories of declarations", "why_tests_cant": "History-quantified invariant over several containers.", "anchors": ["src/tarski/fol.py: FirstOrderLanguage._check_name_not_defined, sort, constant, predicate, function, interval, remove_symbol"]}
{"id": "C17", "title": "The sort hierarchy is a tree and is_subtype is its reflexive-transitive closure", "statement": "After any history of sort declarations, every sort reaches 'object' through its parents, and is_subtype(s, t) holds exactly when t is s or an ancestor of s; it is a partial order, whatever the query history (the cache never changes answers).", "quantifier": "all histories of sort declarations and subtype queries", "why_tests_cant": "Invariant over histories, including a memo table.", "anchors": ["src/tarski/fol.py: set_parent, is_subtype, connected_in_type_hierarchy, most_restricted_type", "src/tarski/syntax/sorts.py: inclusion_closure, ancestors"]}
{"id": "C18", "title": "Sort domains are exactly the constants of the sort and its subsorts", "statement": "After any history of declarations, the domain of an uninterpreted sort is the set of constants declared with that sort or with one of its uninterpreted descendants, without repetition, contains() and cardinality() agree with it; domains grow along the hierarchy. Constants of interval sorts are in no other domain, not even that of their ancestor object.", "quantifier": "all histories of declarations", "why_tests_cant": "Invariant over interleaved sort/constant declarations.", "anchors": ["src/tarski/syntax/sorts.py: Sort.extend, Sort.domain, Sort.contains", "src/tarski/syntax/terms.py: Constant.__init__"]}
{"id": "C19", "title": "Intervals contain exactly the values between their bounds", "statement": "For every interval sort of a language and every integer x, contains(x), cast(x) succeeding (and then returning x), and membership of the enumerated domain coincide with lb <= x <= ub, and a constant can be created exactly then unless its name is already defined; the cardinality is the size of the domain, which is enumerable exactly for sorts that are not built-in and have ub - lb < 10000. Beyond this, intervals are not ordinary subsorts (proved): the domain of a numeric sort need not be included in its parent's, casting a numeral string returns a number, and one number cannot be a constant of two user-defined interval sorts.", "quantifier": "all bounds and values", "why_tests_cant": "Boundary behaviour over all integers.", "anchors": ["src/tarski/syntax/sorts.py: Interval, build_the_naturals, build_the_integers", "src/tarski/fol.py: interval"]}
{"id": "C20", "title": "Sort id assignment is a bijection with contiguous sort ranges", "statement": "For every history of declarations in which no uninterpreted sort is below a numeric one and no sort has both string-named and integer-named constants, compute_sort_id_assignment gives distinct consecutive ids starting at `start` to exactly the constants of uninterpreted sorts, and each sort's bounds [x,y) contain exactly the ids of the constants of that sort and its subsorts. Otherwise constants can be left without id, or TypeError is raised.", "quantifier": "all sort trees and object distributions", "why_tests_cant": "Recursive over arbitrary trees.", "anchors": ["src/tarski/syntax/ops.py: compute_sort_id_assignment, _compute_id_assignment", "src/tarski/syntax/sorts.py: compute_direct_sort_map, children"]}
{"id": "C21", "title": "VariableBinding keeps name, order and position consistent", "statement": "After construction from variables with distinct names and any sequence of add, the variables are the first ones given for each name, in order; get(name) returns the variable with that name, index(name) its position, both raise for other names, and adding a duplicate raises and changes nothing. A constructor call with duplicate names leaves wrong positions.", "quantifier": "all constructor lists and add sequences", "why_tests_cant": "History-quantified.", "anchors": ["src/tarski/syntax/formulas.py: VariableBinding"]}
{"id": "C22", "title": "SymbolIndex is a bijection between elements and 0..n-1", "statement": "After any sequence of add, get_index and get_object are mutually inverse between the added elements and 0..len-1 in insertion order; duplicates raise and change nothing.", "quantifier": "all add histories", "why_tests_cant": "History-quantified.", "anchors": ["src/tarski/util.py: SymbolIndex"]}
{"id": "C23", "title": "Progression is delete-then-add for unconditional effects", "statement": "progress(s, op) with unconditional add/delete effects yields (s minus deletes) union adds regardless of the order of the effects, leaves s and all other atoms unchanged; an atom both added and deleted is true afterwards.", "quantifier": "all states, all effect lists and their permutations", "why_tests_cant": "All orders of all effect lists.", "anchors": ["src/tarski/search/operations.py: progress, apply_effect"]}
{"id": "C24", "title": "Effects are simultaneous", "statement": "If no effect of an operator writes a symbol that another one reads, then conditions and right-hand sides are evaluated in the state in which the operator is applied, and (if no point gets two values) the successor, and whether there is one, does not depend on the order of the effects. Otherwise the code is wrong: effects see the updates of the previous ones (x:=y, y:=x does not swap), and increase overwrites the old value.", "quantifier": "all states, all conditional and functional effect lists", "why_tests_cant": "Order-dependence shows only for particular combinations.", "anchors": ["src/tarski/search/operations.py: progress, apply_effect, is_effect_applicable"]}
{"id": "C25", "title": "Breadth-first search visits exactly the reachable states", "statement": "BreadthFirstSearch.search(root) with no expansion bound terminates on every finite reachable space, expands each reachable state exactly once, in order of distance, counts exactly the reachable goal states, and sets complete; with a bound it expands at most that many states and does not claim completeness.", "quantifier": "all transition systems with finite reachable part", "why_tests_cant": "All graphs.", "anchors": ["src/tarski/search/blind.py: BreadthFirstSearch.search", "src/tarski/search/model.py: GroundForwardSearchModel"]}
{"id": "C26", "title": "Compiling negated preconditions away preserves the reachable behaviour", "statement": "For problems whose preconditions, effect conditions and goal are conjunctions of literals over declared predicates, compile_negated_preconditions_away(problem) yields a problem without negated user atoms in them; each sequence of type-correct steps with add and delete effects only, in which no step adds and deletes one atom or has an effect condition over a predicate it changes, is executable in one problem exactly when it is in the other, with complementary extensions of each predicate and its negated twin, and the same goal value. Otherwise the code is wrong: a step adding and deleting an atom makes an atom and its complement true, conditional effects see changed complements, disjunctions become conjunctions.", "quantifier": "all problems with literal-conjunction preconditions, all operator sequences", "why_tests_cant": "Bisimulation over all plans.", "anchors": ["src/tarski/fstrips/representation.py: compile_negated_preconditions_away, update_action_effects_with_negated_counterparts, compute_complementary_atoms, compile_away_formula_negated_literals"]}
{"id": "C27", "title": "Expanding universal effects preserves progression", "statement": "compile_universal_effects_away(problem) yields actions whose successors are those of the original actions in every state, if no universal effect contains a delete effect, or if the expanded effects are independent of each other and do not add and delete, or assign twice, the same point; no universal effect remains unless they are nested. Otherwise the code is wrong: a delete inside a universal effect is applied last in the original and first in the expanded action.", "quantifier": "all states, all effect lists", "why_tests_cant": "All domains and effect lists; order of deletes matters.", "anchors": ["src/tarski/fstrips/representation.py: expand_universal_effect, compile_universal_effects_away, substitute_expression", "src/tarski/search/operations.py: progress"]}
{"id": "C28", "title": "The delete-free relaxation over-approximates reachability", "statement": "compute_delete_free_relaxation removes every delete effect (is_delete_free holds of the result); every plan of a problem with positive conditions is applicable in the relaxation and reaches a superset of the atoms.", "quantifier": "all problems with positive preconditions, all plans", "why_tests_cant": "All plans.", "anchors": ["src/tarski/fstrips/representation.py: remove_delete_effects, contains_delete_subeffects, is_delete_free, compute_delete_free_relaxation"]}
{"id": "C29", "title": "STRIPS recognisers accept exactly STRIPS", "statement": "is_strips_effect_set accepts exactly conflict-free lists of unconditional add and delete effects; is_conjunction_of_literals and is_conjunction_of_positive_atoms accept all conjunctions of literals (of atoms) and, beyond these, exactly disjunctions of literals (atoms) and negated literals (atoms), so is_strips_operator and is_strips_problem accept operators and goals with those too, which they should not; collect_literals_from_conjunction succeeds exactly on conjunctions of literals and returns literals whose conjunction has the formula's truth value.", "quantifier": "all formulas and effect lists", "why_tests_cant": "All formula shapes, including disjunctions and negations.", "anchors": ["src/tarski/fstrips/representation.py: is_conjunction_of_literals, is_conjunction_of_positive_atoms, is_strips_operator, is_strips_effect_set, compute_effect_set_conflicts, collect_literals_from_conjunction"]}
{"id": "C30", "title": "Projecting away effect-free parameters preserves transitions", "statement": "project_away_effect_free_variables(action) removes exactly the parameters that are not free in the head of an effect, and keeps the effects; the new precondition is true exactly when the original is for some values of the removed parameters. If no effect mentions a removed parameter at all and no quantifier of the precondition binds a parameter, the projected action is applicable with given arguments exactly when the original is with some extension of them, and has the same effects, hence the same successors. Otherwise the code is wrong: removed parameters that occur in effect conditions stay unbound, and those that an effect's quantifier binds again change its meaning.", "quantifier": "all actions, states and bindings", "why_tests_cant": "All effect shapes, including effect conditions.", "anchors": ["src/tarski/fstrips/representation.py: project_away_effect_free_variables, collect_effect_free_parameters"]}
{"id": "C31", "title": "Static simplification preserves truth", "statement": "Let statics be the symbols no action writes (see C40). Simplify(problem, problem.init).simplify_expression(phi) has, in every state reachable from the initial state and under every assignment, the truth value of phi, provided the sorts of phi's quantified variables are non-empty; with no model, it has phi's value in every structure with non-empty sorts. The result is reduced (no truth constants, double negations, short conjunctions, or ground static atoms). Instances of a simplified action are applicable in the same reachable states with the same successors, and dropped actions change no reachable state. Plans of the problem survive in simplify()'s result (minus dropped steps), reach states equal on the remaining symbols and agree on the goal; plans of the result are plans of the problem when that raises no errors. Required: delete effects over variables and constants, unconditional universal effects. Outside, it is false (proved): an empty sort, a compound argument of a delete effect, a condition on a universal effect; and simplify() raises when the goal or a kept precondition becomes true.", "quantifier": "all formulas, actions, problems and plans; all reachable states", "why_tests_cant": "All formulas, states and plans.", "anchors": ["src/tarski/fstrips/manipulation/simplify.py: Simplify.simplify_expression, Simplify.simplify_effect, Simplify.simplify_action, Simplify.simplify", "src/tarski/fstrips/ops.py: collect_all_symbols", "src/tarski/fstrips/walker.py: ProblemWalker"]}
{"id": "C32", "title": "Simplifying existential quantification preserves truth", "statement": "simplify_existential_quantification(phi) terminates, has no new free variables and has the same truth value as phi in every structure with identity and assignment respecting the sorts, provided phi has no if-then-else terms; every existential quantifier has a conjunction, an atom or the truth constant as its body; no quantifier inside the body of a quantifier binds a variable that is bound by it or free in its body; and each existential variable is a side of at most one equality, whose other side takes values of its sort, without circular definitions. Quantifier-free formulas are unchanged.", "quantifier": "all formulas, all structures", "why_tests_cant": "All quantified shapes.", "anchors": ["src/tarski/fstrips/manipulation/simplify.py: simplify_existential_quantification"]}
{"id": "C33", "title": "transitive_closure computes the least transitive superset", "statement": "transitive_closure(R) contains R, is transitive, and is included in every transitive relation containing R; it terminates on every finite relation.", "quantifier": "all finite relations", "why_tests_cant": "All graphs.", "anchors": ["src/tarski/utils/algorithms.py: transitive_closure"]}
{"id": "C34", "title": "compute_min_distance is the shortest-path distance", "statement": "compute_min_distance(X, R, Y) is the length of a shortest R-path from an element of X to one of Y, and the 'infinite' value exactly when there is none.", "quantifier": "all finite relations and node sets", "why_tests_cant": "All graphs.", "anchors": ["src/tarski/utils/algorithms.py: compute_min_distance"]}
{"id": "C35", "title": "Description-logic denotations are set-theoretic", "statement": "In every finite interpretation where the second role of each composition in the expression is functional, the computed denotation of a concept (role) is the textbook set (relation), where star is the irreflexive transitive closure, for every iteration order of the sets; the cardinality, difference, minimum-distance and empirical-binary features are the corresponding numbers. A composition whose second role is not functional yields, for each intermediate object, one of its successors, chosen by the iteration order of a set. The size attribute counts the nodes other than top and bottom.", "quantifier": "all finite interpretations, all expressions, all set iteration orders", "why_tests_cant": "Structural induction over expressions and all interpretations.", "anchors": ["src/tarski/dl/concepts.py", "src/tarski/dl/features.py"]}
{"id": "C36", "title": "Hypergraph acyclicity test is correct", "statement": "check_hypergraph_acyclicity(H) answers True exactly for alpha-acyclic hypergraphs (those having a join tree), independently of the order of the edges.", "quantifier": "all finite hypergraphs", "why_tests_cant": "All hypergraphs and orders.", "anchors": ["src/tarski/analysis/csp.py: check_hypergraph_acyclicity"]}
{"id": "C37", "title": "Name translation to logic programs is invertible", "statement": "In any history of calls normalize(name, prefix) with hyphen-free prefixes, including calls that raise: every translated name is free of hyphens; a full name (prefix, underscore, name) that contains a hyphen or does not contain two consecutive underscores is what back() returns for its translation at the end of the history; two such names with one translation are the same name; asking again for such a name gives the same translation. A second, different name with the translation of an earlier hyphenated one is rejected with an error. (Names with two consecutive underscores and no hyphen are really confused when they come first: a__b, then a-b.)", "quantifier": "all histories of calls, all names", "why_tests_cant": "Collision freedom over all strings and orders.", "anchors": ["src/tarski/reachability/asp.py: GringoCompatibleTranslator / Translator.normalize, Translator.back"]}
{"id": "C38", "title": "The reachability program over-approximates reachable actions and atoms", "statement": "When create_reachability_lp returns a program for a problem, the least model of that program (with the names translated back by the returned translator) contains atom_p(c1..cn) for every atom p(c1..cn) true in some reachable state, action_a(c1..cn) for every action instance applicable in some reachable state (ground_actions=True), and goal if the goal is true in some reachable state, so that ReachabilityLPUnsolvable is only raised for unsolvable problems; with and without include_variable_inequalities. Requirements: names of constants and symbols are unambiguous (C37), are not read by gringo as variables and constants are declared in the language; sorts with constants have no interval sort above them; variables of an action have uninterpreted sorts and are written with different gringo variables; conditions compare with = and != only and no condition binds a variable twice on a path. Without them it fails: no instance of an action with an interval-sorted parameter is reported, and parameters whose names differ only in letter case are conflated.", "quantifier": "all languages, all problems, all sequences of applicable actions, all program instances", "why_tests_cant": "All plans and all derivations.", "anchors": ["src/tarski/reachability/asp.py: create_reachability_lp, ReachabilityLPCompiler, VariableOnlyReachabilityLPCompiler, process_effect, process_formula", "src/tarski/grounding/lp_grounding.py: LPGroundingStrategy"]}
{"id": "C39", "title": "Naive grounding enumerates exactly the type-consistent bindings", "statement": "NaiveGroundingStrategy.ground_actions lists every binding of the parameters with constants of their sorts exactly once; ground_symbols_exhaustively indexes every type-consistent ground state variable exactly once.", "quantifier": "all signatures and domains", "why_tests_cant": "Any arity and domain size.", "anchors": ["src/tarski/grounding/naive_grounding.py: NaiveGroundingStrategy.ground_actions, ground_symbols_exhaustively"]}
{"id": "C40", "title": "Static symbols never change", "statement": "The symbols classified static by approximate_symbol_fluency keep their extension along every plan; fluents are exactly the symbols written by some effect; fluent and static symbols are disjoint and include all non-built-in symbols but one: total-cost is in neither when no action writes it.", "quantifier": "all problems, all plans", "why_tests_cant": "Invariant along all plans.", "anchors": ["src/tarski/grounding/ops.py: approximate_symbol_fluency", "src/tarski/fstrips/visitors.py"]}
{"id": "C41", "title": "Arithmetic simplification preserves values", "statement": "Wherever expr has a value (over any field, any interpretation of the user's symbols, any assignment), the term returned by simplify(expr) and the argument object itself, which is updated in place, have the same value; the result contains no operation with a neutral or absorbing numeral of sort Real, except (-1)*0 and (-1)*1 left by 0 - t. SemanticError is raised only when a division has a divisor that can only be zero, ValueError only for 0 - t over a sort without -1, NotImplementedError only for other built-in functions. summation and product over variables equal the sum and product of the values over all tuples of the domains.", "quantifier": "all arithmetic terms, all interpretations", "why_tests_cant": "All term shapes.", "anchors": ["src/tarski/syntax/arithmetic/__init__.py: simplify, summation, product"]}
{"id": "C42", "title": "Formulas survive printing and reading in PDDL", "statement": "For every well-formed formula over a language's symbols, with legal lower-case names that are not words of the grammar, arguments of the declared sorts, no numbers as predicate arguments, binary comparisons, sort names in lower case and no quantifier that rebinds a name in scope: print_formula gives a text that the reader accepts; the formula read prints as the same text, and, if no variable occurs both with and without '?', it has the same truth value in every structure with standard numerals, variables being assigned under their printed names. If variables carry '?', and there are no numerals, no != and no contradiction, exactly the same formula is read; so two different such formulas never print alike. Printing raises exactly on if-then-else terms. Each restriction is needed: otherwise the printed text is rejected, or, with two spellings of a variable, means something else.", "quantifier": "all well-formed formulas, languages and parameter lists", "why_tests_cant": "Round trip over all formulas: names, nesting and scopes interact.", "anchors": ["src/tarski/io/fstrips.py: print_formula, print_atom, print_term, print_variable_list", "src/tarski/io/_fstrips/reader.py: FStripsParser, ParserVariableContext", "utils/parsers/grammars/fstrips.g4"]}
{"id": "C43", "title": "Effect-conflict computation finds exactly the conflicting atoms", "statement": "compute_effect_set_conflicts(effects) returns exactly the atoms that are both added and deleted by some effect of the list, and raises exactly when some effect is conditional or not propositional.", "quantifier": "all effect lists", "why_tests_cant": "All orders and multiplicities.", "anchors": ["src/tarski/fstrips/representation.py: compute_effect_set_conflicts"]}
{"id": "C44", "title": "Ground-atom extraction is exact", "statement": "transform_to_ground_atoms(phi) succeeds exactly on conjunctions of ground atoms / functional equalities with a constant, and phi is true in a model exactly when all returned tuples are.", "quantifier": "all formulas, all models", "why_tests_cant": "All nestings.", "anchors": ["src/tarski/syntax/transform/simplifications.py: transform_to_ground_atoms, unpack_atom"]}
{"id": "C45", "title": "Node collection is exhaustive", "statement": "collect_unique_nodes(e, f) returns only sub-expressions of e satisfying f and each of them, up to syntactic equality, exactly once if no float constant names occur (at least once otherwise); e is left with its argument tuples turned into lists, and unchanged exactly if it has none. all_variables, is_ground, is_function_free, is_quantifier_free, collect_all_function_names and has_state_variable_shape answer accordingly.", "quantifier": "all expressions and filters", "why_tests_cant": "All nestings.", "anchors": ["src/tarski/syntax/ops.py: collect_unique_nodes, NodeCollectionWalker, all_variables", "src/tarski/fstrips/representation.py: is_ground, is_function_free, is_quantifier_free"]}
{"id": "C46", "title": "Reading action costs preserves what a plan costs", "statement": "When a domain is read, each action's increase of total-cost becomes the action's cost and disappears from its effects, an action without one costs 0 if some action has a cost, and no action has a cost otherwise. If actions use total-cost as PDDL prescribes (only in one unconditional top-level increase per action, by an expression mentioning neither total-cost nor a symbol the action changes) the domain is accepted, and a plan can be executed after reading exactly when it can with the total-cost effects as written, the states agree on everything but total-cost, and total-cost grows by the sum of the costs. Outside these conditions the cost charged can differ: swapped summands, an increase by a symbol the action changes, an increase under a quantifier. Plans of problems passing the unit-cost test cost their length if all actions have a cost.", "quantifier": "all sets of actions, all states, all plans", "why_tests_cant": "All action sets, plans of every length.", "anchors": ["src/tarski/io/_fstrips/common.py: process_cost_effects, uniformize_costs", "src/tarski/io/_fstrips/reader.py: visitActionDef", "src/tarski/fstrips/action.py: AdditiveActionCost", "src/tarski/fstrips/representation.py: is_unit_cost_problem, is_zero_cost_action, is_constant_cost_problem"]}
{"id": "C47", "title": "The description-logic factory prunes only redundant elements", "statement": "Each create_* operation of the syntactic factory either returns exactly the requested element or None; when it returns None for well-sorted operands whose sort attribute bounds their denotation (no Or, Forall or Equal concepts), the requested element denotes, in every interpretation respecting the sorts, the empty set or the same set as a simpler element (or it has more than two compositions). Elements that compare equal have equal denotations. create_or_concept raises AssertionError only for incomparable sorts.", "quantifier": "all operands, all sort hierarchies, all interpretations", "why_tests_cant": "All expressions and interpretations.", "anchors": ["src/tarski/dl/factory.py: SyntacticFactory", "src/tarski/dl/concepts.py"]}
{"id": "C48", "title": "Grounding with the logic program returns exactly the reported instances", "statement": "parse_model of the atoms printed by the solver, in any order, gives each symbol exactly the set of its argument tuples with names translated back; nested terms are rejected. With a correct solver, LPGroundingStrategy.ground_actions has one entry per action, holding exactly the tuples reported for it, without repetitions, all made of constants of the parameters' sorts, and containing every instance applicable in a reachable state; ground_state_variables returns exactly the reported atoms of the symbols written by actions, without repetitions, among them every such atom true in a reachable state. ReachabilityLPUnsolvable is raised exactly if the goal is not reported, and then no reachable state satisfies the goal. (iterate_over_schema_groundings never finds anything, and a second call after ReachabilityLPUnsolvable returns normally.)", "quantifier": "all languages, problems, solver outputs and states", "why_tests_cant": "All problems and all plans; the solver's output order is arbitrary.", "anchors": ["src/tarski/grounding/lp_grounding.py: LPGroundingStrategy", "src/tarski/reachability/clingo_wrapper.py: parse_model"]}
{"id": "C49", "title": "Grounding a problem into operators keeps its plans", "statement": "With a correct solver, ground_problem_schemas_into_plain_operators returns operators each of which is an instance, named like 'drive(t1, loc-1)', of an action with constants of the parameters' sorts: in every state its precondition has the value of the action's and it adds and deletes the same atoms. Every instance applicable in a reachable state is there. So, from the initial state, the plans of the operators are exactly the plans of the problem, with the same names and the same states. The call succeeds whenever the ground actions can be computed. (Actions whose parameters are not bound again inside and which have no other free variables.)", "quantifier": "all languages, problems, solver outputs, states and plans", "why_tests_cant": "Plans of every length, all problems.", "anchors": ["src/tarski/grounding/lp_grounding.py: ground_problem_schemas_into_plain_operators, compute_action_groundings", "src/tarski/syntax/transform/action_grounding.py: ground_schema_into_plain_operator, ground_schema_into_plain_operator_from_grounding"]}
{"id": "C50", "title": "Actions survive printing and reading in PDDL", "statement": "For every action over a language's symbols whose names are legal in the grammar, whose add and delete effects are over declared predicates, whose universal effects (nested to any depth) are unconditional and rebind no name in scope, which does not itself change total-cost, and whose cost is a number that can be added to total-cost: FstripsWriter.get_action gives a text that the reader accepts, and the action read has the same name, the same parameters (with '?'), a precondition that is true in the same situations, and, one by one, effects of the same kind on the same symbols with conditions, arguments and values that mean the same (an increase is read as the assignment of the sum), and the same cost. If variables carry '?', nothing is increased, and numerals occur only as assigned values or cost, exactly the same action is read, so two different such actions never have the same text. Otherwise: conditional universal effects, added or deleted equations and rebinding universal effects are printed but cannot be read again; effects on total-cost are rejected or become the cost.", "quantifier": "all actions over all languages", "why_tests_cant": "Round trip over all actions: nesting of effects, scopes, white space and costs interact.", "anchors": ["src/tarski/io/fstrips.py: FstripsWriter.get_action, print_effects, print_effect, print_unconditional_effect", "src/tarski/io/_fstrips/reader.py: visitActionDef, visitSingleEffect, visitConjunctiveEffectFormula, visitSingleConditionalEffect, visitUniversallyQuantifiedEffect, visitAssignEffect", "utils/parsers/grammars/fstrips.g4"]}
{"id": "C51", "title": "Planning problems survive being written and read in PDDL", "statement": "For every problem whose names are legal in the grammar, whose sorts are all uninterpreted, whose constants have string names, whose initial state is over declared constants (function arguments having exactly the declared sorts), whose goal, actions and metric are as in the previous property, and for every duplicate-free list of declared constants that contains those mentioned by the actions: FstripsWriter.print_domain and print_instance succeed, FstripsReader.read_problem accepts the two texts, whatever the iteration order of the set of requirements, and gives a problem with the same names, sorts, parents, predicates, functions (in the same order) and constants, the same initial state, and a goal, actions (in the same order) and metric that mean the same. Otherwise: constants of the actions that are not passed, or passed twice, default names, integer-named constants, derived predicates, function values for arguments of proper subsorts, functions into Integer or Real, and the sort that the reader itself creates for action costs are printed but cannot be read (or printed); sorts named real or with capitals come back as other sorts.", "quantifier": "all problems over all languages reachable by declarations, all iteration orders", "why_tests_cant": "Round trip over all problems: types, constants, objects, initial states of every size interact.", "anchors": ["src/tarski/io/fstrips.py: FstripsWriter.print_domain, print_instance, print_objects, print_init, FstripsReader.read_problem", "src/tarski/io/_fstrips/common.py: create_sort, process_requirements, get_requirements_string", "src/tarski/io/_fstrips/reader.py", "src/tarski/io/templates/fstrips_domain.tpl", "src/tarski/io/templates/fstrips_instance.tpl", "utils/parsers/grammars/fstrips.g4"]}
{"id": "C52", "title": "The constraint hypergraph of an action schema is that of its precondition", "statement": "For an action whose variables carry '?' and whose precondition is built from literals over variables and constants with conjunctions, compute_schema_constraint_hypergraph returns, without repetitions, exactly one edge for each set of variables (without '?') mentioned by an atom with variables; the primal graph has exactly the pairs of variables mentioned together; every other precondition is rejected. Passing the hypergraph to the acyclicity test decides, whatever the iteration order of sets, whether the atoms of the precondition have a join tree. (Variables not written with '?' can be identified, and an action without a precondition is rejected.)", "quantifier": "all actions, all iteration orders", "why_tests_cant": "All preconditions of every size and nesting.", "anchors": ["src/tarski/analysis/csp.py: compute_schema_constraint_hypergraph, compute_schema_primal_graph, compute_primal_graph_from_hypergraph, check_hypergraph_acyclicity"]}
{"id": "C53", "title": "The solutions of an action schema's CSP are its applicable instances", "statement": "For every action whose parameters have uninterpreted sorts and whose precondition is a conjunction (nested to any depth) of literals over predicates, equalities and inequalities between parameters and constants with unambiguous names, and for the constant numbering of compute_sort_id_assignment, compile_schema_csp succeeds, and in every state reached from the initial one by executing actions: an instance is applicable if and only if the constraint satisfaction problem, whose tables are the extensions of the predicates in that state, has a solution giving the parameters the numbers of its constants; every solution is such an instance; the parameters are listed in order and the effect-relevant ones are those not effect-free. If None is returned, or process_problem reports an action as inapplicable, then no instance is applicable in any reached state. (Disjunctions are accepted and compiled as conjunctions, an action without a precondition is rejected, function terms give constraints without a variable, and a parameter called like a constant is confused with it.)", "quantifier": "all languages, problems, actions, plans and assignments", "why_tests_cant": "Solutions range over all assignments, states over all plans.", "anchors": ["src/tarski/analysis/csp_schema.py: CSPCompiler.compile_schema_csp, compile_expression, variable, process_problem", "src/tarski/syntax/ops.py: compute_sort_id_assignment", "src/tarski/fstrips/manipulation/simplify.py: Simplify.simplify_expression"]}
{"id": "C54", "title": "Grounding by enumeration keeps the meaning of constraints, sensors, reactions and differential constraints", "statement": "For state constraints built from negations, binary conjunctions and disjunctions, and universal quantifiers over sorts with constants (names not rebound), ConstraintGrounder.calculate_constraints produces formulas in conjunctive normal form without variables which, in every structure where sorts consist of their constants, are all true exactly when every constraint is true for all values of its free variables, and counts them; it raises DuplicateDefinition exactly when two of these formulas are the same. SensorGrounder, ReactionGrounder and DifferentialConstraintsGrounder produce, for every schema and every assignment of constants to its parameters, exactly one ground object with the same name whose condition and observation, effect, variate and rate mean in every structure what those of the schema mean under the assignment, and count them. (Existential constraints are grounded into a requirement on every object, conjunctions of three members lose the third, constraints with a common instance are rejected.)", "quantifier": "all constraints, sensors, reactions, differential constraints, domains, structures and iteration orders", "why_tests_cant": "Meaning in all structures; all numbers and nestings of variables.", "anchors": ["src/tarski/grounding/naive/constraints.py: ConstraintGrounder.calculate_constraints", "src/tarski/grounding/naive/sensors.py: SensorGrounder.calculate_sensors", "src/tarski/grounding/naive/reactions.py: ReactionGrounder.calculate_reactions", "src/tarski/grounding/naive/diff_constraints.py: DifferentialConstraintGrounder.calculate_constraints", "src/tarski/grounding/naive/instantiation.py: enumerate_groundings"]}
{"id": "C55", "title": "Grounding SAS schemas enumerates exactly the instances that satisfy the constraints", "statement": "For SAS action schemas over different variables with lists (inline, or by name in a table) of constants, and for a state reached by any operations on a model, ground_action_schemas returns exactly one action for each schema and each choice of a value for every variable under which all constraints are true in the state, and no others; the action has the schema's name, the values in the order of the variables, and transitions that in every structure mean what the schema's transitions mean under the values. ground_temporal_action does the same for temporal actions, whatever the iteration order of the set of variables: one action for each choice of values for all variables of all events under which the constraints of all events are true, with the values in its name and the delays of the schema in the same order. Neither fails if the constraints are built from predicates, equations and inequations over variables and constants. (A variable which has other values in a later event gets those of the first; a constraint with an undefined value stops the grounding although another constraint is false.)", "quantifier": "all schemas, temporal actions, tables of domains, states and iteration orders", "why_tests_cant": "All numbers of variables and values, all states; meaning in all structures.", "anchors": ["src/tarski/sas/util.py: ground_action_schemas, ground_temporal_action, check_constraints", "src/tarski/sas/temporal.py: TemporalAction, add_event", "src/tarski/sas/__init__.py"]}
{"id": "C56", "title": "The JSON document of a SAS instance points at the right variables and values", "statement": "For instances over a language with arithmetic whose variables are functions into object or Integer, with different objects that are not of sort Integer, the JSON writer succeeds and gives a document where the variables are, once each, exactly the terms occurring in transitions, initial state and goal; the actions are in order, with their arguments; and there is, in order, one entry for each transition of each action with the number of the action, the position of the variable, and for the values the positions of the objects in the listed domain (or the numbers, for integers), and likewise for the initial state and the goal. (All variables are declared to range over the objects, so that numbers and positions cannot be told apart; transitions of variables of other sorts are left out; repeated objects shift the positions; without arithmetic the writer fails.)", "quantifier": "all instances", "why_tests_cant": "All numbers of variables, values and actions.", "anchors": ["src/tarski/io/sas/json.py: dump", "src/tarski/util.py: SymbolIndex"]}
{"id": "C57", "title": "The Fast Downward text of a SAS instance determines the instance", "statement": "For variables with lists of different values, whose names and whose actions' names have no line breaks: there is a way to read the text written by the Fast Downward writer which recovers, for every instance, the names of the variables and their values in order, the metric, every operator with its name and its preconditions and effects, the initial state and the goal, as positions that are those of the right variable and of the right value among the values of that variable. The writer succeeds exactly when there are actions and every variable and value used is one of the instance's.", "quantifier": "all instances and names", "why_tests_cant": "Decoding of texts of all lengths.", "anchors": ["src/tarski/io/sas/fd.py: Writer.dump, make_variable_section, make_operators_section, make_precondition_list, make_effect_list, make_initial_state_section, make_goal_state_section", "src/tarski/io/sas/templates.py"]}
{"id": "C58", "title": "Python operators over terms build the term or formula that means what Python computes", "statement": "With theories loaded, an expression of integers, strings, terms of the language and the operators + - * evaluates to a term which, in every structure whose numerals, sums, differences and products are those of the integers, has the value Python would compute from the values of the terms; likewise ==, !=, <, <=, >, >= give a formula that is true exactly when the comparison of the values is, also with the number on the left. The evaluator gives these values in a model if no intermediate result leaves the bounds of Integer. In a language reached by any declarations and loaded theories with arithmetic, the expressions (also with /, **, % and @) that evaluate to a term are exactly those whose operands are of sorts below Real or are values that the sort of the other operand contains (on the left only of + - * /), and the result is of sort Real; comparisons exactly those between operands below Real, equations those between any. Without the theory no operator applies to terms and no comparison builds a formula. (A number is converted to the sort of the other operand: x + 20 raises ValueError if x is of the sort [0, 10]; a string that reads as a number becomes one.)", "quantifier": "all expressions, structures, models and histories", "why_tests_cant": "Expressions of every size; meaning in all structures; all histories of declarations.", "anchors": ["src/tarski/syntax/terms.py: Term.__add__, __radd__, __eq__, __lt__ and the other operators", "src/tarski/syntax/ops.py: cast_to_closest_common_numeric_ancestor", "src/tarski/syntax/factory.py: create_atom, create_arithmetic_term", "src/tarski/fol.py: FirstOrderLanguage.dispatch_operator", "src/tarski/theories.py: create_casting_handler"]}
{"id": "C59", "title": "Theories give exactly their symbols, once, in any order", "statement": "After any history of declarations and loaded theories: a theory that is loaded cannot be loaded again (DuplicateDefinition, nothing changes); any other one can be loaded if and only if the names it declares are free, and, for numerical theories, the language has Integer and Real or has no sort Integer and the names Real, Integer and Natural are free. Loading declares exactly these names, with Natural below Integer below Real below object, keeps all other names, parents and symbols, and makes exactly the theory's predicates and functions usable. At any time the usable built-in symbols are those of the loaded theories, and if a numerical one is loaded there are Integer and Real. Loading several theories succeeds in every order or in none, and the result does not depend on the order; a new language accepts any theories, none twice. A load that raises loads nothing and makes nothing usable, and names keep their meaning. (It is not atomic: with a sort Natural of the user, loading arithmetic raises but declares Real and Integer, and the second attempt succeeds.)", "quantifier": "all histories of declarations and loaded theories, all lists of theories in all orders", "why_tests_cant": "All histories and orders.", "anchors": ["src/tarski/theories.py: load_theory, language, load_bool_theory, load_equality_theory, load_arithmetic_theory, load_special_theory, load_random_theory", "src/tarski/fol.py: FirstOrderLanguage.register_operator_handler", "src/tarski/syntax/sorts.py: attach_arithmetic_sorts, build_the_bools"]}
{"id": "C60", "title": "Fluent and static terms of a problem with constraints", "statement": "ProblemGrounding.process_symbols ends after at most two passes more than there are constraints, and returns as fluent exactly the smallest set of atoms and terms that contains the targets of the effects of the actions, the terms that constraints speak about under a next operator, and with any of its members everything combined with it by a connective of a constraint; as static exactly the atoms of preconditions and effect conditions, and the atoms and terms constraints speak about outside next, that are not fluent. The classes are disjoint and do not depend on the order of the actions and constraints. Effects of unknown classes are rejected with RuntimeError. Without universal effects, whatever changes along any plan is an instance of a fluent term and has a state variable in create_all_possible_state_variables.", "quantifier": "all sets of actions and constraints, all plans", "why_tests_cant": "Fixpoint over all problems; all plans of every length.", "anchors": ["src/tarski/grounding/naive_grounding.py: ProblemGrounding.process_symbols, create_all_possible_state_variables", "src/tarski/fstrips/visitors.py: FluentSymbolCollector", "src/tarski/fstrips/problem.py: Problem.get_symbols", "src/tarski/syntax/temporal/ltl.py"]}
{"id": "C61", "title": "The blocksworld benchmark is blocksworld", "statement": "For every number of blocks and all random choices, generate_strips_blocksworld_problem returns a problem whose initial state is that of towers built from exactly the blocks b1..bn, laid out as the random pattern says, with an empty hand. In every state that a plan reaches, every block is held, on the table or on exactly one other block, at most one block is on a block, at most one is held, clear and handempty mean what they say; the plans are exactly the sequences of physical moves of the top blocks. The goal holds in such a state if and only if the blocks stand as the goal pattern says and the hand is empty; every generated problem has a plan of at most four actions per block, and use_inequalities makes no difference.", "quantifier": "all numbers of blocks, shuffles and random choices, all plans and reachable states", "why_tests_cant": "All sizes, all random draws, all plans of every length.", "anchors": ["src/tarski/benchmarks/blocksworld.py: generate_strips_blocksworld_problem, generate_strips_bw_language, generate_random_bw_pattern", "src/tarski/search/operations.py: progress, is_applicable", "src/tarski/model.py: Model.add"]}
{"id": "C62", "title": "The counters benchmark, and assignments of arithmetic values", "statement": "An assignment effect whose right-hand side is a sum, difference or product raises SortMismatch, in every state, unless the built-in Integer sort is a subtype of the codomain of the assigned function (ValueError if the result leaves the bounds of Integer); otherwise it sets that one value to the result and changes nothing else. generate_fstrips_counters_problem raises SemanticError for upper bounds below 1 (the default for no counters) and otherwise returns a problem whose initial state sets all counters to 0 and max_int to the bound and nothing else, and whose goal is true exactly in the states where the counters increase strictly in the alphabetical order of their names; such a state exists within the bounds if and only if there are at most upper_bound + 1 counters. Since the codomain is an interval, no increment or decrement can be executed in any state, so a generated problem has an executable plan if and only if it has at most one counter.", "quantifier": "all numbers of counters and bounds, all states, all plans", "why_tests_cant": "All sizes, states and plans.", "anchors": ["src/tarski/benchmarks/counters.py: generate_fstrips_counters_problem, generate_fstrips_counters_language", "src/tarski/search/operations.py: apply_effect, progress", "src/tarski/model.py: Model.set, _check_assignment", "src/tarski/evaluators/simple.py: _arithmetic_evaluator_2", "src/tarski/syntax/ops.py: infer_numeric_sort"]}
{"id": "C63", "title": "Expressions written in RDDL say what they mean", "statement": "For every expression of which the writer accepts the form (see below), the text that the RDDL writer emits is an RDDL expression, and its value under any interpretation of the symbols, of sums and products, and of the variables is the value of the expression; the same holds for whole sections: next-state definitions, constraints of each kind, and the reward. The form: two-place connectives without negation, arithmetic and comparison operators whose left operand is not a conditional, quantifier or aggregate, built-in and random functions, user symbols, conditionals, quantifiers and sums or products over variables without question marks. Outside it the text is wrong in ways the theorems describe: a conditional or aggregate to the left of an operator captures the right operand, conjuncts after the second are lost, negations, powers, remainders and quantified variables with a question mark are not RDDL, distinct variables can be written alike, and invariants are not written at all.", "quantifier": "every term and formula (with sums and products), every structure, interpretation and assignment; every list of definitions and constraints", "why_tests_cant": "a test checks that the file of one task can be parsed again, which says nothing about its meaning: the rewards of the project's own tests are read back as different functions", "anchors": ["src/tarski/io/rddl.py:Writer.rewrite,get_cpfs,get_reward,get_preconditions,get_state_invariants,get_fluent", "src/tarski/syntax/builtins.py:get_random_binary_functions"]}
{"id": "C64", "title": "Reading an RDDL expression keeps its meaning", "statement": "For every expression of an RDDL text that translate_expression accepts, in which sums, products and quantifiers have one variable each, no quantifier rebinds a summed variable, and every variable is used at one type, the returned term or formula has, in every field of numbers, every interpretation of the symbols and every assignment, the value the RDDL expression has (where that has one: division by zero has none; truth values count as 1 and 0). In the language the reader makes (equality, arithmetic, special and random theories, followed by any declarations), the well-typed expressions of integers, floats, fluents applied to variables and objects, conditionals of numbers or objects, == <= >=, + - * / and unary minus, products of a truth value and a number, abs sqrt exp pow max Normal Gamma, ~ ^ | =>, sums and products over non-empty types and forall are all accepted, Boolean ones as formulas and others as terms. Truth constants, exists, < > ~=, & and <=>, other functions, primed functions, numbers as fluent arguments and Boolean conditionals raise the exceptions the theorem lists. Without the side conditions the returned expression can mean something else: a second variable is taken as the body, a variable given to a fluent of a supertype becomes free.", "quantifier": "every syntax tree, language history, field, interpretation and assignment", "why_tests_cant": "the tests read a few benchmark files and check that nothing is raised; expressions of every size, in all structures", "anchors": ["src/tarski/io/rddl.py:translate_expression", "src/tarski/syntax/arithmetic/__init__.py:summation,product", "src/tarski/syntax/formulas.py:forall,land,lor,neg,implies", "src/tarski/syntax/terms.py:ite"]}
{"id": "C65", "title": "Reading RDDL instances: language and initial state", "statement": "Reading an RDDL instance succeeds exactly if its types are subtypes of object, all declared names differ from each other and from the predefined ones, objects belong to declared types, variables have declared types, and every entry of the initial state is about a declared fluent at objects of its types with a value of its type. Then the names of the language denote exactly what the text declares, the elements of each type are exactly its objects, an atom holds initially iff an entry makes it true, a function has the value of the last entry about it, and horizon, discount and action bound are those of the text. Known limits: default values are ignored, a later 'false' does not undo an earlier 'true', and fluents that differ only in their number of parameters clash.", "quantifier": "every instance as delivered by the parser (types, objects, variables, entries), every language and state query", "why_tests_cant": "the tests read a few benchmark files; all instances, orders and repetitions of declarations cannot be enumerated", "anchors": ["src/tarski/io/rddl.py:Reader.translate_rddl_model,Reader._translate_types,Reader._translate_variables,translate_variable", "src/tarski/fol.py:FirstOrderLanguage", "src/tarski/model.py:Model.set,Model.add"]}
{"id": "C66", "title": "The types, constants and symbols of a PDDL domain (io/pddl)", "statement": "Reading the types sections and then the constants, objects, predicates and functions of a domain with the io/pddl parser succeeds exactly if every declared name is new (not declared before, not object, Real, Integer, Natural, Bool or ite), a supertype that was declared before has only new subtypes, a new supertype is not among its own subtypes, and every type used is declared. Then the types are object and those mentioned; s is a subtype of t, whatever was asked before, iff s = t, t is object or t is reached from s through the declared pairs; the parent of a type is the supertype given last, or object; the domain of a type is exactly the constants of the types below it, once each; the objects the reader lists for a type are those declared with it, in order; every predicate has the declared argument types and Bool, every function its declared type or Integer; each variable of a list has the type that comes next in the list, or object. Known limits: a second supertype is refused with TypeError if that type was declared before, though accepted if new; a type declared as its own supertype makes the reader loop forever; the keyword object denotes a new type Object, and a variable declared with it is refused otherwise; constants declared before a types section are missing from later supertypes.", "quantifier": "every list of type, constant, predicate and function declarations, every sequence of subtype queries", "why_tests_cant": "All hierarchies, orders and repetitions of declarations; the tests read a few benchmark files.", "anchors": ["src/tarski/io/pddl/instance.py:InstanceModel.process_supertype_definition,process_type_definition,process_constant_definition,process_predicate_definition,process_function_skeleton", "src/tarski/io/pddl/parser.py:p_types_def,p_constants_def,normalize_typed_variable_list", "src/tarski/fol.py:FirstOrderLanguage.sort,set_parent,is_subtype,constant,function"]}
{"id": "C67", "title": "Conditions, effects and actions of a PDDL domain (io/pddl)", "statement": "Reading an action, a durative action, a goal or an initial fact of an accepted domain with the io/pddl parser succeeds exactly if it is well formed: names are declared, arguments conform to the declared types, arithmetic and order comparisons are on numbers, every variable is bound once (no quantifier rebinds a parameter or an outer variable), and no unsupported feature is used (conditional or universal effects, negative numbers, negated initial facts, empty conditions of durative actions). Then name, parameters and types are those of the text, no variable stays in scope, and in every world and assignment of the parameters the precondition, or each of the start, end and over-all conditions, has the truth value that the text has in PDDL; the effects, in the order of the text and split into start and end, make exactly the changes that the text describes, and the duration has the value of its expression. Known limits: scale-down multiplies; an atom over a numeric function means that its value is 1, its negation that it is 0.", "quantifier": "every accepted domain, every condition, expression, effect, action and initial fact, every world and assignment of variables", "why_tests_cant": "All nestings of connectives, quantifiers and arithmetic in all worlds; the tests parse a few benchmark files and count the actions.", "anchors": ["src/tarski/io/pddl/parser.py:p_GD,p_term,p_f_exp,p_f_head,p_atomic_formula_of_term,p_literal_of_term,p_c_effect,p_p_effect,p_action_def,p_durative_action_def,p_da_GD,p_timed_effect,p_init_el", "src/tarski/io/pddl/instance.py:InstanceModel.process_instantaneous_action_skeleton,process_durative_action_skeleton", "src/tarski/syntax/formulas.py:land,lor,neg,forall,exists", "src/tarski/theories.py"]}
{"id": "C68", "title": "The RDDL document that is written for a task", "statement": "For every task over a language and a state built with the API, whose names RDDL can express and whose expressions are those of C63, Writer.write_model writes a text that reads as one RDDL document (three sections with their entries) that describes the task: domain, instance, requirements and parameters; as types exactly the user types, once each, with their parents; for each type exactly its constants, once each; every fluent with its kind, parameter types, range and default; transition functions, reward, preconditions and invariants with the same meaning in every structure; and as non-fluents and initial state exactly the values that the non-fluents, and the fluents that are neither non-fluents nor intermediate, have in the state. Known limits: a task with only the documented parameters cannot be written; a second document written by the same writer repeats the objects; defaults given as Python Booleans are written True and False; constants of sort object and interval sorts are left out; an object of a subtype is listed with every supertype.", "quantifier": "every task (language and state histories, fluents, expressions, parameters), any number of documents from one writer", "why_tests_cant": "All languages, states and tasks; the tests write five tasks and check that nothing is raised.", "anchors": ["src/tarski/io/rddl.py:Writer", "src/tarski/io/templates/rddl_model.tpl", "src/tarski/rddl/task.py:Task", "src/tarski/io/rddl.py:Parameters"]}
{"id": "C69", "title": "RDDL tasks survive being written and read again", "statement": "For every task that can be written (C68) whose types are direct subtypes of object, whose constants belong to those types, whose fluents are declared once with such types (or Real or Integer values) and whose state only has values for them, reading the document with translate_rddl_model succeeds, and the language that is read has exactly the types, objects and fluents of the task (same argument types and codomains), every predicate holds of the same objects, every function has the same values, and horizon, discount and action bound are those of the task. A task with a subtype of a user type can be written but its document is never accepted by the reader.", "quantifier": "every task (language and state histories, fluents, parameters) and every way to read numbers that reads those of the task back", "why_tests_cant": "All tasks; no test reads what the writer wrote.", "anchors": ["src/tarski/io/rddl.py:Writer.write_model", "src/tarski/io/rddl.py:Reader.translate_rddl_model", "src/tarski/io/templates/rddl_model.tpl"]}
{"id": "C70", "title": "Matrix expressions evaluate to matrix algebra", "statement": "The value of a matrix expression is a rectangular table of constants of its sort. A matrix written down evaluates to the table of the values of its entries. A @ B of Real matrices is the table of the sums of products, in which the sums are taken from left to right starting from zero, whenever it has a value, and it has one if all numbers on the way are between the bounds of Real; shapes that do not fit raise TypeError. An operator between a matrix and a number applies to each entry, with the number on its side. transpose swaps rows and columns, is its own inverse, commutes with evaluation, and turns A @ B into the product of the transposed matrices in the other order. Matrices of integers cannot be multiplied, two matrices cannot be combined with + - * /, scalars and products cannot be transposed, and transposed sums have no value.", "quantifier": "every matrix expression over + - * / @, all shapes, every interpretation of the terms in it, every implementation of floating-point numbers", "why_tests_cant": "All shapes and numbers; the tests build one matrix and evaluate none.", "anchors": ["src/tarski/syntax/algebra/matrix.py:Matrix", "src/tarski/evaluators/simple.py:evaluate_term", "src/tarski/evaluators/simple.py:symbolic_matrix_multiplication", "src/tarski/evaluators/simple.py:_arithmetic_evaluator_2", "src/tarski/syntax/arithmetic/__init__.py:transpose"]}
{"id": "C71", "title": "Problems keep the actions, derived predicates, sensors, reactions and constraints they are given", "statement": "After any history of requests to a problem (actions, derived predicates, reactions, differential constraints, sensors, and extensions of the language in between), get_action and its siblings return the first acceptable definition of that name, and raise the exception for an undefined name iff there is none; acceptable means: for derived predicates, that the parameters have exactly the sorts of the predicate in the language at that time; for sensors, that the observation is a literal. A refused request changes nothing and later requests neither change nor reorder what is there. Differential constraints differ: a second definition silently replaces the first, a name shared with a reaction is refused as a duplicate, and a variate over an operator is accepted; a derived predicate with parameters of wrong sorts raises AttributeError.", "quantifier": "all histories of requests and all names", "why_tests_cant": "Histories are unbounded; the tests make single requests.", "anchors": ["src/tarski/fstrips/problem.py:Problem", "src/tarski/fstrips/derived.py:Derived", "src/tarski/fstrips/hybrid/problem.py:HybridProblem", "src/tarski/fstrips/contingent/problem.py:ContingentProblem", "src/tarski/fstrips/contingent/sensor.py:Sensor", "src/tarski/fstrips/hybrid/differential_constraints.py:DifferentialConstraint"]}
{"id": "C72", "title": "Temporal actions keep their requirements, effects and times", "statement": "A resource lock is accepted iff its resource is a function applied to arguments, a level iff besides its value is a constant of the same sort. A temporal action is accepted iff its precondition and postcondition are atoms, compound formulas or truth, each requirement is a timed lock or level, and each timed effect sets a literal or assigns to a term a value that can be compared with it. Then its locks and levels are the requirements in order, untimed effects happen at 0, get_effect_time answers the delay of the last timed effect that brings about the literal or equation and raises KeyError iff none does, and max_eff_time is the largest of 0, the durations of the requirements and the delays. It can be earlier than the moment at which a lock ends; assignments to atoms are refused.", "quantifier": "every description of an action, every language with equality and arithmetic, every query", "why_tests_cant": "All lists of requirements and effects; the tests build three actions.", "anchors": ["src/tarski/ndl/temporal.py:Action", "src/tarski/ndl/temporal.py:ResourceLock", "src/tarski/ndl/temporal.py:ResourceLevel", "src/tarski/ndl/temporal.py:Action.get_effect_time"]}
{"id": "C73", "title": "The values of numeric terms", "statement": "The value of a numeric term over + - * / % ** min max abs sgn and functions like sin or sqrt is the number that Python computes step by step from the values of its leaves, and it exists exactly if every intermediate result lies within the bounds of Integer, for results of integers, or of Real. It is a constant of a sort below the sort of the term. A term over + - * % ** with integer leaves has the exact mathematical value, or none. tarski.syntax.arithmetic.special min and max build a term exactly if one argument is a term, the theory is loaded and an argument that is a number is within the bounds of Real. Known limits: min, max, abs and sgn of integers raise AttributeError; naturals above 2^31-1 cannot be added, subtracted or multiplied (ValueError); min and max of two plain numbers never return.", "quantifier": "every term, every interpretation of the symbols in it, every implementation of floating-point numbers", "why_tests_cant": "All terms and numbers; the tests evaluate a handful of sums and products.", "anchors": ["src/tarski/evaluators/simple.py:evaluate_term", "src/tarski/funcsym/__init__.py", "src/tarski/syntax/arithmetic/special.py:min,max,abs", "src/tarski/syntax/arithmetic/__init__.py:pow,sqrt", "src/tarski/syntax/ops.py:cast_to_closest_common_numeric_ancestor"]}
{"id": "C74", "title": "The text of the reachability program is read as that program", "statement": "For every problem whose names are made of letters, digits, underscores and hyphens, with constants that begin with a lower-case letter (and are not the word not), variables that begin with a letter after an optional sign like the question mark, and no negative numbers: the text that create_reachability_lp writes for gringo is a logic program with the same clauses in the same order, whose least model is that of the rules; so every atom and action of a reachable state, and the goal if it is reachable, follow from the text (with C38's conditions). If comparisons below an existential quantifier are only about its own variables and add effects only use parameters and quantified variables, every clause is safe, so gringo accepts the program. Otherwise it can fail: an object called not gives a text that is no program, an object called B1 is read as a variable, and (exists (?y) (not (= ?x ?y))) in a precondition gives an unsafe clause.", "quantifier": "every problem, language history, both compilers, both treatments of negation", "why_tests_cant": "All problems and names; the tests run gringo on a few benchmark files, and are skipped without it.", "anchors": ["src/tarski/reachability/asp.py:LPAtom.__str__", "src/tarski/reachability/asp.py:LogicProgram", "src/tarski/reachability/asp.py:ReachabilityLPCompiler", "src/tarski/reachability/asp.py:sanitize", "src/tarski/reachability/clingo_wrapper.py:run_clingo"]}
{"id": "C75", "title": "The functional blocksworld benchmark", "statement": "generate_fstrips_blocksworld_problem succeeds for every random choice and for every given layout of its blocks, and refuses a given layout of another length with ValueError. The initial state says exactly where each block is, and that the table and the blocks with nothing on them are clear. The goal is true exactly where each block is in its place of the goal layout. Moving x to y is applicable exactly if they differ, x is not on y, and both are clear; afterwards x is on y, y is not clear unless it is the table, and nothing else changes. In particular the place that x has left does not become clear: the effect clear(loc(x)) adds an atom about a constant None. So a block that is covered at the start never moves, a problem has a plan exactly if every block that is not in its place is clear at the start and so is its place (two towers of two blocks cannot be turned round), and after the first move listing the places of the language raises an exception.", "quantifier": "every number of blocks, every given layout, all random choices, every plan", "why_tests_cant": "Random choices and plans are unbounded; the tests generate one instance and do not run it.", "anchors": ["src/tarski/benchmarks/blocksworld.py:generate_fstrips_blocksworld_problem", "src/tarski/benchmarks/blocksworld.py:generate_random_bw_pattern", "src/tarski/benchmarks/blocksworld.py:compute_clear_from_pattern", "src/tarski/search/operations.py:apply_effect", "src/tarski/model.py:_check_assignment", "src/tarski/syntax/sorts.py:Sort.cast"]}
{"id": "C76", "title": "The tokens of a PDDL text (io/pddl)", "statement": "Every text is split into pieces: names, variables (?name), directives (:name), natural and decimal numbers, signs, blanks, line ends, comments and strange characters, each as long as it can be; the tokens are those of the pieces, in order, each with the number of its line. A name becomes an identifier in small letters, or the token of the keyword if it is one; numbers have their decimal value; blanks, comments, strange characters and names after the signs :( have no token. So tokens that are written with blanks between them are read as they are. Line numbers go on from one input of a lexer to the next. Known limits: keywords with capital letters are identifiers, while variables keep their letters; strange characters and trailing hyphens or underscores are dropped or split off without an error; no text gives the token of #t; is_identifier and is_variable only look at the beginning of their argument.", "quantifier": "every text, every sequence of inputs", "why_tests_cant": "All texts; the tests read a few benchmark files.", "anchors": ["src/tarski/io/pddl/lexer.py:PDDLlex", "src/tarski/io/pddl/lexer.py:LexSymbols", "src/tarski/io/pddl/lexer.py:PDDLlex.is_identifier"]}
{"id": "C77", "title": "The requirements of a PDDL domain or problem (io/pddl)", "statement": "After a section (:requirements ...) of words of the grammar the parser requires exactly the features required before and those that the words stand for (:adl and :quantified-preconditions and :fluents stand for several), and the section is accepted iff all of them are supported; otherwise UnsupportedFeature is raised. A section with any other word is a syntax error. So a new parser accepts exactly the sections over :strips, :typing, :equality, :negative-preconditions, :durative-actions, :derived-predicates, :numeric-fluents and :fluents. Features that were refused are still required by later sections of the same parser. Known limit: object fluents are supported but :object-fluents is a syntax error, and so are words with capital letters.", "quantifier": "every list of words, every set of features required before", "why_tests_cant": "All lists of words and histories; the tests use the requirements of the benchmark files.", "anchors": ["src/tarski/io/pddl/parser.py:PDDLparser.p_requirement_key_list", "src/tarski/io/pddl/parser.py:PDDLparser.check_requirements_support", "src/tarski/io/pddl/__init__.py:supported_features"]}
{"id": "C78", "title": "Walkers over problems and expressions", "statement": "A walker (a class with user-written visit methods) that is run on a problem visits every node of the goal and of each action's precondition and effects exactly once, parts before the whole and from left to right, and its context tells exactly the nodes in the atom or the two sides of an effect. It never visits the initial state, and nothing in the condition of a universal effect. Methods that give back the node they get leave the problem as it is; methods that replace nodes by nodes with the same meaning keep the meaning of goal, preconditions and effects; suppressed effects and atoms, and only they, are gone from the lists they are in. With raise_on_undefined a run raises WalkerError exactly if some visited node has no method. collect_all_symbols gives exactly the symbols that occur at visited places.", "quantifier": "all problems, expressions and effects of any nesting, all visit methods with any state of their own", "why_tests_cant": "The methods are arbitrary code and the nesting is unbounded; tests run one walker on one problem.", "anchors": ["src/tarski/fstrips/walker.py: ProblemWalker, WalkerAction, WalkerContext", "src/tarski/syntax/walker.py: FOLWalker", "src/tarski/fstrips/ops.py: AllSymbolWalker, AffectedSymbolWalker, collect_all_symbols, collect_affected_symbols"]}
{"id": "C79", "title": "Temporal formulas keep their meaning", "statement": "X, F, G, U and R take formulas in the right number, and only them (LanguageError otherwise), and give a formula that holds at a time of an infinite trace exactly if the operands hold next, at some later time, always, until, and so on; neg, land, lor, implies, equiv, forall and exists say the same about temporal formulas as about first-order ones. Substituting terms for variables gives a formula that holds where the original holds with the values of the terms, if these do not change over time (constants never do) or no temporal operator occurs, and no quantifier interferes. free_variables reports exactly the free variables, on which alone the truth depends; flatten keeps the meaning. Negation normal form refuses every formula with a temporal operator. Known limits: W always raises LanguageError; substituting a term that changes over time below a temporal operator changes the meaning.", "quantifier": "all formulas of any nesting, all traces, times and assignments, all substitutions", "why_tests_cant": "Traces are infinite and formulas unbounded; the tests build two formulas.", "anchors": ["src/tarski/syntax/temporal/ltl.py: X, F, G, U, R, W, TemporalCompoundFormula", "src/tarski/syntax/transform/substitutions.py: substitute_expression", "src/tarski/syntax/ops.py: free_variables, flatten", "src/tarski/syntax/transform/nnf.py: NNFTransformation"]}
{"id": "C80", "title": "The CSP file of an action schema says what the schema says", "statement": "For a schema whose CSP is built from writable names, the file that the CSP compiler writes can be read back: variables with kind and bounds, parameters in order, effect-relevant parameters (unless all are) and constraints, state variables by number. In every state reached from the initial one, the solutions of what is read are exactly the applicable instances of the schema. Writing fails only with KeyError, for a constraint on an atom that is no state variable; that never happens for compiled schemas over user predicates, (in)equalities, parameters and constants. One file is written per schema that is not reported as inapplicable. Refuted: the file is the same if all parameters are effect-relevant and if none is; schemas with nested function terms are compiled but cannot be written (TypeError).", "quantifier": "all languages, schemas, sets of state variables, initial states, reachable states, bindings and CSPs with one-word names", "why_tests_cant": "the set of schemas, names and reachable states is unbounded, and tests only compare sample files", "anchors": ["src/tarski/analysis/csp_schema.py: CSPCompiler.serialize_schema_csp, CSPCompiler.process_problem, CSPCompiler.compile_schema_csp"]}
{"id": "C81", "title": "The text of a formula determines it", "statement": "Two terms, formulas or temporal formulas of any nesting have the same text (str) exactly if they are the same tree of connectives, quantifiers, and names of symbols, variables and constants, if names are words without parentheses, commas or spaces and no constant is named like a variable. So in a vocabulary where each name stands for one symbol and one sort (as in a language, with one sort per variable name), formulas with the same text are equal, and a text can be read back in any context. Known limits: sorts are not printed, so quantifiers over different sorts have the same text; a variable and a constant of the same name, a constant whose name contains a comma and two constants, and an integer and a string of digits have the same text.", "quantifier": "all terms, formulas and temporal formulas of any nesting, all vocabularies", "why_tests_cant": "The texts are compared pairwise over an unbounded set of formulas; the tests compare a few texts.", "anchors": ["src/tarski/syntax/formulas.py: CompoundFormula.__str__, QuantifiedFormula.__str__, Atom.__str__", "src/tarski/syntax/terms.py: CompoundTerm.__str__, IfThenElse.__str__, Variable.__str__, Constant.__str__", "src/tarski/syntax/temporal/ltl.py: TemporalCompoundFormula.__str__"]}
{"id": "C82", "title": "Atoms and models are read from texts as they are written", "statement": "tarski.utils.parse_model and the atoms it reads: a text is read as a list of words, whatever white space is around them; the result is the atom of the predicate and the constants that the language has under these words, in order, exactly if they exist, are as many as the predicate wants and have sorts at or below its sorts; an unknown word gives UndefinedElement, a wrong number ArityMismatch. The text (str) of a ground atom with arguments is read as that atom, and the model read from the texts of a set of such atoms makes exactly these atoms true and has no values for functions; it is read exactly if each text is an atom. Known limits: the text of an atom without arguments and constants declared with numbers are not read (UndefinedElement), nor is white space after the last parenthesis, while missing or extra closing parentheses, and parentheses instead of commas, are accepted.", "quantifier": "all languages reached by declarations, all texts, all sets of ground atoms", "why_tests_cant": "Texts and languages are unbounded; one test reads one model.", "anchors": ["src/tarski/utils/helpers.py: parse_atom, parse_model", "src/tarski/fol.py: FirstOrderLanguage.get", "src/tarski/syntax/formulas.py: Atom", "src/tarski/model.py: Model.add"]}
{"id": "C83", "title": "Searching expressions", "statement": "The visitors of syntax/visitors.py: MatchExpression counts the occurrences of an expression with a head symbol, a connective or a quantifier in any number of visited expressions without conditional terms, each occurrence once, so it finds it exactly if it occurs; CollectEqualityAtoms gives exactly the equalities that are reached through connectives, each once, besides those of earlier visits. Known limits: CollectVariables raises TypeError exactly if there is a variable in the expression (so it never collects one); variables, constants, true, false and conditional terms are never found, nor is anything below a conditional term; equalities below quantifiers are not collected.", "quantifier": "all expressions of any nesting, all targets, all sequences of visits", "why_tests_cant": "Nesting and sequences are unbounded; the tests collect equalities in two parsed files.", "anchors": ["src/tarski/syntax/visitors.py: MatchExpression, CollectVariables, CollectEqualityAtoms", "src/tarski/syntax/symrefs.py: TermReference", "src/tarski/syntax/terms.py: Term.__hash__"]}
{"id": "C84", "title": "Derived predicates and metrics of PDDL files", "statement": "Over any domain that can be read, a definition (:derived (p ?x - t ...) condition) is accepted exactly when the condition is a well formed condition over the variables of the head and the types of the variables begin with those declared for p; the head, the parameters and their order are those of the text, the definitions of a file are kept in order and no variable stays in scope, and in every world the facts that the definition that was read derives are those that the text derives. Known defects: extra variables in the head are accepted; a head that is not declared raises AttributeError and one with too few variables IndexError instead of a SemanticError. A metric is minimized or maximized as written, is the total cost or the total time exactly when the text says so, and every other expression is dropped as unspecified; a number or a bare name in the expression raises IndexError.", "quantifier": "every readable domain; every head, list of typed variables and condition; every list of definitions; every world; every metric expression", "why_tests_cant": "the definitions, conditions, worlds and expressions are unbounded; a test reads a few files and compares texts, not what they derive", "anchors": ["src/tarski/io/pddl/parser.py:p_derived_def,p_atomic_formula_skeleton_vars,p_metric_spec,p_optimization,p_metric_f_exp", "src/tarski/io/pddl/instance.py:process_derived_predicate_skeleton,process_objective_definition,DerivedPredicateData,ObjectiveData"]}
{"id": "C85", "title": "Hashes over bytes", "statement": "The bytes that consistent_hash takes for a number give the number back in two's complement, are as few as possible, and are different for different numbers; a number whose binary digits fill some bytes completely (128 to 255, -255 to -129, 32768 to 65535, ...) has none, and consistent_hash raises OverflowError exactly when such a number, or an object whose identity is such a number, is among the elements. Otherwise the hash is a number of the width of hashes. A class and a name are never hashed as the same bytes as another class and name. Known limits: the borders between elements do not count (('ab', 'c') and ('a', 'bc') have the same hash), and objects count by identity, so that concepts over copies of the same component hash different bytes.", "quantifier": "every integer; every list of texts, numbers, classes and objects; every digest function and width", "why_tests_cant": "the failures depend on the size of numbers and on addresses of objects, which tests do not control", "anchors": ["src/tarski/utils/hashing.py:int_to_bytes,consistent_hash", "src/tarski/dl/concepts.py:Concept,Role", "src/tarski/dl/features.py:Feature"]}
{"id": "C86", "title": "The texts of actions and ground operators identify them", "statement": "If no name of an action contains '(', and no name of a constant is empty or contains ',' or ')', then two ground operators with the same name come from actions with the same name and from the same constants in the same order; in a problem whose actions have different names, instances with the same name are the same action with the same constants, so a plan given as a list of names determines its steps. The text of an action determines its name and its parameters with their sorts if no name of a variable or sort contains ':', ',' or ')'. Actions are ordered by a strict order that is total up to equal names. Without the conditions different operators can have the same name.", "quantifier": "every two actions and substitutions; every list of actions; every two assignments of constants", "why_tests_cant": "names and numbers of parameters are unbounded; the claim is about all pairs of operators", "anchors": ["src/tarski/fstrips/action.py:Action.ident,Action.__lt__", "src/tarski/syntax/transform/action_grounding.py:ground_schema_into_plain_operator"]}
