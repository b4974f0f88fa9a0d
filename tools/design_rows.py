ROWS.append(("C48", "LpGround, Asp", "LpGroundSpec, AspSpec", "PropsLpGround, PropsLpGround2", "string lemmas for the reader; invariant of all rules the compiler emits; composition with C38 and C40"))
ROWS.append(("C49", "LpGround, Represent", "OperatorSpec, AspSpec, LpGroundSpec", "PropsOperators", "substitution lemma for effects; bisimulation of plans; composition with C48"))
ROWS.append(("C50", "PddlAction, PddlText, PddlRead, Costs", "PddlActionSpec, PddlSpec", "PropsPddlAction", "induction on effects: every printed effect is one phrase that is read as its canonical form; canonical forms mean the same (C42)"))
ROWS.append(("C51", "PddlProblem, PddlAction, Lang, ModelState", "PddlProblemSpec, PddlActionSpec, LangSpec", "PropsPddlProblem", "the invariant that a language holds exactly the given declarations is followed through the reader; each section of the template is one phrase that is read as the declarations; views of the two languages agree, so C42 and C50 apply"))
ROWS.append(("C52", "CspSchema, Csp", "HypergraphSpec, CspSpec", "PropsHypergraph", "induction on the precondition; join trees are invariant under renaming and under replacing a family of sets by one with the same maximal sets (C36)"))
ROWS.append(("C53", "CspSchema, SortIds, Simplify, Represent, Eval", "CspSchemaSpec, LangSpec, RelaxSpec", "PropsCspSchema", "compilation invariant (every CSP variable has the bounds of a parameter's sort or the number of a constant); truth of the simplified precondition in reached states (C31); numbering is a bijection (C20)"))
ROWS.append(("C54", "NaiveGround, QElim, NegBuiltin, Cnf, Subst", "NaiveGroundSpec, FolSpec, SubstSpec", "PropsNaiveGround", "the form of constraints is kept by elimination and instantiation, so C05, C03, C07 and the substitution lemma compose; normal forms introduce no variable; the index is an invariant over the loop"))
ROWS.append(("C55", "Sas, Subst, Eval, ModelState", "SasSpec, NaiveGroundSpec, EvalSpec", "PropsSas", "induction over the product of the domains; evaluating the instantiated constraint decides its truth (C25) and the substitution lemma moves the values into the environment"))
ROWS.append(("C56", "SasText, Index", "SasTextSpec", "PropsSasText", "the indices are the positions in the list of first occurrences (C22); induction over transitions and values"))
ROWS.append(("C57", "SasText, Index", "SasTextSpec", "PropsSasText", "the text is a list of lines without breaks; sections are counted or end in a line that is not a pair of numbers, so a line reader inverts them"))
ROWS.append(("C58", "Theories, Lang, Eval", "TheoriesSpec, EvalSpec, LangSpec", "PropsTermOps, PropsTermOps2", "induction on expressions; the sort check of the handlers is the subtype relation (C17), so the rules are sound and complete; symbols are usable exactly with their theory (C59)"))
ROWS.append(("C59", "Theories, Lang", "TheoriesSpec, LangSpec", "PropsTheories", "each step of a load extends the names by one free name (or raises); an invariant over histories ties symbols, handlers and sorts to the theories; theories do not touch what others need, so lists commute"))
ROWS.append(("C60", "Fluents, Grounding, Effects", "FluentsSpec, GroundingSpec, RelaxSpec", "PropsFluents", "each visit of a constraint is sound for every closed set and closes the connectives it meets; the sets only grow, and a pass that adds a fluent completes one more constraint; frame lemma per atom along executions"))
ROWS.append(("C61", "Blocks, Represent, Effects", "BlocksSpec, RelaxSpec", "PropsBlocks", "one step of a plan is one move: the facts of the next world are those the effects leave; invariant: every block is once in the towers or in the hand; all configurations are connected because moves can be undone and everything can be put on the table; induction on the shuffled list for patterns"))
ROWS.append(("C62", "Counters, Theories, Lang, Effects, Represent", "CountersSpec, RelaxSpec, GroundingSpec", "PropsCounters", "the language is computed for every number of counters by induction on the declarations; the goal is a chain over the sorted names, equivalent to the order on all pairs; the sort of an arithmetic value is Integer, which the subtype search never relates to the interval"))
ROWS.append(("C63", "Rddl", "RddlSpec, Semantics", "PropsRddl, PropsRddl2", "induction on expressions: the text of an expression is lexed into its tokens whatever follows, its tokens are parsed back whatever follows that is no operator or bracket, and the parsed expression has the same value because assignments correspond variable by variable"))
ROWS.append(("C64", "RddlRead, Theories, Arith, Build", "RddlReadSpec, ArithSpec, Semantics", "PropsRddlRead", "structural induction on the tree: each case inverts the constructor that was called; sums and products are those of C41, with the bound variables of the body tracked; acceptance by induction on a typing relation whose types give the sorts the constructors check, in languages where an invariant over all declarations keeps the theories' symbols and sorts"))
ROWS.append(("C65", "RddlInit, RddlRead, Theories, Lang, ModelState", "RddlInitSpec, LangSpec", "PropsRddlInit", "an invariant of the declarations made so far (names, parents, plain sorts) is established by the theories and extended by every declaration with a fresh name, which is the only way a declaration succeeds; the state by induction on the entries from the right"))
ROWS.append(("C66", "PddlInstance, Lang, Theories", "PddlInstanceSpec, LangSpec", "PropsPddlInstance", "re-parenting breaks the invariant of C16 (a type may have ancestors other than those of its parent chain), so a new invariant relates the stored ancestors to the declared pairs, with a rank that decreases along them and is recomputed at each declaration; the search terminates by a weight over ranks"))
ROWS.append(("C67", "PddlExpr, PddlInstance, Theories, Build", "PddlExprSpec, Semantics", "PropsPddlExpr", "nested structural induction on conditions and expressions with the scope as a finite map; a relation between scopes and typing contexts (matches) is kept by every accepted condition because rebinding is refused; acceptance against an inductive typing relation needs the subtype search to decide conformance, from the invariant of C66 and facts about the sorts of numbers; meaning by relating environments of typed variables to values of names; a durative action is reduced to the action with the conjunction of its conditions"))
ROWS.append(("C68", "RddlDoc, Rddl, Lang, ModelState", "RddlDocSpec, RddlSpec, LangSpec", "PropsRddlDoc, PropsRddlDoc2", "each line is lexed into its tokens whatever follows (C63), the template is a list of such pieces, and a reader of balanced blocks inverts the pieces; the objects are the domains of the sorts (C18); an invariant of the state (symbols of the language, constants) is kept by every update, so the entries are the values; writers are followed over any number of uses"))
ROWS.append(("C69", "RddlDoc, RddlInit, Lang, ModelState", "RddlRoundSpec, RddlDocSpec, RddlInitSpec", "PropsRddlRound, PropsRddlRound2", "the instance delivered for a document that describes the task (C68) is shown well formed and ordinary, so C65 gives its language and state; every entry of the state comes from an operation of its history, so points are objects of the language and texts determine them"))
ROWS.append(("C70", "Matrix", "MatrixSpec", "PropsMatrix", "matrices as tables indexed by row and column; induction on the inner dimension for the sums of products; evaluation of entries by inversion"))
ROWS.append(("C71", "Containers, Lang, Effects", "ContainersSpec", "PropsContainers", "induction on the history from its end; a register that keeps the first (the last) acceptable definition, instantiated for each container"))
ROWS.append(("C72", "Ndl, Theories", "NdlSpec", "PropsNdl", "induction on the lists with accumulators; C58_compares for assignments"))
ROWS.append(("C73", "Numeric", "NumericSpec", "PropsNumeric", "induction on the term and on the derivation of the value"))
ROWS.append(("C74", "AspText, Asp", "AspTextSpec", "PropsAspText", "reader of gringo's syntax by tokens; a Hoare logic for the compiler's monad (every rule written so far is readable, resp. safe); induction on formulas, preserved by substitution and expansion"))
ROWS.append(("C75", "FBlocks", "FBlocksSpec", "PropsFBlocks, FBlocksLangProofs", "the generated language in closed form for every number of blocks; a state is a location for each block and a set of clear places; induction on plans for the invariant that covered blocks stay; induction on the construction of the goal for the plan"))
ROWS.append(("C76", "PddlLex", "PddlLexSpec", "PropsPddlLex", "pieces of a text with what may follow them; each regular expression is a function on the rest of the text, whose result is characterised by induction; existence of the pieces by induction on the length"))
ROWS.append(("C77", "PddlReq, PddlLex", "PddlReqSpec", "PropsPddlReq", "the pieces of the section (C76), induction on the words"))
ROWS.append(("C78", "Walker", "WalkerSpec", "PropsWalker, PropsWalker2", "a walker that keeps nodes plays a list of events (induction on the nested syntax); the events are the places in order; meaning by induction over the semantics; suppression by induction on effects"))
ROWS.append(("C79", "Ltl", "LtlSpec", "PropsLtl, PropsLtl2", "structural induction on formulas; substitution through a relation between assignments that does not depend on the time; free variables through a first-order formula of the same shape (C09)"))
ROWS.append(("C80", "CspText", "CspTextSpec, CspSchemaSpec", "PropsCspText", "a reader of lines and words that inverts the writer; solutions of the read description equal those of the CSP, then C53_solutions"))
ROWS.append(("C81", "FormulaText", "FormulaTextSpec", "PropsFormulaText", "unique readability: what may follow a text (nothing, a parenthesis, a comma, a connective) is an invariant; induction on the tree with the rest of the text, names are split off at the first punctuation"))
ROWS.append(("C82", "ParseAtom, Lang, ModelState", "ParseAtomSpec, LangSpec", "PropsParseAtom", "the words found by the code are characterised by a relation on texts (strip, replace, split: existence and uniqueness by induction on the text); look-up and sorts through C16 and C17; models through C14"))
ROWS.append(("C83", "Visitors", "VisitorsSpec", "PropsVisitors", "places as paths; no expression is a proper part of itself (induction on expressions, rotating the path); the list of places is built along the visit"))
ROWS.append(("C84", "PddlDerived", "PddlDerivedSpec", "PropsPddlDerived", "a definition is read like the parameters and precondition of an action (C67), plus the check of the head against the declared predicate; what is derived is compared in every world; metrics by induction on the expression"))
ROWS.append(("C85", "HashBytes", "HashBytesSpec", "PropsHashBytes", "bytes of numbers by division with remainder; bounds from the number of binary digits; the digest function is arbitrary"))
ROWS.append(("C86", "OpNames, LpGround", "OpNamesSpec, OperatorSpec", "PropsOpNames", "texts are split at their first separator; induction on the list of names"))
