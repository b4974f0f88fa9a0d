## Trusted base

* Coq 8.16.1's kernel (and `vm_compute`, which is part of it). No axioms: `Print Assumptions` answers
  "Closed under the global context" for every theorem; it is run on the main theorems in the `Props*.v` files. No library other
  than Coq's standard library is imported. No functors, module types, section variables that survive their section, or plugins.
* The reading of the Python code recorded in the comments of the model files. Nothing extracts the model from
  the code and nothing runs the code; `seeded/LOG.jsonl` records how the theorems react to realistic bugs in the model.

## What is modelled

Paths are relative to `src/tarski`.

* `syntax/terms.py`, `formulas.py`, `predicate.py`, `function.py`, `builtins.py` (trees, constructors, structural equality and hashing),
  `syntax/symrefs.py`, `syntax/visitors.py`, `syntax/walker.py` (as used by substitution), `syntax/ops.py`
  (flatten, free variables, searching (C83), node collection, constant numbering, casts), `syntax/sorts.py` (inheritance, intervals, domains),
  `syntax/util.py`, `syntax/arithmetic/__init__.py`, `syntax/algebra/matrix.py`.
* `syntax/transform/`: nnf, cnf, neg_builtin, prenex, quantifier_elimination, substitutions, simplifications.
* `syntax/temporal/ltl.py` (C79); the text (`str`) of terms, formulas and temporal formulas (C81). `theories.py` (loading), operators of terms (`syntax/terms.py`, `syntax/factory.py`).
* `fol.py` (all declarations and queries), `model.py`, `evaluators/simple.py`, `util.py`, `utils/algorithms.py`, `utils/helpers.py` (C82), `utils/hashing.py` (C85).
* `fstrips/`: effects, actions, problems' data (`fstrips.py`, `action.py`, `problem.py`), `representation.py`, `ops.py`, `walker.py` (C78),
  `visitors.py`, `manipulation/simplify.py`; `search/` (operations, model, blind).
* `fstrips/problem.py`, `fstrips/hybrid/`, `fstrips/contingent/`, `fstrips/derived.py`: the containers a problem keeps (C71); `ndl/temporal.py` (C72); `funcsym/__init__.py`, `syntax/arithmetic/special.py` (C73).
* `grounding/`: naive grounding, LP grounding, ops, common; `reachability/asp.py` (names, the compilation to rules and the text of the program), `reachability/clingo_wrapper.py` (reading the answer); `analysis/csp.py`, `analysis/csp_schema.py`;
  `sas/` (grounding of actions and temporal actions), `io/sas/` (both writers);
  `dl/` (concepts, roles, features, factory); `benchmarks/blocksworld.py`, `benchmarks/counters.py`.
* `io/fstrips.py` (writer: terms, formulas, effects, actions, domain and instance; reader), `io/_fstrips/reader.py` (terms, formulas, effects, actions, cost extraction, domain and instance sections),
  `io/pddl/lexer.py` (C76), `io/pddl/instance.py`, `io/pddl/parser.py` (requirements, from the text: C77; types, constants, variables, predicates and functions, after the grammar: C66; conditions, expressions, effects, actions, durative actions and initial facts, after the grammar: C67; derived predicates and metrics, after the grammar: C84),
  `io/_fstrips/common.py`, the two templates, and the corresponding rules of `utils/parsers/grammars/fstrips.g4`.

## What is not modelled

* Floating-point numbers: constants are strings or integers (HashEq.v has integral floats for C13); C41 is over an arbitrary exact field.
* Strings beyond ASCII; identity of Python objects except where a comment mentions aliasing; memory, time and recursion limits.
* Aggregate terms (`sumterm`, `prodterm`) and probabilistic terms (`syntax/arithmetic/random.py`), 
  `rddl` (except the writer, and the expressions, language and initial state of the reader: C63, C64, C65, C68), the semantics of processes and events.
* The ANTLR-generated lexer and parser (a direct reading of the grammar is modelled instead), the clingo/gringo binaries, files and subprocesses.
