#!/usr/bin/env python3
"""Generates DESIGN.md: fixed text, the table of properties and the list of theorems."""
import json, os, re, glob
os.chdir(os.path.join(os.path.dirname(os.path.abspath(__file__)), '..'))
T = 'rocq/theories/'
ROWS = [  # ids, model, specification, theorems, method
 ("C01 C02", "Nnf", "Semantics, FolSpec", "PropsFol", "structural induction; the class object stored for a negated constant is an explicit error value"),
 ("C03 C04", "Cnf", "Semantics, FolSpec", "PropsFol, PropsFol2", "induction on formula size; both accumulators of collect_clauses are modelled"),
 ("C05", "NegBuiltin", "Semantics, FolSpec, FolSpec2", "PropsFol, PropsFol2", "induction; exact criterion for all formulas"),
 ("C06", "Prenex", "Semantics, PrenexSpec, SubstSpec", "PropsPrenex", "quantifier-movement lemmas over qsem; one refutation per proviso"),
 ("C07 C08", "Subst, QElim", "Semantics, SubstSpec", "PropsFol", "substitution lemma by mutual induction"),
 ("C09", "FreeVars", "SubstSpec, FolSpec2", "PropsFol, PropsFol2", "mutual induction, invariant of the visitor's stack"),
 ("C10 C11", "Build", "Semantics, FolSpec", "PropsFol", "induction"),
 ("C12", "Eval", "Semantics, EvalSpec", "PropsModel", "mutual induction: agreement of the evaluator with every structure that agrees with the model"),
 ("C13", "HashEq", "HashEq (key equality), Syntax", "PropsModel", "induction"),
 ("C14", "ModelState", "ModelSpec", "PropsModel", "refinement of every history of operations to a set and a partial map"),
 ("C15", "ModelText", "ModelTextSpec", "PropsModel", "sorting and uniqueness of printed lines"),
 ("C16 C17 C18 C19", "Lang", "LangSpec", "PropsLang", "invariants over all histories of declarations (state machine with failing steps)"),
 ("C20", "SortIds, Lang", "LangSpec", "PropsLang2", "induction on the sort tree reached by any history"),
 ("C21 C22", "Index", "PropsIndex (section headers)", "PropsIndex", "invariants over histories"),
 ("C23 C24 C27", "Effects", "ProgressSpec", "PropsProgress", "induction on effect lists, frame lemmas"),
 ("C25", "Bfs, SearchModel", "PropsSearch (paths), ModelTextSpec", "PropsSearch", "loop invariant with fuel that is proved sufficient"),
 ("C26", "Represent", "CompileSpec", "PropsCompile", "simulation of plans"),
 ("C28", "Represent", "RelaxSpec", "PropsRelax", "monotonicity along plans"),
 ("C29 C43", "Represent", "RepresentSpec", "PropsRepresent", "induction, exact characterisations"),
 ("C30", "Represent", "ProjectSpec", "PropsProject", "substitution lemma"),
 ("C31", "Simplify", "SimplifySpec, Semantics", "PropsSimplify", "simulation of plans; locality of evaluation"),
 ("C32", "SimplifyEx", "SimplifyExSpec, Semantics", "PropsSimplifyEx", "elimination of equalities by rank"),
 ("C33 C34", "Algorithms", "AlgorithmsSpec", "PropsAlgorithms", "loop invariants, termination bound"),
 ("C35 C47", "Dl", "DlSpec", "PropsDl", "induction on concepts and roles"),
 ("C36", "Csp", "CspSpec", "PropsCsp", "invariance of ear removal under every iteration order"),
 ("C37", "Asp", "AspNamesSpec", "PropsAspNames", "induction on strings and name lists"),
 ("C38", "Asp", "AspSpec", "PropsAsp", "invariant of reachable states against derivability"),
 ("C39 C40", "Grounding", "GroundingSpec", "PropsGrounding", "enumeration lemmas; invariant along plans"),
 ("C41", "Arith", "ArithSpec", "PropsArith", "induction over arbitrary fields"),
 ("C42", "PddlText, PddlRead", "PddlSpec, Semantics", "PropsPddl", "induction: lexing, bracket matching, visitor"),
 ("C44", "GroundAtoms", "GroundAtomsSpec", "PropsGround", "induction"),
 ("C45", "Nodes", "NodesSpec", "PropsNodes", "induction; invariant of the seen set"),
 ("C46", "Costs", "CostsSpec", "PropsCosts", "invariant along plans"),
]
exec(open('tools/design_rows.py').read()) if os.path.exists('tools/design_rows.py') else None
out = [open('tools/design_head.md').read().rstrip(), '', '## Per property', '',
       '| id | title | model | specification | theorems in | method |', '|----|----|----|----|----|----|']
titles = {d['id']: d['title'] for d in map(json.loads, open('properties.jsonl'))}
seen = set()
def key(r): return r[0]
for ids, model, spec, props, how in sorted(ROWS, key=key):
    for f in re.findall(r'[A-Z]\w+', model) + re.findall(r'[A-Z]\w+', props):
        assert os.path.exists(T + f + '.v'), f
    i = ids.split(); seen |= set(i)
    out.append('| %s | %s | %s | %s | %s | %s |' % (ids, '; '.join(titles[x] for x in i), model, spec, props, how))
assert seen == set(titles), set(titles) ^ seen
out += ['', open('tools/design_tail.md').read().rstrip(), '', '## Theorems', '',
        'Every theorem below is closed under the global context (`Print Assumptions` lists no axiom for any of them).', '']
for d in json.load(open('MANIFEST.json'))['claims']:
    out.append('* %s: %s' % (d['property'], ', '.join('`%s`' % t for t in d['theorems'])))
open('DESIGN.md', 'w').write('\n'.join(out) + '\n')
