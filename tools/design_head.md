# A Rocq model of aig-upf/tarski

## Method

* Model files (second column of the table) hold executable Gallina functions that mirror the Python functions
  branch by branch; each definition cites file and lines in `/repo`. They contain no proofs.
* Python exceptions are values (`res A := Ok a | Err e`, `Base.v`). Loops are structural recursion, or recursion
  on fuel whose exhaustion is a distinguished error that the theorems exclude.
* In-place mutation of a tree that the code copied first is modelled by returning the new tree. Where
  aliasing is observable the comment of the definition says so.
* Python sets and dictionaries are lists; where the result depends on an iteration order, the theorem
  quantifies over all orders or a refutation shows the dependence.
* Specifications are separate: `Semantics.v` (Tarskian truth over arbitrary structures) and the `*Spec.v`
  files, which do not use the functions of the model (only its data types, and exceptions where stated at their top).
* Proofs are in `*Proofs*.v` and `Props*.v`. `Props*.v` holds the property theorems (`Theorem Cnn_...`), the
  `Example`s showing that their hypotheses are met by non-trivial objects, and `Print Assumptions`.
* A claim that is false of the code is proved false: `Cnn_..._refuted` theorems exhibit the
  witness. The statement in `properties.jsonl` then names the exact precondition and the failure.
