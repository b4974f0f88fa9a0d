(** Conjunctive normal form: src/tarski/syntax/transform/cnf.py *)
From Verif Require Import Base Syntax Nnf.

(** cnf.py:20-31 [distribute]. Every And met here has been built by [_convert] or [distribute] itself with exactly two
    subformulas; the model takes the first two like the code (subformulas[0], subformulas[1]). *)
Fixpoint distribute_r (n1 n2 : formula) : formula :=
  match n2 with
  | Comp And (a :: b :: _) => Comp And [distribute_r n1 a; distribute_r n1 b]
  | _ => Comp Or [n1; n2]
  end.
Fixpoint distribute (n1 n2 : formula) : formula :=
  match n1 with
  | Comp And (a :: b :: _) => Comp And [distribute a n2; distribute b n2]
  | _ => distribute_r n1 n2
  end.

(** cnf.py:33-56 [_convert]. *)
Fixpoint cnf_convert (f : formula) : res formula :=
  match f with
  | Quant _ _ _ => Err TransformationError
  | Comp Not _ => Ok f
  | Comp c fs =>
      let! gs := mapM cnf_convert fs in
      match gs with
      | p0 :: p1 :: rest =>
          match c with
          | And => Ok (fold_left (fun acc g => Comp And [acc; g]) rest (Comp And [p0; p1]))
          | _ => Ok (fold_left (fun acc g => distribute acc g) rest (distribute p0 p1))
          end
      | _ => Err IndexError
      end
  | _ => Ok f
  end.

(** cnf.py:10-18, 81-83, 97-99 *)
Definition to_conjunctive_normal_form (f : formula) : res formula :=
  let! g := to_negation_normal_form f in cnf_convert g.

(** cnf.py:58-79 [collect_clauses]; the state is (self.clauses, self.current_clause). *)
Notation clause := (list formula) (only parsing).
Fixpoint collect_clauses (f : formula) (st : list clause * clause) : res (list clause * clause) :=
  let '(clauses, current) := st in
  match f with
  | Quant _ _ _ => Err TransformationError
  | Comp Not _ => Ok (clauses, current ++ [f])
  | Comp And (a :: b :: _) =>
      let! (cl1, cur1) := collect_clauses a (clauses, []) in
      let! (cl2, cur2) := collect_clauses b (cl1 ++ [cur1], []) in
      Ok (cl2 ++ [cur2], cur2)
  | Comp Or (a :: b :: _) =>
      let! st1 := collect_clauses a st in
      collect_clauses b st1
  | Comp _ _ => Err IndexError
  | _ => Ok (clauses, current ++ [f])
  end.

(** cnf.py:85-88, 102-104: only self.clauses is returned. *)
Definition to_conjunctive_normal_form_clauses (f : formula) : res (list clause) :=
  let! g := to_conjunctive_normal_form f in
  let! (clauses, _) := collect_clauses g ([], []) in Ok clauses.
