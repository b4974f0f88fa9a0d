(** Arithmetic terms: [simplify], [summation] and [product] of src/tarski/syntax/arithmetic/__init__.py.
    Numbers are exact integers named by [CInt] (the Python constants of sort Real carry floats: rounding, infinities and NaN are not modelled). *)
From Verif Require Import Base Syntax Subst QElim.
#[local] Open Scope string_scope.

Section Arith.
(** [parent s]: the immediate parent sort (sorts.py:174-175, stored by the language); [casts_minus_one s]: [s.cast(-1)] does not raise (sorts.py:105-116,
    a ValueError when -1 is outside the bounds of the interval [s]; Real and Integer accept it, Natural does not); [numeric s]: [s] is Real or one of its subsorts. *)
Variable parent : sort -> option sort.
Variable casts_minus_one : sort -> bool.
Variable numeric : sort -> bool.

(** [Term.sort]: terms.py:144-146 (variables), 191-193 (compound terms: the codomain; every arithmetic symbol has codomain Real, theories.py:92-110),
    264-275 and 283-285 (if-then-else), 327-329 (constants). When neither branch's sort is the parent of the other the constructor raises: not modelled. *)
Definition ite_sort (sa sb : sort) : sort :=
  if String.eqb sa sb then sa
  else match parent sa with
       | Some p => if String.eqb p sb then sb else sa
       | None => sa
       end.
Fixpoint sort_of (t : term) : sort :=
  match t with
  | Var _ s | Cst _ s => s
  | App (FU _ _ cod) _ => cod
  | App (FB _) _ => "Real"
  | Ite _ a b => ite_sort (sort_of a) (sort_of b)
  end.

(** arithmetic/__init__.py:162-169 [zero] and [one] of the sort Real, and the comparisons [is_syntactically_equal] with them (terms.py:344-345) *)
Definition zero_real : term := Cst (CInt 0) "Real".
Definition one_real : term := Cst (CInt 1) "Real".

(** [-1 * t] (terms.py:90-91, ops.py:31-32, factory.py:29-38): the constant -1 gets the sort of [t] *)
Definition minus (t : term) (s : sort) : res term :=
  if casts_minus_one s then Ok (App (FB BMul) [Cst (CInt (-1)) s; t]) else Err ValueError.

(** What [simplify] leaves behind: the returned term, the argument object afterwards (it is updated in place), and the sort attribute of the returned term
    (for an if-then-else it is the one computed at construction). Sharing of subterm objects inside the argument is not modelled; nor is the state of the
    argument after an exception. *)
Record simplified := { s_res : term; s_arg : term; s_sort : sort }.
Definition same (t : term) (s : sort) : simplified := {| s_res := t; s_arg := t; s_sort := s |}.

(** arithmetic/__init__.py:172-239. Matrices (226-231) and aggregate terms (232-234) are not modelled. A compound term of a built-in symbol outside + - * / exp falls through to
    line 239. The checks are in the order of the source; a compound term always has as many subterms as its symbol's arity (terms.py:170-171), the default cases raise IndexError. *)
Fixpoint simplify (t : term) : res simplified :=
  match t with
  | Var _ s | Cst _ s => Ok (same t s)
  | App (FU _ _ cod) _ => Ok (same t cod)
  | App (FB b) ts =>
      match b, ts with
      | BAdd, a :: a' :: _ =>
          let! x := simplify a in let! y := simplify a' in
          let kept := App (FB BAdd) [s_arg x; s_arg y] in
          if term_eqb (s_res x) zero_real then Ok {| s_res := s_res y; s_arg := kept; s_sort := s_sort y |}
          else if term_eqb (s_res y) zero_real then Ok {| s_res := s_res x; s_arg := kept; s_sort := s_sort x |}
          else Ok (same (App (FB BAdd) [s_res x; s_res y]) "Real")
      | BSub, a :: a' :: _ =>
          let! x := simplify a in let! y := simplify a' in
          let kept := App (FB BSub) [s_arg x; s_arg y] in
          if term_eqb (s_res x) zero_real then let! m := minus (s_res y) (s_sort y) in Ok {| s_res := m; s_arg := kept; s_sort := "Real" |}
          else if term_eqb (s_res y) zero_real then Ok {| s_res := s_res x; s_arg := kept; s_sort := s_sort x |}
          else Ok (same (App (FB BSub) [s_res x; s_res y]) "Real")
      | BMul, a :: a' :: _ =>
          let! x := simplify a in let! y := simplify a' in
          let kept := App (FB BMul) [s_arg x; s_arg y] in
          if term_eqb (s_res x) zero_real then Ok {| s_res := zero_real; s_arg := kept; s_sort := "Real" |}
          else if term_eqb (s_res y) zero_real then Ok {| s_res := zero_real; s_arg := kept; s_sort := "Real" |}
          else if term_eqb (s_res x) one_real then Ok {| s_res := s_res y; s_arg := kept; s_sort := s_sort y |}
          else if term_eqb (s_res y) one_real then Ok {| s_res := s_res x; s_arg := kept; s_sort := s_sort x |}
          else Ok (same (App (FB BMul) [s_res x; s_res y]) "Real")
      | BDiv, a :: a' :: _ =>
          let! x := simplify a in let! y := simplify a' in
          let kept := App (FB BDiv) [s_arg x; s_arg y] in
          if term_eqb (s_res x) zero_real then Ok {| s_res := zero_real; s_arg := kept; s_sort := "Real" |}
          else if term_eqb (s_res y) zero_real then Err SemanticError
          else if term_eqb (s_res y) one_real then Ok {| s_res := s_res x; s_arg := kept; s_sort := s_sort x |}
          else Ok (same (App (FB BDiv) [s_res x; s_res y]) "Real")
      | BOther n, a :: _ =>
          if String.eqb n "exp" then
            let! x := simplify a in
            if term_eqb (s_res x) zero_real then Ok {| s_res := one_real; s_arg := App (FB (BOther n)) [s_arg x]; s_sort := "Real" |}
            else Ok (same (App (FB (BOther n)) [s_res x]) "Real")
          else Err NotImplementedError
      | BOther n, [] => if String.eqb n "exp" then Err IndexError else Err NotImplementedError
      | _, _ => Err IndexError
      end
  | Ite c a b =>
      let! x := simplify a in let! y := simplify b in Ok (same (Ite c (s_res x) (s_res y)) (ite_sort (sort_of a) (sort_of b)))
  end.

(** grounding/naive/instantiation.py:5-23 [enumerate_groundings] on variables: the list of domains. [D s = None] for the built-in sorts;
    an interval of more than 10000 elements raises TarskiError instead (sorts.py:159-161), a difference not modelled. *)
Definition variable_domains (D : domains) (vs : list var) : res (list (list term)) :=
  mapM (fun v => match D (snd v) with Some cs => Ok cs | None => Err UnableToGroundError end) vs.
(** One step of the loops of lines 85-86 and 119-120: [dispatch_operator] on two terms builds the compound term, whose constructor checks the sorts (terms.py:174-179).
    The sort of an if-then-else inside an instance is recomputed here, in the code it is the stored one. *)
Definition combine_terms (op : bfun) (acc : term) (u : term) : res term :=
  if numeric (sort_of acc) && numeric (sort_of u) then Ok (App (FB op) [acc; u]) else Err SortMismatch.
Fixpoint combine_all (op : bfun) (acc : term) (l : list term) : res term :=
  match l with [] => Ok acc | u :: l' => let! acc' := combine_terms op acc u in combine_all op acc' l' end.
(** arithmetic/__init__.py:57-88 [summation] and 91-122 [product], on arguments that pass the type checks (variables, then a term); the arithmetic theory is loaded. *)
Definition aggregate (op : bfun) (D : domains) (vs : list var) (expr : term) : res term :=
  let! doms := variable_domains D vs in
  let! l := mapM (fun values => let! s := create_substitution (map (fun v => Var (fst v) (snd v)) vs) values in Ok (subst_term s expr)) (product doms) in
  match l with [] => Err IndexError | t :: l' => combine_all op t l' end.
Definition summation := aggregate BAdd.
Definition product_ := aggregate BMul.
End Arith.
