(** Which problems can be written in the PDDL syntax so that they can be read again, and when two problems are the same. *)
From Verif Require Import Base Syntax Semantics ModelState ModelTextSpec Lang LangSpec Effects Represent Costs PddlText PddlRead PddlSpec PddlAction PddlActionSpec PddlProblem.
Local Open Scope string_scope.

(** The constant [t] was declared with sort [s]. *)
Definition declared_constant (l : lang) (t : term) (s : sort) : Prop := exists n, t = Cst (CStr n) s /\ const_of l (CStr n) s.
(** A state over the symbols and constants of a language *)
Record state_over (l : lang) (m : model) : Prop := {
  so_history : exists sub ops, m = mrun sub ops empty_model /\ forallb ModelSpec.op_constants ops = true;
  so_atoms : forall p pt, m_holds m p pt = true ->
    exists n ss, p = PU n ss /\ In (n, ss) (l_preds l) /\ Forall2 (fun t s => exists r, declared_constant l t r /\ le l r s) pt ss;
  so_values : forall f pt v, m_value m f pt = Ok v ->
    exists n ss c, f = FU n ss c /\ In (n, ss ++ [c])%list (l_funs l) /\ Forall2 (declared_constant l) pt ss /\ exists r, declared_constant l v r /\ le l r c
}.
(** The language with the constants [cs] only *)
Definition only_constants (cs : list (cname * sort)) (l : plang) : plang := {|
  pl_const := fun n => dget cname_eqb cs (CStr n);
  pl_pred := pl_pred l; pl_fun := pl_fun l; pl_sort := pl_sort l; pl_sub := pl_sub l; pl_num := pl_num l; pl_cmp := pl_cmp l; pl_arith := pl_arith l
|}.

Section Writable.
Variable parse : bool -> string -> option Z.
(** Legal names; no numbers; the actions use the constants [cs], which are printed in the domain file; the arguments of functions in the initial state have exactly the declared sorts. *)
Record writable (q : pproblem) (cs : list (cname * sort)) : Prop := {
  w_name : legal_name (q_name q) = true;
  w_domain : legal_name (q_domain q) = true;
  w_sorts : forall s, is_sort (q_lang q) s -> is_plain (q_lang q) s /\ (s = "object" \/ legal_name s = true /\ s <> "real");
  w_preds : forall n ss, In (n, ss) (l_preds (q_lang q)) -> legal_name n = true;
  w_funs : forall n ss, In (n, ss) (l_funs (q_lang q)) -> legal_name n = true /\ n <> "total-cost";
  w_consts : forall c s, const_of (q_lang q) c s -> exists n, c = CStr n /\ legal_name n = true;
  w_cs : NoDup cs /\ forall c s, In (c, s) cs -> const_of (q_lang q) c s;
  w_init : state_over (q_lang q) (q_init q);
  w_goal : formula_ok (view parse (q_lang q)) [] (q_goal q) = true /\ one_spelling_in (names_f (q_goal q));
  w_actions : forall a, In a (q_actions q) -> readable_action (only_constants cs (view parse (q_lang q))) a = true /\ one_spelling_in (names_action a);
  w_action_names : NoDup (map (fun a => a_name (c_act a)) (q_actions q));
  w_derived : q_derived q = [];
  w_metric : match q_metric q with None => True | Some (_, t) => (exists f ts, t = App f ts) /\ readable_t (view parse (q_lang q)) [] t = true end
}.
End Writable.

(** Same names, sorts, hierarchy, symbols and constants, same state, and a goal, actions and a metric that mean the same *)
Record same_language (l l' : lang) : Prop := {
  sl_sorts : forall s, is_sort l' s <-> is_sort l s;
  sl_plain : forall s, is_plain l' s <-> is_plain l s;
  sl_parent : forall s, parent_of l' s = parent_of l s;
  sl_preds : l_preds l' = l_preds l;
  sl_funs : l_funs l' = l_funs l;
  sl_consts : forall c s, const_of l' c s <-> const_of l c s
}.
Record same_problem (q q' : pproblem) : Prop := {
  sp_name : q_name q' = q_name q;
  sp_domain : q_domain q' = q_domain q;
  sp_lang : same_language (q_lang q) (q_lang q');
  sp_init : same_extensions (q_init q) (q_init q');
  sp_goal : same_truth (names_f (q_goal q)) (q_goal q) (q_goal q');
  sp_actions : Forall2 same_action (q_actions q) (q_actions q');
  sp_derived : q_derived q' = q_derived q;
  sp_metric : match q_metric q, q_metric q' with
              | Some (b, t), Some (b', t') => b' = b /\ same_value (names_t t) t t'
              | None, None => True
              | _, _ => False
              end
}.
