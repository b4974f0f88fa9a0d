(** The fluent/static analysis of [ProblemGrounding.process_symbols]: src/tarski/grounding/naive_grounding.py:19-55, src/tarski/fstrips/visitors.py and
    src/tarski/fstrips/problem.py:58-90 *)
From Verif Require Import Base Syntax Subst QElim Effects Represent Grounding.

(** State constraints: first-order formulas with the temporal operators of src/tarski/syntax/temporal/ltl.py:7-47. [KComp] is a CompoundFormula or a
    TemporalCompoundFormula with one of F, G, U, R; [KNext] is one with the operator X, which takes one subformula (ltl.py:21-29, 44-45). *)
Inductive tconn : Set := TBool (c : connective) | TF | TG | TU | TR.
Inductive cform : Set :=
| KTop | KBot
| KAtom (p : psym) (ts : list term)
| KComp (k : tconn) (fs : list cform)
| KNext (f : cform)
| KQuant (q : quant) (vs : list var) (f : cform).

(** syntax/symrefs.py:5-34 [symref], [TermReference]: a term or an atom, compared syntactically (terms.py:203-208, formulas.py:340-345) *)
Inductive tref : Set := RT (t : term) | RP (p : psym) (ts : list term).
Definition tref_eqb (a b : tref) : bool :=
  match a, b with RT t, RT u => term_eqb t u | RP p ts, RP q us => formula_eqb (Atom p ts) (Atom q us) | _, _ => false end.
(** Python sets of references, as lists without repetitions whose order is not used *)
Definition rmem (r : tref) (l : list tref) : bool := existsb (tref_eqb r) l.
Definition radd (r : tref) (l : list tref) : list tref := if rmem r l then l else l ++ [r].
Definition p_builtin (p : psym) : bool := match p with PB _ => true | PU _ _ => false end.
Definition f_builtin (f : fsym) : bool := match f with FB _ => true | FU _ _ _ => false end.

(** visitors.py:37-58 [_visit_action_effect_formula]; [fl] is the set of fluents *)
Fixpoint ev_term (t : term) (fl : list tref) : list tref :=
  match t with
  | App f ts => if f_builtin f then fold_left (fun fl t => ev_term t fl) ts fl else radd (RT t) fl
  | _ => fl
  end.
Fixpoint ev_formula (f : formula) (fl : list tref) : list tref :=
  match f with
  | Comp _ fs => fold_left (fun fl f => ev_formula f fl) fs fl
  | Quant _ _ g => ev_formula g fl
  | Atom p ts => if p_builtin p then fold_left (fun fl t => ev_term t fl) ts fl else radd (RP p ts) fl
  | _ => fl
  end.
(** visitors.py:103-112 [_visit_precondition_formula]; [st] is the set of statics. Preconditions are formulas, so the branch for terms is not reached. *)
Fixpoint pv_formula (f : formula) (st : list tref) : list tref :=
  match f with
  | Comp _ fs => fold_left (fun st f => pv_formula f st) fs st
  | Quant _ _ g => pv_formula g st
  | Atom p ts => radd (RP p ts) st
  | _ => st
  end.
(** visitors.py:60-101 [_visit_constraint_formula]; [un] is [under_next] *)
Record vstate := { v_fl : list tref; v_st : list tref; v_vis : list tref }.
Definition v_note (un builtin : bool) (r : tref) (s : vstate) : vstate :=
  {| v_fl := if un && negb builtin then radd r (v_fl s) else v_fl s;
     v_st := if un then v_st s else radd r (v_st s);
     v_vis := if builtin then v_vis s else radd r (v_vis s) |}.
Fixpoint cv_term (un : bool) (t : term) (s : vstate) : vstate :=
  match t with
  | App f ts => fold_left (fun s t => cv_term un t s) ts (v_note un (f_builtin f) (RT t) s)
  | _ => s
  end.
Fixpoint cv_formula (un : bool) (f : cform) (s : vstate) : vstate :=
  match f with
  | KNext g => cv_formula true g s
  | KComp _ fs =>
      let s' := fold_left (fun s f => cv_formula un f s) fs s in
      let delta := filter (fun r => negb (rmem r (v_vis s))) (v_vis s') in
      if existsb (fun r => rmem r (v_fl s')) delta
      then {| v_fl := fold_left (fun fl r => radd r fl) delta (v_fl s'); v_st := v_st s'; v_vis := v_vis s' |}
      else s'
  | KQuant _ _ g => cv_formula un g s
  | KAtom p ts => fold_left (fun s t => cv_term un t s) ts (v_note un (p_builtin p) (RP p ts) s)
  | _ => s
  end.

(** problem.py:58-90 [get_symbols], lines 70-85, the body of the loop over the effects of an action. The pair holds the fluents and the statics of the visitors. The variables of
    universal effects are terms the visitor ignores, and so are its inner effects, which are neither formulas nor terms (problem.py:81-83; visitors.py:37-58). [EOther]
    stands for the classes of problem.py:84-85; ChoiceEffect (problem.py:78-80) is not modelled. *)
Definition gs_effect (e : effect) (s : list tref * list tref) : res (list tref * list tref) :=
  let st := pv_formula (econd e) (snd s) in
  match e with
  | EAdd _ a | EDel _ a => Ok (ev_formula a (fst s), st)
  | ELit _ l => Ok (ev_formula l (fst s), st)
  | EFun _ _ lhs _ => Ok (ev_term lhs (fst s), st)
  | EUni _ _ _ => Ok (fst s, st)
  | EOther _ => Err RuntimeError
  end.
Fixpoint gs_effects (es : list effect) (s : list tref * list tref) : res (list tref * list tref) :=
  match es with [] => Ok s | e :: l => let! s' := gs_effect e s in gs_effects l s' end.
(** problem.py:68-85, the loop over the actions *)
Fixpoint gs_actions (acts : list action) (s : list tref * list tref) : res (list tref * list tref) :=
  match acts with
  | [] => Ok s
  | a :: l => let! s' := gs_effects (a_effs a) (fst s, pv_formula (a_pre a) (snd s)) in gs_actions l s'
  end.
(** problem.py:87-89: the loop over the constraints, each with an empty set of visited references ([reset], visitors.py:34-35) *)
Definition gs_constraint (s : list tref * list tref) (c : cform) : list tref * list tref :=
  let v := cv_formula false c {| v_fl := fst s; v_st := snd s; v_vis := [] |} in (v_fl v, v_st v).
Definition gs_problem (acts : list action) (cs : list cform) (s : list tref * list tref) : res (list tref * list tref) :=
  let! s' := gs_actions acts s in Ok (fold_left gs_constraint cs s').

(** naive_grounding.py:36-55 [process_symbols]. [fl] and [st] are the sets shared by the three visitors; [own] is [self.static_terms], which is the set [st] until the first
    call of [_check_static_not_fluents] (lines 30-34) and a new set from then on ([None] before the first call). The assertion of line 34 holds by construction. [n] bounds
    the number of passes, a model artefact: C60_passes gives a sufficient value. *)
Fixpoint ps_loop (n : nat) (acts : list action) (cs : list cform) (s : list tref * list tref) (own : option (list tref)) (o_f o_s : nat) : res (list tref * list tref) :=
  match n with
  | O => Err OutOfFuel
  | S n' =>
      let! s' := gs_problem acts cs s in
      let statics := filter (fun r => negb (rmem r (fst s'))) (match own with None => snd s' | Some l => l end) in
      if Nat.eqb (List.length (fst s')) o_f && Nat.eqb (List.length statics) o_s then Ok (fst s', statics)
      else ps_loop n' acts cs s' (Some statics) (List.length (fst s')) (List.length statics)
  end.
Definition process_symbols (n : nat) (acts : list action) (cs : list cform) : res (list tref * list tref) := ps_loop n acts cs ([], []) None 0 0.
(** naive_grounding.py:64-66: the head symbol and the subterms of a reference, as read by [create_all_possible_state_variables]. References to other terms have no
    subterms; the analysis never returns one. *)
Definition ref_expr (r : tref) : list (sym * list term) :=
  match r with RP p ts => [(SymP p, ts)] | RT (App f ts) => [(SymF f, ts)] | RT _ => [] end.
Definition ref_exprs (l : list tref) : list (sym * list term) := flat_map ref_expr l.
