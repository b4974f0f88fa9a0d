(** Writing expressions in the PDDL/FSTRIPS syntax: src/tarski/io/fstrips.py *)
From Coq Require Import Ascii.
From Verif Require Import Base Syntax ModelText Effects.
Local Open Scope string_scope.

Definition newline : string := String (ascii_of_nat 10) EmptyString.
Definition starts_with_qm (x : string) : bool := match x with String c _ => Ascii.eqb c "?" | EmptyString => false end.
(** fstrips.py:326-327 [print_variable_name] *)
Definition print_variable_name (x : string) : string := if starts_with_qm x then x else "?" ++ x.
(** fstrips.py:330-331 [print_variable_list]; the elements of a variable list have [symbol] and [sort] attributes, other terms do not
    (or have a symbol that is not a string). *)
Definition print_variable (v : term) : res string :=
  match v with Var x s => Ok (print_variable_name x ++ " - " ++ s) | _ => Err NotModelled end.
Definition print_variable_list (vs : list term) : res string := let! l := mapM print_variable vs in Ok (join " " l).
(** builtins.py:7-50, the values of the enumerations; formulas.py:16-17, 26-27 *)
Definition bpred_text (b : bpred) : string := match b with PEq => "=" | PNe => "!=" | PLt => "<" | PLe => "<=" | PGt => ">" | PGe => ">=" end.
Definition bfun_text (b : bfun) : string := match b with BAdd => "+" | BSub => "-" | BMul => "*" | BDiv => "/" | BOther n => n end.
Definition fsym_text (f : fsym) : string := match f with FB b => bfun_text b | FU n _ _ => n end.
Definition connective_text (c : connective) : string := match c with And => "and" | Or => "or" | Not => "not" end.
Definition quant_text (q : quant) : string := match q with QEx => "exists" | QAll => "forall" end.

(** fstrips.py:391-399 [print_term] and :414-415 [print_term_list] *)
Fixpoint print_term (t : term) : res string :=
  match t with
  | Var x _ => Ok (print_variable_name x)
  | App f ts => let! l := mapM print_term ts in Ok ("(" ++ fsym_text f ++ " " ++ join " " l ++ ")")
  | Cst c _ => Ok (name_text c)
  | Ite _ _ _ => Err RuntimeError
  end.
Definition print_term_list (ts : list term) : res string := let! l := mapM print_term ts in Ok (join " " l).
(** fstrips.py:402-411 [print_atom] *)
Definition print_atom_of (p : psym) (ts : list term) : res string :=
  let! s := print_term_list ts in
  Ok match p with
     | PB PNe => "(not (= " ++ s ++ "))"
     | PB b => "(" ++ bpred_text b ++ " " ++ s ++ ")"
     | PU n _ => "(" ++ n ++ " " ++ s ++ ")"
     end.
(** fstrips.py:334-349 [print_formula]; print_formula_list (:422-423) joins with a space. The indentation is not used. *)
Fixpoint print_formula (f : formula) : res string :=
  match f with
  | Top => Ok "(and )"
  | Bot => Ok "(= 0 1)"
  | Atom p ts => print_atom_of p ts
  | Comp c fs => let! l := mapM print_formula fs in Ok ("(" ++ connective_text c ++ " " ++ join " " l ++ ")")
  | Quant q vs g => let! v := print_variable_list vs in let! s := print_formula g in
                    Ok ("(" ++ quant_text q ++ " (" ++ v ++ ") " ++ s ++ ")")
  end.
(** fstrips.py:426-427, :91 *)
Fixpoint tabs (n : nat) : string := match n with O => "" | S k => "    " ++ tabs k end.
Definition indent (text : string) (n : nat) : string := tabs n ++ text.
(** The assertion of print_atom (fstrips.py:403) *)
Definition print_atom (a : formula) : res string := match a with Atom p ts => print_atom_of p ts | _ => Err AssertionError end.
Definition is_top (f : formula) : bool := match f with Top => true | _ => false end.
(** fstrips.py:382-388 [print_effect], :363-379 [print_unconditional_effect], and, for the effects of a universal effect, :352-360
    [print_effects] (which is called without a cost). *)
Fixpoint print_effect (e : effect) (ind : nat) : res string :=
  let unconditional (n : nat) : res string :=
    match e with
    | EFun inc _ l r => let! sl := print_term l in let! sr := print_term r in
                        Ok (indent ((if inc then "(increase " else "(assign ") ++ sl ++ " " ++ sr ++ ")") n)
    | EAdd _ a => let! s := print_atom a in Ok (indent s n)
    | EDel _ a => let! s := print_atom a in Ok (indent ("(not " ++ s ++ ")") n)
    | EUni _ vs es => let! body := match es with
                                   | [] => Ok "(and )"
                                   | [e1] => print_effect e1 0
                                   | _ => let! l := mapM (fun x => print_effect x 1) es in Ok ("(and" ++ newline ++ join newline l ++ ")")
                                   end in
                      let! v := print_variable_list vs in Ok (indent ("(forall (" ++ v ++ ") " ++ body ++ ")") n)
    | ELit _ _ | EOther _ => Err RuntimeError
    end in
  if is_top (econd e) then unconditional ind
  else let! c := print_formula (econd e) in let! s := unconditional 0 in Ok (indent ("(when " ++ c ++ " " ++ s ++ ")") ind).
(** fstrips.py:352-360 [print_effects]; the action cost is the addend of AdditiveActionCost, printed as an increase of total-cost. *)
Definition print_effects (effs : list effect) (cost : option term) (ind : nat) : res string :=
  match effs, cost with
  | [], None => Ok "(and )"
  | _, _ =>
    let! l := mapM (fun e => print_effect e (S ind)) effs in
    let! c := match cost with
              | Some t => let! s := print_term t in Ok [indent ("(increase (total-cost ) " ++ s ++ ")") (S ind)]
              | None => Ok []
              end in
    Ok ("(and" ++ newline ++ join newline (l ++ c)%list ++ ")")
  end.
