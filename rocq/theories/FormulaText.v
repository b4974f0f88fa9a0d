(** The text of terms and formulas ([str]): src/tarski/syntax/terms.py:148-149, 195-196, 287-288, 335-336, src/tarski/syntax/formulas.py:11-27, 70-86, 114-120, 152-154, 335-336, src/tarski/syntax/temporal/ltl.py:10-11, 34-44 *)
From Verif Require Import Base Syntax ModelState ModelText Ltl.
#[local] Open Scope string_scope.

(** formulas.py:16-17, 26-27; ltl.py:10-11 *)
Definition conn_text (c : connective) : string := match c with And => "and" | Or => "or" | Not => "not" end.
Definition quant_text (q : quant) : string := match q with QEx => "exists" | QAll => "forall" end.
Definition top_text (o : top) : string := match o with OX => "X" | OF => "F" | OG => "G" | OU => "U" | OR => "R" end.
Definition pred_text (p : psym) : string := match p with PB b => bpred_name b | PU n _ => n end.
Definition func_text (f : fsym) : string := match f with FB b => bfun_name b | FU n _ _ => n end.
(** terms.py:287-288: the symbol of an IfThenElse is the function registered in theories.py:89, printed with its arity (function.py:51-52).
    formulas.py:115-117: a negation of several formulas cannot be built; it has no text in the code (AssertionError), here its text is empty. *)
Fixpoint term_text (t : term) : string :=
  match t with
  | Var x _ => x
  | Cst c _ => name_text c
  | App f ts => func_text f ++ "(" ++ join ", " (map term_text ts) ++ ")"
  | Ite c a b => "ite/2(" ++ join ", " [form_text c; term_text a; term_text b] ++ ")"
  end
with form_text (f : formula) : string :=
  match f with
  | Top => "T"
  | Bot => "F"
  | Atom p ts => pred_text p ++ "(" ++ join "," (map term_text ts) ++ ")"
  | Comp Not fs => match fs with [g] => "(" ++ conn_text Not ++ " " ++ form_text g ++ ")" | _ => "" end
  | Comp c fs => "(" ++ join (" " ++ conn_text c ++ " ") (map form_text fs) ++ ")"
  | Quant q vs g => quant_text q ++ " " ++ join ", " (map term_text vs) ++ " : (" ++ form_text g ++ ")"
  end.
(** The same for formulas that may be temporal. ltl.py:34-44: X, F and G are followed by their operand in parentheses; the texts of U and R are those of connectives. *)
Fixpoint tform_text (f : tform) : string :=
  match f with
  | TTop => "T"
  | TBot => "F"
  | TAtom p ts => pred_text p ++ "(" ++ join "," (map term_text ts) ++ ")"
  | TComp Not fs => match fs with [g] => "(" ++ conn_text Not ++ " " ++ tform_text g ++ ")" | _ => "" end
  | TComp c fs => "(" ++ join (" " ++ conn_text c ++ " ") (map tform_text fs) ++ ")"
  | TTemp o fs => if is_unary o then match fs with [g] => top_text o ++ " (" ++ tform_text g ++ ")" | _ => "" end else "(" ++ join (" " ++ top_text o ++ " ") (map tform_text fs) ++ ")"
  | TQuant q vs g => quant_text q ++ " " ++ join ", " (map term_text vs) ++ " : (" ++ tform_text g ++ ")"
  end.
