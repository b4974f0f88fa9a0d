(** [str(model)], model equality and hash: src/tarski/model.py:51-57, 165-180, 202-203 *)
From Coq Require Import DecimalString DecimalZ Ascii.
From Verif Require Import Base Syntax ModelState.
#[local] Open Scope string_scope.

(** terms.py:335-336: [str(name)] of a str or an int *)
Definition name_text (c : cname) : string :=
  match c with CStr s => s | CInt z => NilZero.string_of_int (Z.to_int z) end.
Definition text (t : term) : string := match t with Cst c _ => name_text c | _ => "" end.
(** ["sep".join(l)] *)
Fixpoint join (sep : string) (l : list string) : string :=
  match l with [] => "" | [x] => x | x :: l' => x ++ sep ++ join sep l' end.

(** formulas.py:335-336 *)
Definition atom_text (name : string) (pt : list term) : string := name ++ "(" ++ join "," (map text pt) ++ ")".
(** [str] of the tuple (f(o1, ..., on), value) (model.py:178): Python prints the [repr] of the members: terms.py:195-198 for the
    compound term, :338-339 for the constant *)
Definition value_text (name : string) (pt : list term) (v : term) : string :=
  "(" ++ name ++ "(" ++ join ", " (map text pt) ++ "), " ++ text v ++ " (" ++ (match v with Cst _ s => s | _ => "" end) ++ "))".

(** model.py:165-180 [as_atoms], already printed. The symbols are looked up by name in the language; simplification: all the
    symbols of the model are still registered there. *)
Definition sig_name (s : signature) : string := match snd s with n :: _ => n | [] => "" end.
Definition entries (m : model) : list string :=
  (flat_map (fun ke => map (atom_text (sig_name (fst ke))) (snd ke)) (preds m)
   ++ flat_map (fun ke => map (fun pv => value_text (sig_name (fst ke)) (fst pv) (snd pv)) (snd ke)) (funs m))%list.

(** [sorted] on strings (any comparison sort gives the same list, the order being total and antisymmetric) *)
Fixpoint insert (s : string) (l : list string) : list string :=
  match l with [] => [s] | x :: l' => if String.leb s x then s :: l else x :: insert s l' end.
Fixpoint sorted (l : list string) : list string := match l with [] => [] | x :: l' => insert x (sorted l') end.

(** model.py:202-203 *)
Definition model_str (m : model) : string := "Model[" ++ join ", " (sorted (entries m)) ++ "]".
(** model.py:51-53 *)
Definition model_eq (m1 m2 : model) : bool := String.eqb (model_str m1) (model_str m2).
