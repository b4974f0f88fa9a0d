(** The file that is written for the CSP of an action schema: src/tarski/analysis/csp_schema.py:234-282 *)
From Coq Require Import Ascii DecimalString.
From Verif Require Import Base Syntax ModelState ModelText SasText Represent Grounding SortIds CspSchema.
#[local] Open Scope string_scope.

(** [str] of an integer and of a Boolean *)
Definition int_text (z : Z) : string := NilZero.string_of_int (Z.to_int z).
Definition bool_text (b : bool) : string := if b then "True" else "False".
(** csp_schema.py:246-248; the type of a variable is always int (csp_schema.py:208, CSPVarType.__str__ :37-38) *)
Definition variable_line (v : string * string * (nat * Z)) : string := join " " [fst (fst v); snd (fst v); "int"; num (fst (snd v)); int_text (snd (snd v))].
(** csp_schema.py:252-258: [str] of a variable is its symbol *)
Definition parameter_text (t : term) : string := match t with Var x _ => x | Cst c _ => name_text c | _ => "" end.
(** csp_schema.py:63-67: the name of the symbol of a table *)
Definition table_symbol (e : term + formula) : string :=
  match e with
  | inl (App (FU n _ _) _) => n
  | inl (App (FB b) _) => bfun_name b
  | inr (Atom (PU n _) _) => n
  | inr (Atom (PB b) _) => bpred_name b
  | _ => ""
  end.
(** ["sep".join] of a list that may contain None: TypeError *)
Definition named (x : option string) : res string := match x with Some s => Ok s | None => Err TypeError end.
(** The printed form of an attribute that may be None *)
Definition maybe (x : option string) : string := match x with Some s => s | None => "None" end.
(** SymbolIndex.get_index (util.py:18-19; C22): the position, or KeyError. Simplification: the index is the list of its elements, without repetitions. *)
Fixpoint position (v : svar) (l : list svar) : res nat :=
  match l with [] => Err KeyError | w :: r => if svar_eqb v w then Ok 0 else let! i := position v r in Ok (S i) end.
(** csp_schema.py:268-281. [StateVariableLite.from_atom] (grounding/common.py:34-36). *)
Definition constraint_lines (svs : list svar) (c : constraint) : res (list string) :=
  match c with
  | CTable e xs neg => let! names := mapM named xs in Ok ["table-constraint"; table_symbol e ++ " negative=" ++ bool_text neg ++ " " ++ join " " names]
  | CState (Atom p ts) value => let! i := position (SymP p, ts) svs in Ok ["statevar=const"; num i ++ " " ++ bool_text value]
  | CState _ _ => Err NotModelled
  | CRel lhs rhs rel => Ok ["relational"; maybe lhs ++ " " ++ rel ++ " " ++ maybe rhs]
  end.
(** csp_schema.py:234-282 [serialize_schema_csp]: every line ends with a line break. The check for the directory and the file itself are not modelled. *)
Definition serialize (svs : list svar) (k : csp) : res string :=
  let! ls := mapM (constraint_lines svs) (c_cons k) in
  Ok (lines (["variables"; num (List.length (c_vars k))] ++ map variable_line (c_vars k) ++ ["end-variables"; "effect-relevant-variables"] ++
       (if Nat.eqb (List.length (c_relevant k)) (List.length (c_index k)) then ["0"] else num (List.length (c_relevant k)) :: map parameter_text (c_relevant k)) ++
       ["end-effect-relevant-variables"; "parameter-index"; num (List.length (c_index k))] ++ c_index k ++ ["end-parameter-index"; "constraints"; num (List.length (c_cons k))] ++
       List.concat ls ++ ["end-constraints"; ""])%list).
(** csp_schema.py:112-127 [process_problem] with a directory: the texts of the files, by the names of the actions *)
Fixpoint files (svs : list svar) (bounds : list (string * (nat * nat))) (ids : list (cobj * nat)) (init : model) (statics : list sym) (acts : list Represent.action) : res (list (string * string)) :=
  match acts with
  | [] => Ok []
  | a :: r =>
      let! k := compile_schema_csp svs bounds ids init statics a in
      let! t := match k with None => Ok [] | Some k => let! t := serialize svs k in Ok [(Represent.a_name a, t)] end in
      let! l := files svs bounds ids init statics r in Ok (t ++ l)%list
  end.
