(** The language and the initial state of an RDDL instance: src/tarski/io/rddl.py:222-324 *)
From Coq Require Import Ascii.
From Verif Require Import Base Syntax Build QElim ModelState FreeVars Lang Theories Counters RddlRead.
#[local] Open Scope string_scope.

(** What the parser pyrddl delivers, as far as the reader looks at it. The parent of an enumerated type is a list of names: [None]. The name of a variable comes with its number of parameters,
    as in "p/2". The default values are part of the text, but the reader does not look at them. *)
Inductive ivalue : Set := IInt (z : Z) | IFloat (w : string) | IBool (b : bool) | IName (w : string).
Record pvariable : Set := { pv_name : string; pv_params : option (list string); pv_range : string; pv_default : option ivalue }.
Definition entry := ((string * option (list rarg)) * ivalue)%type.
Inductive nondef : Set := PosInf | AtMost (z : Z).
Record rmodel : Set := {
  rm_types : list (string * option string);
  rm_objects : list (string * list string);
  rm_non_fluents : list pvariable; rm_state_fluents : list pvariable; rm_interm_fluents : list pvariable; rm_action_fluents : list pvariable;
  rm_init_state : list entry; rm_init_non_fluent : list entry;
  rm_horizon : Z; rm_discount : string; rm_max_nondef : nondef
}.
(** rddl.py:210-219 and the attributes of the reader. [max_actions] is None unless there is a bound. *)
Record reading := { rd_lang : tlang; rd_state : model; rd_horizon : Z; rd_discount : string; rd_max : option Z }.

(** [name.split("/")\[0\]] *)
Fixpoint base_name (n : string) : string := match n with "" => "" | String c r => if Ascii.eqb c "/" then "" else String c (base_name r) end.

Section Reader.
Variable parse : bool -> string -> option Z.
Variable fuel : nat.

(** rddl.py:244-247 *)
Definition read_type (st : tlang) (t : string * option string) : res tlang :=
  match snd t with
  | Some p => if String.eqb p "object" then tdo parse st (TOp (OSort (fst t) (Some "object"))) else Err AssertionError
  | None => Err AssertionError
  end.
(** rddl.py:251-253. A name that is not that of a sort raises UnexpectedElementType, a LanguageError (errors.py:62, fol.py:216). *)
Definition read_object (st : tlang) (to : string * string) : res tlang :=
  let! e := lget (t_lang st) (CStr (fst to)) in
  match e with ESort s => tdo parse st (TOp (OConst (CStr (snd to)) s)) | _ => Err LanguageError end.
Definition objects_of (r : rmodel) : list (string * string) := flat_map (fun to => map (fun o => (fst to, o)) (snd to)) (rm_objects r).
(** rddl.py:299-304 *)
Definition built_in_type (s : string) : option string := if String.eqb s "object" then Some "Object" else if String.eqb s "real" then Some "Real" else if String.eqb s "int" then Some "Integer" else None.
(** rddl.py:314-319 *)
Definition read_sort (l : lang) (s : string) : res elem :=
  match lget l (CStr s) with Ok e => Ok e | Err _ => match built_in_type s with Some n => lget l (CStr n) | None => Err KeyError end end.
Definition is_sort_elem (e : elem) : bool := match e with ESort _ => true | _ => false end.
Definition elem_sort (e : elem) : string := match e with ESort s => s | _ => "" end.
Definition is_boolean (s : string) : bool := String.eqb s "bool" || String.eqb s "boolean".
Definition parameters_of (v : pvariable) : list string := match pv_params v with Some ps => ps | None => [] end.
(** rddl.py:307-324 [translate_variable]. The name is checked before the sorts: fol.py:288-291, 315-318. *)
Definition read_variable (st : tlang) (v : pvariable) : res tlang :=
  let n := base_name (pv_name v) in
  let! es := mapM (read_sort (t_lang st)) (if is_boolean (pv_range v) then parameters_of v else (parameters_of v ++ [pv_range v])%list) in
  if forallb is_sort_elem es then
    tdo parse st (TOp ((if is_boolean (pv_range v) then OPred else OFun) n (map elem_sort es)))
  else
    let! _ := check_name (t_lang st) (if is_boolean (pv_range v) then has_predicate (t_lang st) n else has_function (t_lang st) n) (CStr n) in Err LanguageError.
(** rddl.py:255-264 *)
Definition variables_of (r : rmodel) : list pvariable := (rm_non_fluents r ++ rm_state_fluents r ++ rm_interm_fluents r ++ rm_action_fluents r)%list.
(** rddl.py:266-276 *)
Definition read_language (r : rmodel) : res tlang :=
  let! st := language parse [TEquality; TArithmetic; TSpecial; TRandom] in
  let! st := foldM read_type (rm_types r) st in
  let! st := foldM read_object (objects_of r) st in
  foldM read_variable (variables_of r) st.

(** rddl.py:83-109, 289: the name and the arguments of an entry; primes are dropped *)
Definition read_fluent (st : tlang) (x : string * option (list rarg)) : res arg :=
  let! e := lget (t_lang st) (CStr (unquote (fst x))) in
  let! its := match snd x with None => Ok [] | Some gs => read_arguments st e 0 gs end in call_element fuel st e its.
(** model.py:20-23: the value of an entry as a constant of the codomain. A Boolean is a number in Python. A float that is no integer is supposed to be within the bounds of the sort. *)
Definition value_constant (st : tlang) (v : ivalue) (s : sort) : res term :=
  match v with
  | IInt z => literal parse st (CInt z) s
  | IBool b => literal parse st (CInt (if b then 1 else 0)) s
  | IName w => literal parse st (CStr w) s
  | IFloat w => match sget (l_sorts (t_lang st)) s with
                | Some r => match s_kind r with KInterval true _ _ => Ok (Cst (CStr w) s) | _ => Err ValueError end
                | None => Err NotModelled
                end
  end.
(** rddl.py:288-299 *)
Definition read_entry (st : tlang) (m : model) (x : entry) : res model :=
  let! a := read_fluent st (fst x) in
  match a with
  | ATerm (App (FU f ss c) ts) =>
      if forallb is_cst ts then let! v := value_constant st (snd x) c in m_set (lsub fuel (t_lang st)) m (App (FU f ss c) ts) v else Err SemanticError
  | AForm (Atom p ts) => match snd x with IBool true => m_add (lsub fuel (t_lang st)) m p ts | _ => Ok m end
  | _ => Err NotModelled                         (* a call of a symbol is a compound term or an atom *)
  end.
Definition entries_of (r : rmodel) : list entry := (rm_init_state r ++ rm_init_non_fluent r)%list.
(** rddl.py:266-299 [translate_rddl_model] *)
Definition translate_rddl_model (r : rmodel) : res reading :=
  let! st := read_language r in
  let! m := foldM (read_entry st) (entries_of r) empty_model in
  Ok {| rd_lang := st; rd_state := m; rd_horizon := rm_horizon r; rd_discount := rm_discount r; rd_max := match rm_max_nondef r with PosInf => None | AtMost z => Some z end |}.
End Reader.
