(** The types, constants, predicates and functions of a PDDL domain: src/tarski/io/pddl/instance.py and src/tarski/io/pddl/parser.py *)
From Verif Require Import Base Syntax ModelState FreeVars Lang Theories.
#[local] Open Scope string_scope.

(** parser.py:283-293 [p_primitive_type]: tests on the value of the token, which is in lower case (lexer.py:209-212). [(either ...)] raises an error. *)
Definition primitive_type (v : string) : string := if String.eqb v "object" then "Object" else if String.eqb v "number" then "Real" else v.
(** parser.py:238-258 [p_typed_list_of_names]: names (of the first rule, or of the third rule after [primitive_type]), or some names with a type. Simplification: not modelled is that the first rule drops
    what follows the names, which is empty unless the keyword object, number or either comes next. *)
Inductive tentry : Set := TName (n : string) | TSuper (p : string) (subs : list string).
(** parser.py:394-405 [p_list_of_typed_variables] *)
Inductive vtoken : Set := VVar (n : string) | VType (p : string).

(** instance.py:49-87. The keys of [_types] are the names of the sorts. [pi_objects] is [_constants]: the names of the constants by type. *)
Record pinst := { pi_lang : lang; pi_types : list string; pi_objects : list (string * list string) }.
Definition with_lang (i : pinst) (l : lang) : pinst := {| pi_lang := l; pi_types := pi_types i; pi_objects := pi_objects i |}.
Definition with_type (i : pinst) (l : lang) (t : string) : pinst := {| pi_lang := l; pi_types := pi_types i ++ [t]; pi_objects := pi_objects i |}.
Definition of_step (r : lang * res unit) : res lang := let! _ := snd r in Ok (fst r).

Section Reader.
Variable parse : bool -> string -> option Z.
(** instance.py:76-86 *)
Definition new_instance : res pinst :=
  let! st := language parse [TEquality; TArithmetic] in
  let! l := of_step (attach (t_lang st) "Bool" (arith_sort false 0 1) "Integer") in
  Ok {| pi_lang := l; pi_types := ["object"]; pi_objects := [] |}.
(** instance.py:173-182, the body of the loop. [lineno] is a number (parser.py:234), so calling it raises TypeError instead of UnsupportedFeature. *)
Definition process_subtype (supertype : string) (added : bool) (i : pinst) (sub : string) : res pinst :=
  if str_mem sub (pi_types i) then
    if added then let! l := of_step (set_parent true (pi_lang i) sub supertype) in Ok (with_lang i l) else Err TypeError
  else let! l := of_step (declare_sort (pi_lang i) sub (Some supertype)) in Ok (with_type i l sub).
(** instance.py:160-182 [process_supertype_definition] *)
Definition process_supertype (i : pinst) (supertype : string) (subs : list string) : res pinst :=
  let added := negb (str_mem supertype (pi_types i)) in
  let! i := if added then let! l := of_step (declare_sort (pi_lang i) supertype (Some "object")) in Ok (with_type i l supertype) else Ok i in
  foldM (process_subtype supertype added) subs i.
(** instance.py:184-190 [process_type_definition] *)
Definition process_type (i : pinst) (t : string) : res pinst := let! l := of_step (declare_sort (pi_lang i) t (Some "object")) in Ok (with_type i l t).
(** parser.py:225-236 [p_types_def] *)
Definition process_entry (i : pinst) (e : tentry) : res pinst :=
  match e with TName n => process_type i n | TSuper p subs => process_supertype i (primitive_type p) subs end.
Definition types_def (i : pinst) (es : list tentry) : res pinst := foldM process_entry es i.

(** instance.py:192-203 [process_constant_definition], parser.py:295-316 [p_constants_def], :1275-1292 [p_object_declaration]. An exception in the middle leaves some constants declared; only
    runs without exceptions are modelled. *)
Definition process_constants (i : pinst) (t : string) (cs : list string) : res pinst :=
  let! l := foldM (fun l c => of_step (lstep parse l (OConst (CStr c) t))) cs (pi_lang i) in
  Ok {| pi_lang := l; pi_types := pi_types i; pi_objects := dset String.eqb (pi_objects i) t (match sget (pi_objects i) t with Some d => d ++ cs | None => cs end)%list |}.
Definition constants_def (i : pinst) (es : list tentry) : res pinst :=
  foldM (fun i e => match e with
                    | TName _ => Err SemanticError
                    | TSuper p cs => if str_mem (primitive_type p) (pi_types i) then process_constants i (primitive_type p) cs else Err SemanticError
                    end) es i.

(** parser.py:345-364 [normalize_typed_variable_list]. [seen]: the variables since the last type, that is [unnorm_args\[last_index+1:i\]]. *)
Fixpoint normalize (i : pinst) (seen : list string) (l : list vtoken) : res (list var) :=
  let close t rest :=
    if str_mem t (pi_types i) then let! vs := mapM (fun v => let! s := retrieve (pi_lang i) t in Ok (v, s)) seen in let! r := rest in Ok (vs ++ r)%list else Err SemanticError in
  match l with
  | [] => close "object" (Ok [])
  | VVar n :: r => normalize i (seen ++ [n])%list r
  | VType p :: r => close (primitive_type p) (normalize i [] r)
  end.
(** instance.py:205-213 [process_predicate_definition], :215-221 [get_variable], parser.py:366-373, 398-406: a predicate is a function into Bool. *)
Definition process_predicate (i : pinst) (n : string) (args : list vtoken) : res pinst :=
  let! vs := normalize i [] args in
  let! l := of_step (lstep parse (pi_lang i) (OFun n (map snd vs ++ ["Bool"])%list)) in Ok (with_lang i l).
(** instance.py:247-260 [process_function_skeleton], parser.py:457-486: a function without a type is a function into Integer. *)
Definition process_function (i : pinst) (n : string) (args : list vtoken) (cod : option string) : res pinst :=
  let! vs := normalize i [] args in
  let! l := of_step (lstep parse (pi_lang i) (OFun n (map snd vs ++ [match cod with Some p => primitive_type p | None => "Integer" end])%list)) in Ok (with_lang i l).
(** The sections other than the types, parser.py:84-96: constants or objects, a predicate, a function. The names of a section are normalised before the first one is declared; since declaring symbols does
    not change the types, one symbol at a time is the same. *)
Inductive decl : Set := DConsts (es : list tentry) | DPred (n : string) (args : list vtoken) | DFun (n : string) (args : list vtoken) (cod : option string).
Definition process_decl (i : pinst) (d : decl) : res pinst :=
  match d with DConsts es => constants_def i es | DPred n args => process_predicate i n args | DFun n args cod => process_function i n args cod end.
Definition read_domain (es : list tentry) (ds : list decl) : res pinst :=
  let! i := new_instance in let! i := types_def i es in foldM process_decl ds i.
End Reader.
