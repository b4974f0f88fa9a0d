(** Ground atoms of a conjunction: src/tarski/syntax/transform/simplifications.py *)
From Verif Require Import Base Syntax.

(** The first component of a returned tuple: a user symbol's name, or the Enum value of a built-in function. *)
Inductive head : Set := HName (n : string) | HEnum (b : bfun).
Definition tuple := (head * list cname)%type.
(** [x.symbol.symbol] (line 30) *)
Definition fsym_head (f : fsym) : head := match f with FB b => HEnum b | FU n _ _ => HName n end.

(** simplifications.py:6-12 [unpack_element_subterms] *)
Fixpoint unpack_element_subterms (ts : list term) : res (list cname) :=
  match ts with
  | [] => Ok []
  | Cst c _ :: ts' => let! r := unpack_element_subterms ts' in Ok (c :: r)
  | _ :: _ => Err TransformationError
  end.

(** simplifications.py:15-33 [unpack_atom]; lines 21-22 are the two list comprehensions *)
Definition compounds (ts : list term) : list (fsym * list term) :=
  flat_map (fun t => match t with App f us => [(f, us)] | _ => [] end) ts.
Definition constants (ts : list term) : list cname :=
  flat_map (fun t => match t with Cst c _ => [c] | _ => [] end) ts.
Definition unpack_atom (p : psym) (ts : list term) : res tuple :=
  match p with
  | PB PEq =>
      match compounds ts, constants ts with
      | [(f, us)], [c] => let! r := unpack_element_subterms us in Ok (fsym_head f, r ++ [c])
      | _, _ => Err TransformationError
      end
  | PB _ => Err TransformationError
  | PU n _ => let! r := unpack_element_subterms ts in Ok (HName n, r)
  end.

(** simplifications.py:36-51 [transform_to_ground_atoms] *)
Fixpoint transform_to_ground_atoms (f : formula) : res (list tuple) :=
  match f with
  | Atom p ts => let! t := unpack_atom p ts in Ok [t]
  | Comp And fs => let! ls := mapM transform_to_ground_atoms fs in Ok (List.concat ls)
  | _ => Err TransformationError
  end.
