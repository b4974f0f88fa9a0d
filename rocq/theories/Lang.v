(** First-order languages: src/tarski/fol.py and src/tarski/syntax/sorts.py *)
From Verif Require Import Base Syntax ModelState.
#[local] Open Scope string_scope.

Definition cname_eqb (a b : cname) : bool := if cname_eq_dec a b then true else false.

(** sorts.py:7-19 Sort, :80-85 Interval. [KInterval real lb ub]: [real] tells [float_encode_fn] from [int_encode_fn].
    Simplification: bounds and elements are integers (floats that are integers for the Real sorts). *)
Inductive kind : Set := KPlain | KInterval (real : bool) (lb ub : Z).
Record sortrec := { s_kind : kind; s_builtin : bool; s_dom : list cname }.

(** Elements of the global name index (fol.py:34). *)
Inductive elem : Set :=
| ESort (s : string) | EPred (p : string) (sorts : list sort) | EFun (f : string) (sorts : list sort) | EConst (c : cname) (s : sort).

(** fol.py:16-38. Names of sorts, predicates and functions are strings, names of constants strings or integers. The sets of sorts
    are duplicate-free lists. The value of [l_consts] is the Constant object: its (possibly cast) symbol and its sort. *)
Record lang := {
  l_sorts : list (string * sortrec);
  l_parent : list (string * option string);      (* immediate_parent *)
  l_anc : list (string * list string);           (* ancestor_sorts *)
  l_ind : list (string * list string);           (* indirect_ancestor_sorts: the cache *)
  l_preds : list (string * list sort);
  l_funs : list (string * list sort);            (* argument sorts followed by the codomain *)
  l_consts : list (cname * (cname * sort));
  l_index : list (cname * elem)                  (* _global_index *)
}.
Definition plain_rec : sortrec := {| s_kind := KPlain; s_builtin := false; s_dom := [] |}.
(** fol.py:16-37 and 95-103 *)
Definition lang0 : lang :=
  {| l_sorts := [("object", plain_rec)]; l_parent := [("object", None)]; l_anc := [("object", [])]; l_ind := [("object", [])];
     l_preds := []; l_funs := []; l_consts := []; l_index := [(CStr "object", ESort "object")] |}.

Definition sget {V} (d : list (string * V)) k := dget String.eqb d k.
Definition has_sort (l : lang) n : bool := match sget (l_sorts l) n with Some _ => true | None => false end.
Definition has_predicate (l : lang) n : bool := match sget (l_preds l) n with Some _ => true | None => false end.
Definition has_function (l : lang) n : bool := match sget (l_funs l) n with Some _ => true | None => false end.
Definition has_constant (l : lang) (c : cname) : bool := match dget cname_eqb (l_consts l) c with Some _ => true | None => false end.
(** fol.py:415-437 [get] of one name *)
Definition lget (l : lang) (n : cname) : res elem := match dget cname_eqb (l_index l) n with Some e => Ok e | None => Err UndefinedElement end.
(** fol.py:208-231, [_retrieve_sort] and [_retrieve_object], by name. Passing a Sort object that was obtained from the language is the same thing; passing one of
    another language raises LanguageMismatch and is not modelled, except for [OAttachForeign] below. *)
Definition retrieve (l : lang) (n : string) : res string := if has_sort l n then Ok n else Err UndefinedElement.

(** fol.py:278-286 [_check_name_not_defined]: both exceptions are DuplicateDefinition (errors.py:48, 67-91). A name of any of the four containers is also
    in the global index, so the first test only selects the subclass. *)
Definition check_name (l : lang) (inwhere : bool) (n : cname) : res unit :=
  if inwhere then Err DuplicateDefinition
  else match dget cname_eqb (l_index l) n with Some _ => Err DuplicateDefinition | None => Ok tt end.

(** sorts.py:167-171 [inclusion_closure], :174-177 [parent] *)
Fixpoint closure (fuel : nat) (l : lang) (s : string) : res (list string) :=
  match fuel with
  | O => Err OutOfFuel
  | S n => match sget (l_parent l) s with
           | None => Err AssertionError
           | Some None => Ok [s]
           | Some (Some p) => let! r := closure n l p in Ok (s :: r)
           end
  end.
Definition set_sorts l v := {| l_sorts := v; l_parent := l_parent l; l_anc := l_anc l; l_ind := l_ind l; l_preds := l_preds l; l_funs := l_funs l; l_consts := l_consts l; l_index := l_index l |}.
Definition set_index l v := {| l_sorts := l_sorts l; l_parent := l_parent l; l_anc := l_anc l; l_ind := l_ind l; l_preds := l_preds l; l_funs := l_funs l; l_consts := l_consts l; l_index := v |}.
Definition set_par l p a i := {| l_sorts := l_sorts l; l_parent := p; l_anc := a; l_ind := i; l_preds := l_preds l; l_funs := l_funs l; l_consts := l_consts l; l_index := l_index l |}.
Definition set_ind l i := set_par l (l_parent l) (l_anc l) i.
Definition set_preds l v := {| l_sorts := l_sorts l; l_parent := l_parent l; l_anc := l_anc l; l_ind := l_ind l; l_preds := v; l_funs := l_funs l; l_consts := l_consts l; l_index := l_index l |}.
Definition set_funs l v := {| l_sorts := l_sorts l; l_parent := l_parent l; l_anc := l_anc l; l_ind := l_ind l; l_preds := l_preds l; l_funs := v; l_consts := l_consts l; l_index := l_index l |}.
Definition set_consts l v := {| l_sorts := l_sorts l; l_parent := l_parent l; l_anc := l_anc l; l_ind := l_ind l; l_preds := l_preds l; l_funs := l_funs l; l_consts := v; l_index := l_index l |}.

(** ancestor_sorts and indirect_ancestor_sorts are defaultdict(set) *)
Definition get_set (d : list (string * list string)) (s : string) : list string := match sget d s with Some a => a | None => [] end.
Definition str_mem (x : string) (l : list string) : bool := existsb (String.eqb x) l.
Fixpoint union (a b : list string) : list string :=
  match b with [] => a | x :: b' => if str_mem x a then union a b' else union (a ++ [x])%list b' end.

(** fol.py:194-206 [set_parent]; the assignment of line 202 precedes the loop of line 203 *)
Definition set_parent (overwrite : bool) (l : lang) (s p : string) : lang * res unit :=
  match sget (l_parent l) s with
  | Some (Some _) => if overwrite then
        let l1 := set_par l (dset String.eqb (l_parent l) s (Some p)) (l_anc l) (l_ind l) in
        match closure (S (List.length (l_sorts l))) l1 p with
        | Err e => (l1, Err e)
        | Ok c => (set_par l1 (l_parent l1) (dset String.eqb (l_anc l1) s (union (get_set (l_anc l1) s) c))
                     (dset String.eqb (map (fun kv => (fst kv, [])) (l_ind l1)) s []), Ok tt)
        end
      else (l, Err LanguageError)
  | _ =>
      let l1 := set_par l (dset String.eqb (l_parent l) s (Some p)) (l_anc l) (l_ind l) in
      match closure (S (List.length (l_sorts l))) l1 p with
      | Err e => (l1, Err e)
      | Ok c => (set_par l1 (l_parent l1) (dset String.eqb (l_anc l1) s (union (get_set (l_anc l1) s) c))
                   (dset String.eqb (map (fun kv => (fst kv, [])) (l_ind l1)) s []), Ok tt)
      end
  end.
(** fol.py:140-151 [attach_sort] and the identical lines 180-186 of [interval] *)
Definition register_sort (l : lang) (name : string) (r : sortrec) : lang :=
  set_index (set_sorts l (dset String.eqb (l_sorts l) name r)) (dset cname_eqb (l_index l) (CStr name) (ESort name)).
Definition attach (l : lang) (name : string) (r : sortrec) (p : string) : lang * res unit :=
  match check_name l (has_sort l name) (CStr name) with
  | Err e => (l, Err e)
  | Ok _ => set_parent false (register_sort l name r) name p
  end.
(** attach_sort with a parent of another language: fol.py:145-146 are executed, then line 196 raises *)
Definition attach_foreign (l : lang) (name : string) (r : sortrec) : lang * res unit :=
  match check_name l (has_sort l name) (CStr name) with
  | Err e => (l, Err e)
  | Ok _ => (register_sort l name r, Err LanguageError)
  end.

(** fol.py:129-138 [sort] *)
Definition declare_sort (l : lang) (name : string) (parent : option string) : lang * res unit :=
  match (match parent with None => if has_sort l "object" then Ok "object" else Err UndefinedElement | Some p => retrieve l p end) with
  | Err e => (l, Err e)
  | Ok p => attach l name plain_rec p
  end.
(** fol.py:161-186 [interval] *)
Definition is_numeric_root (n : string) : bool := String.eqb n "Real" || String.eqb n "Natural" || String.eqb n "Integer".
Definition is_real (l : lang) (p : string) : bool := match sget (l_sorts l) p with Some r => match s_kind r with KInterval b _ _ => b | _ => false end | None => false end.
Definition declare_interval (l : lang) (name parent : string) (lb ub : Z) : lang * res unit :=
  match check_name l (has_sort l name) (CStr name) with
  | Err e => (l, Err e)
  | Ok _ =>
      match retrieve l parent with
      | Err e => (l, Err e)
      | Ok p =>
          if negb (has_sort l "Real" && has_sort l "Natural" && has_sort l "Integer") then (l, Err UndefinedElement)
          else if negb (is_numeric_root p) then (l, Err SemanticError)
          else if Z.leb ub lb then (l, Err SemanticError)
          else set_parent false (register_sort l name {| s_kind := KInterval (is_real l p) lb ub; s_builtin := false; s_dom := [] |}) name p
      end
  end.
(** sorts.py:205-237, [attach_arithmetic_sorts] and the three builders it calls: -3.40282e38 and 3.40282e38 are integers *)
Definition real_bound : Z := (340282 * 10 ^ 33)%Z.
Definition arith_sort (real : bool) (lb ub : Z) : sortrec := {| s_kind := KInterval real lb ub; s_builtin := true; s_dom := [] |}.
Definition attach_arithmetic (l : lang) : lang * res unit :=
  let (l1, r1) := attach l "Real" (arith_sort true (- real_bound) real_bound) "object" in
  match r1 with Err e => (l1, Err e) | Ok _ =>
    let (l2, r2) := attach l1 "Integer" (arith_sort false (- (2 ^ 31 - 1)) (2 ^ 31 - 1)) "Real" in
    match r2 with Err e => (l2, Err e) | Ok _ => attach l2 "Natural" (arith_sort false 0 (2 ^ 32 - 1)) "Integer" end
  end.

Section Values.
(** int(s) and float(s) on strings; [None]: ValueError. *)
Variable parse : bool -> string -> option Z.

(** sorts.py:195-203 *)
Definition encode (real : bool) (c : cname) : option Z := match c with CInt z => Some z | CStr s => parse real s end.
(** sorts.py:87-91, 105-116, [Interval.cast] with [is_within_bounds] *)
Definition cast (real : bool) (lb ub : Z) (c : cname) : res cname :=
  match encode real c with
  | None => Err ValueError
  | Some y => if Z.leb lb y && Z.leb y ub then Ok (CInt y) else Err ValueError
  end.

Definition cn_mem (c : cname) (l : list cname) : bool := existsb (cname_eqb c) l.
Definition add_dom (c : cname) (r : sortrec) : sortrec :=
  {| s_kind := s_kind r; s_builtin := s_builtin r; s_dom := if cn_mem c (s_dom r) then s_dom r else (s_dom r ++ [c])%list |}.
(** sorts.py:70-74 [Sort.extend], :97-100 [Interval.extend] *)
Fixpoint extend (fuel : nat) (l : lang) (s : string) (c : cname) : res lang :=
  match fuel with
  | O => Err OutOfFuel
  | S n =>
      match sget (l_sorts l) s with
      | None => Err KeyError
      | Some r =>
          match s_kind r with
          | KInterval _ _ _ => Ok l
          | KPlain =>
              let l1 := set_sorts l (dset String.eqb (l_sorts l) s (add_dom c r)) in
              match sget (l_anc l1) s with
              | None => Err AssertionError
              | Some a => fold_left (fun acc p => let! l' := acc in extend n l' p c) a (Ok l1)
              end
          end
      end
  end.

(** fol.py:233-256 [constant] and terms.py:308-318 [Constant.__init__]. A constant of a built-in sort is created but not registered. *)
Definition declare_constant (l : lang) (name : cname) (s : string) : lang * res unit :=
  match sget (l_sorts l) s with
  | None => (l, Err UndefinedElement)
  | Some r =>
      if s_builtin r then
        match s_kind r with
        | KInterval real lb ub => match cast real lb ub name with Ok _ => (l, Ok tt) | Err e => (l, Err e) end
        | KPlain => (l, Err NotModelled)         (* no plain sort is built-in *)
        end
      else
        match check_name l (has_constant l name) name with
        | Err e => (l, Err e)
        | Ok _ =>
            let reg l' sym := set_index (set_consts l' (dset cname_eqb (l_consts l') name (sym, s))) (dset cname_eqb (l_index l') name (EConst name s)) in
            match s_kind r with
            | KInterval real lb ub => match cast real lb ub name with Ok y => (reg l y, Ok tt) | Err e => (l, Err e) end
            | KPlain => match extend (S (List.length (l_sorts l))) l s name with Ok l1 => (reg l1 name, Ok tt) | Err e => (l, Err e) end
            end
        end
  end.

(** fol.py:288-295 [predicate] *)
Definition declare_predicate (l : lang) (name : string) (args : list string) : lang * res unit :=
  match check_name l (has_predicate l name) (CStr name) with
  | Err e => (l, Err e)
  | Ok _ => match mapM (retrieve l) args with
            | Err e => (l, Err e)
            | Ok ts => (set_index (set_preds l (dset String.eqb (l_preds l) name ts)) (dset cname_eqb (l_index l) (CStr name) (EPred name ts)), Ok tt)
            end
  end.
(** fol.py:315-322 [function]; function.py:10 [args\[-1\]] *)
Definition declare_function (l : lang) (name : string) (args : list string) : lang * res unit :=
  match check_name l (has_function l name) (CStr name) with
  | Err e => (l, Err e)
  | Ok _ => match mapM (retrieve l) args with
            | Err e => (l, Err e)
            | Ok [] => (l, Err IndexError)
            | Ok ts => (set_index (set_funs l (dset String.eqb (l_funs l) name ts)) (dset cname_eqb (l_index l) (CStr name) (EFun name ts)), Ok tt)
            end
  end.
(** fol.py:305-313 [remove_symbol]: only the name of the symbol is used *)
Definition remove_symbol (l : lang) (name : string) : lang * res unit :=
  if has_predicate l name then (set_index (set_preds l (ddel String.eqb (l_preds l) name)) (ddel cname_eqb (l_index l) (CStr name)), Ok tt)
  else if has_function l name then (set_index (set_funs l (ddel String.eqb (l_funs l) name)) (ddel cname_eqb (l_index l) (CStr name)), Ok tt)
  else (l, Err UndefinedElement).

(** fol.py:356-374 [connected_in_type_hierarchy]. The Python list OPEN is kept in reverse: pop takes the last element, which is the head here,
    and [OPEN += \[t2\]] appends. *)
Fixpoint push_new (xs opn : list string) : list string :=
  match xs with [] => opn | x :: xs' => if str_mem x opn then push_new xs' opn else push_new xs' (x :: opn) end.
Fixpoint search (fuel : nat) (l : lang) (goal : string) (opn : list string) : res bool :=
  match fuel with
  | O => Err OutOfFuel
  | S n => match opn with
           | [] => Ok false
           | t :: opn' => if String.eqb t goal then Ok true else search n l goal (push_new (get_set (l_anc l) t) opn')
           end
  end.
Definition connected (fuel : nat) (l : lang) (t0 goal : string) : lang * res bool :=
  if str_mem goal (get_set (l_ind l) t0) then (l, Ok true)
  else match search fuel l goal (rev (get_set (l_anc l) t0)) with
       | Ok true => (set_ind l (dset String.eqb (l_ind l) t0 (union (get_set (l_ind l) t0) [goal])), Ok true)
       | r => (l, r)
       end.
(** fol.py:376-379 and 351-354. The look-ups in the defaultdicts may create empty entries, which is not modelled (it is not observable). *)
Definition is_subtype (fuel : nat) (l : lang) (t st : string) : lang * res bool :=
  match retrieve l t, retrieve l st with
  | Ok t, Ok st => if String.eqb t st then (l, Ok true)
                   else if str_mem st (get_set (l_anc l) t) then (l, Ok true) else connected fuel l t st
  | Err e, _ => (l, Err e)
  | _, Err e => (l, Err e)
  end.
(** fol.py:344-349 [most_restricted_type] *)
Definition most_restricted (fuel : nat) (l : lang) (t1 t2 : string) : lang * res (option string) :=
  let (l1, r1) := is_subtype fuel l t1 t2 in
  match r1 with
  | Err e => (l1, Err e)
  | Ok true => (l1, Ok (Some t1))
  | Ok false => let (l2, r2) := is_subtype fuel l1 t2 t1 in
                match r2 with Err e => (l2, Err e) | Ok true => (l2, Ok (Some t2)) | Ok false => (l2, Ok None) end
  end.

(** Operations of the public interface; [OAttachForeign] is attach_sort with a parent sort of another language. *)
Inductive lop :=
| OSort (name : string) (parent : option string)
| OInterval (name parent : string) (lb ub : Z)
| OConst (name : cname) (s : string)
| OPred (name : string) (args : list string)
| OFun (name : string) (args : list string)
| ORemove (name : string)
| OSubtype (fuel : nat) (t st : string)
| OArith
| OAttachForeign (name : string).
Definition lstep (l : lang) (o : lop) : lang * res unit :=
  match o with
  | OSort n p => declare_sort l n p
  | OInterval n p lb ub => declare_interval l n p lb ub
  | OConst c s => declare_constant l c s
  | OPred n args => declare_predicate l n args
  | OFun n args => declare_function l n args
  | ORemove n => remove_symbol l n
  | OSubtype fuel t st => let (l', r) := is_subtype fuel l t st in (l', let! _ := r in Ok tt)
  | OArith => attach_arithmetic l
  | OAttachForeign n => attach_foreign l n plain_rec
  end.
Definition lrun (ops : list lop) : lang := fold_left (fun l o => fst (lstep l o)) ops lang0.
End Values.

(** sorts.py:76-77 [Sort.domain] (the constants with the names of the domain) and :35-41 [Sort.contains]; :159-164 [Interval.domain] and :126-132 [Interval.contains] *)
Definition zrange (lb ub : Z) : list Z := map (fun n => (lb + Z.of_nat n)%Z) (seq 0 (Z.to_nat (ub - lb + 1))).
Definition sort_domain (l : lang) (s : string) : res (list cname) :=
  match sget (l_sorts l) s with
  | None => Err UndefinedElement
  | Some r => match s_kind r with
              | KPlain => mapM (fun c => match dget cname_eqb (l_consts l) c with Some (sym, _) => Ok sym | None => Err UndefinedElement end) (s_dom r)
              | KInterval _ lb ub => if s_builtin r || Z.ltb 9999 (ub - lb) then Err TarskiError else Ok (map CInt (zrange lb ub))
              end
  end.
Definition sort_contains (parse : bool -> string -> option Z) (l : lang) (s : string) (c : cname) : res bool :=
  match sget (l_sorts l) s with
  | None => Err UndefinedElement
  | Some r => match s_kind r with
              | KPlain => Ok (cn_mem c (s_dom r))
              | KInterval real lb ub => match encode parse real c with None => Ok false | Some y => Ok (Z.leb lb y && Z.leb y ub) end
              end
  end.
(** sorts.py:64-65 and 102-103, [cardinality] *)
Definition sort_cardinality (l : lang) (s : string) : res Z :=
  match sget (l_sorts l) s with
  | None => Err UndefinedElement
  | Some r => match s_kind r with KPlain => Ok (Z.of_nat (List.length (s_dom r))) | KInterval _ lb ub => Ok (ub - lb + 1)%Z end
  end.
