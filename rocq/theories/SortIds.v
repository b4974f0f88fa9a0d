(** Numbering of constants by sort: src/tarski/syntax/ops.py:106-136 and src/tarski/syntax/sorts.py:186-192, 247-252 *)
From Verif Require Import Base Syntax ModelState ModelText Lang.
#[local] Open Scope string_scope.

(** sorts.py:186-192 [children] (a set), in the order [sorted(..., key=name)] of ops.py:123 *)
Definition children (l : lang) (s : string) : list string :=
  sorted (map fst (filter (fun kv => match snd kv with Some p => String.eqb p s | None => false end) (l_parent l))).
Definition is_interval (l : lang) (s : string) : bool := match sget (l_sorts l) s with Some r => match s_kind r with KInterval _ _ _ => true | KPlain => false end | None => false end.
(** Constant objects: symbol and sort; references to them are compared by these (symrefs.py, terms.py:344-345). *)
Definition cobj := (cname * string)%type.
Definition cobj_eqb (a b : cobj) : bool := cname_eqb (fst a) (fst b) && String.eqb (snd a) (snd b).
(** sorts.py:247-252 [compute_direct_sort_map]: the entry of a non-builtin sort (KeyError for the others) *)
Definition direct (l : lang) (s : string) : res (list cobj) :=
  match sget (l_sorts l) s with
  | Some r => if s_builtin r then Err KeyError else Ok (filter (fun o => String.eqb (snd o) s) (map snd (l_consts l)))
  | None => Err KeyError
  end.
(** [sorted(objects, key=lambda x: x.name)]: names are compared with [<]; comparing a string with an integer raises TypeError. Any stable sort
    gives this list. *)
Definition name_leb (a b : cname) : bool :=
  match a, b with CStr x, CStr y => String.leb x y | CInt x, CInt y => Z.leb x y | CInt _, CStr _ => true | CStr _, CInt _ => false end.
Fixpoint oinsert (o : cobj) (l : list cobj) : list cobj :=
  match l with [] => [o] | x :: l' => if name_leb (fst o) (fst x) then o :: l else x :: oinsert o l' end.
Fixpoint osort (l : list cobj) : list cobj := match l with [] => [] | x :: l' => oinsert x (osort l') end.
Definition is_cstr (c : cname) : bool := match c with CStr _ => true | CInt _ => false end.
Definition sort_objects (l : list cobj) : res (list cobj) :=
  if forallb (fun o => is_cstr (fst o)) l || forallb (fun o => negb (is_cstr (fst o))) l then Ok (osort l) else Err TypeError.

(** ops.py:121-136 [_compute_id_assignment]; the pair (ids, bounds) is threaded through *)
Definition idstate := (list (cobj * nat) * list (string * (nat * nat)))%type.
Fixpoint number (l : lang) (os : list cobj) (st : idstate) (lb : nat) : idstate * nat :=
  match os with
  | [] => (st, lb)
  | o :: os' => number l os' (dset cobj_eqb (fst st) o lb, snd st) (S lb)
  end.
Fixpoint assign (fuel : nat) (l : lang) (s : string) (st : idstate) (start : nat) : res idstate :=
  match fuel with
  | O => Err OutOfFuel
  | S n =>
      let! r := fold_left (fun acc c =>
                  let! sl := acc in
                  if is_interval l c then Ok sl                                        (* ops.py:124-125 *)
                  else let! d := sort_domain l c in
                       let! st' := assign n l c (fst sl) (snd sl) in
                       Ok (st', snd sl + List.length d))                              (* ops.py:126-128 *)
                (children l s) (Ok (st, start)) in
      let! os := direct l s in
      let! os' := sort_objects os in
      let (st2, lb2) := number l os' (fst r) (snd r) in
      Ok (fst st2, dset String.eqb (snd st2) s (start, lb2))                          (* ops.py:136 *)
  end.
(** ops.py:106-118 [compute_sort_id_assignment] *)
Definition sort_ids (l : lang) (start : nat) : res idstate := assign (S (List.length (l_sorts l))) l "object" ([], []) start.
