(** First-order models as mutable objects: src/tarski/model.py *)
From Verif Require Import Base Syntax.
#[local] Open Scope string_scope.

(** Signatures: predicate.py:26-27 and function.py:27-28 (name, then sort names; a function's codomain comes last).
    Built-in symbols have an Enum value as name; [Model.add] / [Model.set] reject them. *)
Definition signature := (bool * list string)%type.  (* true: the name is an Enum value (built-in symbol) *)
Definition bpred_name (b : bpred) : string := match b with PEq => "=" | PNe => "!=" | PLt => "<" | PLe => "<=" | PGt => ">" | PGe => ">=" end.
Definition psig (p : psym) : signature := match p with PB b => (true, [bpred_name b]) | PU n ss => (false, n :: ss) end.
Definition bfun_name (b : bfun) : string := match b with BAdd => "+" | BSub => "-" | BMul => "*" | BDiv => "/" | BOther n => n end.
Definition fsig (f : fsym) : signature := match f with FB b => (true, [bfun_name b]) | FU n d c => (false, (n :: d ++ [c])%list) end.
Definition sig_eqb (a b : signature) : bool :=
  Bool.eqb (fst a) (fst b) && if list_eq_dec string_dec (snd a) (snd b) then true else false.

(** Points: tuples of references to constants (model.py:242-244 [wrap_tuple]); compared with [term_eqb]. *)
Fixpoint points_eqb (a b : list term) : bool :=
  match a, b with [], [] => true | x :: a', y :: b' => term_eqb x y && points_eqb a' b' | _, _ => false end.

(** Python dictionaries as association lists in insertion order; assignment to an existing key keeps its place. *)
Section Dict.
  Context {K V : Type} (eqb : K -> K -> bool).
  Fixpoint dget (d : list (K * V)) (k : K) : option V :=
    match d with [] => None | (k', v) :: d' => if eqb k' k then Some v else dget d' k end.
  Fixpoint dset (d : list (K * V)) (k : K) (v : V) : list (K * V) :=
    match d with [] => [(k, v)] | (k', v') :: d' => if eqb k' k then (k', v) :: d' else (k', v') :: dset d' k v end.
  Fixpoint ddel (d : list (K * V)) (k : K) : list (K * V) :=
    match d with [] => [] | (k', v') :: d' => if eqb k' k then d' else (k', v') :: ddel d' k end.
End Dict.

(** A Python set of points: duplicate-free list. *)
Definition pt_mem (x : list term) (l : list (list term)) : bool := existsb (fun y => points_eqb y x) l.
Definition pt_add (x : list term) (l : list (list term)) : list (list term) := if pt_mem x l then l else (l ++ [x])%list.
Fixpoint pt_del (x : list term) (l : list (list term)) : list (list term) :=
  match l with [] => [] | y :: l' => if points_eqb y x then l' else y :: pt_del x l' end.

(** model.py:41-49: the two dictionaries *)
Record model := {
  funs : list (signature * list (list term * term));
  preds : list (signature * list (list term))
}.
Definition empty_model : model := {| funs := []; preds := [] |}.

(** model.py:8-38 [_check_assignment] on constants: arity, then sort of each element. [sub] is the language's [is_subtype].
    Simplifications: the elements are Constant objects of the same language (no Python literals to cast). *)
Definition sort_of (t : term) : option sort :=
  match t with Cst _ s => Some s | _ => None end.
Fixpoint check_sorts (sub : sort -> sort -> bool) (elements : list term) (typ : list sort) : res unit :=
  match elements, typ with
  | t :: ts, s :: ss =>
      match sort_of t with
      | None => Err NotModelled
      | Some r => if sub r s then check_sorts sub ts ss else Err SortMismatch
      end
  | _, _ => Ok tt
  end.
Definition check_assignment (sub : sort -> sort -> bool) (typ : list sort) (elements : list term) : res unit :=
  if Nat.eqb (List.length typ) (List.length elements) then check_sorts sub elements typ else Err ArityMismatch.

(** model.py:102-116 [Model.add] *)
Definition m_add (sub : sort -> sort -> bool) (m : model) (p : psym) (args : list term) : res model :=
  match p with
  | PB _ => Err SemanticError
  | PU n ss =>
      let! _ := check_assignment sub ss args in
      let ext := match dget sig_eqb (preds m) (psig p) with Some e => e | None => [] end in
      Ok {| funs := funs m; preds := dset sig_eqb (preds m) (psig p) (pt_add args ext) |}
  end.

Definition is_cst (t : term) : bool := match t with Cst _ _ => true | _ => false end.

(** model.py:78-100 [Model.set] and :227-230. A term that is not a CompoundTerm takes the deprecated path (:80-86), which
    concatenates a list and a tuple: TypeError. *)
Definition m_set (sub : sort -> sort -> bool) (m : model) (t : term) (v : term) : res model :=
  match t with
  | App (FB _) _ => Err SemanticError
  | App (FU n d c) args =>
      if forallb is_cst args then
        let! _ := check_assignment sub (d ++ [c])%list (args ++ [v])%list in
        let ext := match dget sig_eqb (funs m) (fsig (FU n d c)) with Some e => e | None => [] end in
        Ok {| funs := dset sig_eqb (funs m) (fsig (FU n d c)) (dset points_eqb ext args v); preds := preds m |}
      else Err SemanticError
  | _ => Err TypeError
  end.

(** model.py:118-121 [Model.remove]: KeyError when the signature or the point is absent *)
Definition m_remove (m : model) (p : psym) (args : list term) : res model :=
  match dget sig_eqb (preds m) (psig p) with
  | None => Err KeyError
  | Some ext => if pt_mem args ext then Ok {| funs := funs m; preds := dset sig_eqb (preds m) (psig p) (pt_del args ext) |} else Err KeyError
  end.
(** model.py:123-128 [Model.discard] *)
Definition m_discard (m : model) (p : psym) (args : list term) : model :=
  match dget sig_eqb (preds m) (psig p) with
  | None => m
  | Some ext => {| funs := funs m; preds := dset sig_eqb (preds m) (psig p) (pt_del args ext) |}
  end.
(** model.py:130-133 [Model.value], :232-233 *)
Definition m_value (m : model) (f : fsym) (point : list term) : res term :=
  match dget sig_eqb (funs m) (fsig f) with
  | None => Err KeyError
  | Some ext => match dget points_eqb ext point with Some v => Ok v | None => Err KeyError end
  end.
(** model.py:135-140 [Model.holds] *)
Definition m_holds (m : model) (p : psym) (point : list term) : bool :=
  match dget sig_eqb (preds m) (psig p) with None => false | Some ext => pt_mem point ext end.
(** model.py:207-215 [Model.remove_symbol]: by signature, functions first *)
Definition remove_signature (m : model) (s : signature) : model :=
  match dget sig_eqb (funs m) s with
  | Some _ => {| funs := ddel sig_eqb (funs m) s; preds := preds m |}
  | None => match dget sig_eqb (preds m) s with
            | Some _ => {| funs := funs m; preds := ddel sig_eqb (preds m) s |}
            | None => m
            end
  end.

(** Operations and histories. A failing call leaves the object in the state it had when the exception was raised; in every
    branch above the exception is raised before any assignment, hence [snd = m]. *)
Inductive mop :=
| OAdd (p : psym) (args : list term)
| OSet (t : term) (v : term)
| ORemove (p : psym) (args : list term)
| ODiscard (p : psym) (args : list term)
| ORemovePred (p : psym)
| ORemoveFun (f : fsym).
Definition of_res (m : model) (r : res model) : option exn * model :=
  match r with Ok m' => (None, m') | Err e => (Some e, m) end.
Definition mstep (sub : sort -> sort -> bool) (m : model) (o : mop) : option exn * model :=
  match o with
  | OAdd p args => of_res m (m_add sub m p args)
  | OSet t v => of_res m (m_set sub m t v)
  | ORemove p args => of_res m (m_remove m p args)
  | ODiscard p args => (None, m_discard m p args)
  | ORemovePred p => (None, remove_signature m (psig p))
  | ORemoveFun f => (None, remove_signature m (fsig f))
  end.
Definition mrun (sub : sort -> sort -> bool) (ops : list mop) (m : model) : model :=
  fold_left (fun m o => snd (mstep sub m o)) ops m.
