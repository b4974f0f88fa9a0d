(** Independent specification: textbook (Tarskian) semantics of many-sorted first-order logic over structures whose
    sorts have finitely many elements. Nothing here comes from the Python code; it is what "is true in" means. *)
From Verif Require Import Base Syntax.

Record structure : Type := {
  carrier : Type;                             (* the universe *)
  dom : sort -> list carrier;                 (* the elements of each sort *)
  cint : cname -> sort -> carrier;            (* interpretation of constants *)
  fint : fsym -> list carrier -> carrier;     (* of function symbols *)
  pint : psym -> list carrier -> bool         (* of predicate symbols *)
}.

(** Assignments of values to variables. *)
Definition env (M : structure) := var -> carrier M.
Definition upd {M} (e : env M) (x : var) (d : carrier M) : env M :=
  fun y => if var_eqb x y then d else e y.

(** "for some / for all values of the variables [vs] (from left to right), [k] holds". *)
Fixpoint qsem (M : structure) (q : quant) (vs : list term) (k : env M -> bool) (e : env M) : bool :=
  match vs with
  | [] => k e
  | Var x s :: vs' =>
      match q with
      | QEx => existsb (fun d => qsem M q vs' k (upd e (x, s) d)) (dom M s)
      | QAll => forallb (fun d => qsem M q vs' k (upd e (x, s) d)) (dom M s)
      end
  | _ :: vs' => qsem M q vs' k e    (* not a variable: no binding effect (ill-formed formulas only) *)
  end.

Fixpoint tsem (M : structure) (t : term) (e : env M) {struct t} : carrier M :=
  match t with
  | Var x s => e (x, s)
  | Cst c s => cint M c s
  | App f ts => fint M f (map (fun u => tsem M u e) ts)
  | Ite c a b => if fsem M c e then tsem M a e else tsem M b e
  end
with fsem (M : structure) (f : formula) (e : env M) {struct f} : bool :=
  match f with
  | Top => true
  | Bot => false
  | Atom p ts => pint M p (map (fun u => tsem M u e) ts)
  | Comp And fs => forallb (fun g => fsem M g e) fs
  | Comp Or fs => existsb (fun g => fsem M g e) fs
  | Comp Not fs => match fs with [g] => negb (fsem M g e) | _ => false end  (* other arities are not well formed *)
  | Quant q vs g => qsem M q vs (fun e' => fsem M g e') e
  end.

(** [f] and [g] have the same truth value in every structure and under every assignment. *)
Definition equivalent (f g : formula) : Prop := forall (M : structure) (e : env M), fsem M f e = fsem M g e.
