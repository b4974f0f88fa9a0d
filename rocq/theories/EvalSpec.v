(** Specification for the evaluator. Nothing here is used by the model of the evaluator. *)
From Verif Require Import Base Syntax Semantics ModelState.
#[local] Open Scope string_scope.

(** Reading of the comparison symbols on names: numeric on ints, lexicographic on strings; undefined between the two
    (except for equality). *)
Definition name_cmp (b : bpred) (x y : cname) : option bool :=
  match b with
  | PEq => Some (if cname_eq_dec x y then true else false)
  | PNe => Some (if cname_eq_dec x y then false else true)
  | _ =>
      match x, y with
      | CInt a, CInt c =>
          let o := Z.compare a c in
          Some (match b, o with PLt, Lt => true | PLe, (Lt | Eq) => true | PGt, Gt => true | PGe, (Gt | Eq) => true | _, _ => false end)
      | CStr a, CStr c =>
          let o := String.compare a c in
          Some (match b, o with PLt, Lt => true | PLe, (Lt | Eq) => true | PGt, Gt => true | PGe, (Gt | Eq) => true | _, _ => false end)
      | _, _ => None
      end
  end.
(** Machine integers: results of + - * outside [-(2^31-1), 2^31-1] are undefined. *)
Definition arith_value (b : bfun) (x y : Z) : option Z :=
  let r := match b with BAdd => Some (x + y)%Z | BSub => Some (x - y)%Z | BMul => Some (x * y)%Z | _ => None end in
  match r with Some z => if Z.leb (Z.abs z) (2 ^ 31 - 1) then Some z else None | None => None end.

(** A structure agrees with a model when it makes the same atoms over constants true, gives the same function values, and
    reads comparisons and arithmetic as above. *)
Definition value_in (M : structure) (t : term) : carrier M :=
  match t with Cst c s => cint M c s | _ => cint M (CStr "") "" end.
Definition is_constant (t : term) : Prop := exists c s, t = Cst c s.
Record agrees (M : structure) (m : model) : Prop := {
  agree_pred : forall n ss pt, Forall is_constant pt -> pint M (PU n ss) (map (value_in M) pt) = m_holds m (PU n ss) pt;
  agree_fun : forall n d c pt v, Forall is_constant pt -> m_value m (FU n d c) pt = Ok v ->
    fint M (FU n d c) (map (value_in M) pt) = value_in M v;
  agree_cmp : forall b x s y r v, name_cmp b x y = Some v -> pint M (PB b) [cint M x s; cint M y r] = v;
  agree_arith : forall b x s y r z, arith_value b x y = Some z ->
    fint M (FB b) [cint M (CInt x) s; cint M (CInt y) r] = cint M (CInt z) "Integer"
}.
(** Function values stored in a model are constants (an invariant of [Model.set]). *)
Definition constant_valued (m : model) : Prop := forall f pt v, m_value m f pt = Ok v -> is_constant v.

(** Strict partial semantics: [None] as soon as some subterm or subformula has no value. *)
Definition sequence {A} : list (option A) -> option (list A) :=
  fix sequence l := match l with
  | [] => Some []
  | Some x :: l' => match sequence l' with Some xs => Some (x :: xs) | None => None end
  | None :: _ => None
  end.
Fixpoint den_t (m : model) (t : term) {struct t} : option term :=
  match t with
  | Var _ _ => None
  | Cst c s => Some (Cst c s)
  | App f ts =>
      match sequence (map (den_t m) ts) with
      | None => None
      | Some vs =>
          match f with
          | FU _ _ _ => match m_value m f vs with Ok v => Some v | Err _ => None end
          | FB b => match vs with
                    | [Cst (CInt x) _; Cst (CInt y) _] => match arith_value b x y with Some z => Some (Cst (CInt z) "Integer") | None => None end
                    | _ => None
                    end
          end
      end
  | Ite c a b =>
      match den m c, den_t m a, den_t m b with
      | Some true, Some v, Some _ => Some v
      | Some false, Some _, Some v => Some v
      | _, _, _ => None
      end
  end
with den (m : model) (f : formula) {struct f} : option bool :=
  match f with
  | Top => Some true
  | Bot => Some false
  | Atom p ts =>
      match sequence (map (den_t m) ts) with
      | None => None
      | Some vs =>
          match p with
          | PU _ _ => Some (m_holds m p vs)
          | PB b => match vs with [Cst x _; Cst y _] => name_cmp b x y | _ => None end
          end
      end
  | Comp c fs =>
      match sequence (map (den m) fs) with
      | None => None
      | Some bs =>
          match c with
          | And => Some (forallb id bs)
          | Or => Some (existsb id bs)
          | Not => match bs with [b] => Some (negb b) | _ => None end
          end
      end
  | Quant _ _ _ => None
  end.

(** No branch of an if-then-else is itself an if-then-else. *)
Definition is_ite (t : term) : bool := match t with Ite _ _ _ => true | _ => false end.
Fixpoint flat_ite_t (t : term) : bool :=
  match t with
  | Var _ _ | Cst _ _ => true
  | App _ ts => forallb flat_ite_t ts
  | Ite c a b => flat_ite c && negb (is_ite a) && negb (is_ite b) && flat_ite_t a && flat_ite_t b
  end
with flat_ite (f : formula) : bool :=
  match f with
  | Top | Bot => true
  | Atom _ ts => forallb flat_ite_t ts
  | Comp _ fs => forallb flat_ite fs
  | Quant _ _ g => flat_ite g
  end.

(** The free (Herbrand) structure of a model: the universe is the set of terms. *)
Definition herbrand (m : model) : structure :=
  {| carrier := term; dom := fun _ => []; cint := Cst;
     fint := fun f pt => match f, pt with
                         | FB b, [Cst (CInt x) _; Cst (CInt y) _] => match arith_value b x y with Some z => Cst (CInt z) "Integer" | None => App f pt end
                         | FB _, _ => App f pt
                         | FU _ _ _, _ => match m_value m f pt with Ok v => v | Err _ => App f pt end
                         end;
     pint := fun p pt => match p, pt with
                         | PB b, [Cst x _; Cst y _] => match name_cmp b x y with Some v => v | None => false end
                         | PB _, _ => false
                         | PU _ _, _ => m_holds m p pt
                         end |}.
