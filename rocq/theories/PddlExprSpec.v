(** Independent specification: what the conditions, expressions and effects of PDDL mean, and which are well formed. *)
From Verif Require Import Base Syntax Semantics ModelState Lang Theories RddlRead PddlInstance PddlInstanceSpec PddlExpr.
#[local] Open Scope string_scope.
#[local] Open Scope list_scope.

(** ** Worlds: what the symbols of a PDDL domain stand for *)
Record world := {
  w_car :> Type;
  w_eqb : w_car -> w_car -> bool;
  w_eqb_ok : forall x y, w_eqb x y = true <-> x = y;
  w_num : Z -> w_car;                             (* whole numbers *)
  w_real : string -> w_car;                       (* other decimal numbers, as written *)
  w_01 : w_num 0 <> w_num 1;
  w_add : w_car -> w_car -> w_car; w_sub : w_car -> w_car -> w_car; w_mul : w_car -> w_car -> w_car; w_div : w_car -> w_car -> w_car;
  w_less : w_car -> w_car -> bool;
  w_dom : string -> list w_car;                   (* the objects of a type *)
  w_obj : string -> w_car;                        (* the object with a name *)
  w_pred : string -> list w_car -> bool;          (* where a predicate holds *)
  w_fun : string -> list w_car -> w_car           (* the values of a function *)
}.
Definition w_leq (W : world) (x y : W) : bool := w_less W x y || w_eqb W x y.
(** Truth as a number *)
Definition truth (W : world) (b : bool) : W := if b then w_num W 1 else w_num W 0.
Definition compare (W : world) (b : bpred) (x y : W) : bool :=
  match b with PEq => w_eqb W x y | PNe => negb (w_eqb W x y) | PLt => w_less W x y | PLe => w_leq W x y | PGt => w_less W y x | PGe => w_leq W y x end.
(** The structure that interprets the first-order language of the domain in the same way: predicates are the functions into Bool. *)
Definition structure_of (W : world) : structure := {|
  carrier := W;
  dom := w_dom W;
  cint := fun c s => match c with CInt z => w_num W z | CStr n => if String.eqb s "Real" then w_real W n else w_obj W n end;
  fint := fun f xs =>
    match f, xs with
    | FB BAdd, [x; y] => w_add W x y | FB BSub, [x; y] => w_sub W x y | FB BMul, [x; y] => w_mul W x y | FB BDiv, [x; y] => w_div W x y
    | FB _, _ => w_num W 0
    | FU n _ cod, _ => if String.eqb cod "Bool" then truth W (w_pred W n xs) else w_fun W n xs
    end;
  pint := fun p xs => match p, xs with PB b, [x; y] => compare W b x y | _, _ => false end
|}.

(** ** Meaning *)
Section Meaning.
  Variable W : world.
  Variable preds : list string.                   (* the names of the predicates *)
  Definition names := string -> W.
  Definition bind_name (e : names) (x : string) (d : W) : names := fun y => if String.eqb x y then d else e y.
  (** The value of a symbol for some arguments; a predicate used as a term stands for 1 or 0. *)
  Definition symbol (f : string) (xs : list W) : W := if str_mem f preds then truth W (w_pred W f xs) else w_fun W f xs.
  Fixpoint term_value (e : names) (t : ptm) : W :=
    match t with PId n => w_obj W n | PVar x => e x | PApp f ts => symbol f (map (term_value e) ts) end.
  Fixpoint exp_value (e : names) (x : pfe) : W :=
    match x with
    | FNat z | FReal (CInt z) => w_num W z
    | FReal (CStr r) => w_real W r
    | FVar x => e x
    | FId f => symbol f []
    | FApp f ts => symbol f (map (term_value e) ts)
    | FMinus a b => w_sub W (exp_value e a) (exp_value e b)
    | FDiv a b => w_div W (exp_value e a) (exp_value e b)
    | FPlus a b r => fold_left (w_add W) (map (exp_value e) r) (w_add W (exp_value e a) (exp_value e b))
    | FTimes a b r => fold_left (w_mul W) (map (exp_value e) r) (w_mul W (exp_value e a) (exp_value e b))
    | FNeg a => w_sub W (w_num W 0) (exp_value e a)
    end.
  (** for some / for all objects of the given types *)
  Fixpoint quantify (some : bool) (vs : list (string * string)) (k : names -> bool) (e : names) : bool :=
    match vs with
    | [] => k e
    | (x, ty) :: r => let all := map (fun d => quantify some r k (bind_name e x d)) (w_dom W ty) in if some then existsb (fun b => b) all else forallb (fun b => b) all
    end.
  Fixpoint gd_value (e : names) (g : gd) : bool :=
    match g with
    | GAtom p ts => w_pred W p (map (term_value e) ts)
    | GNotAtom p ts => negb (w_pred W p (map (term_value e) ts))
    | GEq a b => w_eqb W (term_value e a) (term_value e b)
    | GNotEq a b => negb (w_eqb W (term_value e a) (term_value e b))
    | GAnd gs => forallb (gd_value e) gs
    | GOr gs => existsb (gd_value e) gs
    | GNot g => negb (gd_value e g)
    | GImply g h => implb (gd_value e g) (gd_value e h)
    | GEx vs g => quantify true (typed_variables vs) (fun e => gd_value e g) e
    | GAll vs g => quantify false (typed_variables vs) (fun e => gd_value e g) e
    | GComp b x y => compare W b (exp_value e x) (exp_value e y)
    end.
  (** What an effect does: the value of a symbol at some arguments becomes another one. *)
  Definition head_point (e : names) (h : phead) : string * list W := match h with HId n => (n, []) | HApp f ts => (f, map (term_value e) ts) end.
  Definition change := ((string * list W) * W)%type.
  Definition by_amount (f : W -> W -> W) (e : names) (h : phead) (x : pfe) : option change := Some (head_point e h, f (symbol (fst (head_point e h)) (snd (head_point e h))) (exp_value e x)).
  Definition effect_change (e : names) (f : peff) : option change :=
    match f with
    | EAtom p ts => Some ((p, map (term_value e) ts), w_num W 1)
    | ENot p ts => Some ((p, map (term_value e) ts), w_num W 0)
    | EEq (PApp f ts) b => Some ((f, map (term_value e) ts), term_value e b)
    | EAssign h x => Some (head_point e h, exp_value e x)
    | EAssignTerm f ts t => Some ((f, map (term_value e) ts), term_value e t)
    | EScaleUp h x => by_amount (w_mul W) e h x
    | EScaleDown h x => by_amount (w_div W) e h x
    | EIncrease h x => by_amount (w_add W) e h x
    | EDecrease h x => by_amount (w_sub W) e h x
    | _ => None
    end.
End Meaning.
(** The change that an assignment makes in a structure *)
Definition assignment_change (W : world) (a : assignment) (e : env (structure_of W)) : option (change W) :=
  match a with
  | (ITerm (App (FU f _ _) ts), v) => Some ((f, map (fun u => tsem (structure_of W) u e) ts), match v with PyTerm u => tsem (structure_of W) u e | PyVal c => cint (structure_of W) c "" end)
  | _ => None
  end.

(** ** Scopes *)
(** The variables of the quantifiers of a condition *)
Fixpoint quantified_names (g : gd) : list string :=
  match g with
  | GAnd gs | GOr gs => flat_map quantified_names gs
  | GNot g => quantified_names g
  | GImply g h => quantified_names g ++ quantified_names h
  | GEx vs g | GAll vs g => map fst (typed_variables vs) ++ quantified_names g
  | _ => []
  end.
(** The symbols of the atoms of a condition *)
Fixpoint atom_symbols (g : gd) : list string :=
  match g with
  | GAtom p _ | GNotAtom p _ => [p]
  | GAnd gs | GOr gs => flat_map atom_symbols gs
  | GNot g | GEx _ g | GAll _ g => atom_symbols g
  | GImply g h => atom_symbols g ++ atom_symbols h
  | _ => []
  end.
(** No quantifier uses a variable twice, or one that a quantifier around it or the scope uses. *)
Inductive no_rebinding : list string -> gd -> Prop :=
| nb_atom sc p ts : no_rebinding sc (GAtom p ts)
| nb_natom sc p ts : no_rebinding sc (GNotAtom p ts)
| nb_eq sc a b : no_rebinding sc (GEq a b)
| nb_neq sc a b : no_rebinding sc (GNotEq a b)
| nb_comp sc b x y : no_rebinding sc (GComp b x y)
| nb_and sc gs : Forall (no_rebinding sc) gs -> no_rebinding sc (GAnd gs)
| nb_or sc gs : Forall (no_rebinding sc) gs -> no_rebinding sc (GOr gs)
| nb_not sc g : no_rebinding sc g -> no_rebinding sc (GNot g)
| nb_imply sc g h : no_rebinding sc g -> no_rebinding sc h -> no_rebinding sc (GImply g h)
| nb_ex sc vs g : NoDup (map fst (typed_variables vs)) -> (forall x, In x (map fst (typed_variables vs)) -> ~ In x sc) -> no_rebinding (map fst (typed_variables vs) ++ sc) g -> no_rebinding sc (GEx vs g)
| nb_all sc vs g : NoDup (map fst (typed_variables vs)) -> (forall x, In x (map fst (typed_variables vs)) -> ~ In x sc) -> no_rebinding (map fst (typed_variables vs) ++ sc) g -> no_rebinding sc (GAll vs g).

(** ** Types *)
Section Types.
  Variable es : list tentry.
  Variable ds : list decl.
  (** The names of predicates: the symbols whose values are truth values *)
  Definition predicate_names : list string := map fst (filter (fun s => String.eqb (last (snd s) "") "Bool") (signatures ds)).
  (** Besides the types of the domain, every number is an object. *)
  Definition conforms (s t : string) : Prop := s = t \/ t = "object" \/ above (pairs_of es) s t.
  Definition symbols : list (string * list string) := ("ite", ["object"; "object"; "object"]) :: signatures ds.
  Inductive has_type (sc : list (string * string)) : ptm -> string -> Prop :=
  | ht_object n s : In (n, s) (all_constants ds) -> has_type sc (PId n) s
  | ht_variable x s : In (x, s) sc -> has_type sc (PVar x) s
  | ht_apply f ss cod ts : In (f, ss ++ [cod]) symbols -> has_types sc ts ss -> has_type sc (PApp f ts) cod
  with has_types (sc : list (string * string)) : list ptm -> list string -> Prop :=
  | hts_nil : has_types sc [] []
  | hts_cons t ts s s' ss : has_type sc t s' -> conforms s' s -> has_types sc ts ss -> has_types sc (t :: ts) (s :: ss).
  Definition numeric (s : string) : Prop := In s numeric_sorts.
  (** The type of the head of an assignment, and of an expression *)
  Definition head_type (sc : list (string * string)) (h : phead) (s : string) : Prop :=
    match h with HId n => In (n, [s]) symbols | HApp f ts => exists ss, In (f, ss ++ [s]) symbols /\ has_types sc ts ss end.
  Inductive exp_type (sc : list (string * string)) : pfe -> string -> Prop :=
  | et_nat z : (Z.abs z <= 2 ^ 31 - 1)%Z -> exp_type sc (FNat z) "Integer"
  | et_round z : (Z.abs z <= 2 ^ 53)%Z -> exp_type sc (FReal (CInt z)) "Real"
  | et_real r : exp_type sc (FReal (CStr r)) "Real"
  | et_variable x s : In (x, s) sc -> exp_type sc (FVar x) s
  | et_id f s : head_type sc (HId f) s -> exp_type sc (FId f) s
  | et_apply f ts s : head_type sc (HApp f ts) s -> exp_type sc (FApp f ts) s
  | et_minus a b s t : exp_type sc a s -> numeric s -> exp_type sc b t -> numeric t -> exp_type sc (FMinus a b) "Real"
  | et_div a b s t : exp_type sc a s -> numeric s -> exp_type sc b t -> numeric t -> exp_type sc (FDiv a b) "Real"
  | et_plus a b r : Forall (fun x => exists s, exp_type sc x s /\ numeric s) (a :: b :: r) -> exp_type sc (FPlus a b r) "Real"
  | et_times a b r : Forall (fun x => exists s, exp_type sc x s /\ numeric s) (a :: b :: r) -> exp_type sc (FTimes a b r) "Real".
  (** An atom is a symbol with a numeric value, such as a predicate. *)
  Definition atom_ok (sc : list (string * string)) (p : string) (ts : list ptm) : Prop := exists ss cod, In (p, ss ++ [cod]) symbols /\ numeric cod /\ has_types sc ts ss.
  Definition variables_ok (vs : list vtoken) : Prop := forall t, In t (mentioned vs) -> In t (types_of es).
  Inductive gd_ok : list (string * string) -> gd -> Prop :=
  | ok_atom sc p ts : atom_ok sc p ts -> gd_ok sc (GAtom p ts)
  | ok_natom sc p ts : atom_ok sc p ts -> gd_ok sc (GNotAtom p ts)
  | ok_eq sc a b s t : has_type sc a s -> has_type sc b t -> gd_ok sc (GEq a b)
  | ok_neq sc a b s t : has_type sc a s -> has_type sc b t -> gd_ok sc (GNotEq a b)
  | ok_and sc gs : Forall (gd_ok sc) gs -> gd_ok sc (GAnd gs)
  | ok_or sc gs : Forall (gd_ok sc) gs -> gd_ok sc (GOr gs)
  | ok_not sc g : gd_ok sc g -> gd_ok sc (GNot g)
  | ok_imply sc g h : gd_ok sc g -> gd_ok sc h -> gd_ok sc (GImply g h)
  | ok_ex sc vs g : typed_variables vs <> [] -> variables_ok vs -> gd_ok (typed_variables vs ++ sc) g -> gd_ok sc (GEx vs g)
  | ok_all sc vs g : typed_variables vs <> [] -> variables_ok vs -> gd_ok (typed_variables vs ++ sc) g -> gd_ok sc (GAll vs g)
  | ok_comp sc b x y s t : exp_type sc x s -> exp_type sc y t -> (b = PEq \/ b = PNe \/ (numeric s /\ numeric t)) -> gd_ok sc (GComp b x y).
  Definition scales (f : peff) : option (phead * pfe) := match f with EScaleUp h x | EScaleDown h x | EIncrease h x | EDecrease h x => Some (h, x) | _ => None end.
  Definition effect_ok (sc : list (string * string)) (f : peff) : Prop :=
    match f with
    | EAtom p ts | ENot p ts => exists ss cod, In (p, ss ++ [cod]) symbols /\ has_types sc ts ss
    | EEq a b => ((exists s, has_type sc a s) \/ exists n, a = PId n /\ In n (reserved ++ types_of es ++ map fst (signatures ds))) /\ exists t, has_type sc b t   (* a symbol or type on the left is not rejected *)
    | EAssign h x => exists s t, head_type sc h s /\ exp_type sc x t
    | EAssignTerm f ts u => exists s t, head_type sc (HApp f ts) s /\ has_type sc u t
    | EScaleUp h x | EScaleDown h x | EIncrease h x | EDecrease h x => exists s t, head_type sc h s /\ numeric s /\ exp_type sc x t /\ numeric t
    | _ => False
    end.
  Definition action_ok (params : list vtoken) (pre : option gd) (eff : option (list peff)) : Prop :=
    variables_ok params /\ NoDup (map fst (typed_variables params)) /\
    (forall g, pre = Some g -> gd_ok (typed_variables params) g /\ no_rebinding (map fst (typed_variables params)) g) /\
    forall fs, eff = Some fs -> Forall (effect_ok (typed_variables params)) fs.
  (** ** Durative actions *)
  Definition durative_ok (params : list vtoken) (dur : ddur) (pre : option (list dgd)) (eff : option (list deff)) : Prop :=
    let sc := typed_variables params in
    variables_ok params /\ NoDup (map fst sc) /\
    match dur with DurIs x => exists s, exp_type sc x s | DurNone => True | DurOther => False end /\
    match pre with Some cs => forall c, In c cs -> exists w g, c = DCond w g /\ gd_ok sc g /\ no_rebinding (map fst sc) g | None => False end /\
    match eff with Some es => forall c, In c es -> exists b f, c = DEff b f /\ effect_ok sc f | None => False end.
  (** ** Initial facts *)
  Definition init_ok (f : pinit) : Prop :=
    match f with
    | IAtom p ts => exists ss cod, In (p, ss ++ [cod]) symbols /\ has_types [] ts ss
    | IEqNum a _ => (exists s, has_type [] a s) \/ exists n, a = PId n /\ In n (reserved ++ types_of es ++ map fst (signatures ds))
    | IEqId a n => ((exists s, has_type [] a s) \/ exists n, a = PId n /\ In n (reserved ++ types_of es ++ map fst (signatures ds))) /\ exists t, In (n, t) (all_constants ds)
    | IEqTerm a b => ((exists s, has_type [] a s) \/ exists n, a = PId n /\ In n (reserved ++ types_of es ++ map fst (signatures ds))) /\ exists t, has_type [] b t
    | _ => False
    end.
End Types.
(** The conditions for the start, the end or the whole of a durative action, and the effects at its start or its end *)
Definition conditions_at (w : when) (cs : list dgd) : list gd := flat_map (fun c => match c with DCond w' g => if when_eqb w' w then [g] else [] | DAll => [] end) cs.
Definition effects_at (at_end : bool) (es : list deff) : list peff := flat_map (fun c => match c with DEff b f => if Bool.eqb b at_end then [f] else [] | _ => [] end) es.
Definition init_change (W : world) (preds : list string) (e : names W) (f : pinit) : option (change W) :=
  match f with
  | IAtom p ts => Some ((p, map (term_value W preds e) ts), w_num W 1)
  | IEqNum (PApp f ts) (CInt z) => Some ((f, map (term_value W preds e) ts), w_num W z)
  | IEqId (PApp f ts) n => Some ((f, map (term_value W preds e) ts), w_obj W n)
  | IEqTerm (PApp f ts) u => Some ((f, map (term_value W preds e) ts), term_value W preds e u)
  | _ => None
  end.
