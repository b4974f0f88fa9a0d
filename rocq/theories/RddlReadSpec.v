(** Independent specification of what an RDDL expression means, and of what the reader accepts. *)
From Coq Require Import Ascii.
From Verif Require Import Base Syntax Build Semantics SubstSpec ArithSpec RddlSpec ModelState Lang LangSpec Theories QElim RddlRead.
#[local] Open Scope string_scope.
#[local] Open Scope list_scope.

(** A name in a text is that of a fluent of the current state, or of the next state if a prime follows. *)
Fixpoint plain_name (n : string) : bool := match n with "" => true | String c r => negb (Ascii.eqb c "'") && plain_name r end.
Definition fluent_of (n : string) : option (bool * string) :=
  if plain_name n then Some (false, n) else match unprime n with Some m => if plain_name m then Some (true, m) else None | None => None end.
Definition is_variable (w : string) : bool := match w with String c _ => Ascii.eqb c "?" | "" => false end.

(** ** Meaning over the numbers of a field *)
Section Meaning.
  Variable K : field.
  Variable U : rest K.
  Notation M := (arith K U).
  (** What the names stand for, in the current and in the next state *)
  Variable dict : bool -> string -> list (carrier M) -> option (val M).
  Definition number (v : val M) : option (F K) := match v with VE (Some x) => Some x | VE None => None | VB true => Some (f1 K) | VB false => Some (f0 K) end.
  Definition defined (x : option (F K)) : option (val M) := match x with Some y => Some (@VE M (Some y)) | None => None end.
  Fixpoint numbers (l : list (option (val M))) : option (list (F K)) :=
    match l with
    | [] => Some []
    | Some v :: r => match number v, numbers r with Some x, Some xs => Some (x :: xs) | _, _ => None end
    | None :: _ => None
    end.
  (** truth values count as 1 and 0; division by zero has no value *)
  Definition calculate (op : string) (l : list (option (val M))) : option (val M) :=
    match numbers l with
    | Some [x] => if String.eqb op "-" then Some (@VE M (Some (fopp K x))) else if String.eqb op "+" then Some (@VE M (Some x)) else None
    | Some [x; y] =>
        if String.eqb op "+" then Some (@VE M (Some (fadd K x y))) else if String.eqb op "-" then Some (@VE M (Some (fsub K x y)))
        else if String.eqb op "*" then Some (@VE M (Some (fmul K x y))) else if String.eqb op "/" then (if f_is0 K y then None else Some (@VE M (Some (fdiv K x y)))) else None
    | _ => None
    end.
  Definition relate (op : string) (l : list (option (val M))) : option (val M) :=
    match l with
    | [Some (VE x); Some (VE y)] =>
        if String.eqb op "==" then Some (VB (r_pred U (PB PEq) [x; y])) else if String.eqb op "~=" then Some (VB (r_pred U (PB PNe) [x; y]))
        else if String.eqb op "<" then Some (VB (r_pred U (PB PLt) [x; y])) else if String.eqb op "<=" then Some (VB (r_pred U (PB PLe) [x; y]))
        else if String.eqb op ">" then Some (VB (r_pred U (PB PGt) [x; y])) else if String.eqb op ">=" then Some (VB (r_pred U (PB PGe) [x; y])) else None
    | [Some (VB x); Some (VB y)] => if String.eqb op "==" then Some (VB (Bool.eqb x y)) else if String.eqb op "~=" then Some (VB (negb (Bool.eqb x y))) else None
    | _ => None
    end.
  Definition connect (op : string) (l : list (option (val M))) : option (val M) :=
    match booleans M l with
    | Some bs =>
        if String.eqb op "^" || String.eqb op "&" then Some (VB (forallb (fun b => b) bs)) else if String.eqb op "|" then Some (VB (existsb (fun b => b) bs))
        else match bs with
             | [x] => if String.eqb op "~" then Some (VB (negb x)) else None
             | [x; y] => if String.eqb op "=>" then Some (VB (implb x y)) else if String.eqb op "<=>" then Some (VB (Bool.eqb x y)) else None
             | _ => None
             end
    | None => None
    end.
  Definition functions : list (string * bfun) := rddl_functions ++ rddl_random ++ [("pow", BOther "**")].
  Definition argument (a : rarg) (e : string -> carrier M) : option (val M) :=
    match a with
    | GName w => if is_variable w then Some (@VE M (e w)) else dict false w []
    | GNum (CInt z) => Some (@VE M (Some (f_int K z)))
    | GNum (CStr w) => Some (@VE M (r_cst U (CStr w) "Real"))
    end.
  Definition sum (l : list (F K)) : F K := fold_right (fadd K) (f0 K) l.
  Definition prod (l : list (F K)) : F K := fold_right (fmul K) (f1 K) l.
  Definition total_of (op : string) (l : list (option (val M))) : option (val M) :=
    if String.eqb op "sum" then option_map (fun xs => @VE M (Some (sum xs))) (numbers l) else if String.eqb op "prod" then option_map (fun xs => @VE M (Some (prod xs))) (numbers l)
    else if String.eqb op "forall" then option_map (fun bs => VB (forallb (fun b => b) bs)) (booleans M l)
    else if String.eqb op "exists" then option_map (fun bs => VB (existsb (fun b => b) bs)) (booleans M l) else None.
  Definition choose (l : list (option (val M))) : option (val M) := match l with [Some (VB b); x; y] => if b then x else y | _ => None end.
  (** The values of the last of the trees [es], the ones before it being the variables it ranges over *)
  Definition ranging_over (sem : rast -> (string -> carrier M) -> option (val M)) : list rast -> (string -> carrier M) -> list (option (val M)) :=
    fix go es e :=
      match es with
      | [] => [None]
      | [b] => [sem b e]
      | NTyped x ty :: r => flat_map (fun d => go r (bind_name e x d)) (r_dom U ty)
      | _ :: _ => [None]
      end.
  Fixpoint rmeaning (a : rast) (e : string -> carrier M) {struct a} : option (val M) :=
    let args := map (fun b => rmeaning b e) in
    match a with
    | NLit (LInt z) | NLit (LFloat (CInt z)) => Some (@VE M (Some (f_int K z)))
    | NLit (LFloat (CStr w)) => Some (@VE M (r_cst U (CStr w) "Real"))
    | NLit (LBool b) => Some (VB b)
    | NPvar n gs =>
        match fluent_of n, elements M (map (fun g => argument g e) (match gs with Some gs => gs | None => [] end)) with
        | Some (next, m), Some xs => dict next m xs
        | _, _ => None
        end
    | NTyped _ _ => None
    | NIf es => choose (args es)
    | NRel op es => relate op (args es)
    | NAgg op es => total_of op (ranging_over rmeaning es e)
    | NArith op es => calculate op (args es)
    | NFunc n es => match elements M (args es), lookup n functions with Some xs, Some b => Some (VE (fint M (FB b) xs)) | _, _ => None end
    | NBool op es => connect op (args es)
    | NOther _ => None
    end.
End Meaning.
(** The meaning of what the reader returns *)
Definition meaning (M : structure) (x : arg) (e : env M) : val M := match x with ATerm t => VE (tsem M t e) | AForm f => VB (fsem M f e) end.

(** ** The conditions under which the two agree *)
Section Conditions.
  Variable l : lang.
  (** Every name stands for the symbol or object of that name in the language; a primed predicate is that of the next state. *)
  Definition names_stand_for (K : field) (U : rest K) (dict : bool -> string -> list (carrier (arith K U)) -> option (val (arith K U))) : Prop :=
    forall n e, lget l (CStr n) = Ok e ->
      match e with
      | EConst c s => dict false n [] = Some (@VE (arith K U) (cint (arith K U) c s))
      | EPred p ss => forall xs, List.length xs = List.length ss -> dict false n xs = Some (VB (r_pred U (PU p ss) xs)) /\ dict true n xs = Some (VB (r_pred U (PU (p ++ "'")%string ss) xs))
      | EFun f ss => forall xs, List.length xs = List.length (removelast ss) -> dict false n xs = Some (@VE (arith K U) (r_fun U (FU f (removelast ss) (last ss "")) xs))
      | ESort s => s = n
      end.
  (** The elements of a sort that is not built in are the constants of that sort. *)
  Definition elements_named (D : domains) (K : field) (U : rest K) : Prop :=
    forall s cs, D s = Some cs -> Forall (fun u => exists c s', u = Cst c s') cs /\ r_dom U s = map (fun u => tsem (arith K U) u (fun _ => None)) cs.
  (** The variables of an expression, each with the type it is declared with by a quantifier, or the one of the parameter it is given to *)
  Definition parameter_sorts (n : string) : list sort := match lget l (CStr n) with Ok (EPred _ ss) => ss | Ok (EFun _ ss) => removelast ss | _ => [] end.
  Definition argument_uses (n : string) (gs : list rarg) : list (string * sort) :=
    flat_map (fun gs => match gs with (GName w, s) => if is_variable w then [(w, s)] else [] | _ => [] end) (combine gs (parameter_sorts (match fluent_of n with Some (_, m) => m | None => n end))).
  Fixpoint uses (a : rast) : list (string * sort) :=
    match a with
    | NPvar n (Some gs) => argument_uses n gs
    | NTyped x ty => [(x, ty)]
    | NIf es | NRel _ es | NAgg _ es | NArith _ es | NFunc _ es | NBool _ es => flat_map uses es
    | _ => []
    end.
  (** Every variable is used at one type only. *)
  Definition well_typed_variables (a : rast) : Prop := forall x s s', In (x, s) (uses a) -> In (x, s') (uses a) -> s = s'.
End Conditions.
Fixpoint nodes (a : rast) : list rast := a :: match a with NIf es | NRel _ es | NAgg _ es | NArith _ es | NFunc _ es | NBool _ es => flat_map nodes es | _ => [] end.
(** Quantifiers and aggregates have one variable each. *)
Definition single_variables (a : rast) : Prop := forall op es, In (NAgg op es) (nodes a) -> exists x ty b, es = [NTyped x ty; b].
(** Inside a sum or a product, no quantifier binds the same variable again. *)
Definition not_requantified (a : rast) : Prop :=
  forall op x ty b ty' es, In (NAgg op [NTyped x ty; b]) (nodes a) -> op <> "forall" -> ~ In (NAgg "forall" (NTyped x ty' :: es)) (nodes b).

(** ** What the reader accepts *)
Inductive rtype : Set := TBool | TNum | TObj (s : sort).
Definition type_of_sort (s : sort) : rtype := if String.eqb s "Real" || String.eqb s "Integer" then TNum else TObj s.
Section Accepted.
  Variable st : tlang.
  Variable D : domains.
  Notation l := (t_lang st).
  (** The arguments of a fluent: a variable, or an object whose type is one of the subtypes of that of the parameter *)
  Definition argument_accepted (g : rarg) (s : sort) : Prop :=
    exists w, g = GName w /\ w <> "" /\ (is_variable w = true \/ exists c s', lget l (CStr w) = Ok (EConst c s') /\ le l s' s).
  Definition arguments_accepted (gs : option (list rarg)) (ss : list sort) : Prop :=
    match gs with None => ss = [] | Some gs => Forall2 argument_accepted gs ss end.
  Inductive accepted : rast -> rtype -> Prop :=
  | a_int z : (Z.abs z <= 2 ^ 53)%Z -> accepted (NLit (LInt z)) TNum
  | a_float w : accepted (NLit (LFloat (CStr w))) TNum
  | a_round z : (Z.abs z <= 2 ^ 53)%Z -> accepted (NLit (LFloat (CInt z))) TNum
  | a_pred n next m p ss gs : fluent_of n = Some (next, m) -> lget l (CStr m) = Ok (EPred p ss) -> Forall (is_sort l) ss -> arguments_accepted gs ss -> accepted (NPvar n gs) TBool
  | a_fun n m f ss gs : fluent_of n = Some (false, m) -> lget l (CStr m) = Ok (EFun f ss) -> ss <> [] -> Forall (is_sort l) ss -> arguments_accepted gs (removelast ss) -> accepted (NPvar n gs) (type_of_sort (last ss ""))
  | a_if c a b t : accepted c TBool -> accepted a t -> accepted b t -> t <> TBool -> accepted (NIf [c; a; b]) t
  | a_eq a b t u : accepted a t -> accepted b u -> t <> TBool -> u <> TBool -> accepted (NRel "==" [a; b]) TBool
  | a_compare op a b : op = "<=" \/ op = ">=" -> accepted a TNum -> accepted b TNum -> accepted (NRel op [a; b]) TBool
  | a_arith op a b : In op ["+"; "-"; "*"; "/"] -> accepted a TNum -> accepted b TNum -> accepted (NArith op [a; b]) TNum
  | a_minus a : accepted a TNum -> accepted (NArith "-" [a]) TNum
  | a_factor a b : accepted a TBool -> accepted b TNum -> accepted (NArith "*" [a; b]) TNum
  | a_factor' a b : accepted a TNum -> accepted b TBool -> accepted (NArith "*" [a; b]) TNum
  | a_func1 n a : In n ["abs"; "sqrt"; "exp"] -> accepted a TNum -> accepted (NFunc n [a]) TNum
  | a_func2 n a b : In n ["pow"; "max"; "Normal"; "Gamma"] -> accepted a TNum -> accepted b TNum -> accepted (NFunc n [a; b]) TNum
  | a_not a : accepted a TBool -> accepted (NBool "~" [a]) TBool
  | a_bool op a b : In op ["^"; "|"; "=>"] -> accepted a TBool -> accepted b TBool -> accepted (NBool op [a; b]) TBool
  | a_sum op x ty b t cs : op = "sum" \/ op = "prod" -> lget l (CStr ty) = Ok (ESort ty) -> D ty = Some cs -> cs <> [] -> accepted b t -> t = TBool \/ t = TNum ->
      accepted (NAgg op [NTyped x ty; b]) TNum
  | a_forall x ty b : lget l (CStr ty) = Ok (ESort ty) -> accepted b TBool -> accepted (NAgg "forall" [NTyped x ty; b]) TBool.
End Accepted.
