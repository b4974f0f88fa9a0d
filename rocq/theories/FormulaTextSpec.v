(** Specification vocabulary for the text of formulas. Not used by the model. *)
From Coq Require Import Ascii.
From Verif Require Import Base Syntax ModelState ModelText Ltl.
#[local] Open Scope string_scope.

(** * What a text can tell: the tree of a formula, with the names of symbols, variables and constants instead of symbols, and without sorts *)
Inductive skeleton : Set :=
| SVar (x : string) | SConst (c : string) | SApp (f : string) (args : list skeleton) | SIte (condition yes no : skeleton)
| STop | SBot | SAtom (p : string) (args : list skeleton) | SNot (f : skeleton) | SAnd (fs : list skeleton) | SOr (fs : list skeleton)
| SQuant (q : quant) (xs : list string) (f : skeleton)
| SNext (f : skeleton) | SFinally (f : skeleton) | SGlobally (f : skeleton) | SUntil (fs : list skeleton) | SRelease (fs : list skeleton).
Definition named_by_pred (p : psym) : string := match p with PB PEq => "=" | PB PNe => "!=" | PB PLt => "<" | PB PLe => "<=" | PB PGt => ">" | PB PGe => ">=" | PU n _ => n end.
Definition named_by_func (f : fsym) : string := match f with FB BAdd => "+" | FB BSub => "-" | FB BMul => "*" | FB BDiv => "/" | FB (BOther n) => n | FU n _ _ => n end.
Definition variable_name (t : term) : string := match t with Var x _ => x | _ => "" end.
Fixpoint tskel (t : term) : skeleton :=
  match t with
  | Var x _ => SVar x
  | Cst c _ => SConst (name_text c)
  | App f ts => SApp (named_by_func f) (map tskel ts)
  | Ite c a b => SIte (fskel c) (tskel a) (tskel b)
  end
with fskel (f : formula) : skeleton :=
  match f with
  | Top => STop
  | Bot => SBot
  | Atom p ts => SAtom (named_by_pred p) (map tskel ts)
  | Comp Not fs => match fs with [g] => SNot (fskel g) | _ => STop end
  | Comp And fs => SAnd (map fskel fs)
  | Comp Or fs => SOr (map fskel fs)
  | Quant q vs g => SQuant q (map variable_name vs) (fskel g)
  end.
Fixpoint lskel (f : tform) : skeleton :=
  match f with
  | TTop => STop
  | TBot => SBot
  | TAtom p ts => SAtom (named_by_pred p) (map tskel ts)
  | TComp Not fs => match fs with [g] => SNot (lskel g) | _ => STop end
  | TComp And fs => SAnd (map lskel fs)
  | TComp Or fs => SOr (map lskel fs)
  | TTemp OX fs => match fs with [g] => SNext (lskel g) | _ => STop end
  | TTemp OF fs => match fs with [g] => SFinally (lskel g) | _ => STop end
  | TTemp OG fs => match fs with [g] => SGlobally (lskel g) | _ => STop end
  | TTemp OU fs => SUntil (map lskel fs)
  | TTemp OR fs => SRelease (map lskel fs)
  | TQuant q vs g => SQuant q (map variable_name vs) (lskel g)
  end.

(** * The formulas considered *)
Definition punctuation (c : ascii) : bool := Ascii.eqb c "(" || Ascii.eqb c ")" || Ascii.eqb c "," || Ascii.eqb c " ".
(** A name: not empty, no parenthesis, comma or space *)
Definition ok_name (s : string) : Prop := s <> "" /\ existsb punctuation (list_ascii_of_string s) = false.
Section Names.
(** which names are names of variables *)
Variable isvar : string -> bool.
Definition ok_var (t : term) : Prop := match t with Var x _ => ok_name x /\ isvar x = true | _ => False end.
Definition all {A} (P : A -> Prop) : list A -> Prop := fix go l := match l with [] => True | x :: r => P x /\ go r end.
(** Names as above, no constant named like a variable, no function named ite/2, and the arities that the constructors enforce *)
Fixpoint ok_term (t : term) : Prop :=
  match t with
  | Var x _ => ok_name x /\ isvar x = true
  | Cst c _ => ok_name (name_text c) /\ isvar (name_text c) = false
  | App f ts => ok_name (named_by_func f) /\ named_by_func f <> "ite/2" /\ all ok_term ts
  | Ite c a b => ok_form c /\ ok_term a /\ ok_term b
  end
with ok_form (f : formula) : Prop :=
  match f with
  | Top | Bot => True
  | Atom p ts => ok_name (named_by_pred p) /\ all ok_term ts
  | Comp Not fs => match fs with [g] => ok_form g | _ => False end
  | Comp _ fs => 2 <= List.length fs /\ all ok_form fs
  | Quant _ vs g => vs <> [] /\ all ok_var vs /\ ok_form g
  end.
Fixpoint ok_tform (f : tform) : Prop :=
  match f with
  | TTop | TBot => True
  | TAtom p ts => ok_name (named_by_pred p) /\ all ok_term ts
  | TComp Not fs => match fs with [g] => ok_tform g | _ => False end
  | TComp _ fs => 2 <= List.length fs /\ all ok_tform fs
  | TTemp OU fs | TTemp OR fs => 2 <= List.length fs /\ all ok_tform fs
  | TTemp _ fs => match fs with [g] => ok_tform g | _ => False end
  | TQuant _ vs g => vs <> [] /\ all ok_var vs /\ ok_tform g
  end.
End Names.
(** * Vocabularies in which names determine symbols and sorts *)
Record vocabulary := { v_sort : string -> sort; v_const : string -> cname * sort; v_pred : string -> psym; v_func : string -> fsym }.
Section Vocabulary.
Variable V : vocabulary.
Fixpoint over_term (t : term) : Prop :=
  match t with
  | Var x s => s = v_sort V x
  | Cst c s => (c, s) = v_const V (name_text c)
  | App f ts => f = v_func V (named_by_func f) /\ all over_term ts
  | Ite c a b => over_form c /\ over_term a /\ over_term b
  end
with over_form (f : formula) : Prop :=
  match f with
  | Top | Bot => True
  | Atom p ts => p = v_pred V (named_by_pred p) /\ all over_term ts
  | Comp _ fs => all over_form fs
  | Quant _ vs g => all over_term vs /\ over_form g
  end.
End Vocabulary.
