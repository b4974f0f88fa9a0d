(** Reading atoms and models from texts: src/tarski/utils/helpers.py *)
From Coq Require Import Ascii.
From Verif Require Import Base Syntax ModelState Lang.
#[local] Open Scope string_scope.

(** Python's str.rstrip(chars), str.lstrip and str.strip, for a set of characters *)
Fixpoint rstrip (P : ascii -> bool) (s : string) : string :=
  match s with "" => "" | String c r => match rstrip P r with "" => if P c then "" else String c "" | r' => String c r' end end.
Fixpoint lstrip (P : ascii -> bool) (s : string) : string := match s with "" => "" | String c r => if P c then lstrip P r else s end.
(** The ASCII characters for which str.isspace holds: 9-13, 28-32 *)
Definition blank (c : ascii) : bool := let n := nat_of_ascii c in (Nat.leb 9 n && Nat.leb n 13) || (Nat.leb 28 n && Nat.leb n 32).
Definition strip (s : string) : string := lstrip blank (rstrip blank s).
(** str.replace("(", ",") and str.split(",") *)
Fixpoint commas (s : string) : string := match s with "" => "" | String c r => String (if Ascii.eqb c "(" then ","%char else c) (commas r) end.
Fixpoint split_commas (s : string) : list string :=
  match s with
  | "" => [""]
  | String c r => if Ascii.eqb c "," then "" :: split_commas r else match split_commas r with x :: l => String c x :: l | [] => [String c ""] end
  end.
(** helpers.py:9-10 *)
Definition fields (s : string) : list string := map strip (split_commas (commas (rstrip (fun c => Ascii.eqb c ")") s))).

Section Language.
Variables (fuel : nat) (l : lang).
(** helpers.py:11-12: lang.get gives the element registered under a name (fol.py:415-437); for a constant, the Constant object with its (cast) symbol *)
Inductive found := FTerm (t : term) | FOther.
Definition get_argument (s : string) : res found :=
  let! e := lget l (CStr s) in
  match e with EConst c _ => match dget cname_eqb (l_consts l) c with Some (sym, r) => Ok (FTerm (Cst sym r)) | None => Err NotModelled end | _ => Ok FOther end.
(** formulas.py:321-332, after the arities have been compared (317-318) *)
Fixpoint check_arguments (args : list found) (sorts : list sort) : res (list term) :=
  match args, sorts with
  | a :: args', s :: sorts' =>
      match a with
      | FTerm (Cst c r) => let! b := snd (is_subtype fuel l r s) in if b then let! ts := check_arguments args' sorts' in Ok (Cst c r :: ts) else Err SortMismatch
      | FTerm _ => Err NotModelled
      | FOther => Err LanguageError
      end
  | _, _ => Ok []
  end.
(** helpers.py:6-13 [parse_atom]; predicate.py:54-57 calls Atom; a sort or a constant cannot be called. With the name of a function the call gives a compound term: not modelled. *)
Definition parse_atom (s : string) : res (psym * list term) :=
  match fields s with
  | [] => Err IndexError
  | n :: cs =>
      let! e := lget l (CStr n) in
      let! args := mapM get_argument cs in
      match e with
      | EPred p sorts => if Nat.eqb (List.length args) (List.length sorts) then let! ts := check_arguments args sorts in Ok (PU p sorts, ts) else Err ArityMismatch
      | EFun _ _ => Err NotModelled
      | _ => Err TypeError
      end
  end.
(** The language's is_subtype, as Model.add uses it (model.py:29) *)
Definition subtype (r s : sort) : bool := match snd (is_subtype fuel l r s) with Ok b => b | Err _ => false end.
(** helpers.py:16-23 [parse_model] *)
Fixpoint parse_atoms (m : model) (texts : list string) : res model :=
  match texts with [] => Ok m | s :: r => let! a := parse_atom s in let! m' := m_add subtype m (fst a) (snd a) in parse_atoms m' r end.
Definition parse_model (texts : list string) : res model := parse_atoms empty_model texts.
End Language.
