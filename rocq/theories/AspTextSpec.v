(** Specification: how gringo reads the text of a logic program (the part of its input language that matters here), what such a program says, and which names can be written. Of the model only the data types of
    problems and languages are used; [make_variable_name] and [sanitize] do not occur. *)
From Coq Require Import Ascii.
From Verif Require Import Base Syntax SubstSpec ModelState ModelText Lang LangSpec Effects Represent Grounding.
#[local] Open Scope string_scope.

(** * Characters *)
Definition between (lo hi : nat) (c : ascii) : bool := Nat.leb lo (nat_of_ascii c) && Nat.leb (nat_of_ascii c) hi.
Definition lowercase := between 97 122.
Definition uppercase := between 65 90.
Definition digit := between 48 57.
Definition blank (c : ascii) : bool := Ascii.eqb c " " || Ascii.eqb c (ascii_of_nat 10).
(** The characters of words: letters, digits, underscores and quotes *)
Definition word_char (c : ascii) : bool := lowercase c || uppercase c || digit c || Ascii.eqb c "_" || Ascii.eqb c "'".
Fixpoint all (P : ascii -> bool) (s : string) : bool := match s with "" => true | String c s' => P c && all P s' end.

(** * Tokens *)
Inductive token := Identifier (s : string) | VariableName (s : string) | Numeral (s : string) | LParen | RParen | Comma | Dot | If | Op (s : string).
(** A word is an identifier or a variable, depending on the first character that is neither an underscore nor a quote, or a number without leading zeros; [not] is reserved, and the word _ (an anonymous variable) is left out. *)
Fixpoint starts (P : ascii -> bool) (s : string) : bool := match s with "" => false | String c s' => if Ascii.eqb c "_" || Ascii.eqb c "'" then starts P s' else P c end.
Definition numeral (s : string) : bool := match s with "" => false | String c s' => all digit s && (negb (Ascii.eqb c "0") || String.eqb s' "") end.
Definition word (s : string) : option token :=
  if String.eqb s "not" then None else if starts lowercase s then Some (Identifier s) else if starts uppercase s then Some (VariableName s) else if numeral s then Some (Numeral s) else None.
Definition after (w : string) (r : option (list token)) : option (list token) :=
  match w with "" => r | _ => match word w, r with Some t, Some l => Some (t :: l) | _, _ => None end end.
Definition more (t : token) (r : option (list token)) : option (list token) := match r with Some l => Some (t :: l) | None => None end.
(** [w]: the word read so far *)
Fixpoint tokens (w : string) (s : string) : option (list token) :=
  match s with
  | "" => after w (Some [])
  | String c s' =>
      if word_char c then tokens (w ++ String c "") s'
      else after w
        (if blank c then tokens "" s'
         else if Ascii.eqb c "(" then more LParen (tokens "" s')
         else if Ascii.eqb c ")" then more RParen (tokens "" s')
         else if Ascii.eqb c "," then more Comma (tokens "" s')
         else if Ascii.eqb c "." then more Dot (tokens "" s')
         else if Ascii.eqb c "=" then more (Op "=") (tokens "" s')
         else if Ascii.eqb c ":" then match s' with String d s'' => if Ascii.eqb d "-" then more If (tokens "" s'') else None | _ => None end
         else if Ascii.eqb c "!" then match s' with String d s'' => if Ascii.eqb d "=" then more (Op "!=") (tokens "" s'') else None | _ => None end
         else if Ascii.eqb c "<" then match s' with String d s'' => if Ascii.eqb d "=" then more (Op "<=") (tokens "" s'') else more (Op "<") (tokens "" s') | _ => more (Op "<") (tokens "" s') end
         else if Ascii.eqb c ">" then match s' with String d s'' => if Ascii.eqb d "=" then more (Op ">=") (tokens "" s'') else more (Op ">") (tokens "" s') | _ => more (Op ">") (tokens "" s') end
         else None)
  end.

(** * Programs *)
Inductive argument := Known (s : string) | Unknown (x : string).
Inductive literal := Holds (p : string) (args : list argument) | Compares (op : string) (x y : argument).
Record clause := { c_pred : string; c_args : list argument; c_body : list literal }.
Definition argument_of (t : token) : option argument := match t with Identifier s | Numeral s => Some (Known s) | VariableName x => Some (Unknown x) | _ => None end.
(** The rest of a list of arguments *)
Fixpoint read_more (l : list token) : option (list argument * list token) :=
  match l with
  | RParen :: l' => Some ([], l')
  | Comma :: t :: l' => match argument_of t, read_more l' with Some a, Some (args, rest) => Some (a :: args, rest) | _, _ => None end
  | _ => None
  end.
Definition read_arguments (l : list token) : option (list argument * list token) :=
  match l with
  | LParen :: RParen :: l' => Some ([], l')
  | LParen :: t :: l' => match argument_of t, read_more l' with Some a, Some (args, rest) => Some (a :: args, rest) | _, _ => None end
  | _ => Some ([], l)
  end.
Definition read_literal (l : list token) : option (literal * list token) :=
  match l with
  | t :: Op o :: u :: l' => match argument_of t, argument_of u with Some x, Some y => Some (Compares o x y, l') | _, _ => None end
  | Identifier p :: l' => match read_arguments l' with Some (args, rest) => Some (Holds p args, rest) | None => None end
  | _ => None
  end.
(** Literals up to the dot; [n] bounds the number of literals *)
Fixpoint read_literals (n : nat) (l : list token) : option (list literal * list token) :=
  match n, read_literal l with
  | S _, Some (x, Dot :: rest) => Some ([x], rest)
  | S n', Some (x, Comma :: rest) => match read_literals n' rest with Some (xs, rest') => Some (x :: xs, rest') | None => None end
  | _, _ => None
  end.
Definition read_body (n : nat) (l : list token) : option (list literal * list token) :=
  match l with Dot :: rest => Some ([], rest) | If :: Dot :: rest => Some ([], rest) | If :: rest => read_literals n rest | _ => None end.
Definition read_clause (n : nat) (l : list token) : option (clause * list token) :=
  match l with
  | Identifier p :: l' =>
      match read_arguments l' with
      | Some (args, rest) => match read_body n rest with Some (body, rest') => Some ({| c_pred := p; c_args := args; c_body := body |}, rest') | None => None end
      | None => None
      end
  | _ => None
  end.
Fixpoint read_clauses (n : nat) (l : list token) : option (list clause) :=
  match l, n with
  | [], _ => Some []
  | _, O => None
  | _, S n' => match read_clause n l with Some (c, rest) => match read_clauses n' rest with Some cs => Some (c :: cs) | None => None end | None => None end
  end.
(** The program in a text; [None] if the text is not a program *)
Definition read_program (s : string) : option (list clause) := match tokens "" s with Some l => read_clauses (List.length l) l | None => None end.

(** * What a program says: its least model. As in C38, only the comparisons = and != can be true. *)
Definition ground (theta : string -> string) (a : argument) : string := match a with Known s => s | Unknown x => theta x end.
Inductive follows (P : list clause) : string -> list string -> Prop :=
| follows_clause c theta : In c P ->
    (forall p args, In (Holds p args) (c_body c) -> follows P p (map (ground theta) args)) ->
    (forall op x y, In (Compares op x y) (c_body c) -> (op = "=" /\ ground theta x = ground theta y) \/ (op = "!=" /\ ground theta x <> ground theta y)) ->
    follows P (c_pred c) (map (ground theta) (c_args c)).
(** gringo refuses a clause with a variable that is neither in an atom of the body nor equated there with a bound argument. *)
Inductive bound_in (body : list literal) : argument -> Prop :=
| bound_constant s : bound_in body (Known s)
| bound_atom p args x : In (Holds p args) body -> In (Unknown x) args -> bound_in body (Unknown x)
| bound_left x y : In (Compares "=" x y) body -> bound_in body y -> bound_in body x
| bound_right x y : In (Compares "=" x y) body -> bound_in body x -> bound_in body y.
Definition safe (c : clause) : Prop :=
  (forall a, In a (c_args c) -> bound_in (c_body c) a) /\
  (forall p args a, In (Holds p args) (c_body c) -> In a args -> bound_in (c_body c) a) /\
  (forall op x y, In (Compares op x y) (c_body c) -> bound_in (c_body c) x /\ bound_in (c_body c) y).

(** * Names *)
(** Names of predicates, sorts and actions: letters, digits, underscores and hyphens *)
Definition name_char (c : ascii) : bool := lowercase c || uppercase c || digit c || Ascii.eqb c "_" || Ascii.eqb c "-".
Definition symbol_name (s : string) : bool := all name_char s.
(** Constants: an optional sequence of underscores and hyphens, a lower-case letter, and such characters; or a natural number. Not the word [not]. *)
Fixpoint starts_lower (s : string) : bool := match s with "" => false | String c s' => if Ascii.eqb c "_" || Ascii.eqb c "-" then starts_lower s' else lowercase c end.
Definition constant_name (c : cname) : Prop := match c with CStr s => all name_char s = true /\ starts_lower s = true /\ s <> "not" | CInt z => (0 <= z)%Z end.
(** Variables: possibly a character that is no letter, like the question mark, then a letter, and such characters *)
Definition letter (c : ascii) : bool := lowercase c || uppercase c.
Definition variable_name (s : string) : bool :=
  match s with
  | "" => false
  | String c s' => if letter c then all name_char s' else match s' with "" => false | String d s'' => letter d && all name_char s'' end
  end.
(** Terms, formulas and effects in which all names are like that *)
Fixpoint spelled_term (t : term) : Prop :=
  match t with
  | Var x s => variable_name x = true /\ symbol_name s = true
  | Cst c s => constant_name c /\ symbol_name s = true
  | App _ ts => fold_right (fun u P => spelled_term u /\ P) True ts
  | Ite _ _ _ => True
  end.
Fixpoint spelled_formula (f : formula) : Prop :=
  match f with
  | Top | Bot => True
  | Atom p ts => match p with PU n _ => symbol_name n = true | PB _ => True end /\ Forall spelled_term ts
  | Comp _ fs => fold_right (fun g P => spelled_formula g /\ P) True fs
  | Quant _ vs g => Forall spelled_term vs /\ spelled_formula g
  end.
Fixpoint spelled_effect (e : effect) : Prop :=
  match e with
  (** an effect cannot make a comparison true *)
  | EAdd c a => spelled_formula c /\ spelled_formula a /\ match a with Atom (PB _) _ => False | _ => True end
  | EDel c a | ELit c a => spelled_formula c /\ spelled_formula a
  | EUni c vs es => Forall spelled_term vs /\ fold_right (fun e P => spelled_effect e /\ P) True es
  | _ => True
  end.
Record spelled (l : lang) (p : problem) : Prop := {
  sp_sorts : forall s, is_sort l s -> symbol_name s = true;
  (** [sym]: the constant's symbol, which for constants of intervals is the number that the name stands for *)
  sp_constants : forall c sym s, In (c, (sym, s)) (l_consts l) -> constant_name sym;
  (** the numbers of intervals are not negative *)
  sp_intervals : forall s r b lb ub, In (s, r) (l_sorts l) -> s_kind r = KInterval b lb ub -> (0 <= lb)%Z;
  sp_init : forall n ss pts pt, In ((false, n :: ss), pts) (preds (p_init p)) -> In pt pts -> symbol_name n = true /\ Forall spelled_term pt;
  sp_actions : forall a, In a (p_actions p) -> symbol_name (a_name a) = true /\ Forall spelled_term (a_params a) /\ spelled_formula (a_pre a) /\ Forall spelled_effect (a_effs a);
  sp_goal : spelled_formula (p_goal p) }.

(** * Comparisons that the grounder can evaluate *)
(** The variables in comparisons of a formula, without those bound by a universal quantifier. Disjunctions and existentially quantified formulas become rules of their own, so what is inside them does not count. *)
Fixpoint compared (f : formula) : list var :=
  match f with
  | Atom (PB _) ts => vars_of ts
  | Comp And fs | Comp Not fs => flat_map compared fs
  | Quant QAll vs g => filter (fun v => negb (mem_var v (vars_of vs))) (compared g)
  | _ => []
  end.
(** What is compared in an existentially quantified formula are its own variables and constants. Universal quantifiers bind variables, and not those of an outer one or of a universal effect ([U]). *)
Fixpoint locally_compared (U : list var) (f : formula) : Prop :=
  match f with
  | Comp _ fs => fold_right (fun g P => locally_compared U g /\ P) True fs
  | Quant QEx vs g => incl (compared g) (vars_of vs) /\ locally_compared U g
  | Quant QAll vs g => forallb is_var vs = true /\ (forall v, In v (vars_of vs) -> ~ In v U) /\ locally_compared (vars_of vs ++ U)%list g
  | _ => True
  end.
(** Effects add atoms over the variables [W] and the universally quantified ones. *)
Fixpoint bound_effect (U W : list var) (e : effect) : Prop :=
  match e with
  | EAdd c a => locally_compared U c /\ incl (compared c) W /\ match a with Atom _ ts => incl (vars_of ts) W | _ => True end
  | EUni c vs es => fold_right (fun e P => bound_effect (vars_of vs ++ U)%list (vars_of vs ++ W)%list e /\ P) True es
  | _ => True
  end.
Record bound_problem (p : problem) : Prop := {
  bp_init : forall n ss pts pt t, In ((false, n :: ss), pts) (preds (p_init p)) -> In pt pts -> In t pt -> is_var t = false;
  bp_pre : forall a, In a (p_actions p) -> locally_compared [] (a_pre a) /\ incl (compared (a_pre a)) (param_vars a);
  bp_effs : forall a e, In a (p_actions p) -> In e (a_effs a) -> bound_effect [] (param_vars a) e;
  bp_goal : locally_compared [] (p_goal p) /\ compared (p_goal p) = [] }.
