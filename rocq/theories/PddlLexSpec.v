(** Specification: how a PDDL text is split, and what the tokens are. Of the model only the type of tokens is used. *)
From Coq Require Import Ascii ZArith.
From Verif Require Import Base.
From Verif Require Import PddlLex.
#[local] Open Scope string_scope.

Definition between (lo hi : nat) (c : ascii) : bool := Nat.leb lo (nat_of_ascii c) && Nat.leb (nat_of_ascii c) hi.
Definition letter (c : ascii) : bool := between 65 90 c || between 97 122 c.
Definition digit (c : ascii) : bool := between 48 57 c.
Definition dash (c : ascii) : bool := Ascii.eqb c "-" || Ascii.eqb c "_".
Definition end_of_line : ascii := ascii_of_nat 10.
Definition blank (c : ascii) : bool := Ascii.eqb c " " || Ascii.eqb c (ascii_of_nat 9) || Ascii.eqb c end_of_line.
Fixpoint all (P : ascii -> bool) (s : string) : bool := match s with "" => true | String c s' => P c && all P s' end.
Fixpoint last_is (P : ascii -> bool) (s : string) : bool := match s with "" => false | String c s' => match s' with "" => P c | _ => last_is P s' end end.
Definition first_is (P : ascii -> bool) (s : string) : bool := match s with "" => false | String c _ => P c end.
(** A name: letters, digits, hyphens and underscores, from a letter to a letter or a digit *)
Definition name (w : string) : Prop := first_is letter w = true /\ all (fun c => letter c || digit c || dash c) w = true /\ last_is (fun c => letter c || digit c) w = true.
Definition digits (w : string) : Prop := w <> "" /\ all digit w = true.
(** The rest of a text goes on with a name: some hyphens and underscores and then a letter or a digit. *)
Definition continues (rest : string) : Prop := exists a c b, rest = a ++ String c b /\ all dash a = true /\ (letter c || digit c)%bool = true.

(** The signs of PDDL, and the names of their tokens *)
Definition signs : list (string * string) :=
  [("(", "LPAREN"); (")", "RPAREN"); ("=", "EQUA"); ("<", "LT"); (">", "GT"); ("<=", "LEQ"); (">=", "GEQ"); ("+", "PLUS"); ("-", "MINUS"); ("*", "TIMES"); ("/", "DIV"); ("?", "QUESTION"); ("..", "DOUBLEDOT")].
Definition keywords : list (string * string) :=
  [("all", "rwALL"); ("always", "rwALWAYS"); ("always-within", "rwALWAYS_WITHIN"); ("and", "rwAND"); ("assign", "rwASSIGN"); ("at", "rwAT");
   ("at-most-once", "rwAT_MOST_ONCE"); ("decrease", "rwDECREASE"); ("define", "rwDEFINE"); ("domain", "rwDOMAIN"); ("either", "rwEITHER"); ("end", "rwEND");
   ("exists", "rwEXISTS"); ("float", "rwFLOAT"); ("forall", "rwFORALL"); ("hold-after", "rwHOLD_AFTER"); ("hold-during", "rwHOLD_DURING"); ("imply", "rwIMPLY");
   ("increase", "rwINCREASE"); ("int", "rwINT"); ("is-violated", "rwIS_VIOLATED"); ("maximize", "rwMAXIMIZE"); ("minimize", "rwMINIMIZE"); ("not", "rwNOT");
   ("number", "rwNUMBER"); ("object", "rwOBJECT"); ("or", "rwOR"); ("over", "rwOVER"); ("overall", "rwOVERALL"); ("preference", "rwPREFERENCE");
   ("problem", "rwPROBLEM"); ("scale-down", "rwSCALE_DOWN"); ("scale-up", "rwSCALE_UP"); ("sometime", "rwSOMETIME"); ("sometime-after", "rwSOMETIME_AFTER"); ("sometime-before", "rwSOMETIME_BEFORE");
   ("start", "rwSTART"); ("total-cost", "rwTOTAL_COST"); ("total-time", "rwTOTAL_TIME"); ("undefined", "rwUNDEFINED"); ("when", "rwWHEN"); ("within", "rwWITHIN")].
Definition directives : list (string * string) :=
  [(":action", "rwACTION"); (":action-costs", "rwACTION_COSTS"); (":adl", "rwADL"); (":condition", "rwCONDITION"); (":conditional-effects", "rwCONDITIONAL_EFFECTS"); (":constants", "rwCONSTANTS");
   (":constraints", "rwCONSTRAINTS"); (":continuous-effects", "rwCONTINUOUS_EFFECTS"); (":derived", "rwDERIVED"); (":derived-predicates", "rwDERIVED_PREDICATES"); (":disjunctive-preconditions", "rwDISJUNCTIVE_PRECONDITIONS"); (":domain", "rwDOMAIN_REF");
   (":duration", "rwDURATION"); (":duration-inequalities", "rwDURATION_INEQUALITIES"); (":durative-action", "rwDURATIVE_ACTION"); (":durative-actions", "rwDURATIVE_ACTIONS"); (":effect", "rwEFFECT"); (":equality", "rwEQUALITY");
   (":existential-preconditions", "rwEXISTENTIAL_PRECONDITIONS"); (":fluents", "rwFLUENTS"); (":functions", "rwFUNCTIONS"); (":goal", "rwGOAL"); (":init", "rwINIT"); (":metric", "rwMETRIC");
   (":negative-preconditions", "rwNEGATIVE_PRECONDITIONS"); (":numeric-fluents", "rwNUMERIC_FLUENTS"); (":object-fluents", "rwOBJECT_FLUENTS"); (":objects", "rwOBJECTS"); (":parameters", "rwPARAMETERS"); (":precondition", "rwPRECONDITION");
   (":predicates", "rwPREDICATES"); (":preferences", "rwPREFERENCES"); (":quantified-preconditions", "rwQUANTIFIED_PRECONDITIONS"); (":requirements", "rwREQUIREMENTS"); (":strips", "rwSTRIPS"); (":timed-initial-literals", "rwTIMED_INITIAL_LITERALS");
   (":types", "rwTYPES"); (":typing", "rwTYPING"); (":universal-preconditions", "rwUNIVERSAL_PRECONDITIONS")].
Fixpoint lookup (w : string) (l : list (string * string)) : option string := match l with [] => None | (x, t) :: l' => if String.eqb x w then Some t else lookup w l' end.
Definition named (w : string) (l : list (string * string)) (default : string) : string := match lookup w l with Some t => t | None => default end.

(** * The pieces of a text *)
Inductive piece :=
| Word (w : string) | VarName (w : string) | Directive (w : string) | Opening (w : string)      (* foo, ?foo, :foo, :(foo *)
| Natural (ds : string) | Decimal (ds fs : string)                                               (* 12, 12.5 *)
| Sign (x : string)
| Blank (c : ascii) | Comment (s : string) | Strange (c : ascii).
Definition written (p : piece) : string :=
  match p with
  | Word w => w | VarName w => "?" ++ w | Directive w => ":" ++ w | Opening w => ":(" ++ w
  | Natural ds => ds | Decimal ds fs => ds ++ "." ++ fs
  | Sign x => x | Blank c | Strange c => String c "" | Comment s => ";" ++ s
  end.
(** A piece is as it should be, and the rest of the text does not make it longer or another one. *)
Definition proper_piece (p : piece) (rest : string) : Prop :=
  match p with
  | Word w | VarName w | Directive w | Opening w => name w /\ ~ continues rest
  | Natural ds => digits ds /\ first_is digit rest = false /\ (forall r, rest = "." ++ r -> first_is digit r = false)
  | Decimal ds fs => all digit ds = true /\ digits fs /\ first_is digit rest = false
  | Sign x => (exists t, In (x, t) signs) /\ (x = "<" \/ x = ">" -> first_is (fun c => Ascii.eqb c "=") rest = false) /\ (x = "?" -> first_is letter rest = false)
  | Blank c => blank c = true
  | Comment s => all (fun c => negb (Ascii.eqb c end_of_line)) s = true /\ (rest = "" \/ first_is (fun c => Ascii.eqb c end_of_line) rest = true)
  | Strange c => blank c = false /\ letter c = false /\ digit c = false /\ c <> ";"%char /\ (forall t, ~ In (String c "", t) signs) /\
                 (c = ":"%char -> first_is letter rest = false /\ forall r, rest = "(" ++ r -> first_is letter r = false) /\
                 (c = "."%char -> first_is digit rest = false /\ first_is (fun d => Ascii.eqb d ".") rest = false)
  end.
Inductive splits : string -> list piece -> Prop :=
| s_end : splits "" []
| s_piece p ps rest : proper_piece p rest -> splits rest ps -> splits (written p ++ rest) (p :: ps).

(** * The tokens *)
Definition lower_letter (c : ascii) : ascii := if between 65 90 c then ascii_of_nat (nat_of_ascii c + 32) else c.
Fixpoint lower_case (s : string) : string := match s with "" => "" | String c s' => String (lower_letter c) (lower_case s') end.
(** The number that digits stand for *)
Fixpoint number (ds : string) : Z := match ds with "" => 0 | String c s' => (Z.of_nat (nat_of_ascii c) - 48) * 10 ^ Z.of_nat (String.length s') + number s' end.
Definition sense (p : piece) : option (string * value) :=
  match p with
  | Word w => Some (named w keywords "ID", Text (lower_case w))
  | VarName w => Some ("VAR", Text ("?" ++ w))
  | Directive w => Some (named (":" ++ w) directives "UNKNOWN_DIRECTIVE", Text (":" ++ w))
  | Natural ds => Some ("NAT", Int (number ds))
  | Decimal ds fs => Some ("REAL", Decimals (number ds * 10 ^ Z.of_nat (String.length fs) + number fs) (String.length fs))
  | Sign x => Some (named x signs "", Text x)
  | Opening _ | Blank _ | Comment _ | Strange _ => None
  end.
Definition line_end (p : piece) : nat := match p with Blank c => if Ascii.eqb c end_of_line then 1 else 0 | _ => 0 end.
(** The tokens of the pieces, each with the number of its line *)
Fixpoint tokens_of (line : nat) (ps : list piece) : list token :=
  match ps with
  | [] => []
  | p :: ps' => (match sense p with Some (ty, v) => [{| t_line := line; t_type := ty; t_value := v |}] | None => [] end ++ tokens_of (line + line_end p) ps')%list
  end.
Fixpoint line_ends (s : string) : nat := match s with "" => 0 | String c s' => (if Ascii.eqb c end_of_line then 1 else 0) + line_ends s' end.
