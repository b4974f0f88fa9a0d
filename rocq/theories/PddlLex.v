(** The tokenizer of the PLY-based PDDL reader: src/tarski/io/pddl/lexer.py (with the loop of ply's Lexer.token). Characters are bytes: a character that is not ASCII is a few bytes here, which the
    tokenizer skips like the character. *)
From Coq Require Import Ascii ZArith.
From Verif Require Import Base.
From Verif Require Asp.
#[local] Open Scope string_scope.
#[local] Open Scope list_scope.

(** lexer.py:26-124 [LexSymbols], line 136: the words of the attributes, in order (an attribute that is assigned twice keeps its place). The dictionary of line 136 keeps the last attribute for a word. *)
Definition symbols : list (string * string) :=
  [(":strips", "rwSTRIPS"); (":typing", "rwTYPING"); (":negative-preconditions", "rwNEGATIVE_PRECONDITIONS"); (":disjunctive-preconditions", "rwDISJUNCTIVE_PRECONDITIONS"); (":equality", "rwEQUALITY"); (":existential-preconditions", "rwEXISTENTIAL_PRECONDITIONS");
   (":universal-preconditions", "rwUNIVERSAL_PRECONDITIONS"); (":quantified-preconditions", "rwQUANTIFIED_PRECONDITIONS"); (":conditional-effects", "rwCONDITIONAL_EFFECTS"); (":object-fluents", "rwOBJECT_FLUENTS"); (":numeric-fluents", "rwNUMERIC_FLUENTS"); (":fluents", "rwFLUENTS");
   (":adl", "rwADL"); (":durative-actions", "rwDURATIVE_ACTIONS"); (":derived-predicates", "rwDERIVED_PREDICATES"); (":timed-initial-literals", "rwTIMED_INITAL_LITERALS"); (":preferences", "rwPREFERENCES"); (":action-costs", "rwACTION_COSTS");
   (":constraints", "rwCONSTRAINTS"); (":continuous-effects", "rwCONTINUOUS_EFFECTS"); (":duration-inequalities", "rwDURATION_INEQUALITIES"); (":timed-initial-literals", "rwTIMED_INITIAL_LITERALS"); (":requirements", "rwREQUIREMENTS"); (":init", "rwINIT");
   (":goal", "rwGOAL"); (":action", "rwACTION"); (":domain", "rwDOMAIN_REF"); (":constants", "rwCONSTANTS"); (":predicates", "rwPREDICATES"); (":functions", "rwFUNCTIONS");
   (":derived", "rwDERIVED"); (":objects", "rwOBJECTS"); (":metric", "rwMETRIC"); (":durative-action", "rwDURATIVE_ACTION"); (":types", "rwTYPES"); (":precondition", "rwPRECONDITION");
   (":effect", "rwEFFECT"); (":parameters", "rwPARAMETERS"); (":condition", "rwCONDITION"); (":duration", "rwDURATION"); ("and", "rwAND"); ("not", "rwNOT");
   ("or", "rwOR"); ("imply", "rwIMPLY"); ("exists", "rwEXISTS"); ("forall", "rwFORALL"); ("when", "rwWHEN"); ("domain", "rwDOMAIN");
   ("problem", "rwPROBLEM"); ("at", "rwAT"); ("over", "rwOVER"); ("start", "rwSTART"); ("end", "rwEND"); ("overall", "rwOVERALL");
   ("assign", "rwASSIGN"); ("define", "rwDEFINE"); ("increase", "rwINCREASE"); ("decrease", "rwDECREASE"); ("scale-up", "rwSCALE_UP"); ("scale-down", "rwSCALE_DOWN");
   ("int", "rwINT"); ("float", "rwFLOAT"); ("object", "rwOBJECT"); ("number", "rwNUMBER"); ("either", "rwEITHER"); ("always", "rwALWAYS");
   ("sometime", "rwSOMETIME"); ("within", "rwWITHIN"); ("at-most-once", "rwAT_MOST_ONCE"); ("sometime-after", "rwSOMETIME_AFTER"); ("sometime-before", "rwSOMETIME_BEFORE"); ("always-within", "rwALWAYS_WITHIN");
   ("hold-during", "rwHOLD_DURING"); ("hold-after", "rwHOLD_AFTER"); ("preference", "rwPREFERENCE"); ("undefined", "rwUNDEFINED"); ("minimize", "rwMINIMIZE"); ("maximize", "rwMAXIMIZE");
   ("#t", "rwDT"); ("total-time", "rwTOTAL_TIME"); ("total-cost", "rwTOTAL_COST"); ("is-violated", "rwIS_VIOLATED"); ("all", "rwALL")].
Definition reserved_get (w : string) : option string := option_map snd (find (fun p => String.eqb (fst p) w) (rev symbols)).
Definition type_or (w default : string) : string := match reserved_get w with Some t => t | None => default end.

(** A token: ply's LexToken. The value of a REAL is the exact decimal number (its digits as a number, and how many of them are decimals); the rounding of [float] is not modelled. *)
Inductive value := Text (s : string) | Int (n : Z) | Decimals (digits : Z) (places : nat).
Record token := { t_line : nat; t_type : string; t_value : value }.

(** lexer.py:14-23, the character classes *)
Definition alpha (c : ascii) : bool := Asp.is_alpha c.
Definition num (c : ascii) : bool := let n := nat_of_ascii c in Nat.leb 48 n && Nat.leb n 57.
Definition alnum (c : ascii) : bool := alpha c || num c.
Definition id_char (c : ascii) : bool := alnum c || Ascii.eqb c "-" || Ascii.eqb c "_".
Definition newline : ascii := ascii_of_nat 10.
Definition ignored (c : ascii) : bool := Ascii.eqb c " " || Ascii.eqb c (ascii_of_nat 9).
(** Greedy repetition of a class: what is matched and what is left *)
Fixpoint span (p : ascii -> bool) (s : string) : string * string :=
  match s with String c s' => if p c then match span p s' with (k, r) => (String c k, r) end else ("", s) | "" => ("", "") end.
(** The optional part of [identifier] (line 17): greedy, with backtracking to the last letter or digit *)
Fixpoint id_tail (s : string) : string * string :=
  match s with
  | String c s' => if id_char c then match id_tail s' with (k, r) => if String.eqb k "" && negb (alnum c) then ("", s) else (String c k, r) end else ("", s)
  | "" => ("", "")
  end.
(** Matching at the current position: what is matched and what is left *)
Definition m_identifier (s : string) : option (string * string) :=
  match s with String c s' => if alpha c then match id_tail s' with (k, r) => Some (String c k, r) end else None | "" => None end.
Definition m_after (x : ascii) (m : string -> option (string * string)) (s : string) : option (string * string) :=
  match s with String c s' => if Ascii.eqb c x then option_map (fun r => (String c (fst r), snd r)) (m s') else None | "" => None end.
Definition m_variable : string -> option (string * string) := m_after "?" m_identifier.
Definition m_directive : string -> option (string * string) := m_after ":" m_identifier.
Definition m_section : string -> option (string * string) := m_after ":" (m_after "(" m_identifier).
Definition m_plus (p : ascii -> bool) (s : string) : option (string * string) := if String.eqb (fst (span p s)) "" then None else Some (span p s).
Definition m_nat : string -> option (string * string) := m_plus num.
Definition m_newline : string -> option (string * string) := m_plus (Ascii.eqb newline).
Definition m_comment : string -> option (string * string) := m_after ";" (fun s => Some (span (fun c => negb (Ascii.eqb c newline)) s)).
(** The digits before and after the point, and what is left *)
Definition m_real (s : string) : option (string * string * string) :=
  match snd (span num s) with
  | String c r => if Ascii.eqb c "." then option_map (fun m => (fst (span num s), fst m, snd m)) (m_plus num r) else None
  | "" => None
  end.
(** lexer.py:179-199: the rules given by strings, which ply tries after the functions, longer expressions first *)
Definition string_rules : list (string * string) :=
  [("..", "DOUBLEDOT"); (">=", "GEQ"); ("<=", "LEQ"); ("(", "LPAREN"); ("+", "PLUS"); ("?", "QUESTION"); (")", "RPAREN"); ("*", "TIMES"); ("/", "DIV"); ("=", "EQUA"); (">", "GT"); ("<", "LT"); ("-", "MINUS")].
Fixpoint strip (p s : string) : option string :=
  match p with "" => Some s | String c p' => match s with String d s' => if Ascii.eqb c d then strip p' s' else None | "" => None end end.
Fixpoint first_rule (rules : list (string * string)) (s : string) : option (string * string * string) :=
  match rules with [] => None | (x, ty) :: rules' => match strip x s with Some r => Some (x, ty, r) | None => first_rule rules' s end end.
(** [int]: lines 229-236 *)
Definition digit_value (c : ascii) : Z := Z.of_nat (nat_of_ascii c) - 48.
Fixpoint int_from (acc : Z) (s : string) : Z := match s with String c s' => int_from (10 * acc + digit_value c) s' | "" => acc end.

(** What happens at a position: a token, or some text is skipped (with how many line ends), and the rest. The functions are tried in the order of their definition (lines 201-236). *)
Inductive action := Emit (ty : string) (v : value) (rest : string) | Skip (lines : nat) (rest : string).
Definition lex_step (c : ascii) (s' : string) : action :=
  let s := String c s' in
  if ignored c then Skip 0 s' else
  match m_newline s with Some m => Skip (String.length (fst m)) (snd m) | None =>
  match m_comment s with Some m => Skip 0 (snd m) | None =>
  match m_identifier s with Some m => Emit (type_or (fst m) "ID") (Text (Asp.lower (fst m))) (snd m) | None =>
  match m_variable s with Some m => Emit (type_or (fst m) "VAR") (Text (fst m)) (snd m) | None =>
  match m_directive s with Some m => Emit (type_or (fst m) "UNKNOWN_DIRECTIVE") (Text (fst m)) (snd m) | None =>
  match m_section s with Some m => Skip 0 (snd m) | None =>
  match m_real s with Some m => Emit "REAL" (Decimals (int_from 0 (String.append (fst (fst m)) (snd (fst m)))) (String.length (snd (fst m)))) (snd m) | None =>
  match m_nat s with Some m => Emit "NAT" (Int (int_from 0 (fst m))) (snd m) | None =>
  match first_rule string_rules s with Some m => Emit (snd (fst m)) (Text (fst (fst m))) (snd m) | None =>
  (* t_error, lines 238-240 *) Skip 0 s' end end end end end end end end end.
(** The tokens of a text and the line at its end; [n] is at least the length of the text. *)
Fixpoint lex (n line : nat) (s : string) : list token * nat :=
  match n, s with
  | S n', String c s' =>
      match lex_step c s' with
      | Emit ty v r => match lex n' line r with (ts, l) => ({| t_line := line; t_type := ty; t_value := v |} :: ts, l) end
      | Skip k r => lex n' (line + k) r
      end
  | _, _ => ([], line)
  end.
(** lexer.py:245-268: an object has a line number, 1 at first; [input] does not change it. *)
Definition tokenize (line : nat) (s : string) : list token * nat := lex (String.length s) line s.
Fixpoint tokenize_all (line : nat) (inputs : list string) : list (list token) * nat :=
  match inputs with [] => ([], line) | s :: ss => match tokenize line s with (ts, l) => match tokenize_all l ss with (tss, l') => (ts :: tss, l') end end end.
(** lexer.py:256-261 *)
Definition is_identifier (s : string) : bool := match m_identifier s with Some _ => true | None => false end.
Definition is_variable (s : string) : bool := match m_variable s with Some _ => true | None => false end.
