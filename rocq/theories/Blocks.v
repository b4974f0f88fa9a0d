(** The blocksworld generator: src/tarski/benchmarks/blocksworld.py *)
From Verif Require Import Base Syntax Build ModelState Eval Subst QElim Effects FreeVars Represent SasText.
#[local] Open Scope string_scope.

(** blocksworld.py:18-31 [generate_strips_bw_language]: the predicates over the sort object and one constant per block. Simplification: only the symbols the problem
    uses are kept; [lang.get(name)] (lines 53-72) returns the constant of that name. *)
Definition obj : sort := "object".
Definition handempty : psym := PU "handempty" [].
Definition on : psym := PU "on" [obj; obj].
Definition ontable : psym := PU "ontable" [obj].
Definition clear : psym := PU "clear" [obj].
Definition holding : psym := PU "holding" [obj].
(** blocksworld.py:30: f"b{k}" for k in range(1, nblocks + 1) *)
Definition block_name (k : nat) : string := "b" ++ num k.
Definition block_names (nblocks : nat) : list string := map block_name (seq 1 nblocks).
Definition block (x : string) : term := Cst (CStr x) obj.

(** blocksworld.py:167-183 [generate_random_bw_pattern]. [blocks] is the list of the names of the constants after random.shuffle (line 174): the theorems quantify over
    all its permutations. [choice i] is the number drawn by the i-th random.choice (line 177); the set [clearplaces] is a duplicate-free list. *)
Definition sremove (x : string) (l : list string) : list string := filter (fun y => negb (String.eqb x y)) l.
Fixpoint pattern_loop (choice : nat -> nat) (blocks : list string) (clearplaces : list string) (pattern : list (string * string)) : res (list string * list (string * string)) :=
  match blocks with
  | [] => Ok (clearplaces, pattern)
  | b :: bs =>
      match nth_error clearplaces (choice (List.length pattern) mod List.length clearplaces)%nat with
      | None => Err IndexError
      | Some target =>
          let cl := if String.eqb target "table" then clearplaces else sremove target clearplaces in
          pattern_loop choice bs (if existsb (String.eqb b) cl then cl else (cl ++ [b])%list) (pattern ++ [(b, target)])%list
      end
  end.
Definition generate_random_bw_pattern (choice : nat -> nat) (blocks : list string) : res (list string * list (string * string)) := pattern_loop choice blocks ["table"] [].

(** blocksworld.py:59-68: the initial state *)
Definition add_location (sub : sort -> sort -> bool) (m : model) (xy : string * string) : res model :=
  if String.eqb (snd xy) "table" then m_add sub m ontable [block (fst xy)] else m_add sub m on [block (fst xy); block (snd xy)].
Definition add_clear (sub : sort -> sort -> bool) (m : model) (x : string) : res model :=
  if String.eqb x "table" then Ok m else m_add sub m clear [block x].
Definition bw_init (sub : sort -> sort -> bool) (clearplaces : list string) (locations : list (string * string)) : res model :=
  let! m := foldM (add_location sub) locations empty_model in
  let! m := foldM (add_clear sub) clearplaces m in
  m_add sub m handempty [].
(** blocksworld.py:71-78: the goal *)
Definition goal_conjunct (xy : string * string) : formula :=
  if String.eqb (snd xy) "table" then Atom ontable [block (fst xy)] else Atom on [block (fst xy); block (snd xy)].
Definition bw_goal (locations : list (string * string)) : res formula := land (map goal_conjunct locations) true.

(** blocksworld.py:80-128: the actions. [a & b] is land(a, b), formulas.py:40-41; [x != y] is the built-in disequality (syntax/terms.py). *)
Definition vx : term := Var "x" obj.
Definition vy : term := Var "y" obj.
Definition and2 (f g : formula) : formula := Comp And [f; g].
Definition pick_up : action :=
  {| a_name := "pick-up"; a_params := [vx]; a_pre := and2 (and2 (Atom clear [vx]) (Atom ontable [vx])) (Atom handempty []);
     a_effs := [EDel Top (Atom ontable [vx]); EDel Top (Atom clear [vx]); EDel Top (Atom handempty []); EAdd Top (Atom holding [vx])] |}.
Definition put_down : action :=
  {| a_name := "put-down"; a_params := [vx]; a_pre := Atom holding [vx];
     a_effs := [EAdd Top (Atom ontable [vx]); EAdd Top (Atom clear [vx]); EAdd Top (Atom handempty []); EDel Top (Atom holding [vx])] |}.
Definition unstack : action :=
  {| a_name := "unstack"; a_params := [vx; vy]; a_pre := and2 (and2 (Atom on [vx; vy]) (Atom clear [vx])) (Atom handempty []);
     a_effs := [EDel Top (Atom on [vx; vy]); EAdd Top (Atom clear [vy]); EDel Top (Atom clear [vx]); EDel Top (Atom handempty []); EAdd Top (Atom holding [vx])] |}.
Definition stack (use_inequalities : bool) : action :=
  {| a_name := "stack"; a_params := [vx; vy];
     a_pre := let prec := and2 (Atom holding [vx]) (Atom clear [vy]) in if use_inequalities then and2 prec (Atom (PB PNe) [vx; vy]) else prec;
     a_effs := [EAdd Top (Atom on [vx; vy]); EDel Top (Atom clear [vy]); EAdd Top (Atom clear [vx]); EAdd Top (Atom handempty []); EDel Top (Atom holding [vx])] |}.
Definition bw_actions (use_inequalities : bool) : list action := [pick_up; put_down; unstack; stack use_inequalities].

(** blocksworld.py:51-130 [generate_strips_blocksworld_problem]: [blocks]/[choice] are the random draws of the initial pattern, [blocks']/[choice'] those of the goal. *)
Definition generate_strips_blocksworld_problem (sub : sort -> sort -> bool) (use_inequalities : bool) (blocks : list string) (choice : nat -> nat) (blocks' : list string) (choice' : nat -> nat) : res problem :=
  let! r := generate_random_bw_pattern choice blocks in
  let! m := bw_init sub (fst r) (snd r) in
  let! r' := generate_random_bw_pattern choice' blocks' in
  let! g := bw_goal (snd r') in
  Ok {| p_actions := bw_actions use_inequalities; p_init := m; p_goal := g |}.
