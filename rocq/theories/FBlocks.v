(** The functional blocksworld generator: src/tarski/benchmarks/blocksworld.py:32-46, 127-192, and what happens to its states: src/tarski/search/operations.py:18-53, src/tarski/model.py:8-38 *)
From Verif Require Import Base Syntax Build ModelState Eval Subst QElim Effects FreeVars Represent SasText Blocks.
From Verif Require Lang Theories Counters.
#[local] Open Scope string_scope.

(** blocksworld.py:32-46 [generate_fstrips_bw_language]: the sorts place and block (a subsort), the symbols and the constants *)
Definition place_sort : sort := "place".
Definition block_sort : sort := "block".
Definition fclear : psym := PU "clear" [place_sort].
Definition floc : fsym := FU "loc" [block_sort] place_sort.
Definition fplace (x : string) : term := Cst (CStr x) (if String.eqb x "table" then place_sort else block_sort).
Definition place_names (nblocks : nat) : list string := "table" :: block_names nblocks.
(** The calls of lines 34-45 on the language *)
Definition generate_fstrips_bw_language (parse : bool -> string -> option Z) (nblocks : nat) : res Theories.tlang :=
  let! st := Theories.language parse [Theories.TEquality] in
  foldM (Counters.tdo parse)
    ([Theories.TOp (Lang.OSort place_sort None); Theories.TOp (Lang.OSort block_sort (Some place_sort)); Theories.TOp (Lang.OPred "clear" [place_sort]);
      Theories.TOp (Lang.OFun "loc" [block_sort; place_sort]); Theories.TOp (Lang.OConst (CStr "table") place_sort)] ++
     map (fun b => Theories.TOp (Lang.OConst (CStr b) block_sort)) (block_names nblocks))%list st.
(** [lang.get(x)] for the name of a constant. Simplification: the names of sorts, symbols and theories of the language, which are found too, are not modelled. *)
Definition get_place (nblocks : nat) (x : string) : res term := if existsb (String.eqb x) (place_names nblocks) then Ok (fplace x) else Err UndefinedElement.

(** blocksworld.py:188-192 [compute_clear_from_pattern]; the set is a list. *)
Definition compute_clear_from_pattern (nblocks : nat) (locations : list (string * string)) : list string :=
  let clearplaces := filter (fun x => negb (existsb (fun xy => String.eqb (snd xy) x) locations)) (place_names nblocks) in
  if existsb (String.eqb "table") clearplaces then clearplaces else (clearplaces ++ ["table"])%list.

(** blocksworld.py:142-145: the initial state *)
Definition set_location (sub : sort -> sort -> bool) (nblocks : nat) (m : model) (xy : string * string) : res model :=
  let! x := get_place nblocks (fst xy) in let! y := get_place nblocks (snd xy) in m_set sub m (App floc [x]) y.
Definition set_clear (sub : sort -> sort -> bool) (nblocks : nat) (m : model) (x : string) : res model := let! t := get_place nblocks x in m_add sub m fclear [t].
Definition fbw_init (sub : sort -> sort -> bool) (nblocks : nat) (clearplaces : list string) (locations : list (string * string)) : res model :=
  let! m := foldM (set_location sub nblocks) locations empty_model in foldM (set_clear sub nblocks) clearplaces m.
(** blocksworld.py:155: the goal; the term loc(x) is built with a block (terms.py:168-184: SortMismatch otherwise). *)
Definition floc_is (sub : sort -> sort -> bool) (nblocks : nat) (xy : string * string) : res formula :=
  let! x := get_place nblocks (fst xy) in let! _ := check_assignment sub [block_sort] [x] in let! y := get_place nblocks (snd xy) in Ok (Atom (PB PEq) [App floc [x]; y]).
Definition fbw_goal (sub : sort -> sort -> bool) (nblocks : nat) (locations : list (string * string)) : res formula := let! fs := mapM (floc_is sub nblocks) locations in land fs true.

(** blocksworld.py:157-166: the action; [land] of four formulas makes a binary tree (formulas.py:173-178). *)
Definition bx : term := Var "x" block_sort.
Definition py : term := Var "y" place_sort.
Definition fmove_action : action :=
  {| a_name := "move"; a_params := [bx; py];
     a_pre := and2 (Atom (PB PNe) [bx; py]) (and2 (Atom (PB PNe) [App floc [bx]; py]) (and2 (Atom fclear [bx]) (Atom fclear [py])));
     a_effs := [Effects.EFun false Top (App floc [bx]) py; EAdd Top (Atom fclear [App floc [bx]]); EDel (Atom (PB PNe) [py; fplace "table"]) (Atom fclear [py])] |}.

(** blocksworld.py:134-140, 148-153. How the initial or the goal pattern is given: drawn at random (the shuffled blocks and the numbers of random.choice, see Blocks.v) or by the user *)
Inductive layout := Random (blocks : list string) (choice : nat -> nat) | Given (locations : list (string * string)).
Definition pattern_of (nblocks : nat) (l : layout) : res (list string * list (string * string)) :=
  match l with
  | Random blocks choice => generate_random_bw_pattern choice blocks
  | Given locations => if Nat.eqb (List.length locations) nblocks then Ok (compute_clear_from_pattern nblocks locations, locations) else Err ValueError
  end.
(** blocksworld.py:127-167 [generate_fstrips_blocksworld_problem] *)
Definition generate_fstrips_blocksworld_problem (sub : sort -> sort -> bool) (nblocks : nat) (init goal : layout) : res problem :=
  let! i := pattern_of nblocks init in
  let! m := fbw_init sub nblocks (fst i) (snd i) in
  let! g := pattern_of nblocks goal in
  let! f := fbw_goal sub nblocks (snd g) in
  Ok {| p_actions := [fmove_action]; p_init := m; p_goal := f |}.

(** * Applying the effects *)
(** model.py:20-23 with sorts.py:43-52 and terms.py:308-317. A point element that is no constant is cast: [cast] asks whether its symbol, a function, is in the domain, answers None, and the constant None
    of the expected sort is made. The theorems never use a constant called "None" otherwise. Sorts with intervals and arguments that are no compound terms are not modelled. *)
Definition none_constant (s : sort) : term := Cst (CStr "None") s.
Definition cast_element (s : sort) (t : term) : res term :=
  match t with Cst _ _ => Ok t | App (FU _ _ _) _ => Ok (none_constant s) | _ => Err NotModelled end.
Fixpoint cast_point (ss : list sort) (ts : list term) : res (list term) :=
  match ss, ts with s :: ss', t :: ts' => let! u := cast_element s t in let! us := cast_point ss' ts' in Ok (u :: us) | _, _ => Ok ts end.
(** The sorts to which making a constant of sort [s] adds its name: sorts.py:70-74. The sort itself and its ancestors. *)
Definition lineage (s : sort) : list sort := if String.eqb s block_sort then [block_sort; place_sort; "object"] else if String.eqb s place_sort then [place_sort; "object"] else [s].
(** A state, and the sorts whose domain has the name None. Sorts are shared by all states (sorts.py:24-27: a deep copy of a sort is the sort). *)
Record fstate := { fs_model : model; fs_none : list sort }.
Definition none_sorts (ss : list sort) (ts : list term) : list sort := flat_map (fun st => if is_cst (snd st) then [] else lineage (fst st)) (combine ss ts).
(** sorts.py:76-77 [Sort.domain], in a list: the constant None is no constant of the language (fol.py: get_constant raises UndefinedConstant). *)
Definition domain_list (nblocks : nat) (st : fstate) (s : sort) : res (list string) :=
  if existsb (String.eqb s) (fs_none st) then Err UndefinedElement else Ok (if String.eqb s block_sort then block_names nblocks else place_names nblocks).
Section Progress.
Variable sub : sort -> sort -> bool.
(** operations.py:18-38. Only the add effect is different from [Effects.apply_effect], which does not model points with terms that are no constants. *)
Definition fapply (st : fstate) (e : effect) : res fstate :=
  match e with
  | EAdd c (Atom (PU n ss) ts) =>
      let! b := eval_f (fs_model st) c in
      if negb b then Ok st else
      let! ts' := cast_point ss ts in
      let! m := m_add sub (fs_model st) (PU n ss) ts' in Ok {| fs_model := m; fs_none := fs_none st ++ none_sorts ss ts |}
  | _ => let! m := apply_effect (fun _ => None) sub (fs_model st) e in Ok {| fs_model := m; fs_none := fs_none st |}
  end.
(** operations.py:41-53 *)
Definition fprogress (st : fstate) (effs : list effect) : res fstate := foldM fapply (filter is_del effs ++ filter (fun e => negb (is_del e)) effs) st.
End Progress.
