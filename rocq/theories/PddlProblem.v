(** Writing and reading planning problems: src/tarski/io/fstrips.py, src/tarski/io/_fstrips/common.py, src/tarski/io/_fstrips/reader.py, the templates
    src/tarski/io/templates/fstrips_domain.tpl and fstrips_instance.tpl, and the rules domain and problem of utils/parsers/grammars/fstrips.g4 *)
From Coq Require Import Ascii.
From Verif Require Import Base Syntax Index Asp ModelState ModelText Lang Effects Represent Costs PddlText PddlRead PddlAction.
Local Open Scope string_scope.

(** fstrips/problem.py:10-23, fstrips/derived.py: a problem with a goal. A constant object is a pair of its symbol and its sort. The axioms are the derived predicates;
    the metric is (minimize?, expression). State constraints are not modelled (they are never written). *)
Record derived := { d_name : string; d_params : list term; d_formula : formula }.
Record pproblem := {
  q_name : string; q_domain : string; q_lang : lang; q_init : model; q_goal : formula; q_actions : list costed; q_derived : list derived; q_metric : option (bool * term)
}.

(** * Writer *)
(** common.py:22-25 [tarski_to_pddl_type] *)
Definition pddl_type (s : sort) : string := if String.eqb s "Integer" || String.eqb s "Natural" then "int" else if String.eqb s "Real" then "number" else s.
(** fstrips.py:135-141 [linebreaks] with indentation 2, the first line not being indented; the joins of :263-295 are the same *)
Definition lines (els : list string) : string := join (newline ++ tabs 2) els.
(** fstrips.py:120-132 [print_objects]. Joining symbols that are not strings raises TypeError. *)
Definition print_objects (cs : list (cname * sort)) : res string :=
  let! ns := mapM (fun c => match fst c with CStr n => Ok (n, snd c) | CInt _ => Err TypeError end) cs in
  Ok (lines (map (fun s => join " " (sorted (map fst (filter (fun c => String.eqb (snd c) s) ns))) ++ " - " ++ s) (sorted (nodup string_dec (map snd ns))))).
(** fstrips.py:144-161 [print_init]; :418-419 [print_term_ref_list]. The elements of a Python set come in an arbitrary order: that of the list in the model. *)
Definition print_points (pt : list term) : string := join " " (map text pt).
Definition print_init (m : model) : string :=
  lines (List.app (flat_map (fun ke => map (fun pv => "(= (" ++ sig_name (fst ke) ++ " " ++ print_points (fst pv) ++ ") " ++ text (snd pv) ++ ")") (snd ke)) (funs m))
         (flat_map (fun ke => map (fun pt => "(" ++ sig_name (fst ke) ++ " " ++ print_points pt ++ ")") (snd ke)) (preds m))).
(** fstrips.py:168-183 [print_domain_bounds]; sorts.py:167-171 *)
Definition under_integer (l : lang) (s : string) : bool := match closure (S (List.length (l_sorts l))) l s with Ok c => str_mem "Integer" c | Err _ => false end.
Definition print_bounds (l : lang) : string :=
  let bs := flat_map (fun nr => match s_kind (snd nr) with
                                | KInterval _ lb ub => if negb (s_builtin (snd nr)) && under_integer l (fst nr)
                                                       then ["(" ++ fst nr ++ " - int[" ++ name_text (CInt lb) ++ ".." ++ name_text (CInt ub) ++ "])"] else []
                                | KPlain => []
                                end) (l_sorts l) in
  match bs with [] => "" | _ => "(:bounds" ++ newline ++ join newline (map (fun b => indent b 2) bs) ++ ")" end.
(** fstrips.py:190-195 [print_metric], [print_problem_metric]; fstrips/fstrips.py:110-115 *)
Definition print_metric (m : option (bool * term)) : res string :=
  match m with None => Ok "" | Some (b, t) => let! s := print_term t in Ok ("(:metric " ++ (if b then "minimize" else "maximize") ++ " " ++ s ++ ")") end.
(** common.py:41-66 [get_requirements_string]; representation.py:38-40 [is_typed_problem]. The result is a Python set: the list below in some order. The theory of equality is taken to be loaded. *)
Definition is_interval (l : lang) (s : string) : bool := match sget (l_sorts l) s with Some r => match s_kind r with KInterval _ _ _ => true | KPlain => false end | None => false end.
Definition requirements (l : lang) : list string :=
  ((if Nat.ltb 1 (List.length (filter (fun nr => negb (s_builtin (snd nr))) (l_sorts l))) then [":typing"] else []) ++ [":equality"] ++
   (if has_function l "total-cost" then [":action-costs"] else []) ++
   (if existsb (fun ns => existsb (is_interval l) (snd ns) && negb (String.eqb (fst ns) "total-cost")) (l_preds l ++ l_funs l) then [":numeric-fluents"] else []))%list.
(** fstrips.py:260-272 [get_types]; sorts.py:174-177 [parent] *)
Definition print_type (l : lang) (n : string) : string := match sget (l_parent l) n with Some (Some p) => pddl_type n ++ " - " ++ pddl_type p | _ => pddl_type n end.
Definition get_types (l : lang) : string :=
  lines (map (print_type l) (map fst (filter (fun nr => negb (s_builtin (snd nr)) && negb (String.eqb (fst nr) "object")) (l_sorts l))) ++ ["object"])%list.
(** fstrips.py:319-323 [build_signature_string]: the parameters are ?x1, ?x2, ... *)
Fixpoint signature_from (i : nat) (ss : list sort) : list string :=
  match ss with [] => [] | s :: r => (print_variable_name ("x" ++ name_text (CInt (Z.of_nat i))) ++ " - " ++ pddl_type s) :: signature_from (S i) r end.
Definition print_signature (ss : list sort) : string := join " " (signature_from 1 ss).
(** fstrips.py:274-282 [get_functions], :284-291 [get_predicates]. Built-in symbols are not in [l_funs] and [l_preds]. *)
Definition get_functions (l : lang) : string :=
  lines (map (fun fs => "(" ++ fst fs ++ " " ++ print_signature (removelast (snd fs)) ++ ") - " ++ pddl_type (last (snd fs) "")) (l_funs l)).
Definition get_predicates (l : lang) : string := lines (map (fun ps => "(" ++ fst ps ++ " " ++ print_signature (snd ps) ++ ")") (l_preds l)).
(** fstrips.py:293-294 [get_actions], :309-317 [get_derived_predicates], [get_derived], :113-117 *)
Definition get_actions (acts : list costed) : res string := let! ls := mapM print_action acts in Ok (join newline ls).
Definition print_derived (d : derived) : res string :=
  let! v := print_variable_list (d_params d) in let! f := print_formula (d_formula d) in
  Ok (newline ++ "    (:derived (" ++ d_name d ++ " " ++ v ++ ")" ++ newline ++ "              " ++ f ++ newline ++ "    )" ++ newline).
Definition get_derived (ds : list derived) : res string := let! ls := mapM print_derived ds in Ok (join newline ls).

(** The first six lines of the templates, with the empty header_info *)
Definition rule_line : string := ";;;;;;;;;;;;;;;;;;;;;;;;;;;;;;;;;;;;;;;;" ++ newline.
Definition header (kind : string) : string :=
  newline ++ rule_line ++ ";;; " ++ kind ++ " file automatically generated by the Tarski FSTRIPS writer" ++ newline ++ ";;; " ++ newline ++ rule_line ++ newline.
(** A section of a template *)
Definition section (key body : string) : string := "    (" ++ key ++ newline ++ tabs 2 ++ body ++ newline ++ "    )" ++ newline.
(** fstrips.py:208-229 [FstripsWriter.print_domain] and fstrips_domain.tpl. [reqs]: the requirements in the order in which the set is iterated over; [cs]: constant_objects (empty for None) *)
Definition print_domain (q : pproblem) (cs : list (cname * sort)) (reqs : list string) : res string :=
  let! a := get_actions (q_actions q) in
  let! d := get_derived (q_derived q) in
  let! c := print_objects cs in
  Ok (header "Domain" ++ "(define (domain " ++ q_domain q ++ ")" ++ newline ++ "    (:requirements " ++ join " " reqs ++ ")" ++ newline ++
      section ":types" (get_types (q_lang q)) ++ newline ++ section ":constants" c ++ newline ++ section ":predicates" (get_predicates (q_lang q)) ++ newline ++
      section ":functions" (get_functions (q_lang q)) ++ newline ++ "    " ++ d ++ newline ++ newline ++ "    " ++ a ++ newline ++ ")" ++ newline).
(** fstrips.py:235-258 [FstripsWriter.print_instance] and fstrips_instance.tpl. Objects are compared by symbol and sort (symrefs.py:27-28, terms.py:344-345). *)
Definition same_object (a b : cname * sort) : bool := cname_eqb (fst a) (fst b) && String.eqb (snd a) (snd b).
Definition constants_of (l : lang) : list (cname * sort) := map snd (l_consts l).
Definition print_instance (q : pproblem) (cs : list (cname * sort)) : res string :=
  let! o := print_objects (filter (fun c => negb (existsb (same_object c) cs)) (constants_of (q_lang q))) in
  let! g := print_formula (q_goal q) in
  let! m := print_metric (q_metric q) in
  Ok (header "Instance" ++ "(define (problem " ++ q_name q ++ ")" ++ newline ++ "    (:domain " ++ q_domain q ++ ")" ++ newline ++ newline ++
      section ":objects" o ++ newline ++ section ":init" (print_init (q_init q)) ++ newline ++ section ":goal" g ++ newline ++
      "    " ++ newline ++ "    " ++ print_bounds (q_lang q) ++ newline ++ "    " ++ m ++ newline ++ ")" ++ newline).

(** * Reader *)
(** fstrips.g4:534-537 LINE_COMMENT: a comment separates words like the white space that replaces it here; one that is not ended by a newline is an error (";" is no token). *)
Fixpoint uncomment (inside : bool) (s : string) : string :=
  match s with
  | EmptyString => if inside then ";" else ""
  | String c r => if inside then (if Ascii.eqb c "010" then String c (uncomment false r) else uncomment true r)
                  else if Ascii.eqb c ";" then uncomment true r else String c (uncomment false r)
  end.
Definition document (s : string) : res sexp := phrase (uncomment false s).

Section ReadProblem.
(** int(s) and float(s) on strings, see Lang.v *)
Variable parse : bool -> string -> option Z.

(** The language while it is being built, as the visitors use it. [is_subtype] (fol.py:351-354, 376-379) is membership in the inclusion closure: see Lang.v, C17. The handlers of the
    arithmetic operators are registered when the arithmetic sorts are attached (theories.py:60-65). *)
Definition view (l : lang) : plang := {|
  pl_const := fun n => match dget cname_eqb (l_consts l) (CStr n) with Some (_, s) => Some s | None => None end;
  pl_pred := fun n => sget (l_preds l) n;
  pl_fun := fun n => match sget (l_funs l) n with Some ss => Some (removelast ss, last ss "") | None => None end;
  pl_sort := has_sort l;
  pl_sub := fun s t => String.eqb s t || match closure (S (List.length (l_sorts l))) l s with Ok c => str_mem t c | Err _ => false end;
  pl_num := fun s z => match sort_contains parse l s (CInt z) with Ok b => b | Err _ => false end;
  pl_cmp := fun b => match b with PEq | PNe => true | _ => has_sort l "Integer" end;
  pl_arith := fun b => match b with BOther _ => false | _ => has_sort l "Integer" end
|}.
(** A declaration; the reader does not catch the exceptions of the language. *)
Definition declare (l : lang) (o : lop) : res lang := match lstep parse l o with (l', Ok _) => Ok l' | (_, Err e) => Err e end.
Fixpoint foldM {X S} (f : S -> X -> res S) (s : S) (xs : list X) : res S := match xs with [] => Ok s | x :: r => let! s' := f s x in foldM f s' r end.

(** The state of the reader: the language and requirements so far, the name of the domain and the actions *)
Record rstate := { r_lang : lang; r_reqs : list string; r_domain : string; r_actions : list costed }.

(** reader.py:84-89 [visitRequireDef]; common.py:32-38 [process_requirements], :69-74 [create_number_type]. Besides the sorts, the theory declares the function ite, which is not modelled. *)
Definition read_requirement (s : sexp) : res string := match s with A (TKey k) => if mem k require_keys then Ok k else Err SyntaxError | _ => Err SyntaxError end.
Definition process_requirements (l : lang) (reqs : list string) : res lang :=
  if has_sort l "Integer" then Ok l
  else if mem ":action-costs" reqs then let! l1 := declare l OArith in declare l1 (OInterval "number" "Real" (- real_bound) real_bound)
  else if mem ":numeric-fluents" reqs then declare l OArith else Ok l.
(** fstrips.g4:96-118 and reader.py:95-126: lists of names; the names without type follow those with a type in the text and precede them in the result. [types]: the word "object" is allowed among
    them, and skipped. *)
Fixpoint name_list (types : bool) (pending : list string) (ss : list sexp) : res (list (string * string) * list (string * string)) :=
  match ss with
  | [] => Ok (map (fun n => (n, "object")) pending, [])
  | A (TName n) :: r => name_list types (pending ++ [lower n])%list r
  | A (TKey k) :: r =>
      if types && String.eqb k "object" then
        let! (u, t) := name_list types [] r in match t with [] => Ok (map (fun n => (n, "object")) pending ++ u, [])%list | _ => Err SyntaxError end
      else if String.eqb k "-" then
        match r with
        | A t :: r' => match pending with
                       | [] => Err SyntaxError
                       | _ => let! b := type_name t in let! (u, ts) := name_list types [] r' in Ok (u, map (fun n => (n, b)) pending ++ ts)%list
                       end
        | _ => Err SyntaxError
        end
      else Err SyntaxError
  | _ => Err SyntaxError
  end.
Definition read_names (types : bool) (ss : list sexp) : res (list (string * string)) := let! (u, t) := name_list types [] ss in Ok (u ++ t)%list.
(** common.py:12-19 [pddl_to_tarski_type], :77-96 [create_sort] *)
Definition tarski_type (s : string) : string := if String.eqb s "int" then "Integer" else if String.eqb s "real" then "Real" else if String.eqb s "number" then "Real" else s.
Definition interval_bounds (l : lang) (s : string) : option (Z * Z) := match sget (l_sorts l) s with Some r => match s_kind r with KInterval _ lb ub => Some (lb, ub) | KPlain => None end | None => None end.
Definition create_sort (l : lang) (tb : string * string) : res lang :=
  if String.eqb (fst tb) "object" then Ok l
  else let t := tarski_type (fst tb) in let b := tarski_type (snd tb) in
       if is_numeric_root b then
         if has_sort l b then match interval_bounds l b with Some (lb, ub) => declare l (OInterval t b lb ub) | None => Err AssertionError end else Err UndefinedElement
       else if has_sort l b then declare l (OSort t (Some b)) else Err UndefinedElement.
(** reader.py:170-177 [visitObject_declaration] *)
Definition read_objects (l : lang) (ss : list sexp) : res lang := let! ns := read_names false ss in foldM (fun l ot => declare l (OConst (CStr (fst ot)) (snd ot))) l ns.
(** reader.py:128-131 [visitSingle_predicate_definition] *)
Definition read_predicate (l : lang) (s : sexp) : res lang :=
  match s with L (A (TName p) :: vars) => let! vs := var_list (view l) [] vars in declare l (OPred (lower p) (map snd vs)) | _ => Err SyntaxError end.
(** fstrips.g4:150-165, reader.py:151-159; an EXTNAME is not modelled *)
Fixpoint read_functions (l : lang) (ss : list sexp) : res lang :=
  match ss with
  | [] => Ok l
  | L (A (TName f) :: vars) :: r =>
      match r with
      | A (TKey k) :: A t :: r' =>
          if String.eqb k "-" then let! c := type_name t in let! vs := var_list (view l) [] vars in let! l' := declare l (OFun (lower f) (map snd vs ++ [c])%list) in read_functions l' r'
          else Err SyntaxError
      | _ => let! vs := var_list (view l) [] vars in let! l' := declare l (OFun (lower f) (map snd vs ++ ["number"])%list) in read_functions l' r
      end
  | _ => Err SyntaxError
  end.
(** fstrips.g4:180-186; reader.py:184-195, 450-451; problem.py:36-41. Events and constraints are not modelled. *)
Definition read_structure (l : lang) (acts : list costed) (s : sexp) : res (list costed) :=
  match s with
  | L (A (TKey k) :: _) =>
      if String.eqb k ":action" then
        let! c := read_action_def (view l) s in
        if existsb (fun c' => String.eqb (a_name (c_act c')) (a_name (c_act c))) acts then Err DuplicateDefinition else Ok (acts ++ [c])%list
      else if String.eqb k ":derived" then Err SyntaxError                       (* UnsupportedLanguageFeature, a ParsingError *)
      else Err NotModelled
  | _ => Err SyntaxError
  end.
(** An optional block *)
Definition block (key : string) (ss : list sexp) : option (list sexp) * list sexp :=
  match ss with L (A (TKey k) :: body) :: r => if String.eqb k key then (Some body, r) else (None, ss) | _ => (None, ss) end.
Definition read_block (f : lang -> list sexp -> res lang) (b : option (list sexp)) (l : lang) : res lang := match b with Some body => f l body | None => Ok l end.
Definition read_reqs (b : option (list sexp)) (reqs : list string) (l : lang) : res (lang * list string) :=
  match b with Some body => let! rs := mapM read_requirement body in let reqs' := (reqs ++ rs)%list in let! l' := process_requirements l reqs' in Ok (l', reqs') | None => Ok (l, reqs) end.
(** fstrips.g4:62-75, fstrips.py:80-82 [parse_domain]: the language starts empty (with the theory of equality, fstrips/fstrips.py:285-294) *)
Definition read_domain (s : sexp) : res rstate :=
  match s with
  | L (A (TKey k) :: L [A (TKey k'); A (TName n)] :: rest) =>
      if String.eqb k "define" && String.eqb k' "domain" then
        let (b1, rest) := block ":requirements" rest in
        let (b2, rest) := block ":types" rest in
        let (b3, rest) := block ":constants" rest in
        let (b4, rest) := block ":predicates" rest in
        let (b5, rest) := block ":functions" rest in
        let! (l, reqs) := read_reqs b1 [] lang0 in
        let! l := read_block (fun l body => let! ts := read_names true body in foldM create_sort l ts) b2 l in
        let! l := read_block read_objects b3 l in
        let! l := read_block (foldM read_predicate) b4 l in
        let! l := read_block read_functions b5 l in
        let! acts := foldM (read_structure l) [] rest in
        let! acts := uniformize_costs (has_sort l "Integer") acts in
        Ok {| r_lang := l; r_reqs := reqs; r_domain := n; r_actions := acts |}
      else Err SyntaxError
  | _ => Err SyntaxError
  end.

(** fstrips.g4:384-398, reader.py:358-403: the initial state. A numeral is not modelled here. *)
Definition read_constant (l : lang) (s : sexp) : res term :=
  match s with
  | A (TName n) => match pl_const (view l) (lower n) with Some r => Ok (Cst (CStr (lower n)) r) | None => Err UndefinedElement end
  | A (TNum _) => Err NotModelled
  | _ => Err SyntaxError
  end.
(** sorts.py:54-62 [Sort.to_constant]: an argument of another sort is looked for in the domain of the sort, a Python set, but terms are not hashable (terms.py:9-24, 51) *)
Definition to_constant (s : sort) (t : term) : res term := if String.eqb (PddlRead.sort_of t) s then Ok t else Err TypeError.
Fixpoint to_constants_of (ss : list sort) (ts : list term) : res (list term) :=
  match ss, ts with s :: ss', t :: ts' => let! x := to_constant s t in let! r := to_constants_of ss' ts' in Ok (x :: r) | _, _ => Ok [] end.
Definition is_constant_name (s : sexp) : bool := match s with A (TName _) | A (TNum _) => true | _ => false end.
Definition read_init_element (l : lang) (m : model) (s : sexp) : res model :=
  match s with
  | L (A (TName p) :: args) =>
      match pl_pred (view l) (lower p) with
      | Some ss => let! ts := mapM (read_constant l) args in m_add (pl_sub (view l)) m (PU (lower p) ss) ts
      | None => Err UndefinedElement
      end
  | L [A (TKey k); L (A (TName n) :: args)] => if String.eqb k "not" && forallb is_constant_name args then Ok m else Err SyntaxError
  | L [A (TKey k); L (A (TName f) :: args); v] =>
      if String.eqb k "=" then
        match pl_fun (view l) (lower f) with
        | Some (ss, c) =>
            let! ts := mapM (read_constant l) args in
            if Nat.eqb (List.length ss) (List.length ts) then
              let! x := read_constant l v in let! us := to_constants_of ss ts in let! t := make_app (view l) (FU (lower f) ss c) ss us in m_set (pl_sub (view l)) m t x
            else Err AssertionError
        | None => Err UndefinedElement
        end
      else Err SyntaxError
  | _ => Err SyntaxError
  end.
(** fstrips.g4:357-361, 418-427; reader.py:429-437: the metric. Bounds and constraints are not modelled. *)
Definition read_meta (l : lang) (m : option (bool * term)) (s : sexp) : res (option (bool * term)) :=
  match s with
  | L [A (TKey k); A (TKey o); L e] =>
      if String.eqb k ":metric" && (String.eqb o "minimize" || String.eqb o "maximize") then
        let! v := read_term (view l) None (L e) in match v with VTerm t => Ok (Some (String.eqb o "minimize", t)) | VNum _ => Err SyntaxError end
      else Err NotModelled
  | _ => Err NotModelled
  end.
(** fstrips.g4:346-355, fstrips.py:84-86 [parse_instance] *)
Definition read_instance (st : rstate) (s : sexp) : res pproblem :=
  match s with
  | L (A (TKey k) :: L [A (TKey k1); A (TName n)] :: L [A (TKey k2); A (TName _)] :: rest) =>
      if String.eqb k "define" && String.eqb k1 "problem" && String.eqb k2 ":domain" then
        let (b1, rest) := block ":requirements" rest in
        let (b2, rest) := block ":objects" rest in
        match rest with
        | L (A (TKey k3) :: init) :: L [A (TKey k4); goal] :: metas =>
            if String.eqb k3 ":init" && String.eqb k4 ":goal" then
              let! (l, _) := read_reqs b1 (r_reqs st) (r_lang st) in
              let! l := read_block read_objects b2 l in
              let! m := foldM (read_init_element l) empty_model init in
              let! g := read_goal (view l) None goal in
              let! metric := foldM (read_meta l) None metas in
              Ok {| q_name := n; q_domain := r_domain st; q_lang := l; q_init := m; q_goal := g; q_actions := r_actions st; q_derived := []; q_metric := metric |}
            else Err SyntaxError
        | _ => Err SyntaxError
        end
      else Err SyntaxError
  | _ => Err SyntaxError
  end.
(** fstrips.py:70-73 [FstripsReader.read_problem], with raise_on_error *)
Definition read_problem (domain instance : string) : res pproblem :=
  let! d := document domain in let! st := read_domain d in let! i := document instance in read_instance st i.
End ReadProblem.
