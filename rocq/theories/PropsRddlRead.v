(** C64: reading the expressions of RDDL *)
From Coq Require Import Ascii QArith Qcanon.
From Verif Require Import Base Syntax Build Semantics ArithSpec RddlSpec ModelState Lang LangSpec LangProofs LangProofs2 Theories TheoriesProofs2 QElim PropsArith RddlRead RddlReadSpec RddlReadProofs RddlReadProofs3 RddlReadProofs4.
#[local] Open Scope string_scope.
#[local] Open Scope list_scope.

(** What the reader returns means what the expression of the text means, whenever that has a value: over every field, every interpretation of the symbols, and every assignment of the variables. *)
Theorem C64_meaning : forall parse fuel st D a x, translate parse fuel st D a = Ok x -> single_variables a -> not_requantified a -> well_typed_variables (t_lang st) a ->
  forall K (U : rest K) dict, names_stand_for (t_lang st) K U dict -> elements_named D K U ->
  forall eta rho, (forall y s, In (y, s) (uses (t_lang st) a) -> rho (y, s) = eta y) -> forall v, rmeaning K U dict a eta = Some v -> v = meaning (arith K U) x rho.
Proof. intros parse fuel st D a x H SV NR WT K U dict HN HE eta rho He v Hv. exact (translate_meaning parse fuel st D K U dict HN HE a x eta rho v SV NR WT He H Hv). Qed.

(** In the languages of the reader, with whatever declarations came after the theories, every expression of the accepted fragment is read, as a formula if it is Boolean and as a term otherwise. *)
Theorem C64_accepts : forall parse fuel ops D a t, forallb native ops = true -> (forall n, ~ In (Lang.ORemove n) ops) ->
  let st := trun parse ([TLoad TEquality; TLoad TArithmetic; TLoad TSpecial; TLoad TRandom] ++ map TOp ops) in accepted st D a t ->
  exists x, translate parse fuel st D a = Ok x /\ (t = TBool <-> exists f, x = AForm f).
Proof.
  intros parse fuel ops D a t Hn Hr st H. destruct (accepted_reads parse fuel st D (ready_language parse ops Hn Hr) a t H) as (x & E & T). exists x. split; [exact E|].
  destruct t as [| |s]; cbn [typed] in T; [split; [intros _; exact T|reflexivity]| |]; destruct T as (u & -> & _); split; try discriminate; intros (f & Hf); discriminate Hf.
Qed.

(** What it rejects, in every language *)
Theorem C64_unsupported : forall parse fuel st D, let read := translate parse fuel st D in
  (forall b, read (NLit (LBool b)) = Err RuntimeError) /\
  (forall op es, ~ In op ["sum"; "prod"; "forall"] -> read (NAgg op es) = Err RuntimeError) /\
  (forall op es, In op ["<"; ">"; "~="] -> read (NRel op es) = Err KeyError) /\
  (forall op es, In op ["&"; "<=>"] -> read (NBool op es) = Err KeyError) /\
  (forall n es, ~ In n ["abs"; "sqrt"; "exp"; "pow"; "max"; "Normal"; "Gamma"] -> read (NFunc n es) = Err KeyError) /\
  (forall ty, read (NOther ty) = Err RuntimeError) /\
  (forall n m f ss, fluent_of n = Some (true, m) -> lget (t_lang st) (CStr m) = Ok (EFun f ss) -> read (NPvar n None) = Err LanguageError) /\
  (forall n m e c gs, fluent_of n = Some (false, m) -> lget (t_lang st) (CStr m) = Ok e -> read (NPvar n (Some (GNum c :: gs))) = Err TypeError) /\
  (forall c a b f x y, read c = Ok x -> read a = Ok (AForm f) -> read b = Ok y -> read (NIf [c; a; b]) = Err AttributeError).
Proof.
  intros parse fuel st D read. unfold read. repeat apply conj.
  - reflexivity.
  - intros op es N. cbn [translate]. assert (Q : forall w, In w ["sum"; "prod"; "forall"] -> String.eqb op w = false) by (intros w Hw; apply String.eqb_neq; congruence). rewrite !Q by (cbn [In]; auto). reflexivity.
  - intros op es H. cbn [In] in H. destruct H as [<- |[<- |[<- |[]]]]; reflexivity.
  - intros op es H. cbn [In] in H. destruct H as [<- |[<- |[]]]; reflexivity.
  - intros n es N. cbn [translate]. unfold functional. assert (Q : forall w, In w ["abs"; "sqrt"; "exp"; "pow"; "max"; "Normal"; "Gamma"] -> String.eqb n w = false) by (intros w Hw; apply String.eqb_neq; congruence).
    rewrite !Q by (cbn [In]; tauto). reflexivity.
  - reflexivity.
  - intros n m f ss Hn Hl. destruct (fluent_is _ _ _ Hn) as [Eu Eq]. cbn [translate]. unfold read_pvar. rewrite Eu, Eq, Hl. reflexivity.
  - intros n m e c gs Hn Hl. destruct (fluent_is _ _ _ Hn) as [Eu Eq]. cbn [translate]. unfold read_pvar. rewrite Eu, Hl. reflexivity.
  - intros c a b f x y Hc Ha Hb. cbn [translate mapM]. rewrite Hc, Ha, Hb. reflexivity.
Qed.
(** Everything after the first variable and what follows it is ignored by sums, products and quantifiers. *)
Theorem C64_rest_ignored : forall parse fuel st D op v b es, translate parse fuel st D (NAgg op (v :: b :: es)) = translate parse fuel st D (NAgg op [v; b]).
Proof. reflexivity. Qed.

(** ** Examples *)
Definition no_number (_ : bool) (_ : string) : option Z := None.
Definition rover : list lop := [OSort "waypoint" (Some "object"); OSort "base" (Some "waypoint"); OConst (CStr "w1") "waypoint"; OConst (CStr "w2") "waypoint"; OConst (CStr "b") "base";
  OFun "cost" ["waypoint"; "Real"]; OFun "time" ["Real"]; OPred "visited" ["waypoint"]; OPred "home" ["base"]].
Definition stR : tlang := Eval vm_compute in trun no_number (theories ++ map TOp rover).
Definition DR (s : sort) : option (list term) :=
  if String.eqb s "waypoint" then Some [Cst (CStr "w1") "waypoint"; Cst (CStr "w2") "waypoint"; Cst (CStr "b") "base"] else if String.eqb s "base" then Some [Cst (CStr "b") "base"] else None.
Definition fl (n : string) (xs : list string) : rast := NPvar n (Some (map GName xs)).
Definition rq (z : Z) : option (F Qfield) := Some (Q2Qc (inject_Z z)).
(** w1, w2 and b are the numbers 1, 2 and 3; the cost of a waypoint is its double; only w1 and w2 have been visited; b is no home. *)
Definition UR : rest Qfield := {|
  r_dom := fun s => if String.eqb s "waypoint" then [rq 1; rq 2; rq 3] else if String.eqb s "base" then [rq 3] else [];
  r_cst := fun c _ => match c with CStr w => if String.eqb w "w1" then rq 1 else if String.eqb w "w2" then rq 2 else if String.eqb w "b" then rq 3 else None | CInt _ => None end;
  r_fun := fun f l => match f, l with FU "cost" _ _, [x] => add_ Qfield x x | FU "time" _ _, [] => rq 7 | FB (BOther "max"), [x; y] => y | _, _ => None end;
  r_pred := fun p l => match p, l with
    | PU "visited" _, [x] => match x with Some q => if Qc_eq_dec q (Q2Qc (inject_Z 3)) then false else true | None => true end
    | PU "home" _, _ => false
    | PB PGe, [Some x; Some y] => if Qclt_le_dec x y then false else true
    | _, _ => true end |}.
(** Every name stands for what it names in the language. *)
Definition dict_of (l : lang) (K : field) (U : rest K) (next : bool) (n : string) (xs : list (carrier (arith K U))) : option (val (arith K U)) :=
  match lget l (CStr n) with
  | Ok (EConst c s) => Some (@VE (arith K U) (cint (arith K U) c s))
  | Ok (EPred p ss) => Some (VB (r_pred U (PU (if next then (p ++ "'")%string else p) ss) xs))
  | Ok (EFun f ss) => Some (@VE (arith K U) (r_fun U (FU f (removelast ss) (last ss "")) xs))
  | _ => None
  end.
Lemma dict_stands_for l K U : inv_tree l -> names_stand_for l K U (dict_of l K U).
Proof.
  intros I n e H. unfold dict_of. destruct e as [s|p ss|f ss|c s].
  - unfold lget in H. destruct (dget cname_eqb (l_index l) (CStr n)) as [e|] eqn:E; [|discriminate H]. injection H as ->. apply (ii_spec l (it_index l I)) in E. apply (defined_as_eq l _ _ (it_index l I)) in E. destruct E as [E _]. now injection E.
  - intros xs _. rewrite H. split; reflexivity.
  - intros xs _. rewrite H. reflexivity.
  - rewrite H. reflexivity.
Qed.
Lemma tree_R : inv_tree (t_lang stR).
Proof. exact (trun_tree no_number (theories ++ map TOp rover) eq_refl). Qed.
Lemma elements_R : elements_named DR Qfield UR.
Proof.
  intros s cs H. unfold DR in H. cbn [r_dom UR]. destruct (String.eqb s "waypoint"); [|destruct (String.eqb s "base"); [|discriminate H]]; injection H as <-; (split; [repeat constructor; eauto|reflexivity]).
Qed.
(** time + sum_{?w : waypoint} [if (visited(?w) ^ max[cost(?w), 5] >= 5) then cost(?w) else -1] *)
Definition spent : rast := NArith "+" [NPvar "time" None; NAgg "sum" [NTyped "?w" "waypoint";
  NIf [NBool "^" [fl "visited" ["?w"]; NRel ">=" [NFunc "max" [fl "cost" ["?w"]; NLit (LInt 5)]; NLit (LInt 5)]]; fl "cost" ["?w"]; NArith "-" [NLit (LInt 1)]]]].
Example C64_nonvacuous : stR = trun no_number (theories ++ map TOp rover) /\ accepted stR DR spent TNum /\ single_variables spent /\ not_requantified spent /\ well_typed_variables (t_lang stR) spent /\
  names_stand_for (t_lang stR) Qfield UR (dict_of (t_lang stR) Qfield UR) /\ elements_named DR Qfield UR /\
  rmeaning Qfield UR (dict_of (t_lang stR) Qfield UR) spent (fun _ => None) = Some (@VE (arith Qfield UR) (rq 12)).
Proof.
  repeat apply conj.
  - vm_compute. reflexivity.
  - assert (C : accepted stR DR (fl "cost" ["?w"]) TNum).
    { apply (a_fun stR DR "cost" "cost" "cost" ["waypoint"; "Real"]); [reflexivity|vm_compute; reflexivity|discriminate| |].
      - repeat constructor; vm_compute; tauto.
      - constructor; [|constructor]. exists "?w". repeat split; [discriminate|left; reflexivity]. }
    unfold spent. apply a_arith; [cbn [In]; auto| |].
    + apply (a_fun stR DR "time" "time" "time" ["Real"]); [reflexivity|vm_compute; reflexivity|discriminate| |reflexivity]. repeat constructor; vm_compute; tauto.
    + apply (a_sum stR DR "sum" "?w" "waypoint" _ TNum [Cst (CStr "w1") "waypoint"; Cst (CStr "w2") "waypoint"; Cst (CStr "b") "base"]); [now left|vm_compute; reflexivity|reflexivity|discriminate| |now right].
      apply a_if; [|exact C| |discriminate].
      * apply a_bool; [cbn [In]; auto| |].
        -- apply (a_pred stR DR "visited" false "visited" "visited" ["waypoint"]); [reflexivity|vm_compute; reflexivity| |].
           ++ repeat constructor; vm_compute; tauto.
           ++ constructor; [|constructor]. exists "?w". repeat split; [discriminate|left; reflexivity].
        -- apply a_compare; [auto| |apply a_int; vm_compute; discriminate]. apply a_func2; [cbn [In]; auto|exact C|apply a_int; vm_compute; discriminate].
      * apply a_minus. apply a_int. vm_compute. discriminate.
  - intros op es H. cbn in H. repeat (destruct H as [H|H]; [try discriminate H; injection H as <- <-; eauto|]). destruct H.
  - intros op x ty b ty' es H N H2. cbn in H. repeat (destruct H as [H|H]; [try discriminate H; injection H as <- <- <- <-|]); [|destruct H]. cbn in H2. repeat (destruct H2 as [H2|H2]; [discriminate H2|]). destruct H2.
  - intros x s s' H H'. assert (Q : forall s, In (x, s) (uses (t_lang stR) spent) -> s = "waypoint"). { intros t Ht. vm_compute in Ht. repeat (destruct Ht as [Ht|Ht]; [now injection Ht|]). destruct Ht. } now rewrite (Q _ H), (Q _ H').
  - exact (dict_stands_for (t_lang stR) Qfield UR tree_R).
  - exact elements_R.
  - vm_compute. reflexivity.
Qed.

(** ** Where the conditions are needed. In each case the reader returns something, which does not mean what the text means. *)
Definition assignment_of (eta : string -> option (F Qfield)) : env (arith Qfield UR) := fun v => eta (fst v).
(** sum_{?x : base, ?y : waypoint} [cost(?y)]: the second variable is what is summed *)
Theorem C64_two_variables_refuted : exists a, translate no_number 10 stR DR a = Ok (ATerm (Var "?y" "waypoint")) /\ a = NAgg "sum" [NTyped "?x" "base"; NTyped "?y" "waypoint"; fl "cost" ["?y"]] /\
  (forall eta, rmeaning Qfield UR (dict_of (t_lang stR) Qfield UR) a eta = Some (@VE (arith Qfield UR) (rq 12))) /\ meaning (arith Qfield UR) (ATerm (Var "?y" "waypoint")) (fun _ => None) = @VE (arith Qfield UR) None.
Proof. eexists. split; [|split; [reflexivity|]]; [vm_compute; reflexivity|]. split; [intros eta; vm_compute; reflexivity|reflexivity]. Qed.
(** forall_{?x : base} [visited(?x)], where visited takes a waypoint: the variable of the atom has another sort and is free *)
Theorem C64_supertype_refuted : exists a x, a = NAgg "forall" [NTyped "?x" "base"; fl "visited" ["?x"]] /\ translate no_number 10 stR DR a = Ok x /\ single_variables a /\ not_requantified a /\
  ~ well_typed_variables (t_lang stR) a /\
  (forall eta, rmeaning Qfield UR (dict_of (t_lang stR) Qfield UR) a eta = Some (VB false)) /\ meaning (arith Qfield UR) x (assignment_of (fun _ => rq 1)) = VB true.
Proof.
  eexists. eexists. split; [reflexivity|]. split; [vm_compute; reflexivity|]. split; [|split; [|split; [|split]]].
  - intros op es H. cbn in H. repeat (destruct H as [H|H]; [try discriminate H; injection H as <- <-; eauto|]). destruct H.
  - intros op x ty b ty' es H N H2. cbn in H. repeat (destruct H as [H|H]; [try discriminate H; injection H as <- <- <- <-|]); [|destruct H]. congruence.
  - intros W. assert (Q := W "?x" "base" "waypoint"). enough ("base" = "waypoint") by discriminate. apply Q; vm_compute; auto.
  - intros eta. vm_compute. reflexivity.
  - vm_compute. reflexivity.
Qed.
(** sum_{?x : base} [forall_{?x : base} [home(?x)]]: the variables of the quantifier are replaced too, which leaves a formula that quantifies over a constant *)
Theorem C64_requantified_refuted : exists a, a = NAgg "sum" [NTyped "?x" "base"; NAgg "forall" [NTyped "?x" "base"; fl "home" ["?x"]]] /\ ~ not_requantified a /\
  translate no_number 10 stR DR a = Ok (ATerm (Ite (Quant QAll [Cst (CStr "b") "base"] (Atom (PU "home" ["base"]) [Cst (CStr "b") "base"])) (Cst (CInt 1) "Integer") (Cst (CInt 0) "Integer"))).
Proof.
  eexists. split; [reflexivity|]. split; [|vm_compute; reflexivity]. intros N. refine (N "sum" "?x" "base" _ "base" [fl "home" ["?x"]] (or_introl eq_refl) ltac:(discriminate) _). now left.
Qed.
Print Assumptions C64_meaning.
Print Assumptions C64_accepts.
