(** The language and the problem that the counters generator builds *)
From Coq Require Import Lia Permutation Ascii String List.
Import ListNotations.
From Verif Require Import Base Syntax SemLemmas ListUtil Build ModelState ModelProofs ModelText ModelTextProofs Eval Subst QElim Effects FreeVars Represent SasText SasTextProofs Lang Theories Counters.
#[local] Open Scope string_scope.
#[local] Open Scope list_scope.

Definition fixed_index : list (cname * elem) :=
  [(CStr "object", ESort "object"); (CStr "Real", ESort "Real"); (CStr "Integer", ESort "Integer"); (CStr "Natural", ESort "Natural"); (CStr "ite", EFun "ite" ["object"; "object"; "object"]);
   (CStr "counter", ESort "counter"); (CStr "val", ESort "val"); (CStr "value", EFun "value" ["counter"; "val"]); (CStr "max_int", EFun "max_int" ["val"])].
Definition clang (cs : list string) (ub : Z) : lang :=
  {| l_sorts := [("object", {| s_kind := KPlain; s_builtin := false; s_dom := map CStr cs |}); ("Real", arith_sort true (- real_bound) real_bound);
                 ("Integer", arith_sort false (- (2 ^ 31 - 1)) (2 ^ 31 - 1)); ("Natural", arith_sort false 0 (2 ^ 32 - 1));
                 ("counter", {| s_kind := KPlain; s_builtin := false; s_dom := map CStr cs |}); ("val", {| s_kind := KInterval false 0 ub; s_builtin := false; s_dom := [] |})];
     l_parent := [("object", None); ("Real", Some "object"); ("Integer", Some "Real"); ("Natural", Some "Integer"); ("counter", Some "object"); ("val", Some "Integer")];
     l_anc := [("object", []); ("Real", ["object"]); ("Integer", ["Real"; "object"]); ("Natural", ["Integer"; "Real"; "object"]); ("counter", ["object"]); ("val", ["Integer"; "Real"; "object"])];
     l_ind := [("object", []); ("Real", []); ("Integer", []); ("Natural", []); ("counter", []); ("val", [])];
     l_preds := []; l_funs := [("ite", ["object"; "object"; "object"]); ("value", ["counter"; "val"]); ("max_int", ["val"])];
     l_consts := map (fun c => (CStr c, (CStr c, "counter"))) cs;
     l_index := fixed_index ++ map (fun c => (CStr c, EConst (CStr c) "counter")) cs |}.
Definition ctlang (cs : list string) (ub : Z) : tlang :=
  {| t_lang := clang cs ub; t_theories := [TEquality; TArithmetic];
     t_handlers := ["="; "!="; "@"; "<"; "<="; ">"; ">="; "+"; "-"; "*"; "/"; "**"; "%"; "sqrt"]; t_symbols := ["="; "!="; "@"; "<"; "<="; ">"; ">="; "+"; "-"; "*"; "/"; "**"; "%"; "sqrt"] |}.

Lemma dget_map_none {V} (g : string -> V) cs c : ~ In c cs -> dget cname_eqb (map (fun c => (CStr c, g c)) cs) (CStr c) = None.
Proof. induction cs as [|d cs IH]; intros N; [reflexivity|]. cbn [map dget]. unfold cname_eqb at 1. destruct (cname_eq_dec _ _) as [E|]; [injection E as ->; exfalso; apply N; now left|]. apply IH. intros H; apply N; now right. Qed.
Lemma dset_map {V} (g : string -> V) cs c : ~ In c cs -> dset cname_eqb (map (fun c => (CStr c, g c)) cs) (CStr c) (g c) = map (fun c => (CStr c, g c)) (cs ++ [c]).
Proof. induction cs as [|d cs IH]; intros N; [reflexivity|]. cbn [map dset app]. unfold cname_eqb at 1. destruct (cname_eq_dec _ _) as [E|]; [injection E as ->; exfalso; apply N; now left|]. f_equal. apply IH. intros H; apply N; now right. Qed.
Lemma dget_app_none {V} (l r : list (cname * V)) k : dget cname_eqb l k = None -> dget cname_eqb (l ++ r) k = dget cname_eqb r k.
Proof. induction l as [|[a v] l IH]; [auto|]. cbn [dget app]. destruct (cname_eqb a k); [discriminate|auto]. Qed.
Lemma dset_app_none {V} (l r : list (cname * V)) k v : dget cname_eqb l k = None -> dset cname_eqb (l ++ r) k v = l ++ dset cname_eqb r k v.
Proof. induction l as [|[a w] l IH]; [auto|]. cbn [dget dset app]. destruct (cname_eqb a k); [discriminate|]. intros H. now rewrite IH. Qed.
Lemma cn_mem_map cs c : ~ In c cs -> cn_mem (CStr c) (map CStr cs) = false.
Proof.
  intros N. unfold cn_mem. destruct (existsb _ _) eqn:E; [|reflexivity]. apply existsb_exists in E as (x & Hx & E). apply in_map_iff in Hx as (d & <- & Hd). unfold cname_eqb in E. destruct (cname_eq_dec _ _) as [Q|]; [|discriminate]. injection Q as ->. contradiction.
Qed.

Lemma fixed_free c : dget cname_eqb fixed_index (CStr (String "c"%char c)) = None \/ String "c"%char c = "counter".
Proof.
  unfold fixed_index. cbn [dget]. unfold cname_eqb. repeat (destruct (cname_eq_dec _ _) as [E|_]; [try (injection E; intros; discriminate); try discriminate; right; congruence|]). now left.
Qed.
Lemma name_free k : dget cname_eqb fixed_index (CStr (counter_name k)) = None.
Proof.
  destruct (fixed_free (num k)) as [E|E]; [exact E|]. injection E as E. pose proof (num_digits k "o"%char) as H. rewrite E in H. specialize (H (or_introl eq_refl)). exfalso. vm_compute in H. intuition discriminate.
Qed.
Lemma counter_name_inj i j : counter_name i = counter_name j -> i = j.
Proof. intros E. injection E as E. pose proof (rnum_num i) as R. rewrite E, rnum_num in R. congruence. Qed.
Lemma counter_names_NoDup n : NoDup (counter_names n).
Proof. apply NoDup_map_inj_in; [apply seq_NoDup|]. intros x y _ _. apply counter_name_inj. Qed.

Lemma declare_counter parse cs ub c : dget cname_eqb fixed_index (CStr c) = None -> ~ In c cs -> tdo parse (ctlang cs ub) (TOp (OConst (CStr c) "counter")) = Ok (ctlang (cs ++ [c]) ub).
Proof.
  intros F N. unfold tdo, tstep, lift. cbn [t_lang ctlang lstep].
  assert (E : declare_constant parse (clang cs ub) (CStr c) "counter" = (clang (cs ++ [c]) ub, Ok tt)).
  { unfold declare_constant. change (sget (l_sorts (clang cs ub)) "counter") with (Some {| s_kind := KPlain; s_builtin := false; s_dom := map CStr cs |}). cbv beta iota. cbn [s_builtin].
    unfold check_name, has_constant. assert (K1 : dget cname_eqb (l_consts (clang cs ub)) (CStr c) = None) by exact (dget_map_none (fun c => (CStr c, "counter" : sort)) cs c N). rewrite K1. cbv beta iota.
    assert (K2 : dget cname_eqb (l_index (clang cs ub)) (CStr c) = None) by (etransitivity; [exact (dget_app_none fixed_index _ _ F)|exact (dget_map_none (fun c => EConst (CStr c) "counter") cs c N)]). rewrite K2. cbv beta iota. cbn [s_kind].
    assert (K3 : dset cname_eqb (l_consts (clang cs ub)) (CStr c) (CStr c, "counter" : sort) = l_consts (clang (cs ++ [c]) ub)) by exact (dset_map (fun c => (CStr c, "counter" : sort)) cs c N).
    assert (K4 : dset cname_eqb (l_index (clang cs ub)) (CStr c) (EConst (CStr c) "counter") = l_index (clang (cs ++ [c]) ub)).
    { etransitivity; [exact (dset_app_none fixed_index _ _ _ F)|]. cbn [clang l_index]. f_equal. exact (dset_map (fun c => EConst (CStr c) "counter") cs c N). }
    assert (K5 : extend (S (List.length (l_sorts (clang cs ub)))) (clang cs ub) "counter" (CStr c) = Ok (set_sorts (clang cs ub) (l_sorts (clang (cs ++ [c]) ub)))).
    { change (S (List.length (l_sorts (clang cs ub)))) with 7. cbn [extend clang l_sorts sget dget String.eqb Ascii.eqb Bool.eqb s_kind s_dom s_builtin set_sorts l_anc fold_left add_dom dset bind].
      unfold add_dom. cbn [s_kind s_dom s_builtin]. rewrite (cn_mem_map cs c N), map_app. reflexivity. }
    rewrite K5. unfold set_index, set_consts. cbn [set_sorts l_consts l_index l_sorts l_parent l_anc l_ind l_preds l_funs]. cbv beta zeta in K3 |- *. cbn [l_consts l_index]. f_equal. transitivity {| l_sorts := l_sorts (clang (cs ++ [c]) ub); l_parent := l_parent (clang cs ub); l_anc := l_anc (clang cs ub); l_ind := l_ind (clang cs ub); l_preds := []; l_funs := l_funs (clang cs ub); l_consts := l_consts (clang (cs ++ [c]) ub); l_index := l_index (clang (cs ++ [c]) ub) |}; [|reflexivity]. now rewrite <- K3, <- K4. }
  rewrite E. reflexivity.
Qed.
Lemma declare_counters parse ub : forall l cs, NoDup (cs ++ l) -> (forall c, In c l -> dget cname_eqb fixed_index (CStr c) = None) ->
  foldM (tdo parse) (map (fun c => TOp (OConst (CStr c) "counter")) l) (ctlang cs ub) = Ok (ctlang (cs ++ l) ub).
Proof.
  induction l as [|c l IH]; intros cs N F; [rewrite app_nil_r; reflexivity|]. cbn [map foldM]. rewrite declare_counter; [|apply F; now left|].
  - change ((fix foldM0 (l0 : list top) (s : tlang) : res tlang := match l0 with [] => Ok s | x :: l' => match tdo parse s x with Ok s' => foldM0 l' s' | Err e => Err e end end)) with (foldM (tdo parse)) || idtac.
    rewrite IH; [now rewrite <- app_assoc|now rewrite <- app_assoc|]. intros d Hd. apply F. now right.
  - apply NoDup_remove_2 in N. intros H. apply N, in_or_app. now left.
Qed.
Definition st1 : tlang := Eval vm_compute in match (let! st := language (fun _ _ => None) [TEquality; TArithmetic] in tdo (fun _ _ => None) st (TOp (OSort "counter" None))) with Ok st => st | _ => tlang0 end.
Lemma first_steps parse : (let! st := language parse [TEquality; TArithmetic] in tdo parse st (TOp (OSort "counter" None))) = Ok st1.
Proof. vm_compute. reflexivity. Qed.
Lemma interval_step parse ub : tdo parse st1 (TOp (OInterval "val" "Integer" 0 ub)) = if Z.leb ub 0 then Err SemanticError else
  Ok {| t_lang := fst (set_parent false (register_sort (t_lang st1) "val" {| s_kind := KInterval false 0 ub; s_builtin := false; s_dom := [] |}) "val" "Integer"); t_theories := t_theories st1; t_handlers := t_handlers st1; t_symbols := t_symbols st1 |}.
Proof.
  unfold tdo, tstep, lift, lstep, declare_interval. set (l := t_lang st1).
  replace (check_name l (has_sort l "val") (CStr "val")) with (Ok tt) by (vm_compute; reflexivity). replace (retrieve l "Integer") with (Ok "Integer") by (vm_compute; reflexivity).
  replace (negb (has_sort l "Real" && has_sort l "Natural" && has_sort l "Integer")) with false by (vm_compute; reflexivity). replace (is_real l "Integer") with false by (vm_compute; reflexivity).
  cbv beta iota. change (negb (is_numeric_root "Integer")) with false. cbv iota. destruct (Z.leb ub 0); [reflexivity|].
  assert (E : snd (set_parent false (register_sort l "val" {| s_kind := KInterval false 0 ub; s_builtin := false; s_dom := [] |}) "val" "Integer") = Ok tt) by (vm_compute; reflexivity).
  destruct (set_parent _ _ _ _) as [l' r]. cbn [snd fst] in *. rewrite E. reflexivity.
Qed.
Lemma language_spec parse n ub : generate_fstrips_counters_language parse n ub = if Z.leb ub 0 then Err SemanticError else Ok (ctlang (counter_names n) ub).
Proof.
  unfold generate_fstrips_counters_language. pose proof (first_steps parse) as S1. destruct (language parse [TEquality; TArithmetic]) as [st0|]; [|discriminate]. cbn [bind] in *. cbn [app foldM]. rewrite S1. rewrite interval_step. destruct (Z.leb ub 0); [reflexivity|].
  match goal with |- context [tdo parse ?s (TOp (OFun "value" _))] => assert (E1 : exists s', tdo parse s (TOp (OFun "value" ["counter"; "val"])) = Ok s' /\ tdo parse s' (TOp (OFun "max_int" ["val"])) = Ok (ctlang [] ub)) by (eexists; split; vm_compute; reflexivity) end.
  destruct E1 as (s' & -> & ->). apply (declare_counters parse ub (counter_names n) []); [apply counter_names_NoDup|]. intros c Hc. unfold counter_names in Hc. apply in_map_iff in Hc as (k & <- & _). apply name_free.
Qed.
