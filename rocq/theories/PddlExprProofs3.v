(** Reading PDDL conditions: meaning *)
From Verif Require Import Base Syntax Build BuildProofs Semantics SemLemmas ListUtil ModelState ModelProofs FreeVars Lang LangSpec LangProofs LangProofs2 Theories TheoriesSpec PropsTermOps RddlRead RddlReadProofs2 RddlInitProofs2 PddlInstance PddlInstanceSpec PddlInstanceProofs5 PddlExpr PddlExprSpec PddlExprProofs PddlExprProofs2.
#[local] Open Scope string_scope.
#[local] Open Scope list_scope.

Section Meaning.
Variable parse : bool -> string -> option Z.
Variable fuel : nat.
Variable i : pinst.
Variable W : world.
Variable preds : list string.
Notation l := (pi_lang i).
Notation M := (structure_of W).
Notation st := (with_theories i).
Hypothesis Hfun : forall n f ss, lget l (CStr n) = Ok (EFun f ss) -> f = n /\ String.eqb (last ss "") "Bool" = str_mem n preds.
Hypothesis Hobj : forall n c s, lget l (CStr n) = Ok (EConst c s) -> c = CStr n /\ s <> "Real".

Definition agree (d : scope) (en : env M) (e : names W) : Prop := forall x v, sget d x = Some v -> fst v = x /\ en v = e x.
Lemma agree_dset d en e v (w : W) : agree d en e -> agree (dset String.eqb d (fst v) v) (upd en v w) (bind_name W e (fst v) w).
Proof.
  intros A x u H. rewrite sget_dset in H. unfold upd, bind_name. destruct (String.eqb_spec (fst v) x) as [Q|Q].
  - injection H as <-. split; [exact Q|]. now rewrite var_eqb_refl.
  - destruct (A x u H) as [A1 A2]. split; [exact A1|]. destruct (var_eqb v u) eqn:E; [|exact A2]. apply var_eqb_eq in E. subst u. congruence.
Qed.
Lemma agree_sub d d' en e : (forall x v, sget d' x = Some v -> sget d x = Some v) -> agree d en e -> agree d' en e.
Proof. intros S A x v H. apply A, S, H. Qed.
Lemma scope_sub d ns d' : scope_ok d ns d' -> forall x v, sget d' x = Some v -> sget d x = Some v.
Proof. intros [_ H] x v. rewrite H. destruct (str_mem x ns); [discriminate|auto]. Qed.
Lemma check_arguments_items b : forall its ss ts, List.length its = List.length ss -> check_arguments fuel st b its ss = Ok ts -> its = map ITerm ts.
Proof.
  induction its as [|[t|e] its IH]; intros ss ts L H; [injection H as <-; reflexivity| |]; destruct ss as [|s ss]; try discriminate L; cbn [check_arguments] in H; [|discriminate].
  apply bind_some in H as (u & _ & H). apply bind_some in H as (vs & R & H). injection H as <-. cbn [map]. f_equal. apply (IH ss); [now injection L|exact R].
Qed.
Lemma call_value n e its u : lget l (CStr n) = Ok e -> call_function fuel i e its = Ok u -> exists ts ss, its = map ITerm ts /\ e = EFun n ss /\ u = App (FU n (removelast ss) (last ss "")) ts /\ forall en : env M, tsem M u en = symbol W preds n (map (fun t => tsem M t en) ts).
Proof.
  intros L H. destruct e as [s|p ss|f ss|c s]; try discriminate H. cbn [call_function] in H. destruct (Nat.eqb_spec (List.length its) (List.length (removelast ss))) as [Q|]; [|discriminate]. apply bind_some in H as (ts & R & H). injection H as <-. destruct (Hfun _ _ _ L) as [-> B].
  exists ts, ss. split; [exact (check_arguments_items _ _ _ _ Q R)|]. split; [reflexivity|]. split; [reflexivity|]. intros en. cbn [tsem structure_of fint]. unfold symbol. now rewrite B.
Qed.
Section Env.
Variable d : scope.
Variable en : env M.
Variable e : names W.
Hypothesis A : agree d en e.
Definition stands (x : item) (t : ptm) : Prop := forall u, x = ITerm u -> tsem M u en = term_value W preds e t.
Lemma stands_all its us ts : Forall2 stands its ts -> its = map ITerm us -> map (fun t => tsem M t en) us = map (term_value W preds e) ts.
Proof. intros F. revert us. induction F as [|x t its ts S _ IH]; intros [|u us] Q; try discriminate Q; [reflexivity|]. cbn [map] in *. injection Q as Q1 Q2. now rewrite (S u Q1), (IH us Q2). Qed.
Lemma args_stand ts : Forall (fun t => forall x, read_term fuel i d t = Ok x -> stands x t) ts -> forall its, mapM (read_term fuel i d) ts = Ok its -> Forall2 stands its ts.
Proof. induction 1 as [|t ts H _ IH]; intros its R; cbn [mapM] in R; [injection R as <-; constructor|]. apply bind_some in R as (x & X & R). apply bind_some in R as (xs & Xs & R). injection R as <-. constructor; auto. Qed.
Lemma semantic_ok {B} (r : res B) x : semantic r = Ok x -> r = Ok x.
Proof. unfold semantic. destruct r as [y|[]]; congruence. Qed.
Theorem term_means t : forall x, read_term fuel i d t = Ok x -> stands x t.
Proof.
  induction t as [n|x|f ts IH] using ptm_ind_nested; intros it R u ->; cbn [read_term] in R.
  - apply bind_some in R as (el & L & R). apply semantic_ok in L. injection R as R. unfold item_of, of_elem in R. destruct el as [s|p ss|f ss|c s]; try discriminate R. injection R as <-. destruct (Hobj _ _ _ L) as [-> N]. cbn [tsem structure_of cint term_value]. now rewrite (proj2 (String.eqb_neq s "Real") N).
  - destruct (sget d x) as [v|] eqn:G; [|discriminate]. injection R as <-. destruct (A _ _ G) as [_ Q]. cbn [tsem term_value]. now destruct v.
  - apply bind_some in R as (its & S & R). apply bind_some in R as (el & L & R). apply semantic_ok in L. apply bind_some in R as (t & C & R). injection R as <-. destruct (call_value _ _ _ _ L C) as (us & ss & Q & _ & _ & V). rewrite V. cbn [term_value]. now rewrite (stands_all its us ts (args_stand ts IH its S) Q).
Qed.
Lemma all_args ts its : mapM (read_term fuel i d) ts = Ok its -> Forall2 stands its ts.
Proof. apply args_stand. apply Forall_forall. intros t _. apply term_means. Qed.
Theorem head_means h u : read_head fuel i d h = Ok u -> exists n us ds, u = App (FU n (fst ds) (snd ds)) us /\ head_point W preds e h = (n, map (fun t => tsem M t en) us) /\ tsem M u en = symbol W preds (fst (head_point W preds e h)) (snd (head_point W preds e h)).
Proof.
  destruct h as [n|f ts]; cbn [read_head head_point fst snd]; intros R.
  - apply semantic_ok in R. apply bind_some in R as (el & L & R). destruct (call_value _ _ _ _ L R) as (us & ss & Q & _ & -> & V). destruct us; [|discriminate Q]. exists n, [], (removelast ss, last ss ""). split; [reflexivity|]. split; [reflexivity|]. exact (V en).
  - apply bind_some in R as (its & S & R). apply semantic_ok in R. apply bind_some in R as (el & L & R). destruct (call_value _ _ _ _ L R) as (us & ss & Q & _ & -> & V). exists f, us, (removelast ss, last ss ""). assert (T := stands_all its us ts (all_args ts its S) Q).
    split; [reflexivity|]. split; [now rewrite T|]. rewrite V, T. reflexivity.
Qed.
Lemma atom_means p ts u : read_atom fuel i d p ts = Ok u -> exists us ss, lget l (CStr p) = Ok (EFun p ss) /\ u = App (FU p (removelast ss) (last ss "")) us /\ map (fun t => tsem M t en) us = map (term_value W preds e) ts /\ tsem M u en = symbol W preds p (map (term_value W preds e) ts).
Proof.
  unfold read_atom. intros R. apply bind_some in R as (its & S & R). apply bind_some in R as (el & L & R). destruct (call_value _ _ _ _ L R) as (us & ss & Q & -> & -> & V). exists us, ss. assert (T := stands_all its us ts (all_args ts its S) Q). split; [exact L|]. split; [reflexivity|]. split; [exact T|]. now rewrite V, T.
Qed.
Definition op_value (o : aop) : W -> W -> W := match o with OpAdd => w_add W | OpSub => w_sub W | OpMul => w_mul W | _ => w_div W end.
Lemma operate_means o t u v : o = OpAdd \/ o = OpSub \/ o = OpMul \/ o = OpDiv -> operate parse fuel i o t u = Ok v -> tsem M v en = op_value o (tsem M t en) (tsem M u en).
Proof.
  intros O H. apply dispatch_fun_inv in H as (b & x & y & B & C & -> & _). cbn [cast_operands] in C. injection C as <- <-. destruct O as [-> |[-> |[-> | ->]]]; cbn [op_fun] in B; injection B as <-; reflexivity.
Qed.
Lemma fold_means o us : o = OpAdd \/ o = OpSub \/ o = OpMul \/ o = OpDiv -> forall t v, foldM (operate parse fuel i o) us t = Ok v -> tsem M v en = fold_left (op_value o) (map (fun u => tsem M u en) us) (tsem M t en).
Proof. intros O. induction us as [|u us IH]; intros t v H; cbn [foldM] in H; [injection H as <-; reflexivity|]. apply bind_some in H as (w & X & H). cbn [map fold_left]. rewrite <- (operate_means o t u w O X). now apply IH. Qed.
Lemma exps_mean r : Forall (fun x => forall u, read_exp parse fuel i d x = Ok u -> tsem M u en = exp_value W preds e x) r -> forall us, mapM (read_exp parse fuel i d) r = Ok us -> map (fun u => tsem M u en) us = map (exp_value W preds e) r.
Proof. induction 1 as [|x r H _ IH]; intros us R; cbn [mapM] in R; [injection R as <-; reflexivity|]. apply bind_some in R as (u & X & R). apply bind_some in R as (vs & Xs & R). injection R as <-. cbn [map]. now rewrite (H u X), (IH vs Xs). Qed.
Theorem exp_means x : forall u, read_exp parse fuel i d x = Ok u -> tsem M u en = exp_value W preds e x.
Proof.
  induction x as [z|c|x|n|f ts|a b IHa IHb|a b IHa IHb|a b r IHa IHb IHr|a b r IHa IHb IHr|a IHa] using pfe_ind_nested; intros u R; cbn [read_exp] in R.
  - apply literal_value in R; [|exact I]. subst u. reflexivity.
  - destruct c as [r|z]; cbn [real_constant] in R; [injection R as <-; reflexivity|]. apply literal_value in R; [|exact I]. subst u. reflexivity.
  - destruct (sget d x) as [v|] eqn:G; [|discriminate]. injection R as <-. destruct (A _ _ G) as [_ Q]. cbn [tsem exp_value]. now destruct v.
  - destruct (head_means _ _ R) as (? & ? & ? & _ & _ & V). exact V.
  - destruct (head_means _ _ R) as (? & ? & ? & _ & _ & V). exact V.
  - apply bind_some in R as (t & T & R). apply bind_some in R as (v & V & R). apply operate_means in R; [|auto]. rewrite R, (IHa t T), (IHb v V). reflexivity.
  - apply bind_some in R as (t & T & R). apply bind_some in R as (v & V & R). apply operate_means in R; [|auto]. rewrite R, (IHa t T), (IHb v V). reflexivity.
  - apply bind_some in R as (t & T & R). apply bind_some in R as (v & V & R). apply bind_some in R as (us & Us & R). apply fold_means in R; [|auto]. rewrite R. cbn [map fold_left]. rewrite (exps_mean r IHr us Us), (IHa t T), (IHb v V). reflexivity.
  - apply bind_some in R as (t & T & R). apply bind_some in R as (v & V & R). apply bind_some in R as (us & Us & R). apply fold_means in R; [|auto]. rewrite R. cbn [map fold_left]. rewrite (exps_mean r IHr us Us), (IHa t T), (IHb v V). reflexivity.
  - apply bind_some in R as (t & T & R). discriminate R.
Qed.
Lemma is_value_means t z f : is_value parse fuel i t z = Ok f -> fsem M f en = w_eqb W (tsem M t en) (w_num W z).
Proof.
  intros H. apply dispatch_pred_inv in H as (x & y & C & -> & _). cbn [cast_operands] in C. apply bind_some in C as (v & L & C). apply literal_value in L; [|exact I]. subst v. injection C as <- <-. reflexivity.
Qed.
Lemma w_eqb_refl x : w_eqb W x x = true.
Proof. now apply w_eqb_ok. Qed.
Lemma truth_eq b z : z = 1%Z \/ z = 0%Z -> w_eqb W (truth W b) (w_num W z) = Bool.eqb b (Z.eqb z 1).
Proof.
  intros [-> | ->]; destruct b; cbn [truth Z.eqb Pos.eqb Bool.eqb]; try apply w_eqb_refl.
  - destruct (w_eqb W (w_num W 0) (w_num W 1)) eqn:E; [|reflexivity]. apply w_eqb_ok in E. now destruct (w_01 W).
  - destruct (w_eqb W (w_num W 1) (w_num W 0)) eqn:E; [|reflexivity]. apply w_eqb_ok in E. now destruct (w_01 W).
Qed.
Lemma equal_means a b x y f : read_term fuel i d a = Ok x -> read_term fuel i d b = Ok y -> equal_items parse fuel i x y = Ok f -> fsem M f en = w_eqb W (term_value W preds e a) (term_value W preds e b).
Proof.
  intros X Y H. destruct x as [t|], y as [u|]; try discriminate H. cbn [equal_items] in H. apply dispatch_pred_inv in H as (p & q & C & -> & _). cbn [cast_operands] in C. injection C as <- <-.
  rewrite <- (term_means a _ X t eq_refl), <- (term_means b _ Y u eq_refl). reflexivity.
Qed.
Lemma comp_means b t u f : dispatch_pred parse fuel st b (PyTerm t) (PyTerm u) = Ok f -> fsem M f en = compare W b (tsem M t en) (tsem M u en).
Proof. intros H. apply dispatch_pred_inv in H as (p & q & C & -> & _). cbn [cast_operands] in C. injection C as <- <-. reflexivity. Qed.
End Env.
Lemma neg_value f g (en : env M) : neg f = Ok g -> fsem M g en = negb (fsem M f en).
Proof. intros H. destruct f as [| | | | ]; injection H as <-; reflexivity. Qed.
Lemma qsem_names q k h : forall vs d en e, agree d en e -> (forall en' e', agree (enter d vs) en' e' -> k en' = h e') -> qsem M q (terms_of vs) k en = quantify W (match q with QEx => true | QAll => false end) vs h e.
Proof.
  induction vs as [|v vs IH]; intros d en e A H; cbn [terms_of map qsem quantify]; [now apply H|]. fold (terms_of vs). destruct v as [x s]. cbn [fst snd].
  assert (Q : forall w : W, qsem M q (terms_of vs) k (upd en (x, s) w) = quantify W (match q with QEx => true | QAll => false end) vs h (bind_name W e x w)). { intros w. apply (IH (dset String.eqb d x (x, s))); [exact (agree_dset d en e (x, s) w A)|exact H]. }
  change (dom M s) with (w_dom W s). destruct q.
  - induction (w_dom W s) as [|w ws IHw]; [reflexivity|]. cbn [existsb map]. rewrite Q. f_equal. exact IHw.
  - induction (w_dom W s) as [|w ws IHw]; [reflexivity|]. cbn [forallb map]. rewrite Q. f_equal. exact IHw.
Qed.
Definition means (g : gd) : Prop := forall d f d' en e, distinct d -> (forall p, In p (atom_symbols g) -> In p preds) -> read_gd parse fuel i d g = Ok (f, d') -> agree d en e -> fsem M f en = gd_value W preds e g.
Lemma list_means gs : Forall means gs -> forall d fs d' en e, distinct d -> (forall p, In p (flat_map atom_symbols gs) -> In p preds) -> read_list (read_gd parse fuel i) d gs = Ok (fs, d') -> agree d en e -> map (fun f => fsem M f en) fs = map (gd_value W preds e) gs.
Proof.
  induction 1 as [|g gs Hg _ IH]; intros d fs d' en e D P R A; [injection R as <- _; reflexivity|]. rewrite read_list_cons in R. apply bind_some in R as ([f d1] & R1 & R). apply bind_some in R as ([fs' d2] & R2 & R). injection R as <- <-. cbn [fst snd map flat_map] in *.
  destruct (gd_scope _ _ _ _ _ _ _ D R1) as [_ S]. f_equal; [apply (Hg _ _ _ _ _ D) with (3 := A) (2 := R1); intros p Hp; apply P; apply in_app_iff; now left|].
  apply (IH d1 fs' d2 en e (proj1 S)); [intros p Hp; apply P; apply in_app_iff; now right|exact R2|]. exact (agree_sub _ _ _ _ (scope_sub _ _ _ S) A).
Qed.
Lemma forallb_ext_map {A B} (f : A -> bool) (g : B -> bool) xs ys : map f xs = map g ys -> forallb f xs = forallb g ys.
Proof. revert ys. induction xs as [|x xs IH]; intros [|y ys] H; try discriminate H; [reflexivity|]. cbn [map forallb] in *. injection H as H1 H2. now rewrite H1, (IH ys H2). Qed.
Lemma existsb_ext_map {A B} (f : A -> bool) (g : B -> bool) xs ys : map f xs = map g ys -> existsb f xs = existsb g ys.
Proof. revert ys. induction xs as [|x xs IH]; intros [|y ys] H; try discriminate H; [reflexivity|]. cbn [map existsb] in *. injection H as H1 H2. now rewrite H1, (IH ys H2). Qed.
Lemma quantified_means q vs g : means g -> forall d f d' en e, distinct d -> (forall p, In p (atom_symbols g) -> In p preds) ->
  (let! xs := normalize i [] vs in let! fd := read_gd parse fuel i (enter d xs) g in let! h := make_quantified q xs (fst fd) in let! d' := leave (snd fd) xs in Ok (h, d')) = Ok (f, d') ->
  agree d en e -> fsem M f en = quantify W (match q with QEx => true | QAll => false end) (typed_variables vs) (fun e => gd_value W preds e g) e.
Proof.
  intros Hg d f d' en e D P R A. apply bind_some in R as (xs & X & R). apply normalize_typed in X. cbn [map app] in X. subst xs. apply bind_some in R as ([f1 d1] & R1 & R). apply bind_some in R as (h & K & R). apply bind_some in R as (d2 & _ & R). injection R as <- _. cbn [fst] in K.
  assert (E : h = Quant q (terms_of (typed_variables vs)) f1). { unfold make_quantified in K. destruct (typed_variables vs); [discriminate K|]. now injection K. } rewrite E. cbn [fsem].
  apply (qsem_names q _ _ (typed_variables vs) d en e A). intros en' e' A'. exact (Hg _ _ _ _ _ (enter_distinct _ _ D) P R1 A').
Qed.
Theorem gd_means g : means g.
Proof.
  induction g as [p ts|p ts|a b|a b|gs IH|gs IH|g IH|g h IHg IHh|vs g IH|vs g IH|b x y] using gd_ind_nested; intros d f d' en e D P R A; cbn [read_gd gd_value atom_symbols] in *.
  - apply bind_some in R as (t & T & R). apply bind_some in R as (k & K & R). injection R as <- _. destruct (atom_means d en e A _ _ _ T) as (us & ss & _ & _ & _ & V). rewrite (is_value_means en t 1 k K), V. unfold symbol. rewrite (proj2 (str_mem_In _ _) (P p (or_introl eq_refl))). rewrite truth_eq by auto. now destruct (w_pred W p _).
  - apply bind_some in R as (t & T & R). apply bind_some in R as (k & K & R). injection R as <- _. destruct (atom_means d en e A _ _ _ T) as (us & ss & _ & _ & _ & V). rewrite (is_value_means en t 0 k K), V. unfold symbol. rewrite (proj2 (str_mem_In _ _) (P p (or_introl eq_refl))). rewrite truth_eq by auto. now destruct (w_pred W p _).
  - apply bind_some in R as (x & X & R). apply bind_some in R as (y & Y & R). apply bind_some in R as (k & K & R). injection R as <- _. exact (equal_means d en e A a b x y k X Y K).
  - apply bind_some in R as (x & X & R). apply bind_some in R as (y & Y & R). apply bind_some in R as (k & K & R). apply bind_some in R as (h & N & R). injection R as <- _. rewrite (neg_value _ _ en N). now rewrite (equal_means d en e A a b x y k X Y K).
  - apply bind_some in R as ([fs d1] & R1 & R). apply bind_some in R as (k & K & R). injection R as <- _. rewrite (land_value _ _ M en K). apply forallb_ext_map. exact (list_means gs IH _ _ _ _ _ D P R1 A).
  - apply bind_some in R as ([fs d1] & R1 & R). apply bind_some in R as (k & K & R). injection R as <- _. rewrite (lor_value _ _ M en K). apply existsb_ext_map. exact (list_means gs IH _ _ _ _ _ D P R1 A).
  - apply bind_some in R as ([f1 d1] & R1 & R). apply bind_some in R as (k & K & R). injection R as <- _. rewrite (neg_value _ _ en K). cbn [fst]. now rewrite (IH _ _ _ _ _ D P R1 A).
  - apply bind_some in R as ([f1 d1] & R1 & R). apply bind_some in R as ([f2 d2] & R2 & R). apply bind_some in R as (n & N & R). apply bind_some in R as (k & K & R). injection R as <- _. cbn [fst snd] in *. destruct (gd_scope _ _ _ _ _ _ _ D R1) as [_ S].
    rewrite (lor_value _ _ M en K). cbn [existsb]. rewrite (neg_value _ _ en N), (IHg _ _ _ _ _ D (fun p Hp => P p (in_or_app _ _ _ (or_introl Hp))) R1 A), (IHh _ _ _ _ _ (proj1 S) (fun p Hp => P p (in_or_app _ _ _ (or_intror Hp))) R2 (agree_sub _ _ _ _ (scope_sub _ _ _ S) A)), orb_false_r.
    now destruct (gd_value W preds e g).
  - exact (quantified_means QEx vs g IH d f d' en e D P R A).
  - exact (quantified_means QAll vs g IH d f d' en e D P R A).
  - apply bind_some in R as (t & T & R). apply bind_some in R as (u & U & R). apply bind_some in R as (k & K & R). injection R as <- _. rewrite (comp_means en b t u k K). now rewrite (exp_means d en e A x t T), (exp_means d en e A y u U).
Qed.
(** Effects, except that scaling down is read as scaling up *)
Definition as_read (f : peff) : peff := match f with EScaleDown h x => EScaleUp h x | _ => f end.
Definition simple (f : peff) : Prop := match f with EEq (PApp _ _) _ => True | EEq _ _ => False | _ => True end.
Theorem effect_means d en e f a : agree d en e -> simple f -> read_effect parse fuel i d f = Ok a -> exists c, assignment_change W a en = Some c /\ effect_change W preds e (as_read f) = Some c.
Proof.
  intros A Sf R. destruct f as [p ts|p ts|x y|x y|h x|g ts t|g ts|h x|h x|h x|h x|fs|g fs]; cbn [read_effect as_read] in R |- *; try discriminate R.
  - apply bind_some in R as (t & T & R). injection R as <-. destruct (atom_means d en e A _ _ _ T) as (us & ss & _ & -> & V & _). cbn [assignment_change effect_change]. rewrite V. eexists. split; reflexivity.
  - apply bind_some in R as (t & T & R). injection R as <-. destruct (atom_means d en e A _ _ _ T) as (us & ss & _ & -> & V & _). cbn [assignment_change effect_change]. rewrite V. eexists. split; reflexivity.
  - destruct x as [n|v|g ts]; [destruct Sf|destruct Sf|]. apply bind_some in R as (x & X & R). apply bind_some in R as (z & Y & R). destruct z as [u|]; [|discriminate R]. injection R as <-. cbn [read_term] in X. apply bind_some in X as (its & S & X). apply bind_some in X as (el & L & X). apply semantic_ok in L. apply bind_some in X as (t & C & X). injection X as <-.
    destruct (call_value _ _ _ _ L C) as (us & ss & Q & _ & -> & _). cbn [assignment_change effect_change]. rewrite (stands_all en e its us ts (all_args d en e A ts its S) Q), (term_means d en e A y _ Y u eq_refl). eexists. split; reflexivity.
  - apply bind_some in R as (t & T & R). apply bind_some in R as (u & U & R). discriminate R.
  - apply bind_some in R as (t & T & R). apply bind_some in R as (u & U & R). injection R as <-. destruct (head_means d en e A _ _ T) as (n & us & dd & -> & Hp & _). cbn [assignment_change effect_change]. rewrite Hp, (exp_means d en e A x u U). eexists. split; reflexivity.
  - apply bind_some in R as (v & T & R). apply bind_some in R as (y & Y & R). destruct y as [u|]; [|discriminate R]. injection R as <-. destruct (head_means d en e A _ _ T) as (n & us & dd & -> & Hp & _). cbn [head_point] in Hp. injection Hp as -> Hp. cbn [assignment_change effect_change]. rewrite Hp, (term_means d en e A t _ Y u eq_refl). eexists. split; reflexivity.
  - apply bind_some in R as (t & T & R). discriminate R.
  - unfold scaled in R. apply bind_some in R as (t & T & R). apply bind_some in R as (u & U & R). apply bind_some in R as (v & V & R). injection R as <-. destruct (head_means d en e A _ _ T) as (n & us & dd & -> & Hp & Hv). cbn [assignment_change effect_change]. unfold by_amount. rewrite (operate_means en OpMul _ _ _ ltac:(auto) V), Hv, (exp_means d en e A x u U), Hp. eexists. split; reflexivity.
  - unfold scaled in R. apply bind_some in R as (t & T & R). apply bind_some in R as (u & U & R). apply bind_some in R as (v & V & R). injection R as <-. destruct (head_means d en e A _ _ T) as (n & us & dd & -> & Hp & Hv). cbn [assignment_change effect_change]. unfold by_amount. rewrite (operate_means en OpMul _ _ _ ltac:(auto) V), Hv, (exp_means d en e A x u U), Hp. eexists. split; reflexivity.
  - unfold scaled in R. apply bind_some in R as (t & T & R). apply bind_some in R as (u & U & R). apply bind_some in R as (v & V & R). injection R as <-. destruct (head_means d en e A _ _ T) as (n & us & dd & -> & Hp & Hv). cbn [assignment_change effect_change]. unfold by_amount. rewrite (operate_means en OpAdd _ _ _ ltac:(auto) V), Hv, (exp_means d en e A x u U), Hp. eexists. split; reflexivity.
  - unfold scaled in R. apply bind_some in R as (t & T & R). apply bind_some in R as (u & U & R). apply bind_some in R as (v & V & R). injection R as <-. destruct (head_means d en e A _ _ T) as (n & us & dd & -> & Hp & Hv). cbn [assignment_change effect_change]. unfold by_amount. rewrite (operate_means en OpSub _ _ _ ltac:(auto) V), Hv, (exp_means d en e A x u U), Hp. eexists. split; reflexivity.
Qed.
End Meaning.
