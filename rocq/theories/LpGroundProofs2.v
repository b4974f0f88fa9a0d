(** The heads of the rules of a reachability program, and what that says about the derived atoms. *)
From Coq Require Import Ascii.
From Verif Require Import Base Syntax Semantics SemLemmas NnfProofs Subst QElim QElimProofs FreeVars ModelState ModelProofs ModelText Lang LangSpec LangProofs LangProofs2 LangProofs3 PropsLang Effects Represent Grounding Asp AspNamesSpec AspSpec PropsAspNames AspProofs1 AspProofs2 AspProofs3 LpGround LpGroundSpec.
#[local] Open Scope string_scope.

Section Emits.
Variable F : cstate.
Let T := c_tr F.
Definition emits {A} (Q : rule -> Prop) (R : A -> Prop) (m : M A) : Prop :=
  forall st a st', inv_ok (c_tr st) -> m st = Ok (a, st') -> ext st' F -> (forall r, In r (c_rules st') -> In r (c_rules st) \/ Q r) /\ R a.
Lemma emits_weaken {A} (Q Q' : rule -> Prop) (R R' : A -> Prop) m : (forall r, Q r -> Q' r) -> (forall a, R a -> R' a) -> emits Q R m -> emits Q' R' m.
Proof. intros HQ HR H st a st' I E X. destruct (H st a st' I E X) as [A1 A2]. split; [|auto]. intros r Hr. destruct (A1 r Hr); auto. Qed.
Lemma emits_ret {A} Q (R : A -> Prop) x : R x -> emits Q R (ret x).
Proof. intros H st a st' I E _. apply ret_inv in E as [-> ->]. auto. Qed.
Lemma emits_fail {A} Q (R : A -> Prop) e : emits Q R (fail e).
Proof. intros st a st' I E. discriminate. Qed.
Lemma emits_lift {A} Q (r : res A) : emits Q (fun a => r = Ok a) (lift r).
Proof. intros st a st' I E _. apply lift_inv in E as [-> ->]. auto. Qed.
Lemma emits_bnd {A B} Q (R : A -> Prop) (R' : B -> Prop) m k : mono m -> (forall a, mono (k a)) -> emits Q R m -> (forall a, R a -> emits Q R' (k a)) -> emits Q R' (bnd m k).
Proof.
  intros Mm Mk Hm Hk st b st' I E X. apply bnd_inv in E as (a & st1 & E1 & E2). assert (X1 : ext st st1) by exact (Mm _ _ _ I E1). assert (X2 : ext st1 st') by exact (Mk a _ _ _ (ex_inv _ _ X1) E2).
  destruct (Hm st a st1 I E1 (ext_trans _ _ _ X2 X)) as [A1 A2]. destruct (Hk a A2 st1 b st' (ex_inv _ _ X1) E2 X) as [B1 B2]. split; [|exact B2]. intros r Hr. destruct (B1 r Hr) as [Y|Y]; auto.
Qed.
Lemma emits_mapS {A B} Q (R : A -> B -> Prop) (f : A -> M B) l : (forall x, In x l -> mono (f x)) -> (forall x, In x l -> emits Q (R x) (f x)) -> emits Q (Forall2 R l) (mapS f l).
Proof.
  induction l as [|x l IH]; intros Mf Hf; cbn [mapS]; [apply emits_ret; constructor|]. assert (Ml : forall y, In y l -> mono (f y)) by (intros; apply Mf; right; auto).
  apply (emits_bnd Q (R x)); [apply Mf; left; reflexivity| |apply Hf; left; reflexivity|].
  { intros y. apply mono_bnd; [now apply mono_mapS|intros; apply mono_ret]. }
  intros y Hy. apply (emits_bnd Q (Forall2 R l)); [now apply mono_mapS|intros; apply mono_ret|apply IH; auto; intros; apply Hf; right; auto|]. intros ys Hys. apply emits_ret. now constructor.
Qed.
Lemma emits_add_rule (Q : rule -> Prop) h b : Q {| r_head := h; r_body := b |} -> emits Q (fun _ => True) (add_rule h b).
Proof. intros H st a st' I E _. injection E as <- <-. split; [|exact Logic.I]. intros r Hr. cbn [c_rules] in Hr. apply in_app_iff in Hr as [Hr|[<-|[]]]; auto. Qed.
Lemma emits_norm Q n p : ~ contains "-" p -> emits Q (fun s => s = sanitize (full_name (n, p)) /\ known T (full_name (n, p))) (norm n p).
Proof.
  intros Hp st a st' I E X. split; [|exact (norm_spec F _ _ _ _ _ I Hp E X)]. unfold norm in E. destruct (normalize _ _ _) as [[s t]|]; [|discriminate]. injection E as <- <-. auto.
Qed.
Lemma emits_norms Q args : emits Q (fun ss => ss = map sanitize args /\ Forall (known T) args) (mapS (fun a => norm a "") args).
Proof.
  eapply emits_weaken; [intros r H; exact H| |apply (emits_mapS Q (fun a s => s = sanitize a /\ known T a))].
  - intros ss H. induction H as [|a s args ss [-> K] H [-> IH]]; cbn; auto.
  - intros x _. apply mono_norm, no_hyphen_empty.
  - intros x _. exact (emits_norm Q x "" no_hyphen_empty).
Qed.
Definition is_atom_of (s : string) (args : list string) (a : lpatom) : Prop := a = {| lp_sym := sanitize s; lp_args := map sanitize args; lp_infix := false |} /\ known T s /\ Forall (known T) args.
Lemma mono_norms args : mono (mapS (fun a => norm a "") args).
Proof. apply mono_mapS. intros. apply mono_norm, no_hyphen_empty. Qed.
Lemma emits_lp_atom Q s args p : ~ contains "-" p -> emits Q (is_atom_of (full_name (s, p)) args) (lp_atom s args p).
Proof.
  intros Hp. unfold lp_atom. eapply emits_bnd; [now apply mono_norm| |exact (emits_norm Q s p Hp)|].
  { intros. apply mono_bnd; [apply mono_norms|intros; apply mono_ret]. }
  intros x [-> K]. eapply emits_bnd; [apply mono_norms|intros; apply mono_ret|apply emits_norms|]. intros y [-> K']. apply emits_ret. repeat split; auto.
Qed.
Lemma emits_lp_builtin Q b args : emits Q (fun a => lp_infix a = true) (lp_builtin b args).
Proof.
  unfold lp_builtin. eapply emits_bnd; [apply mono_norm, no_hyphen_empty| |exact (emits_norm Q _ "" no_hyphen_empty)|].
  { intros. apply mono_bnd; [apply mono_norms|]. intros y. destruct (Nat.eqb _ _); [apply mono_ret|apply mono_fail]. }
  intros x _. eapply emits_bnd; [apply mono_norms| |apply emits_norms|].
  { intros y. destruct (Nat.eqb _ _); [apply mono_ret|apply mono_fail]. }
  intros y _. destruct (Nat.eqb _ _); [now apply emits_ret|apply emits_fail].
Qed.
Definition atom_head (a : lpatom) : Prop := lp_infix a = true \/ exists n, lp_sym a = sanitize ("atom_" ++ n).
Lemma emits_atom Q p ts : emits Q atom_head (tarski_atom_to_lp_atom p ts).
Proof.
  unfold tarski_atom_to_lp_atom. eapply emits_bnd; [apply mono_lift| |apply emits_lift|].
  { intros args. destruct p; [apply mono_lp_builtin|apply mono_lp_atom, atom_prefix]. }
  intros args _. destruct p as [b|n ss].
  - eapply emits_weaken; [intros r H; exact H| |apply emits_lp_builtin]. intros a H. left. exact H.
  - eapply emits_weaken; [intros r H; exact H| |apply emits_lp_atom, atom_prefix]. intros a (-> & _). right. exists n. reflexivity.
Qed.
Definition type_of (t : term) (a : lpatom) : Prop :=
  match t with Var x s => exists n, make_variable_name x = Ok n /\ is_atom_of ("type_" ++ s) [n] a | Cst c s => exists n, uncapitalize c = Ok n /\ is_atom_of ("type_" ++ s) [n] a | _ => False end.
Lemma emits_type Q t : emits Q (type_of t) (lp_type_atom t).
Proof.
  destruct t as [x s|c s| |]; cbn [lp_type_atom]; try apply emits_fail.
  - eapply emits_bnd; [apply mono_lift|intros; apply mono_lp_atom, type_prefix|apply emits_lift|]. intros n E. eapply emits_weaken; [intros r H; exact H| |apply emits_lp_atom, type_prefix]. intros a Ha. exists n. split; [exact E|exact Ha].
  - eapply emits_bnd; [apply mono_lift|intros; apply mono_lp_atom, type_prefix|apply emits_lift|]. intros n E. eapply emits_weaken; [intros r H; exact H| |apply emits_lp_atom, type_prefix]. intros a Ha. exists n. split; [exact E|exact Ha].
Qed.
Definition aux_head (a : lpatom) : Prop := exists k, lp_sym a = String "_" k.
Lemma emits_aux Q args : emits Q aux_head (gen_aux_atom args).
Proof.
  intros st a st' I E X. unfold gen_aux_atom in E. destruct (emits_lp_atom Q _ args "" no_hyphen_empty _ _ _ (I : inv_ok (c_tr {| c_tr := c_tr st; c_aux := S (c_aux st); c_rules := c_rules st |})) E X) as [A (-> & _)]. split; [exact A|].
  eexists. cbn [lp_sym full_name fst snd append sanitize Ascii.eqb]. reflexivity.
Qed.
Definition aux_rule (r : rule) : Prop := aux_head (r_head r).
Ltac mon := first [apply mono_ret|apply mono_fail|apply mono_lift|apply mono_add_rule|apply mono_aux|apply mono_type|apply mono_atom|apply mono_formula|(apply mono_mapS; intros; mon)|(apply mono_bnd; [mon|intros; mon])].
Lemma emits_formula ineq : forall f, emits aux_rule (fun _ => True) (process_formula ineq f).
Proof.
  refine (formula_ind_simple _ _ _ _ _ _).
  - now apply emits_ret.
  - apply emits_fail.
  - intros p ts. cbn [process_formula]. eapply emits_bnd; [mon|intros; mon|apply emits_atom|]. intros. now apply emits_ret.
  - intros c fs HF. rewrite Forall_forall in HF. destruct c; cbn [process_formula].
    + eapply emits_bnd; [mon|intros; mon|apply (emits_mapS _ (fun _ _ => True)); [intros; mon|intros x Hx; exact (HF x Hx)]|]. intros. now apply emits_ret.
    + eapply emits_bnd; [mon|intros; mon|apply emits_lift|]. intros vs _. eapply emits_bnd; [mon|intros; mon|apply emits_lift|]. intros names _. eapply emits_bnd; [mon|intros; mon|apply emits_aux|]. intros aux Haux.
      eapply emits_bnd; [mon|intros; mon|apply (emits_mapS _ type_of); [intros; mon|intros; apply emits_type]|]. intros types _.
      eapply emits_bnd; [mon|intros; mon|apply (emits_mapS _ (fun _ _ => True)); [intros; mon|intros x Hx; exact (HF x Hx)]|]. intros sub _.
      eapply emits_bnd; [mon|intros; mon|apply (emits_mapS _ (fun _ _ => True)); [intros; mon|intros x _; apply emits_add_rule; exact Haux]|]. intros. now apply emits_ret.
    + destruct (negb ineq); [now apply emits_ret|]. destruct fs as [|g [|g' fs]]; try apply emits_fail; [|destruct g; apply emits_fail]. destruct g; try apply emits_fail.
      eapply emits_bnd; [mon|intros; mon|apply emits_atom|]. intros a _. eapply emits_bnd; [mon|intros; mon|apply emits_lift|]. intros. now apply emits_ret.
  - intros q vs g IH. destruct q; cbn [process_formula]; [|apply emits_fail]. eapply emits_bnd; [mon|intros; mon|apply emits_aux|]. intros aux Haux. eapply emits_bnd; [mon|intros; mon|apply (emits_mapS _ type_of); [intros; mon|intros; apply emits_type]|]. intros types _.
    eapply emits_bnd; [mon|intros; mon|exact IH|]. intros body _. eapply emits_bnd; [mon|intros; mon|apply emits_add_rule; exact Haux|]. intros. now apply emits_ret.
Qed.
Definition plain_rule (r : rule) : Prop := aux_head (r_head r) \/ atom_head (r_head r).
Lemma emits_effect D ineq e : emits plain_rule (fun o => match o with Some (h, _) => atom_head h | None => True end) (process_effect D ineq e).
Proof.
  destruct e as [c a|c a|i c x y|c vs es|c a|c]; cbn [process_effect]; try apply emits_fail; [|now apply emits_ret]. destruct a; try apply emits_fail. eapply emits_bnd; [mon|intros; mon|apply emits_atom|]. intros h Hh. eapply emits_bnd; [mon|intros; mon|apply emits_lift|]. intros phi _.
  eapply emits_bnd; [mon|intros; mon|eapply emits_weaken; [|intros x Hx; exact Hx|apply emits_formula]; intros r Hr; left; exact Hr|]. intros body _. now apply emits_ret.
Qed.
Lemma emits_effect_and_rule D ineq pre e : emits plain_rule (fun _ => True) (let* r := process_effect D ineq e in add_effect_rule pre r).
Proof.
  eapply emits_bnd; [apply mono_effect|intros; apply mono_effect_rule|apply emits_effect|]. intros [[h b]|] H; cbn [add_effect_rule]; [apply emits_add_rule; right; exact H|now apply emits_ret].
Qed.
End Emits.
