(** The reachability compiler: the monad, atoms and formulas. *)
From Coq Require Import Ascii.
From Verif Require Import Base Syntax Semantics SemLemmas Build NnfProofs Subst SubstSpec SubstProofs FreeVars FreeVarsProofs QElim QElimProofs ModelState ModelProofs ModelText EvalSpec Lang LangSpec Effects Represent Grounding Asp AspNamesSpec AspSpec PropsAspNames AspProofs1.
#[local] Open Scope string_scope.

Record ext (st st' : cstate) : Prop := { ex_rules : incl (c_rules st) (c_rules st'); ex_grows : grows (c_tr st) (c_tr st'); ex_inv : inv_ok (c_tr st') }.
Lemma ext_refl st : inv_ok (c_tr st) -> ext st st.
Proof. constructor; auto using incl_refl, grows_refl. Qed.
Lemma ext_trans a b c : ext a b -> ext b c -> ext a c.
Proof. intros [A B I] [A' B' I']. constructor; [eapply incl_tran; eauto|eapply grows_trans; eauto|auto]. Qed.
Definition mono {A} (m : M A) : Prop := forall st a st', inv_ok (c_tr st) -> m st = Ok (a, st') -> ext st st'.
Lemma bnd_inv {A B} (m : M A) (k : A -> M B) st b st' : bnd m k st = Ok (b, st') -> exists a st1, m st = Ok (a, st1) /\ k a st1 = Ok (b, st').
Proof. unfold bnd. destruct (m st) as [[a st1]|]; [eauto|discriminate]. Qed.
Lemma lift_inv {A} (r : res A) st a st' : lift r st = Ok (a, st') -> r = Ok a /\ st' = st.
Proof. unfold lift. destruct r; [|discriminate]. intros H. injection H as <- <-. auto. Qed.
Lemma ret_inv {A} (x : A) st a st' : ret x st = Ok (a, st') -> a = x /\ st' = st.
Proof. unfold ret. intros H. injection H as <- <-. auto. Qed.
Lemma mono_ret {A} (x : A) : mono (ret x).
Proof. intros st a st' I H. apply ret_inv in H as [-> ->]. now apply ext_refl. Qed.
Lemma mono_fail {A} e : mono (@fail A e).
Proof. intros st a st' I H. discriminate. Qed.
Lemma mono_lift {A} (r : res A) : mono (lift r).
Proof. intros st a st' I H. apply lift_inv in H as [_ ->]. now apply ext_refl. Qed.
Lemma mono_bnd {A B} (m : M A) (k : A -> M B) : mono m -> (forall a, mono (k a)) -> mono (bnd m k).
Proof. intros Hm Hk st b st' I H. apply bnd_inv in H as (a & st1 & H1 & H2). assert (E := Hm _ _ _ I H1). exact (ext_trans _ _ _ E (Hk a _ _ _ (ex_inv _ _ E) H2)). Qed.
Lemma mono_mapS {A B} (f : A -> M B) l : (forall x, In x l -> mono (f x)) -> mono (mapS f l).
Proof.
  induction l as [|x l IH]; intros H; cbn [mapS]; [apply mono_ret|]. apply mono_bnd; [apply H; left; reflexivity|]. intros y. apply mono_bnd; [apply IH; intros z Hz; apply H; right; exact Hz|]. intros ys. apply mono_ret.
Qed.
Lemma mono_add_rule h b : mono (add_rule h b).
Proof. intros st a st' I H. injection H as <- <-. constructor; [|intros k v X; exact X|exact I]. intros r Hr. cbn [c_rules]. rewrite in_app_iff. auto. Qed.
Lemma mono_norm n p : ~ contains "-" p -> mono (norm n p).
Proof.
  intros Hp st a st' I H. unfold norm in H. destruct (normalize (c_tr st) n p) as [[s t]|] eqn:E; [|discriminate]. injection H as <- <-. destruct (normalize_spec _ _ _ _ _ I Hp E) as (A & B & _). constructor; [apply incl_refl|exact B|exact A].
Qed.
Lemma no_hyphen_empty : ~ contains "-" "".
Proof. intros ([|] & b & H); discriminate. Qed.
Lemma mono_lp_atom s args p : ~ contains "-" p -> mono (lp_atom s args p).
Proof. intros Hp. apply mono_bnd; [now apply mono_norm|]. intros x. apply mono_bnd; [apply mono_mapS; intros; apply mono_norm, no_hyphen_empty|]. intros y. apply mono_ret. Qed.
Lemma mono_lp_builtin b args : mono (lp_builtin b args).
Proof. apply mono_bnd; [apply mono_norm, no_hyphen_empty|]. intros x. apply mono_bnd; [apply mono_mapS; intros; apply mono_norm, no_hyphen_empty|]. intros y. destruct (Nat.eqb _ _); [apply mono_ret|apply mono_fail]. Qed.
Lemma atom_prefix : ~ contains "-" "atom". Proof. intros (a & b & H). do 5 (destruct a as [|? a]; [discriminate|cbn in H; try discriminate; injection H as _ H]). Qed.
Lemma type_prefix : ~ contains "-" "type". Proof. intros (a & b & H). do 5 (destruct a as [|? a]; [discriminate|cbn in H; try discriminate; injection H as _ H]). Qed.
Lemma action_prefix : ~ contains "-" "action". Proof. intros (a & b & H). do 7 (destruct a as [|? a]; [discriminate|cbn in H; try discriminate; injection H as _ H]). Qed.
Lemma mono_atom p ts : mono (tarski_atom_to_lp_atom p ts).
Proof. apply mono_bnd; [apply mono_lift|]. intros args. destruct p; [apply mono_lp_builtin|apply mono_lp_atom, atom_prefix]. Qed.
Lemma mono_type t : mono (lp_type_atom t).
Proof. destruct t; cbn [lp_type_atom]; try apply mono_fail; (apply mono_bnd; [apply mono_lift|]; intros; apply mono_lp_atom, type_prefix). Qed.
Lemma mono_aux args : mono (gen_aux_atom args).
Proof. intros st a st' I H. unfold gen_aux_atom in H. apply mono_lp_atom in H; [|apply no_hyphen_empty|exact I]. destruct H as [A B X]. constructor; auto. Qed.

Lemma mono_formula ineq : forall f, mono (process_formula ineq f).
Proof.
  refine (formula_ind_simple _ _ _ _ _ _).
  - apply mono_ret.
  - apply mono_fail.
  - intros p ts. cbn [process_formula]. apply mono_bnd; [apply mono_atom|]. intros. apply mono_ret.
  - intros c fs HF. rewrite Forall_forall in HF. destruct c.
    + cbn [process_formula]. apply mono_bnd; [now apply mono_mapS|]. intros. apply mono_ret.
    + cbn [process_formula]. apply mono_bnd; [apply mono_lift|]. intros vs. apply mono_bnd; [apply mono_lift|]. intros names. apply mono_bnd; [apply mono_aux|]. intros aux. apply mono_bnd; [apply mono_mapS; intros; apply mono_type|]. intros types.
      apply mono_bnd; [now apply mono_mapS|]. intros sub. apply mono_bnd; [apply mono_mapS; intros; apply mono_add_rule|]. intros. apply mono_ret.
    + cbn [process_formula]. destruct (negb ineq); [apply mono_ret|]. destruct fs as [|g [|g' fs]]; try apply mono_fail; [destruct g; apply mono_fail || (apply mono_bnd; [apply mono_atom|]; intros; apply mono_bnd; [apply mono_lift|]; intros; apply mono_ret)|].
      destruct g; apply mono_fail.
  - intros q vs g IH. destruct q; cbn [process_formula]; [|apply mono_fail]. apply mono_bnd; [apply mono_aux|]. intros aux. apply mono_bnd; [apply mono_mapS; intros; apply mono_type|]. intros types. apply mono_bnd; [exact IH|]. intros body. apply mono_bnd; [apply mono_add_rule|]. intros. apply mono_ret.
Qed.

(** * What the calls return, seen from a later state [F] *)
Section Final.
Variable F : cstate.
Let P := c_rules F.
Let T := c_tr F.
Lemma mapS_all {A B} (f : A -> M B) (Q : A -> B -> Prop) l : (forall x, In x l -> mono (f x)) ->
  (forall x y st st', In x l -> inv_ok (c_tr st) -> f x st = Ok (y, st') -> ext st' F -> Q x y) ->
  forall st ys st', inv_ok (c_tr st) -> mapS f l st = Ok (ys, st') -> ext st' F -> Forall2 Q l ys.
Proof.
  induction l as [|x l IH]; intros Hm HQ st ys st' I H E; cbn [mapS] in H; [apply ret_inv in H as [-> ->]; constructor|].
  apply bnd_inv in H as (y & st1 & H1 & H). apply bnd_inv in H as (ys' & st2 & H2 & H). apply ret_inv in H as [-> ->].
  assert (E1 : ext st st1) by exact (Hm x (or_introl eq_refl) _ _ _ I H1). assert (Hm' : forall z, In z l -> mono (f z)) by (intros z Hz; apply Hm; right; exact Hz).
  assert (E2 : ext st1 st2) by exact (mono_mapS f l Hm' _ _ _ (ex_inv _ _ E1) H2). constructor.
  - exact (HQ x y st st1 (or_introl eq_refl) I H1 (ext_trans _ _ _ E2 E)).
  - apply (IH Hm' (fun x y st st' Hx => HQ x y st st' (or_intror Hx)) st1 ys' st2); auto. apply E1.
Qed.
Lemma norm_spec n p st s st' : inv_ok (c_tr st) -> ~ contains "-" p -> norm n p st = Ok (s, st') -> ext st' F -> s = sanitize (full_name (n, p)) /\ known T (full_name (n, p)).
Proof.
  intros I Hp H E. unfold norm in H. destruct (normalize (c_tr st) n p) as [[x t]|] eqn:N; [|discriminate]. injection H as <- <-. destruct (normalize_spec _ _ _ _ _ I Hp N) as (_ & _ & A & B). split; [exact A|]. apply (known_grows t); [exact (ex_grows _ _ E)|exact B].
Qed.
Lemma norms_spec args st l st' : inv_ok (c_tr st) -> mapS (fun a => norm a "") args st = Ok (l, st') -> ext st' F -> l = map sanitize args /\ Forall (known T) args.
Proof.
  intros I H E. assert (G := mapS_all (fun a => norm a "") (fun a s => s = sanitize a /\ known T a) args (fun _ _ => mono_norm _ _ no_hyphen_empty)
    (fun x y st st' _ I' H' E' => norm_spec x "" st y st' I' no_hyphen_empty H' E') st l st' I H E). clear - G. induction G as [|a s args l [-> K] G [-> IH]]; cbn; auto.
Qed.
Lemma lp_atom_spec s args p st a st' : inv_ok (c_tr st) -> ~ contains "-" p -> lp_atom s args p st = Ok (a, st') -> ext st' F ->
  a = {| lp_sym := sanitize (full_name (s, p)); lp_args := map sanitize args; lp_infix := false |} /\ known T (full_name (s, p)) /\ Forall (known T) args.
Proof.
  intros I Hp H E. unfold lp_atom in H. apply bnd_inv in H as (x & st1 & H1 & H). apply bnd_inv in H as (y & st2 & H2 & H). apply ret_inv in H as [-> ->]. assert (E1 : ext st st1) by exact (mono_norm _ _ Hp _ _ _ I H1).
  destruct (norms_spec _ _ _ _ (ex_inv _ _ E1) H2 E) as [-> K]. assert (E2 : ext st1 st2) by exact (mono_mapS (fun a => norm a "") _ (fun _ _ => mono_norm _ _ no_hyphen_empty) _ _ _ (ex_inv _ _ E1) H2).
  destruct (norm_spec _ _ _ _ _ I Hp H1 (ext_trans _ _ _ E2 E)) as [-> K']. auto.
Qed.
Lemma lp_builtin_spec b args st a st' : inv_ok (c_tr st) -> lp_builtin b args st = Ok (a, st') -> ext st' F ->
  a = {| lp_sym := bpred_name b; lp_args := map sanitize args; lp_infix := true |} /\ List.length args = 2 /\ Forall (known T) args.
Proof.
  intros I H E. unfold lp_builtin in H. apply bnd_inv in H as (x & st1 & H1 & H). apply bnd_inv in H as (y & st2 & H2 & H). assert (E1 : ext st st1) by exact (mono_norm _ _ no_hyphen_empty _ _ _ I H1).
  destruct (Nat.eqb (List.length y) 2) eqn:L; [|discriminate]. apply ret_inv in H as [-> ->].
  destruct (norms_spec _ _ _ _ (ex_inv _ _ E1) H2 E) as [-> K]. assert (E2 : ext st1 st2) by exact (mono_mapS (fun a => norm a "") _ (fun _ _ => mono_norm _ _ no_hyphen_empty) _ _ _ (ex_inv _ _ E1) H2).
  destruct (norm_spec _ _ _ _ _ I no_hyphen_empty H1 (ext_trans _ _ _ E2 E)) as [-> K']. apply Nat.eqb_eq in L. rewrite map_length in L. split; [|auto]. f_equal. destruct b; reflexivity.
Qed.
Lemma add_rule_spec h b st u st' : add_rule h b st = Ok (u, st') -> ext st' F -> In {| r_head := h; r_body := b |} P.
Proof. intros H E. injection H as <- <-. apply (ex_rules _ _ E). cbn [c_rules]. rewrite in_app_iff. right. left. reflexivity. Qed.

(** * Bodies that hold *)
Definition sat (theta : string -> string) (a : lpatom) : Prop :=
  if lp_infix a then compares (lp_sym a) (map (instantiate theta) (lp_args a)) else derives P (lp_sym a) (map (instantiate theta) (lp_args a)).
Lemma rule_fires theta h b : In {| r_head := h; r_body := b |} P -> lp_infix h = false -> Forall (sat theta) b -> sat theta h.
Proof.
  intros HP Hh Hb. rewrite Forall_forall in Hb. unfold sat. rewrite Hh. apply (derives_rule P {| r_head := h; r_body := b |} theta HP Hh).
  - intros a Ha Hi. assert (X := Hb a Ha). unfold sat in X. now rewrite Hi in X.
  - intros a Ha Hi. assert (X := Hb a Ha). unfold sat in X. now rewrite Hi in X.
Qed.
Lemma tautology_sat theta : sat theta lp_tautology.
Proof. exists "1", "1". split; [reflexivity|]. left. auto. Qed.

Variables (C : cname -> Prop) (l : lang) (V : list var) (D : domains).
Hypothesis HT : inv_ok T.
Hypothesis HC : well_named C.
Hypothesis HV : well_written l V.
Hypothesis HD : constants_only D.
(** a constant whose name has been translated *)
Definition named (t : term) : Prop := exists c s, t = Cst c s /\ C c /\ known T (name_text c).
Definition lp_name (t : term) : string := sanitize (text t).
Hypothesis Htype : forall s cs t, is_plain l s -> D s = Some cs -> In t cs -> named t /\ derives P (sanitize ("type_" ++ s)) [lp_name t].
Definition invariant (S : state) : Prop := forall n ss pt, true_atoms S (PU n ss) pt = true ->
  Forall named pt /\ known T ("atom_" ++ n) /\ derives P (sanitize ("atom_" ++ n)) (map lp_name pt).

Definition theta_of (e : assignment) (x : string) : string :=
  match find (fun v => match make_variable_name (fst v) with Ok y => String.eqb (sanitize y) x | Err _ => false end) V with Some v => lp_name (e v) | None => "" end.
Lemma theta_written e v x : In v V -> written v x -> variable_like x = true /\ theta_of e x = lp_name (e v).
Proof.
  intros Hv Hx. destruct HV as [V1 V2]. destruct (V1 v Hv) as (_ & x' & Hx' & Hl). assert (x' = x). { destruct Hx as (y & E & ->). destruct Hx' as (y' & E' & ->). congruence. } subst x'. split; [exact Hl|].
  unfold theta_of. match goal with |- context [find ?h V] => destruct (find h V) as [w|] eqn:Fd end.
  - apply find_some in Fd as [Hw Ew]. assert (w = v). { apply (V2 w v x); auto. unfold written. destruct (make_variable_name (fst w)) as [y|]; [|discriminate]. apply String.eqb_eq in Ew. eauto. } now subst w.
  - exfalso. assert (X := find_none _ _ Fd v Hv). cbn beta in X. destruct Hx as (y & E & ->). rewrite E, String.eqb_refl in X. discriminate.
Qed.
Definition typed (W : list var) (e : assignment) : Prop := forall v, In v W -> In v V /\ exists cs, D (snd v) = Some cs /\ In (e v) cs.
Lemma plain_of x s : In (x, s) V -> is_plain l s.
Proof. intros H. exact (proj1 (proj1 HV (x, s) H)). Qed.
Lemma unambiguous_of c : C c -> unambiguous (name_text c). Proof. intros H. exact (proj1 (proj1 HC c H)). Qed.
Lemma named_distinct t u : named t -> named u -> lp_name t = lp_name u -> exists c s r, t = Cst c s /\ u = Cst c r.
Proof.
  intros (c & s & -> & Hc & K) (d & r & -> & Hd & K') E. unfold lp_name, text in E. exists c, s, r. split; [reflexivity|]. f_equal. apply HC; auto. rewrite <- (back_known T (name_text d)), <- (back_known T (name_text c)); auto using unambiguous_of. now rewrite E.
Qed.
Section Values.
Variables (S : state) (e : assignment) (W : list var).
Hypothesis He : typed W e.
Lemma arg_spec t x : process_term t = Ok x -> (forall v, free_in_t v t = true -> In v W) -> (forall c s, t = Cst c s -> C c) -> known T x ->
  named (value D S t e) /\ instantiate (theta_of e) (sanitize x) = lp_name (value D S t e).
Proof.
  intros H Hf Hc K. destruct t as [y s|c s| |]; cbn [process_term] in H; try discriminate.
  - assert (Hin : In (y, s) W) by (apply Hf; cbn; apply var_eqb_refl). destruct (He _ Hin) as (HvV & cs & Hcs & Hval). destruct (theta_written e (y, s) (sanitize x) HvV) as [A B]; [exists x; auto|].
    unfold value. cbn [tsem]. split; [|unfold instantiate; now rewrite A, B]. apply (Htype s cs); auto. exact (plain_of _ _ HvV).
  - injection H as <-. unfold value. cbn [tsem cint structure_of]. split; [exists c, s; eauto|]. unfold instantiate. destruct HC as [C1 _]. destruct (C1 c (Hc c s eq_refl)) as [_ ->]. reflexivity.
Qed.
Lemma args_spec ts args : mapM process_term ts = Ok args -> (forall v, existsb (free_in_t v) ts = true -> In v W) -> (forall c s, In (Cst c s) ts -> C c) -> Forall (known T) args ->
  Forall named (map (fun t => value D S t e) ts) /\ map (instantiate (theta_of e)) (map sanitize args) = map lp_name (map (fun t => value D S t e) ts).
Proof.
  intros H Hf Hc K. apply mapM_Forall2 in H. induction H as [|t x ts args Hx H IH]; [split; [constructor|reflexivity]|]. inversion K as [|? ? K1 K2]; subst.
  destruct IH as [A B]; auto.
  { intros v Hv. apply Hf. cbn [existsb]. rewrite Hv. apply orb_true_r. }
  { intros c s Hin. apply (Hc c s). right. exact Hin. }
  destruct (arg_spec t x Hx) as [A1 B1]; auto.
  { intros v Hv. apply Hf. cbn [existsb]. now rewrite Hv. }
  { intros c s ->. apply (Hc c s). left. reflexivity. }
  cbn [map]. split; [constructor; auto|]. now rewrite B1, B.
Qed.
Lemma user_atom_spec n ss ts st a st' : inv_ok (c_tr st) -> tarski_atom_to_lp_atom (PU n ss) ts st = Ok (a, st') -> ext st' F -> (forall v, existsb (free_in_t v) ts = true -> In v W) -> (forall c s, In (Cst c s) ts -> C c) ->
  lp_infix a = false /\ lp_sym a = sanitize ("atom_" ++ n) /\ known T ("atom_" ++ n) /\ Forall named (map (fun t => value D S t e) ts) /\ map (instantiate (theta_of e)) (lp_args a) = map lp_name (map (fun t => value D S t e) ts).
Proof.
  intros I H E Hf Hc. unfold tarski_atom_to_lp_atom in H. apply bnd_inv in H as (args & st1 & H1 & H). apply lift_inv in H1 as [H1 ->]. destruct (lp_atom_spec _ _ _ _ _ _ I atom_prefix H E) as (-> & K & Ks). cbn [lp_infix lp_sym lp_args].
  destruct (args_spec ts args H1 Hf Hc Ks) as [A B]. change (full_name (n, "atom")) with ("atom_" ++ n) in *. auto.
Qed.
Lemma builtin_atom_spec b ts st a st' : inv_ok (c_tr st) -> tarski_atom_to_lp_atom (PB b) ts st = Ok (a, st') -> ext st' F -> (forall v, existsb (free_in_t v) ts = true -> In v W) -> (forall c s, In (Cst c s) ts -> C c) ->
  lp_infix a = true /\ lp_sym a = bpred_name b /\ exists x y, map (fun t => value D S t e) ts = [x; y] /\ named x /\ named y /\ map (instantiate (theta_of e)) (lp_args a) = [lp_name x; lp_name y].
Proof.
  intros I H E Hf Hc. unfold tarski_atom_to_lp_atom in H. apply bnd_inv in H as (args & st1 & H1 & H). apply lift_inv in H1 as [H1 ->]. destruct (lp_builtin_spec _ _ _ _ _ I H E) as (-> & L & Ks). cbn [lp_infix lp_sym lp_args].
  destruct (args_spec ts args H1 Hf Hc Ks) as [A B]. split; [reflexivity|]. split; [reflexivity|]. assert (L' : List.length ts = 2). { rewrite <- L. clear - H1. apply mapM_Forall2 in H1. induction H1; cbn; auto. }
  destruct ts as [|t [|u [|? ?]]]; try discriminate. cbn [map] in *. inversion A as [|? ? A1 A2]; subst. inversion A2 as [|? ? A3 _]; subst. eexists. eexists. split; [reflexivity|]. auto.
Qed.
Lemma compare_true b x y : named x -> named y -> pint (structure_of D S) (PB b) [x; y] = true -> b = PEq \/ b = PNe -> compares (bpred_name b) [lp_name x; lp_name y].
Proof.
  intros Hx Hy H Hb. assert (Hx' := Hx). assert (Hy' := Hy). destruct Hx' as (c & s & Ex & Hc & Kc). destruct Hy' as (d & r & Ey & Hd & Kd). exists (lp_name x), (lp_name y). split; [reflexivity|]. subst x y. cbn [structure_of pint] in H.
  destruct Hb as [-> | ->]; cbn [name_cmp] in H; destruct (cname_eq_dec c d) as [E|N]; try discriminate; cbn [bpred_name].
  - left. subst d. auto.
  - right. split; [reflexivity|]. intros E. apply (named_distinct _ _ Hx Hy) in E as (c' & s' & r' & E1 & E2). injection E1 as -> ->. injection E2 as -> ->. now apply N.
Qed.
Lemma compare_false b x y : named x -> named y -> pint (structure_of D S) (PB b) [x; y] = false -> b = PEq \/ b = PNe -> exists s, symbol_complements (bpred_name b) = Some s /\ compares s [lp_name x; lp_name y].
Proof.
  intros Hx Hy H Hb. assert (Hx' := Hx). assert (Hy' := Hy). destruct Hx' as (c & s & Ex & Hc & Kc). destruct Hy' as (d & r & Ey & Hd & Kd). subst x y. cbn [structure_of pint] in H.
  destruct Hb as [-> | ->]; cbn [name_cmp] in H; destruct (cname_eq_dec c d) as [E|N]; try discriminate; eexists; (split; [reflexivity|]); eexists; eexists; (split; [reflexivity|]).
  - right. split; [reflexivity|]. intros E. apply (named_distinct _ _ Hx Hy) in E as (c' & s' & r' & E1 & E2). injection E1 as -> ->. injection E2 as -> ->. now apply N.
  - left. subst d. auto.
Qed.
(** Type atoms of variables *)
Lemma type_atom_spec x s st a st' : inv_ok (c_tr st) -> lp_type_atom (Var x s) st = Ok (a, st') -> ext st' F -> In (x, s) W -> sat (theta_of e) a.
Proof.
  intros I H E Hin. cbn [lp_type_atom] in H. apply bnd_inv in H as (n & st1 & H1 & H). apply lift_inv in H1 as [H1 ->]. destruct (lp_atom_spec _ _ _ _ _ _ I type_prefix H E) as (-> & _ & _). destruct (He _ Hin) as (HvV & cs & Hcs & Hval).
  destruct (theta_written e (x, s) (sanitize n) HvV) as [A B]; [exists n; auto|]. unfold sat. cbn [lp_infix lp_sym lp_args map]. unfold instantiate. rewrite A, B. apply (Htype s cs); auto. exact (plain_of _ _ HvV).
Qed.
End Values.

Lemma qsem_exists (S : state) vs (k : assignment -> bool) : forallb is_var vs = true -> forall e, qsem (structure_of D S) QEx vs k e = true ->
  exists e', (forall v, In v (vars_of vs) -> exists cs, D (snd v) = Some cs /\ In (e' v) cs) /\ (forall v, ~ In v (vars_of vs) -> e' v = e v) /\ k e' = true.
Proof.
  induction vs as [|t vs IH]; intros Hv e H; [exists e; split; [intros v []|]; auto|]. cbn [forallb] in Hv. apply andb_true_iff in Hv as [Ht Hv]. destruct t as [x s| | |]; try discriminate. cbn [qsem] in H. apply existsb_exists in H as (d & Hd & H).
  destruct (IH Hv _ H) as (e' & A & B & K). exists e'. split; [|split; [|exact K]].
  - intros v Hin. destruct (in_dec (fun a b : var => match Bool.bool_dec (var_eqb a b) true with left E => left (proj1 (var_eqb_eq a b) E) | right E => right (fun X => E (proj2 (var_eqb_eq a b) X)) end) v (vars_of vs)) as [I|N]; [exact (A v I)|].
    rewrite (B v N). change (vars_of (Var x s :: vs)) with ((x, s) :: vars_of vs) in Hin. destruct Hin as [<-|Hin]; [|contradiction]. unfold upd. rewrite var_eqb_refl. cbn [snd structure_of dom] in *. destruct (D s) as [cs|]; [|destruct Hd]. eauto.
  - intros v N. change (vars_of (Var x s :: vs)) with ((x, s) :: vars_of vs) in N. rewrite B by (intros X; apply N; right; exact X). unfold upd. destruct (var_eqb (x, s) v) eqn:E; [|reflexivity]. apply var_eqb_eq in E. exfalso. apply N. left. exact E.
Qed.
Lemma typed_mono W W' e : incl W' W -> typed W e -> typed W' e.
Proof. intros H He v Hv. apply He, H, Hv. Qed.

Lemma formula_sound S ineq : invariant S -> forall f st body st' W e, inv_ok (c_tr st) -> process_formula ineq f st = Ok (body, st') -> ext st' F -> wf f = true -> fine C V W f -> typed W e -> true_in D S f e -> Forall (sat (theta_of e)) body.
Proof.
  intros HS. refine (formula_ind_simple _ _ _ _ _ _).
  - intros st body st' W e I H E Hw Hf He Ht. apply ret_inv in H as [-> ->]. constructor.
  - intros st body st' W e I H. discriminate.
  - intros p ts st body st' W e I H E Hw Hf He Ht. cbn [process_formula] in H. apply bnd_inv in H as (a & st1 & H1 & H). apply ret_inv in H as [-> ->]. constructor; [|constructor]. destruct Hf as [[Hc Hb] Hfr _]. unfold true_in in Ht. cbn [fsem] in Ht. unfold sat. destruct p as [b|n ss].
    + destruct (builtin_atom_spec S e W He b ts st a st1 I H1 E Hfr Hc) as (-> & -> & x & y & Ev & Nx & Ny & ->). apply (compare_true S); auto. rewrite <- Ev. exact Ht.
    + destruct (user_atom_spec S e W He n ss ts st a st1 I H1 E Hfr Hc) as (-> & -> & _ & _ & ->). apply (HS n ss). exact Ht.
  - intros c fs HF st body st' W e I H E Hw Hf He Ht. rewrite Forall_forall in HF. apply fine_comp in Hf. rewrite Forall_forall in Hf. apply wf_Comp in Hw as [Hw1 Hw]. rewrite Forall_forall in Hw. destruct c.
    + cbn [process_formula] in H. apply bnd_inv in H as (sub & st1 & H1 & H). apply ret_inv in H as [-> ->].
      assert (G := mapS_all (process_formula ineq) (fun g b => Forall (sat (theta_of e)) b) fs (fun g _ => mono_formula ineq g)). unfold true_in in Ht. cbn [fsem] in Ht. rewrite forallb_forall in Ht.
      assert (X : Forall2 (fun g b => Forall (sat (theta_of e)) b) fs sub). { apply (G) with (st := st) (st' := st1); auto. intros g b s s' Hg I' Hp E'. exact (HF g Hg s b s' W e I' Hp E' (Hw g Hg) (Hf g Hg) He (Ht g Hg)). }
      clear - X. induction X as [|g b fs sub Hb X IH]; cbn [List.concat]; [constructor|]. apply Forall_app. auto.
    + cbn [process_formula] in H. apply bnd_inv in H as (vs & st1 & H1 & H). apply lift_inv in H1 as [H1 ->]. apply bnd_inv in H as (names & st1 & H2 & H). apply lift_inv in H2 as [H2 ->]. apply bnd_inv in H as (aux & st1 & H3 & H).
      apply bnd_inv in H as (types & st2 & H4 & H). apply bnd_inv in H as (sub & st3 & H5 & H). apply bnd_inv in H as (u & st4 & H6 & H). apply ret_inv in H as [-> ->].
      assert (E1 := mono_aux _ _ _ _ I H3). assert (E2 := mono_mapS lp_type_atom vs (fun x _ => mono_type x) _ _ _ (ex_inv _ _ E1) H4). assert (E3 := mono_mapS (process_formula ineq) fs (fun g _ => mono_formula ineq g) _ _ _ (ex_inv _ _ E2) H5).
      assert (E4 := mono_mapS (fun body => add_rule aux (body ++ types)%list) sub (fun b _ => mono_add_rule _ _) _ _ _ (ex_inv _ _ E3) H6).
      assert (E3F : ext st3 F) by exact (ext_trans _ _ _ E4 E). assert (E2F : ext st2 F) by exact (ext_trans _ _ _ E3 E3F). assert (E1F : ext st1 F) by exact (ext_trans _ _ _ E2 E2F).
      assert (Haux : lp_infix aux = false). { unfold gen_aux_atom in H3. apply lp_atom_spec in H3 as (-> & _); [reflexivity|exact I|apply no_hyphen_empty|exact E1F]. }
      assert (Hty : Forall (sat (theta_of e)) types).
      { assert (Hwf : wf (Comp Or fs) = true). { cbn [wf]. rewrite Hw1. apply forallb_forall. exact Hw. }
        assert (Hvs := free_variables_spec (Comp Or fs) Hwf). rewrite H1 in Hvs. destruct Hvs as (_ & _ & Hvs & _).
        assert (G : Forall2 (fun v a => sat (theta_of e) a) vs types).
        { apply (mapS_all lp_type_atom _ vs (fun x _ => mono_type x)) with (st := st1) (st' := st2); auto; [|apply E1]. intros v a s s' Hv I' Hp E'. destruct (Hvs v Hv) as ([x r] & -> & Hx). unfold tv in Hp. cbn [fst snd] in Hp.
          apply (type_atom_spec e W He x r s a s'); auto. cbn [free_in] in Hx. apply existsb_exists in Hx as (g & Hg & Hx). exact (fi_free _ _ _ _ (Hf g Hg) _ Hx). }
        clear - G. induction G; constructor; auto. }
      constructor; [|constructor]. unfold true_in in Ht. cbn [fsem] in Ht. apply existsb_exists in Ht as (g & Hg & Ht).
      assert (Hsub : Forall2 (fun g b => true_in D S g e -> Forall (sat (theta_of e)) b) fs sub). { apply (mapS_all (process_formula ineq) _ fs (fun g _ => mono_formula ineq g)) with (st := st2) (st' := st3); auto; [|apply E2]. intros h b s s' Hh I' Hp E' Htr. exact (HF h Hh s b s' W e I' Hp E' (Hw h Hh) (Hf h Hh) He Htr). }
      destruct (Forall2_In_l _ _ _ _ Hsub Hg) as (b & Hb & Hsat).
      assert (Hr : Forall2 (fun b _ => In {| r_head := aux; r_body := (b ++ types)%list |} P) sub u). { apply (mapS_all (fun body => add_rule aux (body ++ types)%list) _ sub (fun b _ => mono_add_rule _ _)) with (st := st3) (st' := st4); auto; [|apply E3]. intros h y s s' _ _ Hp E'. exact (add_rule_spec _ _ _ _ _ Hp E'). }
      destruct (Forall2_In_l _ _ _ _ Hr Hb) as (y & _ & Hin). apply (rule_fires _ _ _ Hin Haux). apply Forall_app. split; [exact (Hsat Ht)|exact Hty].
    + cbn [process_formula] in H. destruct ineq; cbn [negb] in H; [|apply ret_inv in H as [-> ->]; constructor; [apply tautology_sat|constructor]].
      destruct fs as [|g [|g' fs]]; try discriminate. destruct g as [| |p ts| |]; try discriminate. apply bnd_inv in H as (a & st1 & H1 & H). apply bnd_inv in H as (b & st2 & H2 & H). apply lift_inv in H2 as [H2 ->]. apply ret_inv in H as [-> ->].
      constructor; [|constructor]. destruct (Hf _ (or_introl eq_refl)) as [[Hc Hb] Hfr _]. unfold true_in in Ht. cbn [fsem] in Ht. rewrite negb_true_iff in Ht. unfold negate_lp_atom in H2. destruct p as [bp|n ss].
      * destruct (builtin_atom_spec S e W He bp ts st a st1 I H1 E Hfr Hc) as (Ei & Es & x & y & Ev & Nx & Ny & Ea). rewrite Ei, Es in H2. change (pint (structure_of D S) (PB bp) (map (fun t => value D S t e) ts) = false) in Ht. rewrite Ev in Ht. destruct (compare_false S bp x y Nx Ny Ht Hb) as (s & Cs & Cmp). rewrite Cs in H2. injection H2 as <-. unfold sat. cbn [lp_infix lp_sym lp_args]. now rewrite Ea.
      * destruct (user_atom_spec S e W He n ss ts st a st1 I H1 E Hfr Hc) as (Ei & Es & _). rewrite Ei, Es in H2. destruct (symbol_complements (sanitize ("atom_" ++ n))); [discriminate|]. injection H2 as <-. apply tautology_sat.
  - intros q vs g IH st body st' W e I H E Hw Hf He Ht. destruct q; cbn [process_formula] in H; [|discriminate]. apply bnd_inv in H as (aux & st1 & H1 & H). apply bnd_inv in H as (types & st2 & H2 & H). apply bnd_inv in H as (b & st3 & H3 & H). apply bnd_inv in H as (u & st4 & H4 & H). apply ret_inv in H as [-> ->].
    assert (E1 := mono_aux _ _ _ _ I H1). assert (E2 := mono_mapS lp_type_atom vs (fun x _ => mono_type x) _ _ _ (ex_inv _ _ E1) H2). assert (E3 := mono_formula ineq g _ _ _ (ex_inv _ _ E2) H3). assert (E4 := mono_add_rule _ _ _ _ _ (ex_inv _ _ E3) H4).
    assert (E3F : ext st3 F) by exact (ext_trans _ _ _ E4 E). assert (E2F : ext st2 F) by exact (ext_trans _ _ _ E3 E3F). assert (E1F : ext st1 F) by exact (ext_trans _ _ _ E2 E2F).
    apply fine_quant in Hf as [HvV Hf]. cbn [wf] in Hw. apply andb_true_iff in Hw as [Hw Hwg]. apply andb_true_iff in Hw as [_ Hvars].
    unfold true_in in Ht. cbn [fsem] in Ht. destruct (qsem_exists S vs _ Hvars e Ht) as (e' & A & B & K).
    assert (He' : typed (vars_of vs ++ W) e'). { intros v Hv. destruct (in_dec (fun a b : var => match Bool.bool_dec (var_eqb a b) true with left E => left (proj1 (var_eqb_eq a b) E) | right E => right (fun X => E (proj2 (var_eqb_eq a b) X)) end) v (vars_of vs)) as [J|N]; [split; auto|]. rewrite in_app_iff in Hv. destruct Hv as [Hv|Hv]; [contradiction|]. rewrite (B v N). exact (He v Hv). }
    assert (Hb := IH st2 b st3 _ e' (ex_inv _ _ E2) H3 E3F Hwg Hf He' K).
    assert (Hty : Forall (sat (theta_of e')) types).
    { assert (G : Forall2 (fun v a => sat (theta_of e') a) vs types).
      { apply (mapS_all lp_type_atom _ vs (fun x _ => mono_type x)) with (st := st1) (st' := st2); auto; [|apply E1]. intros v a s s' Hv I' Hp E'. rewrite forallb_forall in Hvars. assert (Hvv := Hvars v Hv). destruct v as [x r| | |]; try discriminate.
        apply (type_atom_spec e' _ He' x r s a s'); auto. rewrite in_app_iff. left. unfold vars_of. apply in_flat_map. exists (Var x r). split; [exact Hv|left; reflexivity]. }
      clear - G. induction G; constructor; auto. }
    assert (Haux : aux = {| lp_sym := lp_sym aux; lp_args := []; lp_infix := false |}). { unfold gen_aux_atom in H1. apply lp_atom_spec in H1 as (-> & _); [reflexivity|exact I|apply no_hyphen_empty|exact E1F]. }
    assert (Hr := add_rule_spec _ _ _ _ _ H4 E). assert (Hs : sat (theta_of e') aux) by (apply (rule_fires _ _ _ Hr); [rewrite Haux; reflexivity|apply Forall_app; split; [exact Hb|exact Hty]]).
    constructor; [|constructor]. rewrite Haux in *. exact Hs.
Qed.
End Final.
