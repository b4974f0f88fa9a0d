(** The language of a PDDL domain: what its names stand for, and its numeric sorts *)
From Verif Require Import Base Syntax SemLemmas ListUtil ModelState ModelProofs FreeVars Lang LangSpec LangProofs LangProofs2 Theories TheoriesSpec TheoriesProofs RddlInitProofs2 PddlInstance PddlInstanceSpec PddlInstanceProofs PddlInstanceProofs2 PddlInstanceProofs3 PddlInstanceProofs4 PddlInstanceProofs5.
#[local] Open Scope string_scope.
#[local] Open Scope list_scope.

Definition ite_symbol : string * list string := ("ite", ["object"; "object"; "object"]).
Record info (l : lang) (K : list (string * string)) (S : list (string * list string)) : Prop := {
  in_elem : forall n e, lget l (CStr n) = Ok e -> (e = ESort n /\ has_sort l n = true) \/ (exists s, e = EConst (CStr n) s /\ In (n, s) K) \/ (exists ss, e = EFun n ss /\ In (n, ss) (ite_symbol :: S));
  in_kind : forall s, In s numeric_sorts -> exists r r0, sget (l_sorts l) s = Some r /\ sget (l_sorts first_lang) s = Some r0 /\ s_kind r = s_kind r0;
  in_anc : forall s, In s numeric_sorts -> sget (l_anc l) s = sget (l_anc first_lang) s;
  in_ind : forall s, In s numeric_sorts -> get_set (l_ind l) s = []
}.
Lemma in_numeric s : In s numeric_sorts -> s = "Real" \/ s = "Integer" \/ s = "Natural" \/ s = "Bool".
Proof. unfold numeric_sorts. cbn [In]. intuition congruence. Qed.
Lemma info_first : info first_lang [] [].
Proof.
  constructor.
  - intros n e. unfold lget. destruct (dget cname_eqb (l_index first_lang) (CStr n)) as [x|] eqn:G; [|discriminate]. intros H. injection H as <-. apply (dget_In cname_eqb cname_eqb_eq) in G. unfold first_lang in G. cbn [l_index In] in G.
    repeat destruct G as [G|G]; try (injection G as <- <-; left; split; reflexivity); [|destruct G]. injection G as <- <-. right. right. exists ["object"; "object"; "object"]. split; [reflexivity|now left].
  - intros s H. apply in_numeric in H as [-> |[-> |[-> | ->]]]; (eexists; eexists; split; [vm_compute; reflexivity|split; [vm_compute; reflexivity|reflexivity]]).
  - intros s H. reflexivity.
  - intros s H. apply in_numeric in H as [-> |[-> |[-> | ->]]]; reflexivity.
Qed.
Lemma numeric_sort_used l K S n : info l K S -> In n numeric_sorts -> has_sort l n = true.
Proof. intros I H. destruct (in_kind _ _ _ I n H) as (r & r0 & G & _). unfold has_sort. now rewrite G. Qed.
Lemma ind_reset d s u : u <> s -> get_set (dset String.eqb (map (fun kv : string * list string => (fst kv, [])) d) s []) u = [].
Proof.
  intros N. unfold get_set. rewrite sget_dset. destruct (String.eqb_spec s u) as [Q|_]; [congruence|]. induction d as [|[k v] d IH]; [reflexivity|]. cbn [map fst]. unfold sget in *. cbn [dget]. destruct (String.eqb k u); [reflexivity|exact IH].
Qed.
Lemma info_set_parent ow l K S s p l' : info l K S -> ~ In s numeric_sorts -> of_step (set_parent ow l s p) = Ok l' -> info l' K S.
Proof.
  intros [I1 I2 I3 I4] N H.
  assert (G : forall d c, info (set_par (set_par l d (l_anc l) (l_ind l)) d (dset String.eqb (l_anc l) s c) (dset String.eqb (map (fun kv => (fst kv, [])) (l_ind l)) s [])) K S).
  { intros d c. constructor; cbn [set_par l_anc l_ind l_sorts].
    - exact I1.
    - exact I2.
    - intros u Hu. rewrite sget_dset. destruct (String.eqb_spec s u) as [->|_]; [contradiction|auto].
    - intros u Hu. apply ind_reset. intros ->. contradiction. }
  unfold set_parent, of_step in H. destruct (sget (l_parent l) s) as [[q|]|]; [destruct ow; [|discriminate H]| |]; (match type of H with context [closure ?k ?a ?b] => destruct (closure k a b) as [c|] end; [|discriminate H]); cbn [fst snd bind set_par l_parent l_anc l_ind] in H; injection H as <-; apply G.
Qed.
Lemma info_sort l K S n p l' : info l K S -> of_step (declare_sort l n p) = Ok l' -> info l' K S /\ ~ In n numeric_sorts.
Proof.
  intros I H. unfold declare_sort in H. destruct (match p with None => _ | Some _ => _ end) as [q|]; [|discriminate H]. unfold attach in H. destruct (check_name l (has_sort l n) (CStr n)) as [[]|] eqn:C; [|discriminate H].
  assert (N : ~ In n numeric_sorts). { intros Q. rewrite (numeric_sort_used _ _ _ _ I Q) in C. unfold check_name in C. discriminate C. }
  split; [|exact N]. eapply info_set_parent; [|exact N|exact H]. destruct I as [I1 I2 I3 I4]. constructor; unfold register_sort; cbn [set_index set_sorts l_anc l_ind l_sorts].
  - intros m e. unfold lget. cbn [set_index set_sorts l_index]. rewrite cidx. destruct (cname_eqb (CStr n) (CStr m)) eqn:Q.
    + apply cname_eqb_eq in Q. injection Q as <-. intros W. injection W as <-. left. split; [reflexivity|]. unfold has_sort. cbn [set_index set_sorts l_sorts]. now rewrite sget_dset, String.eqb_refl.
    + intros W. destruct (I1 m e W) as [[V V2]|V]; [|now right]. left. split; [exact V|]. unfold has_sort in *. cbn [set_index set_sorts l_sorts]. rewrite sget_dset. now destruct (String.eqb n m).
  - intros u Hu. destruct (I2 u Hu) as (r & r0 & G1 & G2 & G3). exists r, r0. split; [|auto]. rewrite sget_dset. destruct (String.eqb_spec n u) as [->|_]; [contradiction|exact G1].
  - exact I3.
  - exact I4.
Qed.
Lemma extend_kinds c : forall k l s l', extend k l s c = Ok l' -> forall u r, sget (l_sorts l) u = Some r -> exists r', sget (l_sorts l') u = Some r' /\ s_kind r' = s_kind r.
Proof.
  induction k as [|k IH]; intros l s l' H u r Hu; cbn [extend] in H; [discriminate|]. destruct (sget (l_sorts l) s) as [r1|] eqn:G; [|discriminate]. destruct (s_kind r1) eqn:K1; [|injection H as <-; eauto].
  destruct (sget (l_anc (set_sorts l _)) s) as [a|]; [|discriminate]. assert (F : forall a l1 l', fold_left (fun acc p => let! l' := acc in extend k l' p c) a (Ok l1) = Ok l' -> forall u r, sget (l_sorts l1) u = Some r -> exists r', sget (l_sorts l') u = Some r' /\ s_kind r' = s_kind r).
  { clear - IH. induction a as [|p a IHa]; intros l1 l' H u r Hu; cbn [fold_left bind] in H; [injection H as <-; eauto|]. destruct (extend k l1 p c) as [l2|e] eqn:Q.
    - destruct (IH _ _ _ Q u r Hu) as (r1 & G1 & G2). destruct (IHa _ _ H u r1 G1) as (r2 & W1 & W2). exists r2. split; [exact W1|congruence].
    - exfalso. clear - H. induction a as [|x a IHa]; cbn [fold_left bind] in H; [discriminate|auto]. }
  destruct (String.eqb_spec s u) as [Q|Q].
  - subst u. rewrite Hu in G. injection G as <-. destruct (F _ _ _ H s (add_dom c r)) as (r' & W1 & W2); [cbn [set_sorts l_sorts]; rewrite sget_dset, String.eqb_refl; reflexivity|]. exists r'. split; [exact W1|exact W2].
  - apply (F _ _ _ H u r). cbn [set_sorts l_sorts]. rewrite sget_dset. destruct (String.eqb_spec s u) as [W|_]; [contradiction|exact Hu].
Qed.
Section Steps.
Variable parse : bool -> string -> option Z.
Lemma info_weaken l K S K' S' : info l K S -> incl K K' -> incl S S' -> info l K' S'.
Proof.
  intros [I1 I2 I3 I4] HK HS. constructor; auto. intros n e H. destruct (I1 n e H) as [W|[(s & W & Q)|(ss & W & Q)]]; [now left|right; left; eauto|right; right; exists ss; split; [exact W|]]. destruct Q as [Q|Q]; [now left|right; auto].
Qed.
Lemma info_const l K S c s l' : info l K S -> of_step (lstep parse l (OConst (CStr c) s)) = Ok l' -> info l' (K ++ [(c, s)]) S.
Proof.
  intros I H. apply (info_weaken l K S (K ++ [(c, s)]) S) in I; [|intros x Hx; apply in_app_iff; now left|intros x Hx; exact Hx]. unfold of_step in H. cbn [lstep] in H. unfold declare_constant in H. destruct (sget (l_sorts l) s) as [r|]; [|discriminate]. destruct (s_builtin r).
  { destruct (s_kind r); [discriminate|]. destruct (cast _ _ _ _ _); [|discriminate]. cbn [fst snd bind] in H. now injection H as <-. }
  destruct (check_name _ _ _); [|discriminate].
  assert (R : forall l1 y, same_but_sorts l l1 -> (forall u r, sget (l_sorts l) u = Some r -> exists r', sget (l_sorts l1) u = Some r' /\ s_kind r' = s_kind r) ->
     info (set_index (set_consts l1 (dset cname_eqb (l_consts l1) (CStr c) (y, s))) (dset cname_eqb (l_index l1) (CStr c) (EConst (CStr c) s))) (K ++ [(c, s)]) S).
  { intros l1 y (_ & A2 & A3 & _ & _ & _ & A7 & _) KK. destruct I as [I1 I2 I3 I4]. constructor; cbn [set_index set_consts l_anc l_ind l_sorts].
    - intros m e. unfold lget. cbn [set_index set_consts l_index]. rewrite cidx, A7. destruct (cname_eqb (CStr c) (CStr m)) eqn:Q; [|intros W; destruct (I1 m e W) as [[V V2]|V]; [left; split; [exact V|]; unfold has_sort in *; cbn [set_index set_consts l_sorts]; destruct (sget (l_sorts l) m) as [q|] eqn:Gq; [|discriminate V2]; destruct (KK m q Gq) as (q' & -> & _); reflexivity|now right]]. apply cname_eqb_eq in Q. injection Q as <-. intros W. injection W as <-. right. left. exists s. split; [reflexivity|]. apply in_app_iff. right. now left.
    - intros u Hu. destruct (I2 u Hu) as (q & r0 & G1 & G2 & G3). destruct (KK u q G1) as (r' & W1 & W2). exists r', r0. split; [exact W1|]. split; [exact G2|congruence].
    - rewrite A2. exact I3.
    - rewrite A3. exact I4. }
  destruct (s_kind r).
  - destruct (extend _ _ _ _) as [l1|] eqn:X; [|discriminate]. cbn [fst snd bind] in H. injection H as <-. apply R; [exact (extend_same _ _ _ _ _ X)|exact (extend_kinds _ _ _ _ _ X)].
  - destruct (cast _ _ _ _ _) as [y|]; [|discriminate]. cbn [fst snd bind] in H. injection H as <-. apply R; [apply same_refl|eauto].
Qed.
Lemma retrieve_same l s t : retrieve l s = Ok t -> t = s.
Proof. unfold retrieve. destruct (has_sort l s); intros H; [now injection H|discriminate]. Qed.
Lemma retrieve_all l ss : forall ts, mapM (retrieve l) ss = Ok ts -> ts = ss.
Proof.
  induction ss as [|s ss IH]; intros ts H; cbn [mapM] in H; [now injection H|]. destruct (retrieve l s) as [t|] eqn:Q; [|discriminate]. destruct (mapM _ ss) as [us|]; [|discriminate]. injection H as <-. rewrite (retrieve_same _ _ _ Q). now rewrite (IH us eq_refl).
Qed.
Lemma info_fun l K S n ss l' : info l K S -> of_step (lstep parse l (OFun n ss)) = Ok l' -> info l' K (S ++ [(n, ss)]).
Proof.
  intros I H. unfold of_step in H. cbn [lstep] in H. unfold declare_function in H. destruct (check_name _ _ _); [|discriminate]. destruct (mapM (retrieve l) ss) as [ts|] eqn:M; [|discriminate]. apply retrieve_all in M. subst ts. destruct ss as [|s ss]; [discriminate|]. cbn [fst snd bind] in H. injection H as <-.
  destruct I as [I1 I2 I3 I4]. constructor; auto. intros m e. unfold lget. cbn [set_index set_funs l_index]. rewrite cidx. destruct (cname_eqb (CStr n) (CStr m)) eqn:Q.
  - apply cname_eqb_eq in Q. injection Q as <-. intros W. injection W as <-. right. right. exists (s :: ss). split; [reflexivity|]. right. apply in_app_iff. right. now left.
  - intros W. destruct (I1 m e W) as [V|[V|(us & V & X)]]; [now left|auto|]. right. right. exists us. split; [exact V|]. destruct X as [X|X]; [now left|]. right. apply in_app_iff. now left.
Qed.
(** The reader *)
Definition iinfo (i : pinst) K S : Prop := info (pi_lang i) K S /\ forall t, In t (pi_types i) -> ~ In t numeric_sorts.
Lemma iinfo_entry i K S e i' : iinfo i K S -> process_entry i e = Ok i' -> iinfo i' K S.
Proof.
  assert (T : forall i n p i', iinfo i K S -> (let! l := of_step (declare_sort (pi_lang i) n p) in Ok (with_type i l n)) = Ok i' -> iinfo i' K S).
  { intros j n p j' [I1 I2] H. apply bind_some in H as (l1 & H & W). injection W as <-. destruct (info_sort _ _ _ _ _ _ I1 H) as [A B]. split; [exact A|]. cbn [with_type pi_types]. intros t Ht. apply in_snoc in Ht as [Ht| ->]; auto. }
  assert (Sub : forall s added subs i i', iinfo i K S -> foldM (process_subtype s added) subs i = Ok i' -> iinfo i' K S).
  { intros s added. induction subs as [|x subs IH]; intros j j' I H; cbn [foldM] in H; [now injection H as <-|]. destruct (process_subtype s added j x) as [j1|] eqn:Q; [|discriminate]. apply (IH j1 j'); [|exact H]. unfold process_subtype in Q. destruct (str_mem x (pi_types j)) eqn:M.
    - destruct added; [|discriminate]. apply bind_some in Q as (l1 & Q & W). injection W as <-. destruct I as [I1 I2]. split; [|exact I2]. eapply info_set_parent; [exact I1|apply I2; exact (proj1 (str_mem_In _ _) M)|exact Q].
    - eapply T; eauto. }
  intros I H. destruct e as [n|p subs]; cbn [process_entry] in H; [eapply T; eauto|]. unfold process_supertype in H. apply bind_some in H as (i0 & Q0 & Q). eapply Sub; [|exact Q]. destruct (negb _); [eapply T; eauto|now injection Q0 as <-].
Qed.
Lemma iinfo_types es : forall i K S i', iinfo i K S -> types_def i es = Ok i' -> iinfo i' K S.
Proof.
  unfold types_def. induction es as [|e es IH]; intros i K S i' I H; cbn [foldM] in H; [now injection H as <-|]. destruct (process_entry i e) as [i1|] eqn:Q; [|discriminate]. eapply IH; [|exact H]. eapply iinfo_entry; eauto.
Qed.
Lemma iinfo_constants es : forall i K S i', iinfo i K S -> constants_def parse i es = Ok i' -> iinfo i' (K ++ constants_of es) S.
Proof.
  unfold constants_def. induction es as [|e es IH]; intros i K S i' I H; cbn [foldM] in H; [injection H as <-; cbn; now rewrite app_nil_r|]. destruct e as [n|p cs]; [discriminate|]. destruct (str_mem _ _); [|discriminate]. destruct (process_constants parse i (primitive_type p) cs) as [i1|] eqn:Q; [|discriminate].
  cbn [constants_of flat_map]. fold (constants_of es). rewrite app_assoc. eapply IH; [|exact H]. clear IH H. unfold process_constants in Q. apply bind_some in Q as (l1 & Q & W). injection W as <-. destruct I as [I1 I2]. split; [|exact I2]. cbn [pi_lang]. clear I2. revert K I1 Q. generalize (pi_lang i). induction cs as [|c cs IHc]; intros l K I1 Q; cbn [foldM] in Q.
  - injection Q as <-. cbn. now rewrite app_nil_r.
  - destruct (of_step (lstep parse l (OConst (CStr c) (primitive_type p)))) as [l2|] eqn:W; [|discriminate]. cbn [map]. rewrite snoc_assoc. eapply IHc; [|exact Q]. eapply info_const; eauto.
Qed.
Lemma normalize_typed i l : forall seen vs, normalize i seen l = Ok vs -> vs = map (fun v => (v, next_type l)) seen ++ typed_variables l.
Proof.
  assert (P : forall t seen us, mapM (fun v : string => let! s := retrieve (pi_lang i) t in Ok (v, s)) seen = Ok us -> us = map (fun v => (v, t)) seen).
  { intros t. induction seen as [|v seen IH]; intros us H; cbn [mapM] in H; [now injection H|]. destruct (retrieve (pi_lang i) t) as [s|] eqn:R; [|discriminate]. cbn [bind] in H. apply retrieve_same in R. subst s. destruct (mapM _ seen) as [ws|]; [|discriminate]. injection H as <-. cbn [map]. now rewrite (IH ws eq_refl). }
  induction l as [|[n|p] l IH]; intros seen vs H; cbn [normalize next_type typed_variables] in *.
  - destruct (str_mem "object" (pi_types i)); [|discriminate]. apply bind_some in H as (us & H & W). cbn [bind] in W. injection W as <-. rewrite (P _ _ _ H). reflexivity.
  - rewrite (IH _ _ H), map_app, <- app_assoc. reflexivity.
  - destruct (str_mem (primitive_type p) (pi_types i)); [|discriminate]. apply bind_some in H as (us & H & W). apply bind_some in W as (r & R & W). injection W as <-. rewrite (P _ _ _ H), (IH _ _ R). reflexivity.
Qed.
Lemma iinfo_symbol i K S n args cod i' : iinfo i K S -> (let! vs := normalize i [] args in let! l := of_step (lstep parse (pi_lang i) (OFun n (map snd vs ++ [cod]))) in Ok (with_lang i l)) = Ok i' -> iinfo i' K (S ++ [(n, map snd (typed_variables args) ++ [cod])]).
Proof.
  intros [I1 I2] H. apply bind_some in H as (vs & N & H). apply bind_some in H as (l1 & H & W). injection W as <-. apply normalize_typed in N. cbn [map app] in N. subst vs. split; [|exact I2]. cbn [with_lang pi_lang]. eapply info_fun; eauto.
Qed.
Lemma iinfo_decls ds : forall i K S i', iinfo i K S -> foldM (process_decl parse) ds i = Ok i' -> iinfo i' (K ++ all_constants ds) (S ++ signatures ds).
Proof.
  induction ds as [|d ds IH]; intros i K S i' I H; cbn [foldM] in H; [injection H as <-; cbn; now rewrite !app_nil_r|]. destruct (process_decl parse i d) as [i1|] eqn:Q; [|discriminate]. destruct d as [es|n args|n args cod]; cbn [process_decl] in Q; cbn [all_constants signatures flat_map]; fold (all_constants ds) (signatures ds).
  - rewrite app_assoc. eapply IH; [|exact H]. eapply iinfo_constants; eauto.
  - cbn [app]. rewrite (snoc_assoc S). eapply IH; [|exact H]. eapply iinfo_symbol; [exact I|exact Q].
  - cbn [app]. rewrite (snoc_assoc S). eapply IH; [|exact H]. eapply iinfo_symbol; [exact I|exact Q].
Qed.
Theorem domain_info es ds i : read_domain parse es ds = Ok i -> info (pi_lang i) (all_constants ds) (signatures ds).
Proof.
  unfold read_domain. intros R. apply bind_some in R as (i0 & R0 & R). apply bind_some in R as (i1 & R1 & R). rewrite new_eq in R0. assert (Q : i0 = {| pi_lang := first_lang; pi_types := ["object"]; pi_objects := [] |}) by congruence. subst i0. clear R0.
  assert (I0 : iinfo {| pi_lang := first_lang; pi_types := ["object"]; pi_objects := [] |} [] []). { split; [exact info_first|]. cbn [pi_types]. intros t [<- |[]] H. apply in_numeric in H as [H|[H|[H|H]]]; discriminate H. }
  apply (iinfo_types es _ _ _ _ I0) in R1. exact (proj1 (iinfo_decls ds _ _ _ _ R1 R)).
Qed.
End Steps.
