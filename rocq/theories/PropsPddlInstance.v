(** C66: the types, constants, predicates and functions of a PDDL domain *)
From Verif Require Import Base Syntax SemLemmas ListUtil ModelState ModelProofs FreeVars Lang LangSpec LangProofs LangProofs2 Theories TheoriesSpec TheoriesProofs RddlInitProofs2 PddlInstance PddlInstanceSpec PddlInstanceProofs PddlInstanceProofs2 PddlInstanceProofs3 PddlInstanceProofs4 PddlInstanceProofs5.
#[local] Open Scope string_scope.
#[local] Open Scope list_scope.

Section Domain.
Variable parse : bool -> string -> option Z.
Lemma declared_funs l n p : l_funs (fst (declare_sort l n p)) = l_funs l.
Proof.
  assert (SP : forall ow l s q, l_funs (fst (set_parent ow l s q)) = l_funs l). { intros ow l0 s0 p0. unfold set_parent. destruct (sget (l_parent l0) s0) as [[|]|]; try destruct ow; try destruct (closure _ _ p0); reflexivity. }
  unfold declare_sort. destruct (match p with Some _ => _ | None => _ end) as [q|]; [|reflexivity]. unfold attach. destruct (check_name _ _ _); [|reflexivity]. rewrite SP. reflexivity.
Qed.
Lemma types_funs es : forall i i', types_def i es = Ok i' -> l_funs (pi_lang i') = l_funs (pi_lang i).
Proof.
  assert (D : forall l n p l', of_step (declare_sort l n p) = Ok l' -> l_funs l' = l_funs l) by (intros l n p l' R; unfold of_step in R; apply bind_some in R as (u & _ & R); injection R as <-; apply declared_funs).
  assert (P : forall l s q l', of_step (set_parent true l s q) = Ok l' -> l_funs l' = l_funs l).
  { intros l s q l' R; unfold of_step in R; apply bind_some in R as (u & _ & R); injection R as <-. unfold set_parent. destruct (sget (l_parent l) s) as [[|]|]; try destruct (closure _ _ q); reflexivity. }
  assert (Sub : forall s added subs i i', foldM (process_subtype s added) subs i = Ok i' -> l_funs (pi_lang i') = l_funs (pi_lang i)).
  { intros s added. induction subs as [|x subs IH]; intros i i' R; cbn [foldM] in R; [now injection R as <-|]. destruct (process_subtype s added i x) as [i1|] eqn:Q; [|discriminate]. rewrite (IH i1 i' R). unfold process_subtype in Q. destruct (str_mem x (pi_types i)).
    - destruct added; [|discriminate]. apply bind_some in Q as (l1 & Q & W). injection W as <-. exact (P _ _ _ _ Q).
    - apply bind_some in Q as (l1 & Q & W). injection W as <-. exact (D _ _ _ _ Q). }
  unfold types_def. induction es as [|e es IH]; intros i i' R; cbn [foldM] in R; [now injection R as <-|]. destruct (process_entry i e) as [i1|] eqn:Q; [|discriminate]. rewrite (IH i1 i' R). destruct e as [n|p subs]; cbn [process_entry] in Q.
  - unfold process_type in Q. apply bind_some in Q as (l1 & Q & W). injection W as <-. exact (D _ _ _ _ Q).
  - unfold process_supertype in Q. apply bind_some in Q as (i0 & Q0 & Q). rewrite (Sub _ _ _ _ _ Q). destruct (negb _); [|now injection Q0 as <-]. apply bind_some in Q0 as (l1 & Q0 & W). injection W as <-. exact (D _ _ _ _ Q0).
Qed.
Lemma read_types es : types_ok [] es -> exists i, (let! i := new_instance parse in types_def i es) = Ok i /\ reads_as i es /\ indexed i.
Proof.
  intros K. rewrite new_eq. cbn [bind]. destruct (section_reads es [] _ first_reads K) as (i & Ei & R). exists i. split; [exact Ei|]. split; [exact R|]. intros m Hm. unfold has_function in Hm. rewrite (types_funs es _ i Ei) in Hm. destruct R as (rank & E & V & _). apply (v_names _ _ _ _ _ _ V).
  cbn [pi_lang first_lang l_funs] in Hm. unfold sget, dget in Hm. destruct (String.eqb_spec "ite" m) as [Q|]; [|discriminate]. rewrite <- Q. unfold reserved. cbn [app In]. tauto.
Qed.
Lemma read_state es ds i : read_domain parse es ds = Ok i -> types_ok [] es /\ decls_ok (types_of es) [] ds /\
  exists rank E N, pinv rank i E (types_of es) N (map (fun e => (CStr (fst e), snd e)) (all_constants ds)) /\ link E (pairs_of es) (types_of es) /\ (forall n ss, In (n, ss) (signatures ds) -> lget (pi_lang i) (CStr n) = Ok (EFun n ss)).
Proof.
  unfold read_domain. intros R. apply bind_some in R as (i0 & R0 & R). apply bind_some in R as (i1 & R1 & R). assert (K : types_ok [] es). { apply (section_reads_inv es [] _ i1 first_reads). rewrite new_eq in R0. assert (Q : i0 = {| pi_lang := first_lang; pi_types := ["object"]; pi_objects := [] |}) by congruence. now rewrite <- Q. }
  split; [exact K|]. destruct (read_types es K) as (i1' & R1' & (rank & E & V & L & NR) & X). rewrite R0 in R1'. cbn [bind] in R1'. assert (i1' = i1) as -> by congruence.
  assert (No : ~ In "object" (types_of es)) by (intros Q; apply (NR _ Q); now left). assert (D := decls_read_inv parse rank E (types_of es) ds No i1 [] [] i V X R). split; [exact D|].
  destruct (decls_read parse rank E (types_of es) ds i1 [] [] V X D) as (i' & N' & R' & V' & _ & S'). assert (i' = i) as -> by congruence. exists rank, E, N'. split; [exact V'|]. split; [exact L|exact S'].
Qed.
(** A domain can be read exactly when its sections are in order. *)
Theorem C66_accepts es ds : (exists i, read_domain parse es ds = Ok i) <-> types_ok [] es /\ decls_ok (types_of es) [] ds.
Proof.
  split; [intros [i R]; apply read_state in R as (A & B & _); auto|]. intros [A B]. destruct (read_types es A) as (i1 & R1 & (rank & E & V & L & NR) & X). apply bind_some in R1 as (i0 & R0 & R1). destruct (decls_read parse rank E (types_of es) ds i1 [] [] V X B) as (i & N' & R & _).
  exists i. unfold read_domain. rewrite R0. cbn [bind]. rewrite R1. exact R.
Qed.
(** The types are object and the types that the section mentions. *)
Theorem C66_types es ds i : read_domain parse es ds = Ok i -> (forall n, In n (pi_types i) <-> n = "object" \/ In n (types_of es)) /\ forall n, In n (pi_types i) -> is_plain (pi_lang i) n.
Proof.
  intros R. destruct (read_state es ds i R) as (_ & _ & rank & E & N & V & L & _). split.
  - intros n. rewrite (v_types _ _ _ _ _ _ V). cbn [In]. intuition congruence.
  - intros n Hn. apply (v_types _ _ _ _ _ _ V) in Hn. destruct (h_plain _ _ _ _ (v_hier _ _ _ _ _ _ V) n Hn) as (r & G & K & _). unfold is_plain. apply (dget_In String.eqb String.eqb_eq) in G. eauto.
Qed.
(** Subtype queries, after any other queries *)
Definition after (qs : list (nat * (string * string))) (l : lang) : lang := fold_left (fun l q => fst (is_subtype (fst q) l (fst (snd q)) (snd (snd q)))) qs l.
Lemma after_hier rank E tys qs : forall l, hier rank l E tys -> hier rank (after qs l) E tys.
Proof. induction qs as [|[n [s t]] qs IH]; intros l H; [exact H|]. cbn [after fold_left]. apply IH. exact (proj1 (query_keeps rank l E tys n s t H)). Qed.
Theorem C66_hierarchy es ds i qs s t : read_domain parse es ds = Ok i -> In s (pi_types i) -> In t (pi_types i) ->
  exists n0, forall n, n0 <= n -> exists b, snd (is_subtype n (after qs (pi_lang i)) s t) = Ok b /\ (b = true <-> below es s t).
Proof.
  intros R Hs Ht. destruct (read_state es ds i R) as (_ & _ & rank & E & N & V & L & _). apply (v_types _ _ _ _ _ _ V) in Hs, Ht. assert (H := after_hier rank E _ qs _ (v_hier _ _ _ _ _ _ V)). set (l := after qs (pi_lang i)) in *.
  exists (S (weight rank l (rev (get_set (l_anc l) s)))). intros n Hn. destruct (subtype_spec rank l E _ H n s t Hs Ht Hn) as (l' & b & Eb & B & _). exists b. rewrite Eb. split; [reflexivity|]. rewrite B. unfold below. exact (reads_below rank i E _ N _ (pairs_of es) s t V L Hs).
Qed.
Lemma last_super_spec P s p : last_super P s = Some p <-> exists before after, P = before ++ (s, p) :: after /\ ~ In s (map fst after).
Proof.
  induction P as [|[a b] P IH] using rev_ind; [split; [discriminate|intros (x & y & Q & _); now apply app_cons_not_nil in Q]|]. rewrite last_super_snoc. destruct (String.eqb_spec a s) as [->|N].
  - split; [intros Q; injection Q as ->; exists P, []; split; [reflexivity|intros []]|]. intros (x & y & Q & K). destruct y as [|z y _] using rev_ind; [apply app_inj_tail in Q as [_ Q]; now injection Q as ->|]. exfalso. change (x ++ (s, p) :: y ++ [z]) with (x ++ ((s, p) :: y) ++ [z]) in Q. rewrite app_assoc in Q. apply app_inj_tail in Q as [_ Q]. subst z. apply K. rewrite map_app. apply in_app_iff. right. now left.
  - rewrite IH. split.
    + intros (x & y & -> & K). exists x, (y ++ [(a, b)]). split; [now rewrite <- app_assoc|]. rewrite map_app, in_app_iff. cbn [map fst In]. intros [Q|[Q|[]]]; auto.
    + intros (x & y & Q & K). destruct y as [|z y _] using rev_ind; [apply app_inj_tail in Q as [_ Q]; congruence|]. change (x ++ (s, p) :: y ++ [z]) with (x ++ ((s, p) :: y) ++ [z]) in Q. rewrite app_assoc in Q. apply app_inj_tail in Q as [Q _]. exists x, y. split; [exact Q|]. intros W. apply K. rewrite map_app, in_app_iff. now left.
Qed.
(** The parent of a type is the supertype that was given last for it. *)
Theorem C66_supertype es ds i s p : read_domain parse es ds = Ok i -> In s (types_of es) -> parent_of (pi_lang i) s = Some p <-> supertype es s p.
Proof.
  intros R Hs. destruct (read_state es ds i R) as (_ & _ & rank & E & N & V & L & _). unfold parent_of. rewrite (proj1 (h_par _ _ _ _ (v_hier _ _ _ _ _ _ V) s Hs)), (k_last _ _ _ L s Hs). unfold supertype. rewrite <- last_super_spec. destruct (last_super (pairs_of es) s) as [q|] eqn:Q.
  - split; [now left|]. intros [K|[K _]]; [exact K|]. apply last_super_None in K. congruence.
  - split; [intros K; right; split; [|congruence]; intros W; now apply (last_super_Some _ _ W)|]. intros [K|[_ ->]]; [discriminate|reflexivity].
Qed.
Lemma constants_typed tys ds : forall N, decls_ok tys N ds -> forall c s, In (c, s) (all_constants ds) -> In s tys.
Proof.
  induction ds as [|d ds IH]; intros N K c s H; [destruct H|]. cbn [all_constants flat_map] in H. apply in_app_iff in H as [H|H].
  - destruct d as [es| |]; [|destruct H|destruct H]. cbn [decls_ok] in K. destruct K as [(K & _) _]. clear -K H. unfold constants_of in H. apply in_flat_map in H as (e & He & H). destruct (K e He) as (p & cs & -> & Kp). apply in_map_iff in H as (x & Q & _). injection Q as _ <-. exact Kp.
  - destruct d as [es|n args|n args cod]; cbn [decls_ok] in K; [destruct K as [_ K]|destruct K as (_ & _ & K)|destruct K as (_ & _ & _ & K)]; exact (IH _ K c s H).
Qed.
(** The domain of a type: the constants of the types below it, once each *)
Theorem C66_domains es ds i t : read_domain parse es ds = Ok i -> In t (pi_types i) ->
  exists dom, sort_domain (pi_lang i) t = Ok dom /\ NoDup dom /\ forall c, In c dom <-> exists n s, c = CStr n /\ In (n, s) (all_constants ds) /\ below es s t.
Proof.
  intros R Ht. destruct (read_state es ds i R) as (_ & D & rank & E & N & V & L & _). apply (v_types _ _ _ _ _ _ V) in Ht. destruct (h_plain _ _ _ _ (v_hier _ _ _ _ _ _ V) t Ht) as (r & G & K & _). unfold sort_domain. rewrite G, K.
  assert (VD := v_dom _ _ _ _ _ _ V t r Ht G). exists (s_dom r). split; [|split; [exact (v_nodup _ _ _ _ _ _ V t r Ht G)|]].
  - apply mapM_id. apply Forall_forall. intros c Hc. apply VD in Hc as (s & Hc & _). now rewrite (v_have _ _ _ _ _ _ V c s Hc).
  - intros c. rewrite VD. split.
    + intros (s & Hc & W). apply in_map_iff in Hc as ([n s'] & Q & Hc). cbn [fst snd] in Q. injection Q as <- <-. exists n, s'. split; [reflexivity|]. split; [exact Hc|]. apply (reads_below rank i E _ N _ _ s' t V L); [|exact W]. right. exact (constants_typed _ ds [] D n s' Hc).
    + intros (n & s & -> & Hc & W). exists s. split; [apply in_map_iff; exists (n, s); auto|]. apply (reads_below rank i E _ N _ _ s t V L); [|exact W]. right. exact (constants_typed _ ds [] D n s Hc).
Qed.
(** The constants that are listed for a type (instance.domains) are the ones that were declared with it, in that order. *)
Definition listed (C : list (string * string)) (t : string) : list string := map fst (filter (fun e => String.eqb (snd e) t) C).
Definition objects_listed (i : pinst) (C : list (string * string)) : Prop := forall t, match sget (pi_objects i) t with Some d => d | None => [] end = listed C t.
Lemma listed_app A B t : listed (A ++ B) t = listed A t ++ listed B t.
Proof. unfold listed. now rewrite filter_app, map_app. Qed.
Lemma types_objects es : forall i i', types_def i es = Ok i' -> pi_objects i' = pi_objects i.
Proof.
  assert (Sub : forall sup added subs i i', foldM (process_subtype sup added) subs i = Ok i' -> pi_objects i' = pi_objects i).
  { intros sup added. induction subs as [|sub subs IH]; intros i i' R; cbn [foldM] in R; [now injection R as <-|]. destruct (process_subtype sup added i sub) as [i1|] eqn:Q; [|discriminate]. rewrite (IH i1 i' R). unfold process_subtype in Q. destruct (str_mem sub (pi_types i)).
    - destruct added; [|discriminate]. apply bind_some in Q as (l1 & Q & W). injection W as <-. reflexivity.
    - apply bind_some in Q as (l1 & Q & W). injection W as <-. reflexivity. }
  unfold types_def. induction es as [|e es IH]; intros i i' R; cbn [foldM] in R; [now injection R as <-|]. destruct (process_entry i e) as [i1|] eqn:Q; [|discriminate]. rewrite (IH i1 i' R). destruct e as [n|p subs]; cbn [process_entry] in Q.
  - unfold process_type in Q. apply bind_some in Q as (l1 & Q & W). injection W as <-. reflexivity.
  - unfold process_supertype in Q. apply bind_some in Q as (i0 & Q0 & Q). rewrite (Sub _ _ _ _ _ Q). destruct (negb _); [|now injection Q0 as <-]. apply bind_some in Q0 as (l1 & Q0 & W). injection W as <-. reflexivity.
Qed.
Lemma constants_objects es : forall i i' C, objects_listed i C -> constants_def parse i es = Ok i' -> objects_listed i' (C ++ constants_of es).
Proof.
  unfold constants_def. induction es as [|e es IH]; intros i i' C H R; cbn [foldM] in R; [injection R as <-; cbn [constants_of flat_map]; rewrite app_nil_r; exact H|]. destruct e as [n|p cs]; [discriminate|]. destruct (str_mem _ _); [|discriminate].
  destruct (process_constants parse i (primitive_type p) cs) as [i1|] eqn:Q; [|discriminate]. cbn [constants_of flat_map]. fold (constants_of es). rewrite app_assoc. apply (IH i1 i'); [|exact R]. unfold process_constants in Q. apply bind_some in Q as (l1 & _ & Q). injection Q as <-. intros t. cbn [pi_objects].
  assert (L : listed (map (fun c => (c, primitive_type p)) cs) t = if String.eqb (primitive_type p) t then cs else []).
  { unfold listed. clear. destruct (String.eqb (primitive_type p) t) eqn:E; induction cs as [|c cs IH]; cbn [map filter snd]; try reflexivity; rewrite E; cbn [map fst]; [now rewrite IH|exact IH]. }
  rewrite listed_app, L, <- H. unfold sget. rewrite (dget_dset String.eqb String.eqb_eq). destruct (String.eqb (primitive_type p) t) eqn:E; [|now rewrite app_nil_r]. apply String.eqb_eq in E. subst t. destruct (dget String.eqb (pi_objects i) (primitive_type p)); reflexivity.
Qed.
Theorem C66_objects es ds i t : read_domain parse es ds = Ok i -> match sget (pi_objects i) t with Some d => d | None => [] end = map fst (filter (fun e => String.eqb (snd e) t) (all_constants ds)).
Proof.
  unfold read_domain. intros R. apply bind_some in R as (i0 & R0 & R). apply bind_some in R as (i1 & R1 & R). assert (O : pi_objects i1 = []). { rewrite (types_objects es i0 i1 R1). rewrite new_eq in R0. assert (Q : i0 = {| pi_lang := first_lang; pi_types := ["object"]; pi_objects := [] |}) by congruence. now rewrite Q. }
  assert (G : forall ds i1 i C, objects_listed i1 C -> foldM (process_decl parse) ds i1 = Ok i -> objects_listed i (C ++ all_constants ds)).
  { clear. induction ds as [|d ds IH]; intros i1 i C H R; cbn [foldM] in R; [injection R as <-; cbn [all_constants flat_map]; rewrite app_nil_r; exact H|]. destruct (process_decl parse i1 d) as [i2|] eqn:Q; [|discriminate]. cbn [all_constants flat_map]. fold (all_constants ds). rewrite app_assoc. apply (IH i2 i); [|exact R].
    destruct d as [es|n args|n args cod]; cbn [process_decl] in Q; [exact (constants_objects es i1 i2 C H Q)| |]; rewrite app_nil_r; [unfold process_predicate in Q|unfold process_function in Q]; apply bind_some in Q as (vs & _ & Q); apply bind_some in Q as (l1 & _ & Q); injection Q as <-; exact H. }
  refine (G ds i1 i [] _ R t). intros t'. now rewrite O.
Qed.
Print Assumptions C66_objects.
(** Every predicate and every function has the signature that was declared. *)
Theorem C66_signatures es ds i n ss : read_domain parse es ds = Ok i -> In (n, ss) (signatures ds) -> lget (pi_lang i) (CStr n) = Ok (EFun n ss).
Proof. intros R H. destruct (read_state es ds i R) as (_ & _ & rank & E & N & V & L & S). auto. Qed.
(** Lists of variables, in predicates, functions, actions and quantifiers *)
Theorem C66_variables es ds i vs : read_domain parse es ds = Ok i ->
  ((forall t, In t (mentioned vs) -> In t (types_of es)) -> normalize i [] vs = Ok (typed_variables vs)) /\ ((exists t, In t (mentioned vs) /\ ~ In t (types_of es)) -> normalize i [] vs = Err SemanticError).
Proof.
  intros R. destruct (read_state es ds i R) as (_ & _ & rank & E & N & V & L & _). split; [exact (normalize_spec rank i E _ N _ V vs [])|exact (normalize_err rank i E _ N _ V vs [])].
Qed.
End Domain.
(** ** Concrete cases *)
Definition no_num : bool -> string -> option Z := fun _ _ => None.
(** A domain in which [truck] is given two supertypes, with constants and symbols *)
Definition log_types : list tentry := [TSuper "vehicle" ["truck"; "plane"]; TSuper "thing" ["vehicle"; "package"]; TSuper "wheeled" ["truck"; "truck"]; TName "city"].
Definition log_decls : list decl :=
  [DConsts [TSuper "truck" ["t1"; "t2"]; TSuper "package" ["p1"]]; DPred "in" [VVar "?p"; VType "package"; VVar "?a"; VVar "?b"; VType "vehicle"; VVar "?c"]; DFun "load" [VVar "?v"; VType "vehicle"] (Some "number"); DFun "home" [VVar "?v"; VType "truck"] (Some "city"); DFun "total" [] None;
   DConsts [TSuper "city" ["c1"]]].
Definition ask (i : pinst) (s t : string) : res bool := snd (is_subtype 100 (pi_lang i) s t).
Theorem C66_nonvacuous : types_ok [] log_types /\ decls_ok (types_of log_types) [] log_decls /\
  match read_domain no_num log_types log_decls with
  | Ok i => map (fun p => ask i (fst p) (snd p)) [("truck", "vehicle"); ("truck", "wheeled"); ("truck", "thing"); ("plane", "wheeled"); ("plane", "thing"); ("vehicle", "truck"); ("city", "object")] = [Ok true; Ok true; Ok true; Ok false; Ok true; Ok false; Ok true] /\
            parent_of (pi_lang i) "truck" = Some "wheeled" /\ map (sort_domain (pi_lang i)) ["truck"; "wheeled"; "thing"; "plane"] = [Ok [CStr "t1"; CStr "t2"]; Ok [CStr "t1"; CStr "t2"]; Ok [CStr "t1"; CStr "t2"; CStr "p1"]; Ok []] /\
            lget (pi_lang i) (CStr "in") = Ok (EFun "in" ["package"; "vehicle"; "vehicle"; "object"; "Bool"]) /\ lget (pi_lang i) (CStr "total") = Ok (EFun "total" ["Integer"])
  | Err _ => False
  end.
Proof.
  assert (G : exists i, read_domain no_num log_types log_decls = Ok i) by (eexists; vm_compute; reflexivity). apply C66_accepts in G as [G1 G2]. split; [exact G1|]. split; [exact G2|].
  vm_compute. split; [reflexivity|]. split; [reflexivity|]. split; [reflexivity|]. split; reflexivity.
Qed.
(** What is refused: a second supertype is accepted when the supertype is new, and is a TypeError when it was declared before; the two sections mean the same. *)
Theorem C66_order_matters : (exists i, read_domain no_num [TSuper "a" ["b"]; TSuper "c" ["b"]] [] = Ok i) /\ read_domain no_num [TName "c"; TSuper "a" ["b"]; TSuper "c" ["b"]] [] = Err TypeError.
Proof. split; [eexists; vm_compute; reflexivity|vm_compute; reflexivity]. Qed.
(** A type that is its own supertype, or a new supertype of object: the reader never ends, whatever the number of steps. *)
Theorem C66_cycle_diverges parse es i s k : (let! i := new_instance parse in types_def i es) = Ok i -> In s (types_of es) ->
  closure k (set_par (pi_lang i) (dset String.eqb (l_parent (pi_lang i)) s (Some s)) (l_anc (pi_lang i)) (l_ind (pi_lang i))) s = Err OutOfFuel /\
  closure k (set_par (pi_lang i) (dset String.eqb (l_parent (pi_lang i)) "object" (Some s)) (l_anc (pi_lang i)) (l_ind (pi_lang i))) s = Err OutOfFuel.
Proof.
  intros R Hs. destruct (read_state parse es [] i) as (_ & _ & rank & E & N & V & L & _).
  { unfold read_domain. apply bind_some in R as (i0 & R0 & R1). rewrite R0. cbn [bind]. rewrite R1. reflexivity. }
  assert (H := v_hier _ _ _ _ _ _ V). split.
  - apply (closure_loop (fun x => x = s)); [|reflexivity]. intros x ->. exists s. split; [|reflexivity]. cbn [l_parent set_par]. now rewrite sget_dset, String.eqb_refl.
  - apply (closure_loop (fun x => In x ("object" :: types_of es))); [|now right]. intros x Hx. cbn [l_parent set_par]. rewrite sget_dset. destruct (String.eqb_spec "object" x) as [<- |N']; [exists s; split; [reflexivity|now right]|]. destruct Hx as [Hx|Hx]; [contradiction|]. destruct (h_par _ _ _ _ H x Hx) as [G K]. destruct (last_super E x) as [q|] eqn:Q; [|contradiction].
    exists q. split; [exact G|]. apply last_super_In in Q. exact (proj2 (h_edge _ _ _ _ H _ _ Q)).
Qed.
(** The keyword object: it names a new type [Object], which is not the type of all objects. *)
Theorem C66_object_keyword : match read_domain no_num [TSuper "object" ["a"]; TName "b"] [] with
  | Ok i => ask i "a" "Object" = Ok true /\ ask i "b" "Object" = Ok false /\ ask i "b" "object" = Ok true
  | Err _ => False end.
Proof. vm_compute. split; [reflexivity|]. split; reflexivity. Qed.
Theorem C66_object_variables : match read_domain no_num [TName "b"] [] with Ok i => normalize i [] [VVar "?x"; VType "object"] = Err SemanticError /\ normalize i [] [VVar "?x"] = Ok [("?x", "object")] | Err _ => False end.
Proof. vm_compute. split; reflexivity. Qed.
(** Constants that come before the types they depend on: a new supertype does not get the constants of its subtypes. *)
Theorem C66_constants_first : match (let! i := read_domain no_num [TName "b"] [DConsts [TSuper "b" ["x"]]] in types_def i [TSuper "c" ["b"]]) with
  | Ok i => ask i "b" "c" = Ok true /\ sort_domain (pi_lang i) "b" = Ok [CStr "x"] /\ sort_domain (pi_lang i) "c" = Ok []
  | Err _ => False end.
Proof. vm_compute. split; [reflexivity|]. split; reflexivity. Qed.
