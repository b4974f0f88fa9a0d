(** The reader of RDDL instances: the language *)
From Coq Require Import Ascii.
From Verif Require Import Base Syntax Build SemLemmas ListUtil ModelState ModelProofs FreeVars Lang LangSpec LangProofs LangProofs2 LangProofs3 Theories TheoriesSpec TheoriesProofs TheoriesProofs2 TheoriesProofs3 Counters
  RddlRead RddlReadProofs4 RddlInit RddlInitSpec.
#[local] Open Scope string_scope.
#[local] Open Scope list_scope.

Section Steps.
Variable parse : bool -> string -> option Z.

Lemma ready_step st o : ready st -> native o = true -> (forall n, o <> Lang.ORemove n) -> ready (fst (tstep parse st (TOp o))).
Proof.
  intros [Q1 Q2 (r1 & Q3 & Q3') (r2 & Q4 & Q4') Q5 Q6] H2 R. cbn [tstep lift fst]. constructor; cbn [t_lang t_handlers t_symbols].
  - exact (proj1 (lstep_inv parse (t_lang st) o Q1 H2)).
  - apply (lstep_keeps parse (t_lang st) o Q1 H2); [exact R|exact Q2].
  - destruct (lstep_kind_stable parse (t_lang st) o "Real" r1 Q1 H2 Q3) as (r & E & K). exists r. split; [exact E|]. now rewrite K.
  - destruct (lstep_kind_stable parse (t_lang st) o "Integer" r2 Q1 H2 Q4) as (r & E & K). exists r. split; [exact E|]. now rewrite K.
  - rewrite (proj1 (lstep_parent_stable parse (t_lang st) o "Integer" Q1 H2 ltac:(apply sget_key; eauto))). exact Q5.
  - exact Q6.
Qed.
Lemma has_pred_unused l n : inv_tree l -> unused l (CStr n) -> has_predicate l n = false.
Proof.
  intros I U. destruct (has_predicate l n) eqn:E; [|reflexivity]. exfalso. unfold has_predicate in E. destruct (sget (l_preds l) n) as [ts|] eqn:G; [|discriminate].
  apply (sget_In _ _ _ (ii_preds l (it_index l I))) in G. apply (used_ok l (CStr n) (EPred n ts)); [|exact U]. apply (proj2 (lget_index l _)), (ii_spec l (it_index l I)). split; auto.
Qed.
Lemma has_fun_unused l n : inv_tree l -> unused l (CStr n) -> has_function l n = false.
Proof.
  intros I U. destruct (has_function l n) eqn:E; [|reflexivity]. exfalso. unfold has_function in E. destruct (sget (l_funs l) n) as [ts|] eqn:G; [|discriminate].
  apply (sget_In _ _ _ (ii_funs l (it_index l I))) in G. apply (used_ok l (CStr n) (EFun n ts)); [|exact U]. apply (proj2 (lget_index l _)), (ii_spec l (it_index l I)). split; auto.
Qed.
Lemma retrieve_all l ss : Forall (is_sort l) ss -> mapM (retrieve l) ss = Ok ss.
Proof. intros F. induction F as [|s ss Hs _ IH]; [reflexivity|]. cbn [mapM]. unfold retrieve at 1. rewrite (proj2 (has_sort_spec l s) Hs). cbn [bind]. now rewrite IH. Qed.
Lemma symbol_new l (b : bool) n ss : inv_tree l -> unused l (CStr n) -> Forall (is_sort l) ss -> (b = false -> ss <> []) ->
  exists l', lstep parse l ((if b then OPred else OFun) n ss) = (l', Ok tt) /\ inv_tree l' /\ extends l l' [(CStr n, if b then EPred n ss else EFun n ss)] /\ l_parent l' = l_parent l /\ l_sorts l' = l_sorts l.
Proof.
  intros I U F N. destruct b.
  - destruct (lstep_inv parse l (OPred n ss) I eq_refl) as [I' _]. cbn [lstep] in *. unfold declare_predicate in *. rewrite (has_pred_unused l n I U), (check_unused _ _ U), (retrieve_all l ss F) in *.
    eexists. split; [reflexivity|]. split; [exact I'|]. split; [|auto]. intros m. unfold lget. cbn [l_index set_index]. rewrite cidx, assoc_one. destruct (cname_eqb (CStr n) m); reflexivity.
  - destruct (lstep_inv parse l (OFun n ss) I eq_refl) as [I' _]. cbn [lstep] in *. unfold declare_function in *. rewrite (has_fun_unused l n I U), (check_unused _ _ U), (retrieve_all l ss F) in *.
    destruct ss as [|s ss]; [now destruct (N eq_refl)|]. eexists. split; [reflexivity|]. split; [exact I'|]. split; [|auto]. intros m. unfold lget. cbn [l_index set_index]. rewrite cidx, assoc_one. destruct (cname_eqb (CStr n) m); reflexivity.
Qed.

(** The state of the reader after some declarations *)
Record built (st : tlang) (decls : list (string * elem)) (tys : list string) : Prop := {
  b_ready : ready st;
  b_names : forall n e, lget (t_lang st) (CStr n) = Ok e <-> In (n, e) (predefined ++ decls);
  b_parent : forall s p, parent_of (t_lang st) s = Some p <-> In (s, p) (predefined_parents ++ map (fun t => (t, "object")) tys);
  b_plain : forall t, In t ("object" :: tys) -> exists r, sget (l_sorts (t_lang st)) t = Some r /\ s_kind r = KPlain;
  b_nodup : NoDup (map fst (predefined ++ decls));
  b_ints : forall z e, lget (t_lang st) (CInt z) <> Ok e }.
Definition fresh (decls : list (string * elem)) (n : string) : Prop := ~ In n (map fst (predefined ++ decls)).
Lemma built_unused st decls tys n : built st decls tys -> fresh decls n -> unused (t_lang st) (CStr n).
Proof. intros B F. destruct (lget_cases (t_lang st) (CStr n)) as [[e G]|U]; [|exact U]. exfalso. apply (b_names _ _ _ B) in G. apply F. now apply (in_map fst) in G. Qed.
Lemma built_used st decls tys n : built st decls tys -> ~ fresh decls n -> exists e, lget (t_lang st) (CStr n) = Ok e.
Proof.
  intros B F. destruct (in_dec string_dec n (map fst (predefined ++ decls))) as [H|H]; [|contradiction]. apply in_map_iff in H as ((n' & e) & E & H). cbn [fst] in E. subst n'. exists e. now apply (b_names _ _ _ B).
Qed.
Lemma names_extend decls l l' n e : (forall n e, lget l (CStr n) = Ok e <-> In (n, e) (predefined ++ decls)) -> fresh decls n -> extends l l' [(CStr n, e)] ->
  forall n' e', lget l' (CStr n') = Ok e' <-> In (n', e') (predefined ++ decls ++ [(n, e)]).
Proof.
  intros H F X n' e'. rewrite X, assoc_one, app_assoc, in_app_iff, <- H. cbn [In]. destruct (cname_eqb (CStr n) (CStr n')) eqn:E.
  - apply cname_eqb_eq in E. injection E as <-. split; [intros Q; injection Q as <-; auto|]. intros [Q|[Q|[]]]; [|now injection Q as <-]. exfalso. apply F. apply H in Q. now apply (in_map fst) in Q.
  - split; [auto|]. intros [Q|[Q|[]]]; [exact Q|]. injection Q as -> ->. rewrite (proj2 (cname_eqb_eq _ _) eq_refl) in E. discriminate E.
Qed.
Lemma nodup_extend decls n e : NoDup (map fst (predefined ++ decls)) -> fresh decls n -> NoDup (map fst (predefined ++ decls ++ [(n, e)])).
Proof. intros H F. rewrite app_assoc, map_app. cbn [map fst]. apply NoDup_app_iff_simple; [exact H|repeat constructor; auto|]. intros x Hx [<- |[]]. contradiction. Qed.
Lemma plain_step st o t : ready st -> native o = true -> (exists r, sget (l_sorts (t_lang st)) t = Some r /\ s_kind r = KPlain) -> exists r, sget (l_sorts (fst (lstep parse (t_lang st) o))) t = Some r /\ s_kind r = KPlain.
Proof. intros R H (r & E & K). destruct (lstep_kind_stable parse (t_lang st) o t r (rd_tree st R) H E) as (r' & E' & K'). exists r'. split; [exact E'|congruence]. Qed.
Lemma tdo_ok st o l' : lstep parse (t_lang st) o = (l', Ok tt) -> tdo parse st (TOp o) = Ok (fst (tstep parse st (TOp o))) /\ t_lang (fst (tstep parse st (TOp o))) = l'.
Proof. intros E. unfold tdo. cbn [tstep lift fst snd]. rewrite E. cbn [fst snd bind t_lang]. split; reflexivity. Qed.
Lemma tdo_err st o e : snd (lstep parse (t_lang st) o) = Err e -> tdo parse st (TOp o) = Err e.
Proof. intros E. unfold tdo. cbn [tstep lift fst snd]. rewrite E. reflexivity. Qed.

Lemma type_step st decls tys n : built st decls tys -> fresh decls n -> exists st', tdo parse st (TOp (OSort n (Some "object"))) = Ok st' /\ built st' (decls ++ [(n, ESort n)]) (tys ++ [n]).
Proof.
  intros B F. pose proof (b_ready _ _ _ B) as R. pose proof (rd_tree st R) as I. pose proof (built_unused _ _ _ _ B F) as U.
  destruct (attach_new (t_lang st) n plain_rec "object" I (object_sort _ I) eq_refl ltac:(reflexivity) U) as (l' & E & I' & X & P & S).
  assert (E' : lstep parse (t_lang st) (OSort n (Some "object")) = (l', Ok tt)). { cbn [lstep]. unfold declare_sort, retrieve. rewrite (proj2 (has_sort_spec _ _) (object_sort _ I)). exact E. }
  destruct (tdo_ok st _ l' E') as [T1 T2]. eexists. split; [exact T1|]. constructor; rewrite ?T2.
  - apply ready_step; [exact R|reflexivity|discriminate].
  - exact (names_extend decls (t_lang st) l' n (ESort n) (b_names _ _ _ B) F X).
  - intros s p. rewrite P, map_app, app_assoc, in_app_iff, <- (b_parent _ _ _ B). cbn [map In]. destruct (String.eqb_spec n s) as [->|N].
    + split; [intros Q; injection Q as <-; auto|]. intros [Q|[Q|[]]]; [|now injection Q as <-]. exfalso. apply (unused_sort _ s I U). unfold parent_of in Q. destruct (sget (l_parent (t_lang st)) s) as [[q|]|] eqn:G; try discriminate Q. injection Q as <-.
      apply (LangProofs2.parent_sort (t_lang st) s q I). unfold parent_of. now rewrite G.
    + split; [auto|]. intros [Q|[Q|[]]]; [exact Q|congruence].
  - intros t Ht. destruct (String.eqb_spec n t) as [->|N].
    + exists plain_rec. split; [|reflexivity]. rewrite S, sget_dset, String.eqb_refl. reflexivity.
    + destruct (b_plain _ _ _ B t) as (r & G & K); [destruct Ht as [Ht|Ht]; [now left|]; apply in_app_iff in Ht as [Ht|[Ht|[]]]; [now right|congruence]|]. exists r. split; [|exact K]. rewrite S, sget_dset. apply String.eqb_neq in N. now rewrite N.
  - apply nodup_extend; [exact (b_nodup _ _ _ B)|exact F].
  - intros z e. rewrite X, assoc_one. cbn [cname_eqb]. apply (b_ints _ _ _ B).
Qed.
Lemma type_used st decls tys n : built st decls tys -> ~ fresh decls n -> tdo parse st (TOp (OSort n (Some "object"))) = Err DuplicateDefinition.
Proof.
  intros B F. pose proof (rd_tree st (b_ready _ _ _ B)) as I. destruct (built_used _ _ _ _ B F) as [e G]. apply tdo_err. cbn [lstep]. unfold declare_sort, retrieve. rewrite (proj2 (has_sort_spec _ _) (object_sort _ I)).
  now rewrite (attach_used _ _ _ _ _ G).
Qed.
Lemma object_step st decls tys o t : built st decls tys -> In t ("object" :: tys) -> fresh decls o -> exists st', tdo parse st (TOp (OConst (CStr o) t)) = Ok st' /\ built st' (decls ++ [(o, EConst (CStr o) t)]) tys.
Proof.
  intros B Ht F. pose proof (b_ready _ _ _ B) as R. pose proof (rd_tree st R) as I. pose proof (built_unused _ _ _ _ B F) as U. destruct (b_plain _ _ _ B t Ht) as (r & G & K).
  destruct (const_new parse (t_lang st) (CStr o) t r I G K U) as (l' & E & I' & X & P & _). destruct (tdo_ok st _ l' E) as [T1 T2]. eexists. split; [exact T1|]. constructor; rewrite ?T2.
  - apply ready_step; [exact R|reflexivity|discriminate].
  - exact (names_extend decls (t_lang st) l' o _ (b_names _ _ _ B) F X).
  - intros s p. unfold parent_of. rewrite P. apply (b_parent _ _ _ B).
  - intros t' Ht'. pose proof (plain_step st (OConst (CStr o) t) t' R eq_refl (b_plain _ _ _ B t' Ht')) as Q. rewrite E in Q. exact Q.
  - apply nodup_extend; [exact (b_nodup _ _ _ B)|exact F].
  - intros z e. rewrite X, assoc_one. cbn [cname_eqb]. apply (b_ints _ _ _ B).
Qed.
Lemma object_used st decls tys o t : built st decls tys -> In t ("object" :: tys) -> ~ fresh decls o -> tdo parse st (TOp (OConst (CStr o) t)) = Err DuplicateDefinition.
Proof.
  intros B Ht F. pose proof (rd_tree st (b_ready _ _ _ B)) as I. destruct (built_used _ _ _ _ B F) as [e G]. destruct (b_plain _ _ _ B t Ht) as (r & G' & K). apply tdo_err. now rewrite (const_used parse (t_lang st) _ _ r e I G' K G).
Qed.
Lemma symbol_step st decls tys (b : bool) n ss : built st decls tys -> fresh decls n -> Forall (is_sort (t_lang st)) ss -> (b = false -> ss <> []) ->
  exists st', tdo parse st (TOp ((if b then OPred else OFun) n ss)) = Ok st' /\ built st' (decls ++ [(n, if b then EPred n ss else EFun n ss)]) tys.
Proof.
  intros B F Hss N. pose proof (b_ready _ _ _ B) as R. pose proof (rd_tree st R) as I. pose proof (built_unused _ _ _ _ B F) as U.
  destruct (symbol_new (t_lang st) b n ss I U Hss N) as (l' & E & I' & X & P & S). destruct (tdo_ok st _ l' E) as [T1 T2]. eexists. split; [exact T1|]. constructor; rewrite ?T2.
  - apply ready_step; [exact R|destruct b; reflexivity|destruct b; discriminate].
  - exact (names_extend decls (t_lang st) l' n _ (b_names _ _ _ B) F X).
  - intros s p. unfold parent_of. rewrite P. apply (b_parent _ _ _ B).
  - intros t' Ht'. rewrite S. exact (b_plain _ _ _ B t' Ht').
  - apply nodup_extend; [exact (b_nodup _ _ _ B)|exact F].
  - intros z e. rewrite X, assoc_one. cbn [cname_eqb]. apply (b_ints _ _ _ B).
Qed.
Lemma symbol_used st decls tys (b : bool) n ss : built st decls tys -> ~ fresh decls n -> tdo parse st (TOp ((if b then OPred else OFun) n ss)) = Err DuplicateDefinition.
Proof. intros B F. destruct (built_used _ _ _ _ B F) as [e G]. apply tdo_err. destruct b; cbn [lstep]; unfold declare_predicate, declare_function; now rewrite (check_used _ _ _ _ G). Qed.

Lemma start_built : exists st, language parse [TEquality; TArithmetic; TSpecial; TRandom] = Ok st /\ built st [] [].
Proof.
  exists (trun parse theories). split; [vm_compute; reflexivity|]. constructor.
  - apply ready_start.
  - intros n e. rewrite (proj2 (lget_index _ _)). assert (X : l_index (t_lang (trun parse theories)) = map (fun p => (CStr (fst p), snd p)) predefined) by (vm_compute; reflexivity). rewrite X, app_nil_r. clear X.
    assert (ND : NoDup (map fst (map (fun p : string * elem => (CStr (fst p), snd p)) predefined))). { cbn. repeat constructor; cbn; intros K; repeat (destruct K as [K|K]; [discriminate K|]); destruct K. }
    rewrite (dget_Some_In cname_eqb cname_eqb_eq _ _ _ ND), in_map_iff. split; [intros ((n' & e') & E & H); cbn [fst snd] in E; injection E as -> ->; exact H|]. intros H. exists (n, e). auto.
  - intros s p. rewrite app_nil_r. unfold parent_of. assert (X : l_parent (t_lang (trun parse theories)) = [("object", None); ("Real", Some "object"); ("Integer", Some "Real"); ("Natural", Some "Integer")]) by (vm_compute; reflexivity).
    rewrite X. unfold sget. cbn [dget predefined_parents In]. destruct (String.eqb_spec "object" s) as [<- |N1]; [split; [discriminate|intros H; repeat (destruct H as [H|H]; [discriminate H|]); destruct H]|].
    destruct (String.eqb_spec "Real" s) as [<- |N2]; [split; [intros H; injection H as <-; auto|intros H; repeat (destruct H as [H|H]; [try discriminate H; now injection H as <-|]); destruct H]|].
    destruct (String.eqb_spec "Integer" s) as [<- |N3]; [split; [intros H; injection H as <-; auto|intros H; repeat (destruct H as [H|H]; [try discriminate H; now injection H as <-|]); destruct H]|].
    destruct (String.eqb_spec "Natural" s) as [<- |N4]; [split; [intros H; injection H as <-; auto|intros H; repeat (destruct H as [H|H]; [try discriminate H; now injection H as <-|]); destruct H]|].
    split; [discriminate|]. intros H; repeat (destruct H as [H|H]; [congruence|]); destruct H.
  - intros t [<- |[]]. exists plain_rec. split; [vm_compute; reflexivity|reflexivity].
  - cbn. repeat constructor; cbn; intros K; repeat (destruct K as [K|K]; [discriminate K|]); destruct K.
  - intros z e H. rewrite (proj2 (lget_index _ _)) in H. assert (X : l_index (t_lang (trun parse theories)) = map (fun p => (CStr (fst p), snd p)) predefined) by (vm_compute; reflexivity). rewrite X in H. cbn in H. discriminate H.
Qed.
End Steps.
