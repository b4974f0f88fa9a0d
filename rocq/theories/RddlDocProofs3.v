(** Types, objects and values of an RDDL document *)
From Coq Require Import Ascii.
From Verif Require Import ListUtil Base Syntax SemLemmas ModelState ModelText ModelProofs PddlText Lang LangSpec LangProofs LangProofs2 LangProofs3 PropsLang Rddl RddlSpec RddlProofs RddlProofs2 RddlProofs3 PropsRddl RddlDoc RddlDocSpec RddlDocProofs.
#[local] Open Scope string_scope.
#[local] Open Scope list_scope.

Lemma mapM_build {A B} (f : A -> res B) (R : A -> B -> Prop) l : (forall a, In a l -> exists b, f a = Ok b /\ R a b) -> exists bs, mapM f l = Ok bs /\ Forall2 R l bs.
Proof.
  induction l as [|a l IH]; intros H; [exists []; split; [reflexivity|constructor]|]. destruct (H a (or_introl eq_refl)) as (b & E & Rb). destruct IH as (bs & Eb & Fb); [intros x Hx; apply H; now right|].
  exists (b :: bs). cbn [mapM]. fold (mapM f l). rewrite E. cbn [bind]. rewrite Eb. split; [reflexivity|now constructor].
Qed.
Lemma Forall2_map_r {A B C} (R : A -> C -> Prop) (f : B -> C) la lb : Forall2 (fun a b => R a (f b)) la lb -> Forall2 R la (map f lb).
Proof. induction 1; constructor; auto. Qed.

(** ** Types *)
Lemma written_In l s : In s (written_types l) <-> user_type l s.
Proof.
  unfold written_types, user_type. rewrite in_map_iff. split.
  - intros ([s' r] & <- & H). apply filter_In in H as [H W]. unfold written_type in W. cbn [fst snd] in *. apply andb_true_iff in W as [W K]. apply andb_true_iff in W as [B O]. apply negb_true_iff in B, O. split; [now apply String.eqb_neq|].
    exists r. repeat split; auto. destruct (s_kind r); [reflexivity|discriminate K].
  - intros (N & r & H & B & K). exists (s, r). split; [reflexivity|]. apply filter_In. split; [exact H|]. unfold written_type. cbn [fst snd]. rewrite B, K. apply String.eqb_neq in N. rewrite N. reflexivity.
Qed.
Lemma written_NoDup l : inv_tree l -> NoDup (written_types l).
Proof.
  intros I. unfold written_types. pose proof (ii_sorts l (it_index l I)) as N. induction (l_sorts l) as [|sr d IH]; [constructor|]. cbn [map] in N. inversion N as [|a b N1 N2]; subst. cbn [filter]. destruct (written_type sr); [|now apply IH].
  cbn [map]. constructor; [|now apply IH]. intros H. apply N1. apply in_map_iff in H as (x & E & H). apply in_map_iff. exists x. split; [exact E|]. now apply filter_In in H as [H _].
Qed.
Lemma user_parent l s : inv_tree l -> user_type l s -> exists p, parent_of l s = Some p /\ parent_name l s = Ok p.
Proof.
  intros I (N & r & H & _). assert (S : is_sort l s) by (unfold is_sort; apply in_map_iff; exists (s, r); auto). destruct (proj2 (it_keys l I s) S) as [o Ho].
  pose proof (it_root l I s S) as R. unfold parent_of, parent_name in *. rewrite Ho in *. destruct o as [p|]; [eauto|]. exfalso. apply N. now apply R.
Qed.
Definition type_text (sp : string * string) : string := (fst sp ++ " : " ++ snd sp ++ ";")%string.
Lemma types_written l : inv_tree l -> exists tp, mapM (type_line l) (written_types l) = Ok (map type_text tp) /\ map fst tp = written_types l /\ forall s p, In (s, p) tp <-> user_type l s /\ parent_of l s = Some p.
Proof.
  intros I. assert (G : forall ss, (forall s, In s ss -> user_type l s) -> exists tp, mapM (type_line l) ss = Ok (map type_text tp) /\ map fst tp = ss /\ forall s p, In (s, p) tp <-> In s ss /\ parent_of l s = Some p).
  { induction ss as [|s ss IH]; intros H; [exists []; repeat split; try contradiction; intros [[] _]|]. destruct (user_parent l s I (H s (or_introl eq_refl))) as (p & P & E). destruct IH as (tp & M & F & Q); [intros x Hx; apply H; now right|].
    exists ((s, p) :: tp). cbn [mapM map]. fold (mapM (type_line l) ss). unfold type_line at 1. rewrite E. cbn [bind]. rewrite M. cbn [bind]. split; [reflexivity|]. split; [cbn [fst]; now rewrite F|].
    intros s' p'. cbn [In]. rewrite Q. split; [intros [X|[X Y]]; [injection X as <- <-; auto|auto]|]. intros [[->|X] Y]; [left; congruence|right; auto]. }
  destruct (G (written_types l)) as (tp & M & F & Q); [intros s; apply written_In|]. exists tp. split; [exact M|]. split; [exact F|]. intros s p. rewrite Q, written_In. reflexivity.
Qed.

(** ** Objects *)
Definition object_text (so : string * list string) : string := (tab ++ fst so ++ " : {" ++ join "," (snd so) ++ "};")%string.
Lemma NoDup_texts (l : lang) d : NoDup d -> (forall c c', In c d -> In c' d -> name_text c = name_text c' -> c = c') -> NoDup (map name_text d).
Proof.
  induction 1 as [|c d N _ IH]; intros H; [constructor|]. cbn [map]. constructor.
  - intros X. apply in_map_iff in X as (c' & E & X). apply N. assert (c' = c) by (apply H; [now right|now left|exact E]). now subst.
  - apply IH. intros a b A B. apply H; now right.
Qed.
Lemma objects_written parse ops : forallb native ops = true -> let l := lrun parse ops in
  (forall c s c' s', const_of l c s -> is_plain l s -> const_of l c' s' -> is_plain l s' -> name_text c = name_text c' -> c = c') ->
  forall ss, (forall s, In s ss -> user_type l s) ->
  exists os, mapM (object_block l) ss = Ok (map object_text os) /\ map fst os = ss /\ forall s ws, In (s, ws) os -> NoDup ws /\ forall w, In w ws <-> object_in l s w.
Proof.
  intros Nt l D. induction ss as [|s ss IH]; intros H; [exists []; split; [reflexivity|]; split; [reflexivity|]; intros ? ? []|]. destruct IH as (os & M & F & Q); [intros x Hx; apply H; now right|].
  destruct (C18_domain_exact parse ops s Nt) as (d & Ed & Nd & Id & _). { destruct (H s (or_introl eq_refl)) as (_ & r & Hr & _ & K). exists r. auto. }
  fold l in Ed, Id. exists ((s, map name_text d) :: os). cbn [mapM map]. fold (mapM (object_block l) ss). unfold object_block at 1. rewrite Ed. cbn [bind]. rewrite M. cbn [bind]. split; [reflexivity|]. split; [cbn [fst]; now rewrite F|].
  intros s' ws [E|X]; [|now apply Q]. injection E as <- <-. split.
  - apply (NoDup_texts l); [exact Nd|]. intros c c' A B E. apply Id in A as (s1 & P1 & C1 & _). apply Id in B as (s2 & P2 & C2 & _). exact (D c s1 c' s2 C1 P1 C2 P2 E).
  - intros w. rewrite in_map_iff. unfold object_in. split.
    + intros (c & <- & Hc). apply Id in Hc as (s' & P & C & L). exists c, s'. auto.
    + intros (c & s' & -> & P & C & L). exists c. split; [reflexivity|]. apply Id. eauto.
Qed.

(** ** The state *)
Record sinv (l : lang) (m : model) : Prop := {
  si_funs : NoDup (map fst (funs m)); si_preds : NoDup (map fst (preds m));
  si_fun : forall sg ext, In (sg, ext) (funs m) -> (exists n ss c, sg = fsig (FU n ss c) /\ In (n, ss ++ [c]) (l_funs l) /\ name_ok n = true) /\ NoDup (map fst ext) /\ forall pt v, In (pt, v) ext -> Forall constant_ok pt /\ constant_ok v;
  si_pred : forall sg ext, In (sg, ext) (preds m) -> (exists n ss, sg = psig (PU n ss) /\ In (n, ss) (l_preds l) /\ name_ok n = true) /\ NoDup ext /\ forall pt, In pt ext -> Forall constant_ok pt
}.
Lemma dset_cases {K V} (eqb : K -> K -> bool) (He : forall a b, eqb a b = true <-> a = b) (d : list (K * V)) k v s e : In (s, e) (dset eqb d k v) -> (s = k /\ e = v) \/ In (s, e) d.
Proof.
  induction d as [|[k' v'] d IH]; cbn [dset In]; [intros [E|[]]; injection E as <- <-; auto|]. destruct (eqb k' k) eqn:E.
  - intros [X|X]; [injection X as <- <-; apply He in E; auto|right; now right].
  - intros [X|X]; [right; now left|]. destruct (IH X) as [Y|Y]; auto.
Qed.
Definition mop_ok (l : lang) (o : mop) : Prop :=
  match o with
  | OAdd (PU n ss) pt => In (n, ss) (l_preds l) /\ name_ok n = true /\ Forall constant_ok pt
  | OSet (App (FU n ss c) pt) v => In (n, ss ++ [c]) (l_funs l) /\ name_ok n = true /\ Forall constant_ok pt /\ constant_ok v
  | _ => True
  end.
Lemma sinv_same l f p : NoDup (map fst f) -> NoDup (map fst p) -> forall m, sinv l m -> incl f (funs m) -> incl p (preds m) -> sinv l {| funs := f; preds := p |}.
Proof. intros A B m I F P. constructor; cbn [funs preds]; auto. - intros sg ext H. apply (si_fun l m I). now apply F. - intros sg ext H. apply (si_pred l m I). now apply P. Qed.
Lemma sinv_pred l m (I : sinv l m) sg ext : (exists n ss, sg = psig (PU n ss) /\ In (n, ss) (l_preds l) /\ name_ok n = true) -> NoDup ext -> (forall pt, In pt ext -> Forall constant_ok pt) ->
  sinv l {| funs := funs m; preds := dset sig_eqb (preds m) sg ext |}.
Proof.
  intros S N H. constructor; cbn [funs preds]; try apply I.
  - apply (dset_NoDup sig_eqb sig_eqb_eq), I.
  - intros sg' ext' X. apply (dset_cases sig_eqb sig_eqb_eq) in X as [[-> ->]|X]; [auto|now apply (si_pred l m I)].
Qed.
Lemma old_pred l m (I : sinv l m) sg : let ext := match dget sig_eqb (preds m) sg with Some e => e | None => [] end in NoDup ext /\ forall pt, In pt ext -> Forall constant_ok pt.
Proof.
  intros ext. destruct (dget sig_eqb (preds m) sg) as [e|] eqn:E; unfold ext; [|split; [constructor|intros ? []]]. apply (dget_In sig_eqb sig_eqb_eq) in E. now apply (si_pred l m I) in E as (_ & A & B).
Qed.
Lemma step_sinv l sub m o : mop_ok l o -> sinv l m -> sinv l (snd (mstep sub m o)).
Proof.
  intros K I. destruct o as [p args|t v|p args|p args|p|f]; cbn [mstep]; cbn [snd].
  - destruct p as [b|n ss]; cbn [m_add of_res snd]; [exact I|]. destruct (check_assignment sub ss args); cbn [bind of_res snd]; [|exact I]. cbn [mop_ok] in K. destruct K as (K1 & K2 & K3). destruct (old_pred l m I (psig (PU n ss))) as [A B].
    apply sinv_pred; [exact I|eauto|now apply pt_add_NoDup|]. intros pt H. unfold pt_add in H. destruct (pt_mem args _); [now apply B|]. apply in_app_iff in H as [H|[<-|[]]]; auto.
  - destruct t as [x s|c s|[b|n ss c] args|cf a b]; cbn [m_set of_res snd]; try exact I. destruct (forallb is_cst args); [|exact I]. destruct (check_assignment sub (ss ++ [c]) (args ++ [v])); cbn [bind of_res snd]; [|exact I]. cbn [mop_ok] in K. destruct K as (K1 & K2 & K3 & K4).
    set (ext := match dget sig_eqb (funs m) (fsig (FU n ss c)) with Some e => e | None => [] end).
    assert (O : NoDup (map fst ext) /\ forall pt v, In (pt, v) ext -> Forall constant_ok pt /\ constant_ok v).
    { unfold ext. destruct (dget sig_eqb (funs m) (fsig (FU n ss c))) as [e|] eqn:E; [|split; [constructor|intros ? ? []]]. apply (dget_In sig_eqb sig_eqb_eq) in E. now apply (si_fun l m I) in E as (_ & A & B). }
    destruct O as [A B]. constructor; cbn [funs preds]; try apply I.
    + apply (dset_NoDup sig_eqb sig_eqb_eq), I.
    + intros sg' ext' X. apply (dset_cases sig_eqb sig_eqb_eq) in X as [[-> ->]|X]; [|now apply (si_fun l m I)]. split; [eauto 8|]. split; [now apply (dset_NoDup points_eqb points_eqb_eq)|].
      intros pt w Y. apply (dset_cases points_eqb points_eqb_eq) in Y as [[-> ->]|Y]; auto.
  - unfold m_remove. destruct (dget sig_eqb (preds m) (psig p)) as [ext|] eqn:E; cbn [of_res snd]; [|exact I]. destruct (pt_mem args ext); cbn [of_res snd]; [|exact I]. apply (dget_In sig_eqb sig_eqb_eq) in E. destruct (si_pred l m I _ _ E) as (S & A & B).
    apply sinv_pred; [exact I|exact S|now apply pt_del_NoDup|]. intros pt H. apply B. eapply pt_del_In, H.
  - unfold m_discard. destruct (dget sig_eqb (preds m) (psig p)) as [ext|] eqn:E; [|exact I]. apply (dget_In sig_eqb sig_eqb_eq) in E. destruct (si_pred l m I _ _ E) as (S & A & B).
    apply sinv_pred; [exact I|exact S|now apply pt_del_NoDup|]. intros pt H. apply B. eapply pt_del_In, H.
  - unfold remove_signature. destruct (dget sig_eqb (funs m) (psig p)); [|destruct (dget sig_eqb (preds m) (psig p)); [|exact I]].
    + apply (sinv_same l _ _ (ddel_NoDup sig_eqb _ _ (si_funs l m I)) (si_preds l m I) m I); [intros [s e] H; now apply ddel_entries in H|apply incl_refl].
    + apply (sinv_same l _ _ (si_funs l m I) (ddel_NoDup sig_eqb _ _ (si_preds l m I)) m I); [apply incl_refl|intros [s e] H; now apply ddel_entries in H].
  - unfold remove_signature. destruct (dget sig_eqb (funs m) (fsig f)); [|destruct (dget sig_eqb (preds m) (fsig f)); [|exact I]].
    + apply (sinv_same l _ _ (ddel_NoDup sig_eqb _ _ (si_funs l m I)) (si_preds l m I) m I); [intros [s e] H; now apply ddel_entries in H|apply incl_refl].
    + apply (sinv_same l _ _ (si_funs l m I) (ddel_NoDup sig_eqb _ _ (si_preds l m I)) m I); [apply incl_refl|intros [s e] H; now apply ddel_entries in H].
Qed.
Lemma run_sinv l sub ops : (forall o, In o ops -> mop_ok l o) -> forall m, sinv l m -> sinv l (mrun sub ops m).
Proof.
  induction ops as [|o ops IH]; intros H m I; [exact I|]. cbn [mrun fold_left]. apply IH; [intros x Hx; apply H; now right|]. apply step_sinv; [apply H; now left|exact I].
Qed.
Lemma empty_sinv l : sinv l empty_model.
Proof. constructor; cbn; try constructor; contradiction. Qed.

(** ** The entries of the state *)
Definition fun_entries (keep : signature -> bool) (m : model) : list (string * list string * string) :=
  flat_map (fun sd => map (fun pv => (sig_name (fst sd), map text (fst pv), text (snd pv))) (snd sd)) (filter (fun sd => keep (fst sd)) (funs m)).
Definition pred_entries (keep : signature -> bool) (m : model) : list (string * list string * string) :=
  flat_map (fun sd => map (fun pt => (sig_name (fst sd), map text pt, "true")) (snd sd)) (filter (fun sd => keep (fst sd)) (preds m)).
Definition state_entries keep m := fun_entries keep m ++ pred_entries keep m.
Lemma known_lget l f : inv_tree l -> known_symbol l f -> lget l (CStr (symbol_name f)) = Ok (match f with FPred n ss => EPred n ss | FFun n ss c => EFun n (ss ++ [c]) end).
Proof.
  intros I K. unfold lget. destruct f as [n ss|n ss c]; cbn [symbol_name known_symbol] in *.
  - assert (D : defined_as l (CStr n) (EPred n ss)) by (cbn; auto). apply (ii_spec l (it_index l I)) in D. now rewrite D.
  - assert (D : defined_as l (CStr n) (EFun n (ss ++ [c]))) by (cbn; auto). apply (ii_spec l (it_index l I)) in D. now rewrite D.
Qed.
Lemma elem_eqb_refl_p n ss : elem_eqb (EPred n ss) (EPred n ss) = true.
Proof. cbn [elem_eqb]. rewrite String.eqb_refl. destruct (list_eq_dec string_dec ss ss); [reflexivity|contradiction]. Qed.
Lemma elem_eqb_refl_f n ss : elem_eqb (EFun n ss) (EFun n ss) = true.
Proof. cbn [elem_eqb]. rewrite String.eqb_refl. destruct (list_eq_dec string_dec ss ss); [reflexivity|contradiction]. Qed.
Lemma constant_texts pt : Forall constant_ok pt -> Forall (fun w => name_ok w = true) (map text pt).
Proof. induction 1 as [|t pt H _ IH]; cbn [map]; constructor; auto. destruct t; try contradiction. exact H. Qed.
Lemma name_value w : name_ok w = true -> value_of w = Some (Other w).
Proof. intros H. unfold value_of. destruct (reserved_out w H) as (_ & _ & _ & A & B). now rewrite A, B, H. Qed.
Lemma fun_point l (I : inv_tree l) n ss c pt : In (n, ss ++ [c]) (l_funs l) -> name_ok n = true -> Forall constant_ok pt -> exists s, point_text l true (fsig (FU n ss c)) pt = Ok s /\ lexes s (head_tokens n (map text pt)).
Proof.
  intros K N F. apply constant_texts in F. unfold point_text, fsig. cbn [snd]. destruct pt as [|t pt].
  - exists n. split; [reflexivity|]. cbn [map]. unfold head_tokens, call_tokens. cbn [word_tokens map]. now apply lexes_name.
  - assert (L := known_lget l (FFun n ss c) I K). cbn [symbol_name] in L. rewrite L. cbn [bind]. rewrite elem_eqb_refl_f. eexists. split; [reflexivity|]. apply lexes_head2; [exact N|exact F|discriminate].
Qed.
Lemma pred_point l (I : inv_tree l) n ss pt : In (n, ss) (l_preds l) -> name_ok n = true -> Forall constant_ok pt -> exists s, point_text l false (psig (PU n ss)) pt = Ok s /\ lexes s (head_tokens n (map text pt)).
Proof.
  intros K N F. apply constant_texts in F. unfold point_text, psig. cbn [snd]. destruct pt as [|t pt].
  - exists n. split; [reflexivity|]. cbn [map]. unfold head_tokens, call_tokens. cbn [word_tokens map]. now apply lexes_name.
  - assert (L := known_lget l (FPred n ss) I K). cbn [symbol_name] in L. rewrite L. cbn [bind]. rewrite elem_eqb_refl_p. eexists. split; [reflexivity|]. change (n ++ "(" ++ join "," (map text (t :: pt)) ++ ")")%string with (n ++ arguments "(" ")" (map text (t :: pt)))%string. now apply lexes_head.
Qed.
Lemma Forall2_concat {A B C} (R : A -> B -> Prop) (g : C -> list B) ls cs : Forall2 (fun c l => Forall2 R l (g c)) cs ls -> Forall2 R (List.concat ls) (flat_map g cs).
Proof. induction 1; cbn [List.concat flat_map]; [constructor|]. now apply Forall2_app. Qed.
Lemma Forall2_swap {A B} (R : A -> B -> Prop) la lb : Forall2 (fun b a => R a b) lb la -> Forall2 R la lb.
Proof. induction 1; constructor; auto. Qed.
Lemma lexes_map_tokens ls (es : list (string * list string * string)) : Forall2 (fun s e => lexes s (value_tokens e)) ls es -> Forall2 lexes ls (map value_tokens es).
Proof. intros H. apply Forall2_map_r. exact H. Qed.
Lemma values_written l m keep : inv_tree l -> sinv l m -> exists ls, value_lines l keep m = Ok ls /\ Forall2 lexes ls (map value_tokens (state_entries keep m)).
Proof.
  intros I S. unfold value_lines.
  destruct (mapM_build (fun sd => mapM (value_line l (fst sd)) (snd sd)) (fun sd ls => Forall2 (fun s e => lexes s (value_tokens e)) ls (map (fun pv => (sig_name (fst sd), map text (fst pv), text (snd pv))) (snd sd))) (filter (fun sd => keep (fst sd)) (funs m))) as (fs & Ef & Ff).
  { intros [sg ext] H. apply filter_In in H as [H _]. destruct (si_fun l m S sg ext H) as ((n & ss & c & -> & K & N) & _ & C). cbn [fst snd].
    destruct (mapM_build (value_line l (fsig (FU n ss c))) (fun pv s => lexes s (value_tokens (n, map text (fst pv), text (snd pv)))) ext) as (bs & Eb & Fb).
    - intros [pt v] Hv. destruct (C pt v Hv) as [C1 C2]. destruct (fun_point l I n ss c pt K N C1) as (s & E & L). unfold value_line. cbn [fst snd]. rewrite E. cbn [bind]. eexists. split; [reflexivity|]. apply lexes_value_line; [exact L|].
      destruct v; try contradiction. cbn [text constant_ok] in *. now rewrite name_value.
    - exists bs. split; [exact Eb|]. cbn [sig_name fsig snd]. apply Forall2_map_r. now apply Forall2_swap. }
  rewrite Ef. cbn [bind].
  destruct (mapM_build (fun sd => mapM (true_line l (fst sd)) (snd sd)) (fun sd ls => Forall2 (fun s e => lexes s (value_tokens e)) ls (map (fun pt => (sig_name (fst sd), map text pt, "true")) (snd sd))) (filter (fun sd => keep (fst sd)) (preds m))) as (ps & Ep & Fp).
  { intros [sg ext] H. apply filter_In in H as [H _]. destruct (si_pred l m S sg ext H) as ((n & ss & -> & K & N) & _ & C). cbn [fst snd].
    destruct (mapM_build (true_line l (psig (PU n ss))) (fun pt s => lexes s (value_tokens (n, map text pt, "true"))) ext) as (bs & Eb & Fb).
    - intros pt Hv. specialize (C pt Hv). destruct (pred_point l I n ss pt K N C) as (s & E & L). unfold true_line. rewrite E. cbn [bind]. eexists. split; [reflexivity|]. change (" = true;")%string with (" = " ++ "true" ++ ";")%string. apply lexes_value_line; [exact L|discriminate].
    - exists bs. split; [exact Eb|]. cbn [sig_name psig snd]. apply Forall2_map_r. now apply Forall2_swap. }
  rewrite Ep. cbn [bind]. eexists. split; [reflexivity|]. apply lexes_map_tokens. unfold state_entries, fun_entries, pred_entries. apply Forall2_app; apply Forall2_concat; assumption.
Qed.
Definition entry_of (e : string * list string * string) : string * list string * rvalue := (fst e, value_means (snd e)).
Lemma entries_ok l m keep : sinv l m -> forall e, In e (state_entries keep m) -> name_ok (fst (fst e)) = true /\ Forall (fun w => name_ok w = true) (snd (fst e)) /\ value_of (snd e) <> None.
Proof.
  intros S e H. unfold state_entries in H. apply in_app_iff in H as [H|H]; unfold fun_entries, pred_entries in H; apply in_flat_map in H as ([sg ext] & H & He); apply filter_In in H as [H _]; apply in_map_iff in He as (x & <- & Hx); cbn [fst snd] in *.
  - destruct (si_fun l m S sg ext H) as ((n & ss & c & -> & K & N) & _ & C). destruct x as [pt v]. destruct (C pt v Hx) as [C1 C2]. cbn [fst snd sig_name fsig]. split; [exact N|]. split; [now apply constant_texts|]. destruct v; try contradiction. cbn [text constant_ok] in *. now rewrite name_value.
  - destruct (si_pred l m S sg ext H) as ((n & ss & -> & K & N) & _ & C). specialize (C x Hx). cbn [sig_name psig snd]. split; [exact N|]. split; [now apply constant_texts|discriminate].
Qed.
Lemma entries_mean l m keep : sinv l m -> forall n ws v, In (n, ws, v) (map entry_of (state_entries keep m)) <-> exists f, known_symbol l f /\ symbol_name f = n /\ keep (signature_of f) = true /\ has_value m f ws v.
Proof.
  intros S n ws v. rewrite in_map_iff. split.
  - intros (e & E & H). unfold state_entries in H. apply in_app_iff in H as [H|H]; unfold fun_entries, pred_entries in H; apply in_flat_map in H as ([sg ext] & H & He); apply filter_In in H as [H Hk]; apply in_map_iff in He as (x & <- & Hx); cbn [fst snd] in *.
    + destruct (si_fun l m S sg ext H) as ((n' & ss & c & -> & K & N) & ND & C). destruct x as [pt x]. destruct (C pt x Hx) as [C1 C2]. unfold entry_of in E. cbn [fst snd sig_name fsig] in E. injection E as <- <- <-. exists (FFun n' ss c). cbn [known_symbol symbol_name signature_of]. repeat split; auto.
      cbn [has_value]. exists pt, x. split; [reflexivity|]. split; [|destruct x; try contradiction; cbn [text constant_ok] in *; unfold value_means; now rewrite name_value].
      unfold m_value. rewrite (proj2 (dget_Some_In sig_eqb sig_eqb_eq _ _ _ (si_funs l m S)) H). now rewrite (proj2 (dget_Some_In points_eqb points_eqb_eq _ _ _ ND) Hx).
    + destruct (si_pred l m S sg ext H) as ((n' & ss & -> & K & N) & ND & C). unfold entry_of in E. cbn [fst snd sig_name psig] in E. injection E as <- <- <-. exists (FPred n' ss). cbn [known_symbol symbol_name signature_of]. repeat split; auto. cbn [has_value]. exists x. split; [reflexivity|]. split; [|reflexivity].
      unfold m_holds. rewrite (proj2 (dget_Some_In sig_eqb sig_eqb_eq _ _ _ (si_preds l m S)) H). now apply pt_mem_In.
  - intros (f & K & <- & Hk & V). destruct f as [n' ss|n' ss c]; cbn [has_value symbol_name signature_of known_symbol] in *.
    + destruct V as (pt & -> & H & ->). unfold m_holds in H. destruct (dget sig_eqb (preds m) (psig (PU n' ss))) as [ext|] eqn:E; [|discriminate H]. apply (dget_In sig_eqb sig_eqb_eq) in E. apply pt_mem_In in H.
      exists (n', map text pt, "true"). split; [reflexivity|]. unfold state_entries, pred_entries. apply in_app_iff. right. apply in_flat_map. exists (psig (PU n' ss), ext). split; [apply filter_In; auto|]. cbn [fst snd]. apply in_map_iff. exists pt. auto.
    + destruct V as (pt & x & -> & H & ->). unfold m_value in H. destruct (dget sig_eqb (funs m) (fsig (FU n' ss c))) as [ext|] eqn:E; [|discriminate H]. apply (dget_In sig_eqb sig_eqb_eq) in E. destruct (dget points_eqb ext pt) as [y|] eqn:E'; [|discriminate H]. injection H as ->. apply (dget_In points_eqb points_eqb_eq) in E'.
      destruct (si_fun l m S _ _ E) as (_ & _ & C). destruct (C _ _ E') as [_ C2].
      exists (n', map text pt, text x). split; [unfold entry_of; cbn [fst snd]; f_equal; destruct x; try contradiction; cbn [text constant_ok] in *; unfold value_means; now rewrite name_value|]. unfold state_entries, fun_entries. apply in_app_iff. left. apply in_flat_map. exists (fsig (FU n' ss c), ext). split; [apply filter_In; auto|]. cbn [fst snd]. apply in_map_iff. exists (pt, x). auto.
Qed.
(** Two symbols of a language with the same signature are the same. *)
Lemma signature_inj l f g : inv_tree l -> known_symbol l f -> known_symbol l g -> signature_of f = signature_of g -> f = g.
Proof.
  intros I F G E. pose proof (known_lget l f I F) as A. pose proof (known_lget l g I G) as B. assert (N : symbol_name f = symbol_name g) by (destruct f, g; cbn in *; congruence). rewrite N in A. rewrite A in B.
  destruct f as [n ss|n ss c], g as [n' ss'|n' ss' c']; try discriminate B; cbn [signature_of] in E.
  - unfold psig in E. congruence.
  - assert (Q : FU n ss c = FU n' ss' c') by (now apply fsig_inj). congruence.
Qed.
Lemma sig_mem_spec l f (ds : list (fluent * pyvalue)) : inv_tree l -> known_symbol l f -> Forall (fun d => known_symbol l (fst d)) ds -> sig_mem (signature_of f) (map (fun d => signature_of (fst d)) ds) = true <-> is_among f ds.
Proof.
  intros I K F. unfold sig_mem, is_among. rewrite existsb_exists. split.
  - intros (s & H & E). apply sig_eqb_eq in E. subst s. apply in_map_iff in H as (d & E & H). apply in_map_iff. exists d. split; [|exact H]. symmetry. apply (signature_inj l); auto. exact (proj1 (Forall_forall _ _) F d H).
  - intros H. apply in_map_iff in H as (d & <- & H). exists (signature_of (fst d)). split; [apply in_map_iff; eauto|apply sig_refl].
Qed.
