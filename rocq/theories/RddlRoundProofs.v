(** Where the entries of a state come from; the instance that is delivered for a document *)
From Coq Require Import Ascii.
From Verif Require Import ListUtil Base Syntax SemLemmas ModelState ModelText ModelProofs StateLemmas Lang LangSpec LangProofs LangProofs2 TheoriesProofs RddlSpec RddlProofs RddlRead RddlReadProofs4 RddlInit RddlInitSpec RddlInitProofs RddlInitProofs3 RddlDoc RddlDocSpec RddlDocProofs3 RddlRoundSpec.
#[local] Open Scope string_scope.
#[local] Open Scope list_scope.

(** ** Every value was set, every fact was added *)
Record from_ops (ops : list mop) (m : model) : Prop := {
  fo_pred : forall sg ext pt, In (sg, ext) (preds m) -> In pt ext -> exists n ss, sg = psig (PU n ss) /\ In (OAdd (PU n ss) pt) ops;
  fo_fun : forall sg ext pt v, In (sg, ext) (funs m) -> In (pt, v) ext -> exists n ss c, sg = fsig (FU n ss c) /\ In (OSet (App (FU n ss c) pt) v) ops
}.
Lemma from_same ops m m' : from_ops ops m -> incl (funs m') (funs m) -> incl (preds m') (preds m) -> from_ops ops m'.
Proof. intros I F P. constructor; [intros sg ext pt H; apply (fo_pred _ _ I); now apply P|intros sg ext pt v H; apply (fo_fun _ _ I) with (ext := ext); now apply F]. Qed.
Lemma from_less ops m sg ext ext' : from_ops ops m -> dget sig_eqb (preds m) sg = Some ext -> (forall pt, In pt ext' -> In pt ext) -> from_ops ops {| funs := funs m; preds := dset sig_eqb (preds m) sg ext' |}.
Proof.
  intros I E S. apply (dget_In sig_eqb sig_eqb_eq) in E. constructor; cbn [funs preds]; [|intros; now apply (fo_fun _ _ I) with (ext := ext0)]. intros sg' x pt H. apply (dset_cases sig_eqb sig_eqb_eq) in H as [[-> ->]|H]; [|now apply (fo_pred _ _ I)]. intros Hp. apply (fo_pred _ _ I _ _ _ E). auto.
Qed.
Lemma step_from ops sub m o : In o ops -> from_ops ops m -> from_ops ops (snd (mstep sub m o)).
Proof.
  intros K I. destruct o as [p args|t v|p args|p args|p|f]; cbn [mstep]; cbn [snd].
  - destruct p as [b|n ss]; cbn [m_add of_res snd]; [exact I|]. destruct (check_assignment sub ss args); cbn [bind of_res snd]; [|exact I]. constructor; cbn [funs preds]; [|apply I]. intros sg ext pt H Hp. apply (dset_cases sig_eqb sig_eqb_eq) in H as [[-> ->]|H]; [|now apply (fo_pred _ _ I _ _ _ H)].
    assert (Q : pt = args \/ In pt (match dget sig_eqb (preds m) (psig (PU n ss)) with Some e => e | None => [] end)). { unfold pt_add in Hp. destruct (pt_mem args _); [auto|]. apply in_app_iff in Hp as [Hp|[<-|[]]]; auto. }
    destruct Q as [->|Q]; [eauto|]. destruct (dget sig_eqb (preds m) (psig (PU n ss))) as [e|] eqn:E; [|destruct Q]. apply (dget_In sig_eqb sig_eqb_eq) in E. exact (fo_pred _ _ I _ _ _ E Q).
  - destruct t as [x s|c s|[b|n ss c] args|cf a b]; cbn [m_set of_res snd]; try exact I. destruct (forallb is_cst args); [|exact I]. destruct (check_assignment sub (ss ++ [c]) (args ++ [v])); cbn [bind of_res snd]; [|exact I]. constructor; cbn [funs preds]; [apply I|].
    intros sg ext pt w H Hp. apply (dset_cases sig_eqb sig_eqb_eq) in H as [[-> ->]|H]; [|now apply (fo_fun _ _ I _ _ _ _ H)]. apply (dset_cases points_eqb points_eqb_eq) in Hp as [[-> ->]|Q]; [eauto|]. destruct (dget sig_eqb (funs m) (fsig (FU n ss c))) as [e|] eqn:E; [|destruct Q]. apply (dget_In sig_eqb sig_eqb_eq) in E. exact (fo_fun _ _ I _ _ _ _ E Q).
  - unfold m_remove. destruct (dget sig_eqb (preds m) (psig p)) as [ext|] eqn:E; cbn [of_res snd]; [|exact I]. destruct (pt_mem args ext); cbn [of_res snd]; [|exact I]. apply (from_less ops m _ ext); auto. intros pt. apply pt_del_In.
  - unfold m_discard. destruct (dget sig_eqb (preds m) (psig p)) as [ext|] eqn:E; [|exact I]. apply (from_less ops m _ ext); auto. intros pt. apply pt_del_In.
  - unfold remove_signature. destruct (dget sig_eqb (funs m) (psig p)); [|destruct (dget sig_eqb (preds m) (psig p)); [|exact I]]; apply (from_same ops m _ I); cbn [funs preds]; try apply incl_refl; intros [s e] H; now apply ddel_entries in H.
  - unfold remove_signature. destruct (dget sig_eqb (funs m) (fsig f)); [|destruct (dget sig_eqb (preds m) (fsig f)); [|exact I]]; apply (from_same ops m _ I); cbn [funs preds]; try apply incl_refl; intros [s e] H; now apply ddel_entries in H.
Qed.
Lemma run_from sub ops : from_ops ops (mrun sub ops empty_model).
Proof.
  assert (G : forall ops', incl ops' ops -> forall m, from_ops ops m -> from_ops ops (mrun sub ops' m)).
  { induction ops' as [|o ops' IH]; intros S m I; [exact I|]. cbn [mrun fold_left]. apply IH; [intros x X; apply S; now right|]. apply step_from; [apply S; now left|exact I]. }
  apply G; [apply incl_refl|]. constructor; contradiction.
Qed.
Lemma holds_from sub ops n ss pt : m_holds (mrun sub ops empty_model) (PU n ss) pt = true -> In (OAdd (PU n ss) pt) ops.
Proof.
  intros H. unfold m_holds in H. destruct (dget sig_eqb (preds (mrun sub ops empty_model)) (psig (PU n ss))) as [ext|] eqn:E; [|discriminate H]. apply pt_mem_In in H. apply (dget_In sig_eqb sig_eqb_eq) in E. destruct (fo_pred _ _ (run_from sub ops) _ _ _ E H) as (n' & ss' & Q & X). unfold psig in Q. injection Q as -> ->. exact X.
Qed.
Lemma value_from sub ops n ss c pt v : m_value (mrun sub ops empty_model) (FU n ss c) pt = Ok v -> In (OSet (App (FU n ss c) pt) v) ops.
Proof.
  intros H. unfold m_value in H. destruct (dget sig_eqb (funs (mrun sub ops empty_model)) (fsig (FU n ss c))) as [ext|] eqn:E; [|discriminate H]. destruct (dget points_eqb ext pt) as [w|] eqn:F; [|discriminate H]. injection H as <-.
  apply (dget_In sig_eqb sig_eqb_eq) in E. apply (dget_In points_eqb points_eqb_eq) in F. destruct (fo_fun _ _ (run_from sub ops) _ _ _ _ E F) as (n' & ss' & c' & Q & X). apply fsig_inj in Q; [|reflexivity]. injection Q as -> -> ->. exact X.
Qed.

(** ** Names *)
Lemma name_unquote n : name_chars n = true -> unquote n = n.
Proof.
  induction n as [|c n IH]; [reflexivity|]. cbn [name_chars unquote]. intros H. apply andb_true_iff in H as [C H]. rewrite (IH H). destruct (Ascii.eqb_spec c "'") as [->|]; [discriminate C|reflexivity].
Qed.
Lemma name_base n r : name_chars n = true -> base_name (n ++ String "/" r) = n.
Proof.
  induction n as [|c n IH]; [reflexivity|]. cbn [name_chars append base_name]. intros H. apply andb_true_iff in H as [C H]. rewrite (IH H). destruct (Ascii.eqb_spec c "/") as [->|]; [discriminate C|reflexivity].
Qed.
Lemma name_argument w : name_ok w = true -> object_argument (GName w).
Proof.
  unfold name_ok. intros H. apply andb_true_iff in H as [H _]. apply andb_true_iff in H as [N H]. destruct w as [|c w]; [discriminate N|]. cbn [object_argument name_chars] in *. intros ->. discriminate H.
Qed.
Lemma ok_chars w : name_ok w = true -> name_chars w = true.
Proof. unfold name_ok. intros H. apply andb_true_iff in H as [H _]. now apply andb_true_iff in H as [_ H]. Qed.
