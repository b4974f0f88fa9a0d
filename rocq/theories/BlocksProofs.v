(** Proofs about blocksworld, part 1: one step of a plan is one move of the world. *)
From Coq Require Import Permutation.
From Verif Require Import ListUtil Base Syntax SemLemmas Build ModelState ModelProofs Eval EvalProofs Subst SubstProofs QElim Effects ProgressSpec StateLemmas ProgressProofs PropsProgress FreeVars Represent RelaxSpec
  Blocks BlocksSpec.
#[local] Open Scope string_scope.
#[local] Open Scope list_scope.

(** * Worlds *)
Lemma on_cons a b x t : directly_on a b (x :: t) <-> (a = x /\ exists t', t = b :: t') \/ directly_on a b t.
Proof.
  split.
  - intros (u & v & E). destruct u as [|u0 u]; cbn in E.
    + injection E as -> ->. left. split; [auto|eauto].
    + injection E as -> ->. right. exists u, v. reflexivity.
  - intros [[-> (t' & ->)]|(u & v & ->)]; [exists [], t'; reflexivity|]. exists (x :: u), v. reflexivity.
Qed.
Lemma on_nil a b : ~ directly_on a b [].
Proof. intros (u & v & E). destruct u; discriminate. Qed.
Lemma on_one a b x : ~ directly_on a b [x].
Proof. rewrite on_cons. intros [[_ (t' & E)]|H]; [discriminate|now apply on_nil in H]. Qed.
Lemma on_two a b x y t : directly_on a b (x :: y :: t) <-> (a = x /\ b = y) \/ directly_on a b (y :: t).
Proof. rewrite on_cons. split; (intros [[H1 H2]|H]; [left|right; auto]); [destruct H2 as (t' & E); injection E as -> ->; auto|]. subst. eauto. Qed.
Lemma on_in a b t : directly_on a b t -> In a t /\ In b t.
Proof. intros (u & v & ->). rewrite !in_app_iff. cbn. tauto. Qed.
Lemma on_below a b x t : directly_on a b (x :: t) -> In b t.
Proof. intros (u & v & E). destruct u as [|u0 u]; cbn in E; injection E as _ ->; [now left|]. apply in_or_app. right. right. now left. Qed.
Lemma bottom_cons (a x y : string) t : (exists u, x :: y :: t = u ++ [a]) <-> exists u, y :: t = u ++ [a].
Proof. split; intros (u & E); [destruct u as [|u0 u]; cbn in E; [discriminate|injection E as _ E; eauto]|]. exists (x :: u). cbn. now f_equal. Qed.
Lemma bottom_cons' (a x y : string) t u : x :: y :: t = (u ++ [a])%list -> exists u', (y :: t = u' ++ [a])%list.
Proof. intros E. apply (bottom_cons a x y t). eauto. Qed.

Lemma fact_same w w' p pt : same_world w w' -> fact w p pt -> fact w' p pt.
Proof.
  intros [P E] H. destruct H as [x y t H1 H2|x u H|x u H|x H|H].
  - eapply f_on; [|eauto]. eapply Permutation_in; eauto.
  - eapply f_ontable. eapply Permutation_in; eauto.
  - eapply f_clear. eapply Permutation_in; eauto.
  - apply f_holding. congruence.
  - apply f_handempty. congruence.
Qed.
Lemma same_world_sym w w' : same_world w w' -> same_world w' w.
Proof. intros [P E]. split; [now apply Permutation_sym|congruence]. Qed.
Lemma same_world_trans w1 w2 w3 : same_world w1 w2 -> same_world w2 w3 -> same_world w1 w3.
Proof. intros [P E] [P' E']. split; [eapply perm_trans; eauto|congruence]. Qed.
Lemma describes_same m w w' : same_world w w' -> describes m w -> describes m w'.
Proof. intros S D p pt. rewrite (D p pt). split; apply fact_same; [auto|now apply same_world_sym]. Qed.
Lemma perm_concat {A} (l l' : list (list A)) : Permutation l l' -> Permutation (List.concat l) (List.concat l').
Proof.
  induction 1; cbn [List.concat]; [auto|now apply Permutation_app_head| |eapply perm_trans; eauto]. rewrite !app_assoc. apply Permutation_app_tail, Permutation_app_comm.
Qed.
Lemma valid_same blocks w w' : same_world w w' -> valid blocks w -> valid blocks w'.
Proof.
  intros [P E] [V N]. split; [|intros H; apply N; eapply Permutation_in; [apply Permutation_sym; eauto|auto]].
  unfold held in *. rewrite <- E. eapply perm_trans; [|exact V]. apply Permutation_app_tail, perm_concat, Permutation_sym, P.
Qed.
Lemma move_valid blocks w a xs w' : valid blocks w -> move w a xs w' -> valid blocks w'.
Proof.
  intros V H. destruct H as [w x ts P E|w x E|w x y t ts P E|w x y t ts P E].
  - apply (valid_same _ _ {| towers := [x] :: ts; hand := None |}) in V; [|split; auto]. destruct V as [V N]. cbn in V, N. split; cbn; [|tauto].
    eapply perm_trans; [|exact V]. rewrite app_nil_r. apply Permutation_sym. apply (Permutation_cons_append (List.concat ts) x).
  - destruct V as [V N]. unfold held in V. rewrite E in V. split; cbn; [|intros [K|K]; [discriminate|auto]]. eapply perm_trans; [|exact V]. rewrite app_nil_r. apply (Permutation_cons_append (List.concat (towers w)) x).
  - apply (valid_same _ _ {| towers := (x :: y :: t) :: ts; hand := None |}) in V; [|split; auto]. destruct V as [V N]. cbn in V, N. split; cbn; [|intros [K|K]; [discriminate|apply N; auto]].
    eapply perm_trans; [|exact V]. rewrite app_nil_r. apply Permutation_sym. exact (Permutation_cons_append (y :: t ++ List.concat ts) x).
  - apply (valid_same _ _ {| towers := (y :: t) :: ts; hand := Some x |}) in V; [|split; auto]. destruct V as [V N]. cbn in V, N. split; cbn; [|intros [K|K]; [discriminate|apply N; auto]].
    eapply perm_trans; [|exact V]. rewrite app_nil_r. exact (Permutation_cons_append (y :: t ++ List.concat ts) x).
Qed.

(** * The effect of one move on the facts *)
Ltac noin := let Hd := fresh "Hd" in intros Hd; cbn [In] in Hd; repeat (destruct Hd as [Hd|Hd]; [try discriminate Hd|]); try contradiction Hd.
Definition next (effs : list effect) (w w' : world) : Prop :=
  forall p pt, fact w' p pt <-> In (EAdd Top (Atom p pt)) effs \/ (fact w p pt /\ ~ In (EDel Top (Atom p pt)) effs).
Definition pick_up_effs (x : string) : list effect :=
  [EDel Top (Atom ontable [block x]); EDel Top (Atom clear [block x]); EDel Top (Atom handempty []); EAdd Top (Atom holding [block x])].
Definition put_down_effs (x : string) : list effect :=
  [EAdd Top (Atom ontable [block x]); EAdd Top (Atom clear [block x]); EAdd Top (Atom handempty []); EDel Top (Atom holding [block x])].
Definition unstack_effs (x y : string) : list effect :=
  [EDel Top (Atom on [block x; block y]); EAdd Top (Atom clear [block y]); EDel Top (Atom clear [block x]); EDel Top (Atom handempty []); EAdd Top (Atom holding [block x])].
Definition stack_effs (x y : string) : list effect :=
  [EAdd Top (Atom on [block x; block y]); EDel Top (Atom clear [block y]); EAdd Top (Atom clear [block x]); EAdd Top (Atom handempty []); EDel Top (Atom holding [block x])].

Lemma concat_in {A} (x : A) t ts : In t ts -> In x t -> In x (List.concat ts).
Proof. intros H1 H2. apply in_concat. eauto. Qed.

Lemma pick_up_next x ts : ~ In x (List.concat ts) -> next (pick_up_effs x) {| towers := [x] :: ts; hand := None |} {| towers := ts; hand := Some x |}.
Proof.
  intros N p pt. split.
  - intros H. inversion H as [a b t H1 H2|a u H1|a u H1|a H1|H1]; subst; cbn [towers hand] in *.
    + right. split; [eapply f_on; cbn [towers]; [right; eauto|auto]|noin].
    + right. split; [eapply f_ontable; cbn [towers]; right; eauto|]. noin. injection Hd as ->. apply N. eapply concat_in; eauto. apply in_or_app. right. now left.
    + right. split; [eapply f_clear; cbn [towers]; right; eauto|]. noin. injection Hd as ->. apply N. eapply concat_in; eauto. now left.
    + injection H1 as ->. left. cbn. tauto.
    + discriminate.
  - intros [Hd|[H Nd]].
    + revert Hd. noin. injection Hd as <- <-. now apply f_holding.
    + inversion H as [a b t H1 H2|a u H1|a u H1|a H1|H1]; subst; cbn [towers hand] in *.
      * destruct H1 as [<-|H1]; [now apply on_one in H2|]. eapply f_on; eauto.
      * destruct H1 as [E|H1]; [|eapply f_ontable; eauto]. exfalso. apply Nd. destruct u as [|? [|]]; try discriminate. injection E as <-. cbn. tauto.
      * destruct H1 as [E|H1]; [|eapply f_clear; eauto]. exfalso. apply Nd. injection E as <-. cbn. tauto.
      * discriminate.
      * exfalso. apply Nd. cbn. tauto.
Qed.
Lemma put_down_next x ts : next (put_down_effs x) {| towers := ts; hand := Some x |} {| towers := [x] :: ts; hand := None |}.
Proof.
  intros p pt. split.
  - intros H. inversion H as [a b t H1 H2|a u H1|a u H1|a H1|H1]; subst; cbn [towers hand] in *.
    + destruct H1 as [<-|H1]; [now apply on_one in H2|]. right. split; [eapply f_on; eauto|noin].
    + destruct H1 as [E|H1]; [left; destruct u as [|? [|]]; try discriminate; injection E as <-; cbn; tauto|]. right. split; [eapply f_ontable; eauto|noin].
    + destruct H1 as [E|H1]; [left; injection E as <-; cbn; tauto|]. right. split; [eapply f_clear; eauto|noin].
    + discriminate.
    + left. cbn. tauto.
  - intros [Hd|[H Nd]].
    + revert Hd. noin; injection Hd as <- <-; [apply (f_ontable _ x []); now left|eapply f_clear; now left|now apply f_handempty].
    + inversion H as [a b t H1 H2|a u H1|a u H1|a H1|H1]; subst; cbn [towers hand] in *.
      * eapply f_on; [right; eauto|auto].
      * eapply f_ontable. right. eauto.
      * eapply f_clear. right. eauto.
      * exfalso. apply Nd. injection H1 as ->. cbn. tauto.
      * discriminate.
Qed.
Lemma unstack_next x y t ts : ~ In x (List.concat ((y :: t) :: ts)) -> next (unstack_effs x y) {| towers := (x :: y :: t) :: ts; hand := None |} {| towers := (y :: t) :: ts; hand := Some x |}.
Proof.
  intros N p pt. split.
  - intros H. inversion H as [a b u H1 H2|a u H1|a u H1|a H1|H1]; subst; cbn [towers hand] in *.
    + right. split.
      * destruct H1 as [<-|H1]; [eapply f_on; [left; reflexivity|apply on_two; auto]|eapply f_on; [right; eauto|auto]].
      * noin. injection Hd as -> ->. apply N. eapply concat_in; eauto. now apply on_in in H2.
    + right. split; [|noin]. destruct H1 as [E|H1]; [|eapply f_ontable; right; eauto]. apply (f_ontable _ a (x :: u)). left. cbn. now rewrite E.
    + destruct H1 as [E|H1]; [left; injection E as -> ->; cbn; tauto|]. right. split; [eapply f_clear; right; eauto|]. noin. injection Hd as ->. apply N. eapply concat_in; [right; eauto|now left].
    + injection H1 as ->. left. cbn. tauto.
    + discriminate.
  - intros [Hd|[H Nd]].
    + revert Hd. noin; injection Hd as <- <-; [eapply f_clear; now left|now apply f_holding].
    + inversion H as [a b u H1 H2|a u H1|a u H1|a H1|H1]; subst; cbn [towers hand] in *.
      * destruct H1 as [<-|H1]; [|eapply f_on; [right; eauto|auto]]. apply on_two in H2 as [[-> ->]|H2]; [|eapply f_on; [left; reflexivity|auto]]. exfalso. apply Nd. cbn. tauto.
      * destruct H1 as [E|H1]; [|eapply f_ontable; right; eauto]. apply bottom_cons' in E as (u' & E). eapply f_ontable. left. exact E.
      * destruct H1 as [E|H1]; [|eapply f_clear; right; eauto]. injection E as -> ->. exfalso. apply Nd. cbn. tauto.
      * discriminate.
      * exfalso. apply Nd. cbn. tauto.
Qed.
Lemma stack_next x y t ts : ~ In y (List.concat (t :: ts)) -> next (stack_effs x y) {| towers := (y :: t) :: ts; hand := Some x |} {| towers := (x :: y :: t) :: ts; hand := None |}.
Proof.
  intros N p pt. split.
  - intros H. inversion H as [a b u H1 H2|a u H1|a u H1|a H1|H1]; subst; cbn [towers hand] in *.
    + destruct H1 as [<-|H1]; [|right; split; [eapply f_on; [right; eauto|auto]|noin]]. apply on_two in H2 as [[-> ->]|H2]; [left; cbn; tauto|]. right. split; [eapply f_on; [left; reflexivity|auto]|noin].
    + right. split; [|noin]. destruct H1 as [E|H1]; [|eapply f_ontable; right; eauto]. apply bottom_cons' in E as (u' & E). eapply f_ontable. left. exact E.
    + destruct H1 as [E|H1]; [left; injection E as <- <-; cbn; tauto|]. right. split; [eapply f_clear; right; eauto|]. noin. injection Hd as ->. apply N. apply (concat_in a (a :: u)); [right; auto|now left].
    + discriminate.
    + left. cbn. tauto.
  - intros [Hd|[H Nd]].
    + revert Hd. noin; injection Hd as <- <-; [eapply f_on; [left; reflexivity|apply on_two; auto]|eapply f_clear; left; reflexivity|now apply f_handempty].
    + inversion H as [a b u H1 H2|a u H1|a u H1|a H1|H1]; subst; cbn [towers hand] in *.
      * destruct H1 as [<-|H1]; [eapply f_on; [left; reflexivity|apply on_two; auto]|eapply f_on; [right; eauto|auto]].
      * destruct H1 as [E|H1]; [|eapply f_ontable; right; eauto]. apply (f_ontable _ a (x :: u)). left. cbn. now rewrite E.
      * destruct H1 as [E|H1]; [|eapply f_clear; right; eauto]. injection E as -> ->. exfalso. apply Nd. cbn. tauto.
      * exfalso. apply Nd. injection H1 as ->. cbn. tauto.
      * discriminate.
Qed.
