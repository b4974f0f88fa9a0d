(** C69: a non-trivial task that survives being written and read *)
From Coq Require Import Ascii.
From Verif Require Import ListUtil Base Syntax ModelState ModelText Lang LangSpec LangProofs PropsLang Rddl RddlSpec RddlProofs RddlRead RddlInit RddlInitSpec RddlDoc RddlDocSpec PropsRddlDoc PropsRddlDoc2 RddlRoundSpec PropsRddlRound.
#[local] Open Scope string_scope.
#[local] Open Scope list_scope.

Definition no_text (_ : bool) (_ : string) : option Z := None.
(** the numbers that the task uses *)
Definition few : numbers := fun w => if String.eqb w "5" then Some (IInt 5) else if String.eqb w "20" then Some (IInt 20) else if String.eqb w "1" then Some (IInt 1) else if String.eqb w "0.5" then Some (IFloat "0.5") else None.
Definition trip_ops : list lop :=
  [OArith; OSort "truck" None; OSort "place" None; OConst (CStr "t1") "truck"; OConst (CStr "a") "place"; OConst (CStr "b") "place";
   OFun "at" ["truck"; "place"]; OFun "fuel" ["truck"; "Real"]; OFun "DIST" ["place"; "place"; "Real"]; OPred "ROAD" ["place"; "place"]; OPred "seen" ["object"]; OPred "go" ["truck"; "place"]].
Definition trip_lang : lang := Eval vm_compute in lrun no_text trip_ops.
Definition tr1 := Cst (CStr "t1") "truck".
Definition pa := Cst (CStr "a") "place".
Definition pb := Cst (CStr "b") "place".
Definition trip_mops : list mop :=
  [OAdd (PU "ROAD" ["place"; "place"]) [pa; pb]; OAdd (PU "seen" ["object"]) [pa]; OAdd (PU "seen" ["object"]) [pb]; ODiscard (PU "seen" ["object"]) [pb]; OSet (App (FU "at" ["truck"] "place") [tr1]) pa;
   OSet (App (FU "fuel" ["truck"] "Real") [tr1]) (Cst (CInt 5) "Real"); OSet (App (FU "DIST" ["place"; "place"] "Real") [pa; pb]) (Cst (CStr "0.5") "Real")].
Definition trip_sub (a b : sort) : bool := String.eqb a b || String.eqb b "object".
Definition trip_state : model := Eval vm_compute in mrun trip_sub trip_mops empty_model.
Definition trip : task := {|
  t_lang := trip_lang; t_domain := "trip"; t_instance := "trip_1"; t_requirements := ["continuous"];
  t_state := [(FFun "at" ["truck"] "place", PText "a"); (FFun "fuel" ["truck"] "Real", PText "0.5"); (FPred "seen" ["object"], PText "false")]; t_interm := [];
  t_action := [(FPred "go" ["truck"; "place"], PText "false")]; t_non := [(FPred "ROAD" ["place"; "place"], PText "false"); (FFun "DIST" ["place"; "place"] "Real", PText "1")];
  t_cpfs := [(("fuel", [XVar "x" "truck"]), XApp (FU "fuel" ["truck"] "Real") [XVar "x" "truck"])]; t_constraints := []; t_reward := None; t_x0 := trip_state; t_max := Some (PText "1"); t_horizon := PText "20"; t_discount := PText "0.5" |}.
Lemma trip_user s : user_type trip_lang s -> s = "truck" \/ s = "place".
Proof.
  intros (N & r & Hr & B & K). cbn in Hr. repeat (destruct Hr as [Hr|Hr]; [injection Hr as <- <-; first [now contradiction N|discriminate B|discriminate K|now auto]|]). destruct Hr.
Qed.
Lemma trip_parent s p : user_type trip_lang s -> parent_of trip_lang s = Some p -> p = "object".
Proof. intros U P. apply trip_user in U as [-> | ->]; cbn in P; congruence. Qed.
Lemma trip_const c s : const_of trip_lang c s -> (c = CStr "t1" /\ s = "truck") \/ (c = CStr "a" /\ s = "place") \/ (c = CStr "b" /\ s = "place").
Proof. intros [y H]. cbn in H. repeat (destruct H as [H|H]; [injection H as <- <- <-; auto|]). destruct H. Qed.
Lemma truck_type : user_type trip_lang "truck".
Proof. split; [discriminate|]. eexists. split; [cbn; do 4 right; left; reflexivity|]. split; reflexivity. Qed.
Lemma place_type : user_type trip_lang "place".
Proof. split; [discriminate|]. eexists. split; [cbn; do 5 right; left; reflexivity|]. split; reflexivity. Qed.
Lemma trip_ok : task_ok no_text trip_sub trip_ops trip_mops trip.
Proof.
  constructor; cbn [t_lang t_domain t_instance t_requirements t_state t_interm t_action t_non t_cpfs t_constraints t_reward t_x0 t_max t_horizon t_discount trip].
  - split; [vm_compute; reflexivity|reflexivity].
  - split; [reflexivity|]. split; [reflexivity|]. repeat constructor.
  - intros s p U P. rewrite (trip_parent s p U P). apply trip_user in U as [-> | ->]; auto.
  - intros c s C _. apply trip_const in C as [[-> ->]|[[-> ->]|[-> ->]]]; reflexivity.
  - intros c s c' s' C _ C' _ E. apply trip_const in C as [[-> ->]|[[-> ->]|[-> ->]]]; apply trip_const in C' as [[-> ->]|[[-> ->]|[-> ->]]]; first [reflexivity|discriminate E].
  - repeat (apply Forall_cons || apply Forall_nil); cbn [List.app]; (split; [cbn; tauto|]; split; [reflexivity|]; split; [repeat constructor|]; split; [exact I || (split; [reflexivity|discriminate])|]; eexists; split; [reflexivity|discriminate]).
  - constructor; [|constructor]. split; [reflexivity|]. cbn [fst snd]. split; [repeat constructor; discriminate|]. split; [write_it|apart].
  - intros e k [].
  - intros e H. discriminate H.
  - vm_compute. reflexivity.
  - intros o H. cbn in H. repeat (destruct H as [<-|H]; [repeat split; cbn; try tauto; repeat constructor|]). destruct H.
  - split; [exists (PText "1"); auto|]. split; reflexivity.
Qed.
Lemma below c s : const_of trip_lang (CStr c) s -> forall u, u = s \/ u = "object" -> object_of trip_lang (Cst (CStr c) s) u.
Proof.
  intros C u U. exists c, s. split; [reflexivity|]. split; [exact C|]. destruct U as [-> | ->]; [now left|]. right. apply anc_parent. apply trip_const in C as [[_ ->]|[[_ ->]|[_ ->]]]; reflexivity.
Qed.
Lemma trip_survives : survives no_text few trip_mops trip.
Proof.
  assert (C1 : const_of trip_lang (CStr "t1") "truck") by (eexists; cbn; auto). assert (C2 : const_of trip_lang (CStr "a") "place") by (eexists; cbn; auto). assert (C3 : const_of trip_lang (CStr "b") "place") by (eexists; cbn; auto).
  constructor; cbn [t_lang t_state t_interm t_action t_non trip].
  - intros w x. unfold few. repeat (match goal with |- context [String.eqb ?a ?b] => destruct (String.eqb a b) end; [intros Q; injection Q as <-; exact I|]). discriminate.
  - apply trip_parent.
  - intros c s C. apply trip_const in C as [[-> ->]|[[-> ->]|[-> ->]]]; (split; [first [exact truck_type|exact place_type]|eexists; split; [reflexivity|]; split; reflexivity]).
  - intros n [U|[[s C]|F]].
    + apply trip_user in U as [-> | ->]; (split; cbn; intuition discriminate).
    + apply trip_const in C as [[Q _]|[[Q _]|[Q _]]]; injection Q as ->; (split; cbn; intuition discriminate).
    + cbn in F. repeat (destruct F as [<-|F]; [split; cbn; intuition discriminate|]). destruct F.
  - unfold fluents_of. cbn. repeat (constructor; [cbn; intuition discriminate|]). constructor.
  - intros f F. cbn in F. pose proof truck_type as T. pose proof place_type as P. repeat (destruct F as [<-|F]; [split; [repeat (apply Forall_cons || apply Forall_nil); auto|cbn; first [exact I|left; tauto|right; split; [assumption|intuition discriminate]]]|]). destruct F.
  - intros o H. cbn in H. repeat (destruct H as [<-|H]; [unfold is_among; cbn; first [exact I|split; [tauto|]]|]); try destruct H.
    all: try (repeat constructor; apply below; auto).
    all: split; [repeat constructor; apply below; auto|].
    + left. split; [exact place_type|]. exists "a". auto.
    + right. left. split; [now left|]. exists 5%Z. split; [reflexivity|]. split; [reflexivity|]. split; [vm_compute; discriminate|discriminate].
    + right. right. split; [reflexivity|]. exists "0.5". auto.
Qed.
Theorem C69_nonvacuous : task_ok no_text trip_sub trip_ops trip_mops trip /\ survives no_text few trip_mops trip /\
  exists s w d x, write_model trip new_writer = Ok (s, w) /\ read_document s = Some d /\ translate_rddl_model no_text 10 (delivered few d) = Ok x /\ same_task x trip /\ rd_horizon x = 20%Z /\ rd_max x = Some 1%Z.
Proof.
  split; [exact trip_ok|]. split; [exact trip_survives|]. destruct (C69_round_trip no_text 10 few trip_sub trip_ops trip_mops trip trip_ok trip_survives) as (s & w & d & x & E & R & T & Sm & Hh & _ & Hm & _). exists s, w, d, x. split; [exact E|]. split; [exact R|]. split; [exact T|]. split; [exact Sm|].
  split; [now apply Hh|]. apply (Hm (PText "1")); [reflexivity|discriminate|reflexivity].
Qed.
(** The trucks of C68_nonvacuous are a subtype: that task is lost. *)
Theorem C69_nonvacuous_subtypes : exists s w d, write_model road_task new_writer = Ok (s, w) /\ read_document s = Some d /\ forall x, translate_rddl_model no_parse 10 (delivered few d) <> Ok x.
Proof.
  apply (C69_subtypes_refuted no_parse 10 few road_sub road_ops road_mops road_task "truck" "vehicle" road_ok); [|reflexivity|discriminate]. split; [discriminate|]. eexists. split; [cbn; do 5 right; left; reflexivity|]. split; reflexivity.
Qed.
