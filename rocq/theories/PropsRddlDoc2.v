(** C68: a non-trivial task, written and read *)
From Coq Require Import Ascii.
From Verif Require Import ListUtil Base Syntax ModelState ModelText Lang LangSpec LangProofs PropsLang Rddl RddlSpec RddlProofs RddlDoc RddlDocSpec PropsRddlDoc.
#[local] Open Scope string_scope.
#[local] Open Scope list_scope.

(** vehicles, some of which are trucks, with positions *)
Definition road_ops : list lop :=
  [OArith; OSort "vehicle" None; OSort "truck" (Some "vehicle"); OInterval "gear" "Integer" 1 5; OConst (CStr "v1") "vehicle"; OConst (CStr "t1") "truck";
   OFun "x" ["vehicle"; "Real"]; OFun "dt" ["Real"]; OFun "speed" ["vehicle"; "Real"]; OPred "on" ["vehicle"]; OPred "stop" []; OPred "BROKEN" ["truck"]].
Definition road_lang : lang := Eval vm_compute in lrun no_parse road_ops.
Definition v1 := Cst (CStr "v1") "vehicle".
Definition t1 := Cst (CStr "t1") "truck".
Definition five := Cst (CInt 5) "Real".
Definition road_mops : list mop := [OAdd (PU "on" ["vehicle"]) [t1]; OAdd (PU "BROKEN" ["truck"]) [t1]; OSet (App (FU "x" ["vehicle"] "Real") [v1]) five; OSet (App (FU "dt" [] "Real") []) five].
Definition road_sub (a b : sort) : bool := String.eqb a b || String.eqb b "vehicle".
Definition road_state : model := Eval vm_compute in mrun road_sub road_mops empty_model.
Definition xv := XVar "v" "vehicle".
Definition x_of (e : xexpr) : xexpr := XApp (FU "x" ["vehicle"] "Real") [e].
Definition on_of (e : xexpr) : xexpr := XAtom (PU "on" ["vehicle"]) [e].
Definition road_task : task := {|
  t_lang := road_lang; t_domain := "road"; t_instance := "road_1"; t_requirements := ["continuous"; "reward-deterministic"];
  t_state := [(FFun "x" ["vehicle"] "Real", PText "0.0"); (FPred "on" ["vehicle"], PText "false")]; t_interm := [(FFun "speed" ["vehicle"] "Real", PText "1")];
  t_action := [(FPred "stop" [], PText "false")]; t_non := [(FFun "dt" [] "Real", PText "0.5"); (FPred "BROKEN" ["truck"], PText "false")];
  t_cpfs := [(("x", [xv]), XApp (FB BAdd) [x_of xv; XApp (FU "dt" [] "Real") []])]; t_constraints := [(XQuant QAll [("v", "vehicle")] (on_of xv), STATE); (XAtom (PU "stop" []) [], ACTION)];
  t_reward := Some (XAgg false [("v", "vehicle")] (x_of xv)); t_x0 := road_state; t_max := Some (PText "1"); t_horizon := PText "20"; t_discount := PText "0.9" |}.
Lemma road_user s p : user_type road_lang s -> parent_of road_lang s = Some p -> (s = "vehicle" /\ p = "object") \/ (s = "truck" /\ p = "vehicle").
Proof.
  intros (N & r & Hr & B & K) P. cbn in Hr. repeat (destruct Hr as [Hr|Hr]; [injection Hr as <- <-; first [now contradiction N|discriminate B|discriminate K|idtac]|]); try destruct Hr; cbn in P; injection P as <-; auto.
Qed.
Lemma road_const c s : const_of road_lang c s -> (c = CStr "v1" /\ s = "vehicle") \/ (c = CStr "t1" /\ s = "truck").
Proof. intros [y H]. cbn in H. repeat (destruct H as [H|H]; [injection H as <- <- <-; auto|]). destruct H. Qed.
Ltac apart := intros v w Hv Hw _; cbn in Hv, Hw; repeat (destruct Hv as [<-|Hv]; [repeat (destruct Hw as [<-|Hw]; [reflexivity|]); destruct Hw|]); destruct Hv.
Ltac write_it := unfold writable; cbn [parts flat_map List.app x_of on_of xv]; repeat (apply Forall_cons || apply Forall_nil); cbn [writable_here infix_fun];
  try (split; [cbn; tauto|do 2 eexists; split; reflexivity]); try (split; reflexivity); try (split; [discriminate|]); try reflexivity; try (do 2 eexists; split; reflexivity); try exact I;
  try (intros x s [E|[]]; injection E as <- <-; repeat split; discriminate); try (split; [discriminate|reflexivity]).
Lemma road_ok : task_ok no_parse road_sub road_ops road_mops road_task.
Proof.
  constructor; cbn [t_lang t_domain t_instance t_requirements t_state t_interm t_action t_non t_cpfs t_constraints t_reward t_x0 t_max t_horizon t_discount road_task].
  - split; [vm_compute; reflexivity|reflexivity].
  - split; [reflexivity|]. split; [reflexivity|]. repeat constructor.
  - intros s p U P. destruct (road_user s p U P) as [[-> ->]|[-> ->]]; auto.
  - intros c s C _. apply road_const in C as [[-> ->]|[-> ->]]; reflexivity.
  - intros c s c' s' C _ C' _ E. apply road_const in C as [[-> ->]|[-> ->]]; apply road_const in C' as [[-> ->]|[-> ->]]; first [reflexivity|discriminate E].
  - repeat (apply Forall_cons || apply Forall_nil); cbn [List.app]; (split; [cbn; tauto|]; split; [reflexivity|]; split; [repeat constructor|]; split; [exact I || (split; [reflexivity|discriminate])|]; eexists; split; [reflexivity|discriminate]).
  - constructor; [|constructor]. split; [reflexivity|]. cbn [fst snd]. split; [repeat constructor; discriminate|]. split; [write_it|apart].
  - intros e k [H|[H|[]]]; injection H as <- <-; (split; [write_it|apart]).
  - intros e H. injection H as <-. split; [write_it|apart].
  - vm_compute. reflexivity.
  - intros o H. cbn in H. repeat (destruct H as [<-|H]; [repeat split; cbn; try tauto; repeat constructor|]). destruct H.
  - split; [exists (PText "1"); auto|]. split; reflexivity.
Qed.
(** The task meets the conditions; its document has all sections, and the truck is listed twice. *)
Theorem C68_nonvacuous : task_ok no_parse road_sub road_ops road_mops road_task /\
  (exists s w d, write_model road_task new_writer = Ok (s, w) /\ read_document s = Some d /\ describes d road_task /\
     doc_types d = [("vehicle", "object"); ("truck", "vehicle")] /\ doc_objects d = [("vehicle", ["v1"; "t1"]); ("truck", ["t1"])] /\
     doc_reward d = RQuant "sum_" [("v", "vehicle")] (RName "x" [RVar "v"]) /\ doc_invariants d = [RQuant "forall_" [("v", "vehicle")] (RName "on" [RVar "v"])] /\
     doc_constants d = [("dt", [], Other "5"); ("BROKEN", ["t1"], Truth true)] /\ doc_init d = [("x", ["v1"], Other "5"); ("on", ["t1"], Truth true)]) /\
  (exists s w d, write_again road_task 1 = Ok (s, w) /\ read_document s = Some d /\ ~ describes d road_task).
Proof.
  split; [exact road_ok|]. split.
  - destruct (C68_document _ _ _ _ _ road_ok) as (s & w & d & E & R & D). exists s, w, d. split; [exact E|]. split; [exact R|]. split; [exact D|].
    assert (Q : match write_model road_task new_writer with Ok (s, _) => read_document s | Err _ => None end = Some d) by (rewrite E; exact R). clear E R D.
    vm_compute in Q. injection Q as <-. repeat (split; [reflexivity|]). reflexivity.
  - assert (U : exists s, user_type (t_lang road_task) s). { exists "truck". split; [discriminate|]. eexists. split; [cbn; do 5 right; left; reflexivity|]. split; reflexivity. }
    destruct (C68_written_again_refuted _ _ _ _ _ road_ok U 0) as (s & w & d & E & R & N & _). exists s, w, d. auto.
Qed.
(** The same task with defaults that are Python Booleans *)
Definition road_task_bool : task :=
  {| t_lang := road_lang; t_domain := "road"; t_instance := "road_1"; t_requirements := t_requirements road_task; t_state := [(FFun "x" ["vehicle"] "Real", PText "0.0"); (FPred "on" ["vehicle"], PBool false)];
     t_interm := t_interm road_task; t_action := [(FPred "stop" [], PBool true)]; t_non := t_non road_task; t_cpfs := t_cpfs road_task; t_constraints := t_constraints road_task; t_reward := t_reward road_task;
     t_x0 := road_state; t_max := t_max road_task; t_horizon := t_horizon road_task; t_discount := t_discount road_task |}.
Theorem C68_nonvacuous_boolean : task_ok no_parse road_sub road_ops road_mops (as_text road_task_bool) /\ exists s w d, write_model road_task_bool new_writer = Ok (s, w) /\ read_document s = Some d /\ ~ describes d road_task_bool.
Proof.
  assert (O : task_ok no_parse road_sub road_ops road_mops (as_text road_task_bool)).
  { destruct road_ok as [a b c d e f g h i j k l]. constructor; try assumption.
    unfold as_text, road_task_bool. cbn [t_lang t_state t_interm t_action t_non road_task map fst snd]. repeat (apply Forall_cons || apply Forall_nil); cbn [List.app]; (split; [cbn; tauto|]; split; [reflexivity|]; split; [repeat constructor|]; split; [exact I || (split; [reflexivity|discriminate])|]; eexists; split; [reflexivity|discriminate]). }
  split; [exact O|]. destruct (C68_boolean_default_refuted _ _ _ _ _ O) as (s & w & d & E & R & N & _); [exists (FPred "stop" []), true; cbn; tauto|]. exists s, w, d. auto.
Qed.
(** A function whose codomain is a type called Object is declared with the type of all objects. *)
Theorem C68_object_range_refuted : exists t, (exists p, In ("Object", p) (l_parent (t_lang t))) /\ In (FFun "f" [] "Object", PText "o") (t_state t) /\
  exists s w d r, write_model t new_writer = Ok (s, w) /\ read_document s = Some d /\ In ("Object", "object") (doc_types d) /\ In r (doc_fluents d) /\ d_name r = "f" /\ d_type r = "object".
Proof.
  pose (l := lrun no_parse [OSort "Object" None; OConst (CStr "o") "Object"; OFun "f" ["Object"]]). vm_compute in l.
  exists {| t_lang := l; t_domain := "d"; t_instance := "i"; t_requirements := []; t_state := [(FFun "f" [] "Object", PText "o")]; t_interm := []; t_action := []; t_non := []; t_cpfs := []; t_constraints := [];
            t_reward := None; t_x0 := empty_model; t_max := Some (PText "1"); t_horizon := PText "20"; t_discount := PText "0.9" |}.
  split; [exists (Some "object"); cbn; tauto|]. split; [now left|]. eexists _, _, _, _. split; [vm_compute; reflexivity|]. split; [vm_compute; reflexivity|]. cbn [doc_types doc_fluents]. split; [now left|]. split; [now left|]. split; reflexivity.
Qed.
