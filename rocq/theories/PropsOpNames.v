(** C86: the texts of actions and ground operators identify them (fstrips/action.py, syntax/transform/action_grounding.py) *)
From Coq Require Import Ascii Lia.
From Verif Require Import RddlInitProofs2 Base Syntax Semantics SemLemmas ListUtil SubstSpec ModelState ModelText Subst QElim Effects Represent Grounding Lang LangSpec Asp AspNamesSpec AspSpec LpGround LpGroundSpec PropsLpGround PropsLpGround2 OperatorSpec PropsOperators OpNames OpNamesSpec.
#[local] Open Scope string_scope.
#[local] Open Scope list_scope.

Definition starts (signs : list ascii) (s : string) : Prop := match s with "" => False | String c _ => In c signs end.
Lemma split_sign signs n : forall n' r r', without signs n -> without signs n' -> starts signs r -> starts signs r' -> (n ++ r = n' ++ r')%string -> n = n' /\ r = r'.
Proof.
  induction n as [|c n IH]; intros [|c' n'] r r' W W' S S' E; cbn [append] in E.
  - split; [reflexivity|exact E].
  - exfalso. subst r. cbn [starts] in S. exact (W' c' (or_introl eq_refl) S).
  - exfalso. subst r'. cbn [starts] in S'. exact (W c (or_introl eq_refl) S').
  - injection E as -> E. destruct (IH n' r r') as [-> ->]; [intros d Hd; apply W; now right|intros d Hd; apply W'; now right|exact S|exact S'|exact E|]. split; reflexivity.
Qed.
Lemma sapp_assoc (a b c : string) : ((a ++ b) ++ c = a ++ (b ++ c))%string.
Proof. induction a as [|x a IH]; [reflexivity|]. cbn [append]. now rewrite IH. Qed.
Lemma sapp_cancel (a b c : string) : (a ++ b = a ++ c -> b = c)%string.
Proof. induction a as [|x a IH]; cbn [append]; intros E; [exact E|]. injection E as E. exact (IH E). Qed.
(** Lists of texts with separators in between and a closing parenthesis at the end *)
Fixpoint tail_of (sep : string) (l : list string) : string := match l with [] => ")" | x :: r => (sep ++ x ++ tail_of sep r)%string end.
Lemma join_tail sep x l : (LpGround.join sep (x :: l) ++ ")" = x ++ tail_of sep l)%string.
Proof.
  revert x. induction l as [|y l IH]; intros x; [reflexivity|]. change (LpGround.join sep (x :: y :: l)) with (x ++ sep ++ LpGround.join sep (y :: l))%string. rewrite !sapp_assoc, IH. reflexivity.
Qed.
Lemma tail_starts sep l : starts [","%char; ")"%char] (tail_of (String "," sep) l).
Proof. destruct l; cbn; tauto. Qed.
Section Lists.
Variable sep : string.
Variable K : string -> Prop.
Hypothesis split : forall x y r r', K x -> K y -> starts [","%char; ")"%char] r -> starts [","%char; ")"%char] r' -> (x ++ r = y ++ r')%string -> x = y /\ r = r'.
Lemma tails l : forall l', Forall K l -> Forall K l' -> tail_of (String "," sep) l = tail_of (String "," sep) l' -> l = l'.
Proof.
  induction l as [|x l IH]; intros [|y l'] F F' E; cbn [tail_of append] in E; [reflexivity|discriminate E|discriminate E|]. injection E as E. apply sapp_cancel in E. inversion F; inversion F'; subst. apply split in E as [-> E]; [|assumption|assumption|apply tail_starts|apply tail_starts]. f_equal. now apply IH.
Qed.
Hypothesis nonempty : forall x, K x -> exists c s, x = String c s /\ c <> ")"%char.
Lemma joins l l' : Forall K l -> Forall K l' -> (LpGround.join (String "," sep) l ++ ")" = LpGround.join (String "," sep) l' ++ ")")%string -> l = l'.
Proof.
  intros F F' E. destruct l as [|x l], l' as [|y l'].
  - reflexivity.
  - exfalso. rewrite join_tail in E. inversion F'; subst. destruct (nonempty y) as (c & s & -> & N); [assumption|]. cbn in E. injection E as E _. congruence.
  - exfalso. rewrite join_tail in E. inversion F; subst. destruct (nonempty x) as (c & s & -> & N); [assumption|]. cbn in E. injection E as E _. congruence.
  - rewrite !join_tail in E. inversion F; inversion F'; subst. apply split in E as [-> E]; [|assumption|assumption|apply tail_starts|apply tail_starts]. f_equal. now apply tails in E.
Qed.
End Lists.
Lemma constants_joined l l' : Forall constant_name_ok l -> Forall constant_name_ok l' -> (LpGround.join ", " l ++ ")" = LpGround.join ", " l' ++ ")")%string -> l = l'.
Proof.
  apply (joins " " constant_name_ok).
  - intros x y r r' [_ X] [_ Y]. now apply split_sign.
  - intros x [N W]. destruct x as [|c s]; [congruence|]. exists c, s. split; [reflexivity|]. intros ->. apply (W ")"%char); [left; reflexivity|cbn; tauto].
Qed.
Lemma heads n n' r r' : action_name_ok n -> action_name_ok n' -> (n ++ "(" ++ r = n' ++ "(" ++ r')%string -> n = n' /\ r = r'.
Proof. intros W W' E. apply split_sign with (signs := ["("%char]) in E as [-> E]; [|exact W|exact W'|left; reflexivity|left; reflexivity]. cbn in E. injection E as ->. split; reflexivity. Qed.

(** The name that a ground operator gets determines the name of the action and the names of the constants, in order. *)
Theorem C86_operator_names a b s t n : operator_name a s = Ok n -> operator_name b t = Ok n -> action_name_ok (a_name a) -> action_name_ok (a_name b) ->
  (forall u x c r, get_t (sub_t u) x = Some (Cst (CStr c) r) -> u = s \/ u = t -> constant_name_ok c) ->
  a_name a = a_name b /\ Forall2 (fun v w => exists c r r', get_t (sub_t s) (Var (fst v) (snd v)) = Some (Cst (CStr c) r) /\ get_t (sub_t t) (Var (fst w) (snd w)) = Some (Cst (CStr c) r')) (param_vars a) (param_vars b).
Proof.
  assert (N : forall a s n, operator_name a s = Ok n -> exists names, n = (a_name a ++ "(" ++ LpGround.join ", " names ++ ")")%string /\ Forall2 (fun (v : var) c => exists r, get_t (sub_t s) (Var (fst v) (snd v)) = Some (Cst (CStr c) r)) (param_vars a) names).
  { clear. intros a s n H. unfold operator_name in H. apply bind_some in H as (names & M & H). injection H as <-. exists names. split; [reflexivity|]. apply mapM_Forall2 in M. induction M as [|v c vs cs H _ IH]; constructor; [|exact IH]. destruct (get_t (sub_t s) (Var (fst v) (snd v))) as [[x q|k q| |]|]; try discriminate H. destruct k as [k|k]; [|discriminate H]. injection H as ->. eauto. }
  intros A B Wa Wb Wc. apply N in A as (l & -> & A). apply N in B as (l' & E & B). apply heads in E as [En E]; [|exact Wa|exact Wb].
  assert (F : forall u vs cs, u = s \/ u = t -> Forall2 (fun (v : var) c => exists r, get_t (sub_t u) (Var (fst v) (snd v)) = Some (Cst (CStr c) r)) vs cs -> Forall constant_name_ok cs). { intros u vs cs U H. induction H as [|v c vs cs (r & H) _ IH]; constructor; [exact (Wc u _ c r H U)|exact IH]. }
  apply constants_joined in E; [|exact (F s _ _ (or_introl eq_refl) A)|exact (F t _ _ (or_intror eq_refl) B)]. subst l'. split; [exact En|].
  clear - A B. revert A B. generalize (param_vars a) (param_vars b). intros vs ws A. revert ws. induction A as [|v c vs cs (r & A) _ IH]; intros ws B; inversion B as [|w c' ws' cs' (r' & B1) B2]; subst; constructor; [|exact (IH _ B2)]. exists c, r, r'. split; [exact A|exact B1].
Qed.
(** The same for the names of instances in a plan (C49): with distinct names of actions they determine the action and the constants. *)
Theorem C86_instances acts a b e f : NoDup (map a_name acts) -> In a acts -> In b acts -> (forall x, In x acts -> action_name_ok (a_name x)) ->
  (forall v, In v (param_vars a) -> constant_name_ok (text (e v))) -> (forall v, In v (param_vars b) -> constant_name_ok (text (f v))) ->
  instance_name a e = instance_name b f -> a = b /\ forall v, In v (param_vars a) -> text (e v) = text (f v).
Proof.
  intros D Ha Hb W We Wf E. unfold instance_name in E. rewrite <- !join_listed in E. apply heads in E as [En E]; [|exact (W a Ha)|exact (W b Hb)].
  assert (Q : a = b). { clear - D Ha Hb En. induction acts as [|x l IH]; [destruct Ha|]. cbn [map] in D. inversion D as [|? ? D1 D2]; subst. destruct Ha as [-> | Ha], Hb as [-> | Hb]; [reflexivity| | |exact (IH D2 Ha Hb)]; exfalso; apply D1; [rewrite En|rewrite <- En]; apply in_map; assumption. }
  split; [exact Q|]. subst b. apply constants_joined in E; [|apply Forall_forall; intros c Hc; apply in_map_iff in Hc as (v & <- & Hv); exact (We v Hv)|apply Forall_forall; intros c Hc; apply in_map_iff in Hc as (v & <- & Hv); exact (Wf v Hv)].
  clear - E. induction (param_vars a) as [|v l IH]; intros w Hw; [destruct Hw|]. cbn [map] in E. assert (E1 : text (e v) = text (f v)) by congruence. assert (E2 : map (fun v => text (e v)) l = map (fun v => text (f v)) l) by congruence. destruct Hw as [<-|Hw]; [exact E1|exact (IH E2 w Hw)].
Qed.
(** The text of an action determines its name and its parameters with their sorts. *)
Theorem C86_ident a b : action_name_ok (a_name a) -> action_name_ok (a_name b) -> (forall v, In v (param_vars a ++ param_vars b) -> variable_name_ok (fst v) /\ variable_name_ok (snd v)) -> action_ident a = action_ident b -> a_name a = a_name b /\ param_vars a = param_vars b.
Proof.
  intros Wa Wb Wv E. unfold action_ident in E. apply heads in E as [En E]; [|exact Wa|exact Wb]. split; [exact En|].
  assert (Split : forall v w r r', variable_name_ok (fst v) -> variable_name_ok (snd v) -> variable_name_ok (fst w) -> variable_name_ok (snd w) -> starts [","%char; ")"%char] r -> starts [","%char; ")"%char] r' -> (param_text v ++ r = param_text w ++ r')%string -> v = w /\ r = r').
  { intros [x s] [y t] r r' V1 V2 W1 W2 S S' Q. unfold param_text in Q. cbn [fst snd] in *. rewrite !sapp_assoc in Q. cbn [append] in Q.
    apply split_sign with (signs := [":"%char; ","%char; ")"%char]) in Q as [-> Q]; [|exact V1|exact W1|left; reflexivity|left; reflexivity]. injection Q as Q.
    apply split_sign with (signs := [":"%char; ","%char; ")"%char]) in Q as [-> ->]; [split; reflexivity|exact V2|exact W2| |]; [destruct r as [|c r]; [destruct S|right; exact S]|destruct r' as [|c r']; [destruct S'|right; exact S']]. }
  assert (M : map param_text (param_vars a) = map param_text (param_vars b) /\ param_vars a = param_vars b); [|exact (proj2 M)].
  set (K := fun z => exists v : var, z = param_text v /\ variable_name_ok (fst v) /\ variable_name_ok (snd v)).
  assert (F : forall vs, (forall v, In v vs -> variable_name_ok (fst v) /\ variable_name_ok (snd v)) -> Forall K (map param_text vs)). { intros vs H. apply Forall_forall. intros z Hz. apply in_map_iff in Hz as (v & <- & Hv). exists v. split; [reflexivity|exact (H v Hv)]. }
  apply (joins "" K) in E.
  - split; [exact E|]. assert (G : forall vs ws, (forall v, In v (vs ++ ws) -> variable_name_ok (fst v) /\ variable_name_ok (snd v)) -> map param_text vs = map param_text ws -> vs = ws).
    { clear - Split. induction vs as [|v vs IH]; intros [|w ws] H Q; cbn [map] in Q; [reflexivity|discriminate Q|discriminate Q|]. assert (Q1 : param_text v = param_text w) by congruence. assert (Q2 : map param_text vs = map param_text ws) by congruence.
      destruct (H v (or_introl eq_refl)) as [V1 V2]. destruct (H w) as [W1 W2]; [apply in_app_iff; right; left; reflexivity|]. destruct (Split v w ")" ")" V1 V2 W1 W2) as [-> _]; [cbn; tauto|cbn; tauto|now rewrite Q1|]. f_equal. apply IH; [|exact Q2]. intros u Hu. apply H. apply in_app_iff in Hu as [Hu|Hu]; [right; apply in_app_iff; now left|apply in_app_iff; right; now right]. }
    exact (G _ _ Wv E).
  - intros x y r r' (v & -> & V1 & V2) (w & -> & W1 & W2) S S' Q. destruct (Split v w r r' V1 V2 W1 W2 S S' Q) as [-> ->]. split; reflexivity.
  - intros x (v & -> & V1 & _). unfold param_text. destruct (fst v) as [|c s]; [exists ":"%char; eexists; split; [reflexivity|discriminate]|]. exists c. eexists. split; [reflexivity|]. intros ->. apply (V1 ")"%char); [left; reflexivity|cbn; tauto].
  - apply F. intros v Hv. apply Wv. apply in_app_iff. now left.
  - apply F. intros v Hv. apply Wv. apply in_app_iff. now right.
Qed.
(** The order of actions is a strict order, and total up to equal names. *)
Lemma text_lt_spec s : forall t, (text_lt s t = true -> text_lt t s = false) /\ (text_lt s t = false -> text_lt t s = false -> s = t).
Proof.
  induction s as [|c s IH]; intros [|d t]; cbn [text_lt]; split; try discriminate; try reflexivity; try trivial.
  - destruct (Ascii.eqb_spec c d) as [->|N]; [rewrite Ascii.eqb_refl; apply IH|]. destruct (Ascii.eqb_spec d c) as [->|_]; [congruence|]. intros H. apply Nat.ltb_lt in H. apply Nat.ltb_ge. lia.
  - destruct (Ascii.eqb_spec c d) as [->|N]; [rewrite Ascii.eqb_refl; intros A B; f_equal; exact (proj2 (IH t) A B)|]. destruct (Ascii.eqb_spec d c) as [->|_]; [congruence|]. intros A B. apply Nat.ltb_ge in A, B. exfalso. apply N. rewrite <- (ascii_nat_embedding c), <- (ascii_nat_embedding d). f_equal. lia.
Qed.
Lemma text_lt_trans s : forall t u, text_lt s t = true -> text_lt t u = true -> text_lt s u = true.
Proof.
  induction s as [|c s IH]; intros [|d t] [|x u]; cbn [text_lt]; try discriminate; try reflexivity. destruct (Ascii.eqb_spec c d) as [->|N].
  - destruct (Ascii.eqb_spec d x) as [->|_]; [apply IH|intros _ H; exact H].
  - destruct (Ascii.eqb_spec d x) as [->|M].
    + intros H _. destruct (Ascii.eqb_spec c x) as [->|_]; [congruence|exact H].
    + intros A B. apply Nat.ltb_lt in A, B. destruct (Ascii.eqb_spec c x) as [->|_]; [lia|]. apply Nat.ltb_lt. lia.
Qed.
Theorem C86_order : (forall a, action_lt a a = false) /\ (forall a b c, action_lt a b = true -> action_lt b c = true -> action_lt a c = true) /\ (forall a b, action_lt a b = true -> action_lt b a = false) /\ (forall a b, action_lt a b = false -> action_lt b a = false -> a_name a = a_name b).
Proof.
  split; [|split; [|split]]; unfold action_lt.
  - intros a. destruct (text_lt (a_name a) (a_name a)) eqn:E; [|reflexivity]. rewrite (proj1 (text_lt_spec _ _) E) in E. discriminate E.
  - intros a b c. apply text_lt_trans.
  - intros a b. apply text_lt_spec.
  - intros a b. apply text_lt_spec.
Qed.
(** Examples: two operators with the same name over constants with commas in their names, which are different *)
Definition fly : action := {| a_name := "fly"; a_params := [Var "?x" "city"; Var "?y" "city"]; a_pre := Top; a_effs := [] |}.
Definition over (x y : string) : subst := {| sub_t := [(Var "?x" "city", Cst (CStr x) "city"); (Var "?y" "city", Cst (CStr y) "city")]; sub_f := [] |}.
Theorem C86_commas : operator_name fly (over "a, b" "c") = operator_name fly (over "a" "b, c") /\ exists n, operator_name fly (over "a, b" "c") = Ok n.
Proof. split; [reflexivity|]. exists "fly(a, b, c)". reflexivity. Qed.
Theorem C86_nonvacuous : operator_name fly (over "a" "b") = Ok "fly(a, b)" /\ action_name_ok (a_name fly) /\ (forall x c r, get_t (sub_t (over "a" "b")) x = Some (Cst (CStr c) r) -> constant_name_ok c) /\ action_ident fly = "fly(?x: city,?y: city)" /\
  (forall v, In v (param_vars fly) -> variable_name_ok (fst v) /\ variable_name_ok (snd v)) /\ action_lt fly {| a_name := "move"; a_params := []; a_pre := Top; a_effs := [] |} = true.
Proof.
  assert (Ok1 : forall signs s, existsb (fun c => existsb (Ascii.eqb c) signs) (list_ascii_of_string s) = false -> without signs s).
  { intros signs s H c Hc Q. assert (X : existsb (fun c => existsb (Ascii.eqb c) signs) (list_ascii_of_string s) = true). { apply existsb_exists. exists c. split; [exact Hc|]. apply existsb_exists. exists c. split; [exact Q|apply Ascii.eqb_refl]. } congruence. }
  split; [reflexivity|]. split; [apply Ok1; reflexivity|]. split; [|split; [reflexivity|split; [|reflexivity]]].
  - intros x c r H. assert (G : forall l v, get_t l x = Some v -> In v (map snd l)). { clear. unfold get_t. induction l as [|[k w] l IH]; intros v H; [discriminate H|]. cbn in H. match type of H with (if ?b then _ else _) = _ => destruct b end; [left; cbn; congruence|right; exact (IH v H)]. }
    apply G in H. cbn [over sub_t map snd] in H. assert (Q : c = "a" \/ c = "b") by (destruct H as [H|[H|[]]]; [left|right]; congruence). destruct Q as [-> | ->]; (split; [discriminate|apply Ok1; reflexivity]).
  - intros v Hv. vm_compute in Hv. destruct Hv as [<-|[<-|[]]]; split; apply Ok1; reflexivity.
Qed.
