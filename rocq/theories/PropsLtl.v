(** C79: temporal formulas. *)
From Verif Require Import Base Syntax Semantics SemLemmas Subst SubstSpec SubstProofs FreeVars FreeVarsProofs Nnf Build Ltl LtlSpec LtlProofs PropsFol AspTextProofs3.

(** The functions X, F, G, U and R give a formula that says, at each time of each trace, what the operator says; nothing else than formulas, in the right number, is accepted. *)
Theorem C79_operators (a b : tform) :
  (exists f, X (GF a) = Ok f /\ forall w e i, holds w f e i <-> holds w a e (S i)) /\
  (exists f, F (GF a) = Ok f /\ forall w e i, holds w f e i <-> exists j, i <= j /\ holds w a e j) /\
  (exists f, G (GF a) = Ok f /\ forall w e i, holds w f e i <-> forall j, i <= j -> holds w a e j) /\
  (exists f, U [GF a; GF b] = Ok f /\ forall w e i, holds w f e i <-> exists j, i <= j /\ holds w b e j /\ forall k, i <= k -> k < j -> holds w a e k) /\
  (exists f, R [GF a; GF b] = Ok f /\ forall w e i, holds w f e i <-> forall j, i <= j -> holds w b e j \/ exists k, i <= k /\ k < j /\ holds w a e k).
Proof.
  split; [|split; [|split; [|split]]].
  - exists (TTemp OX [a]). split; [reflexivity|]. intros w e i. cbn [holds map temp_holds]. reflexivity.
  - exists (TTemp OF [a]). split; [reflexivity|]. intros w e i. cbn [holds map temp_holds]. reflexivity.
  - exists (TTemp OG [a]). split; [reflexivity|]. intros w e i. cbn [holds map temp_holds]. reflexivity.
  - exists (TTemp OU [a; b]). split; [reflexivity|]. intros w e i. cbn [holds map temp_holds chain]. unfold until, throughout. reflexivity.
  - exists (TTemp OR [a; b]). split; [reflexivity|]. intros w e i. cbn [holds map temp_holds chain]. unfold release. reflexivity.
Qed.
Print Assumptions C79_operators.

Lemma forms_ok args fs : mapM targ_form args = Ok fs <-> args = map GF fs.
Proof.
  revert fs. induction args as [|a args IH]; intros fs; cbn [mapM].
  - destruct fs; cbn [map]; split; try reflexivity; discriminate.
  - destruct a as [f|t|]; cbn [targ_form].
    + destruct (mapM targ_form args) as [gs|x] eqn:E.
      * destruct fs as [|g fs]; cbn [map]; [split; intros Q; discriminate Q|]. pose proof (proj1 (IH gs) eq_refl) as ->. split; intros Q.
        -- injection Q as -> ->. reflexivity.
        -- injection Q as -> Q. pose proof (proj2 (IH fs) Q) as Q2. congruence.
      * destruct fs as [|g fs]; cbn [map]; [split; intros Q; discriminate Q|]. split; intros Q; [discriminate Q|]. injection Q as _ Q. apply IH in Q. discriminate Q.
    + destruct fs as [|g fs]; cbn [map]; split; intros Q; discriminate Q.
    + destruct fs as [|g fs]; cbn [map]; split; intros Q; discriminate Q.
Qed.
Lemma forms_err args x : mapM targ_form args = Err x -> x = LanguageError.
Proof.
  induction args as [|a args IH]; cbn [mapM]; [discriminate|]. destruct a; cbn [targ_form]; try (intros Q; injection Q as <-; reflexivity). destruct (mapM targ_form args); [discriminate|]. intros Q. apply IH. injection Q as ->. reflexivity.
Qed.
(** The results are well formed, with exactly the arguments as operands, and everything else is a LanguageError. *)
Theorem C79_accepts o args : match temporal o args with
  | Ok f => exists fs, args = map GF fs /\ f = TTemp o fs /\ (if is_unary o then List.length fs = 1 else 2 <= List.length fs) /\ (forallb twf fs = true -> twf f = true)
  | Err x => x = LanguageError /\ ~ (exists fs, args = map GF fs /\ if is_unary o then List.length fs = 1 else 2 <= List.length fs)
  end.
Proof.
  unfold temporal. destruct (mapM targ_form args) as [fs|x] eqn:E; cbn [bind].
  - apply forms_ok in E. subst args. destruct (if is_unary o then _ else _) eqn:A.
    + exists fs. split; [reflexivity|]. split; [reflexivity|]. split.
      * destruct (is_unary o); [apply Nat.eqb_eq|apply Nat.leb_le]; exact A.
      * intros W. cbn [twf]. destruct o; cbn [is_unary] in A; rewrite A, W; reflexivity.
    + split; [reflexivity|]. intros (gs & Q & L). assert (gs = fs). { clear -Q. revert fs Q. induction gs as [|g gs IH]; intros [|f fs] Q; try discriminate Q; [reflexivity|]. cbn [map] in Q. injection Q as -> Q. f_equal. apply IH. exact Q. }
      subst gs. destruct (is_unary o); [apply Nat.eqb_neq in A|apply Nat.leb_gt in A]; lia.
  - split; [exact (forms_err _ _ E)|]. intros (gs & Q & _). apply forms_ok in Q. congruence.
Qed.
Print Assumptions C79_accepts.

(** The function W never returns a formula. *)
Theorem C79_weak_until_refuted args : W args = Err LanguageError.
Proof. reflexivity. Qed.
Print Assumptions C79_weak_until_refuted.

(** The Boolean functions on temporal formulas. *)
Theorem C79_connectives (a b : tform) :
  (exists f, tneg (GF a) = Ok f /\ forall w e i, holds w f e i <-> ~ holds w a e i) /\
  (exists f, timplies (GF a) (GF b) = Ok (GF f) /\ forall w e i, holds w f e i <-> ~ holds w a e i \/ holds w b e i) /\
  (exists f, tequiv (GF a) (GF b) = Ok (GF f) /\ forall w e i, holds w f e i <-> (~ holds w a e i \/ holds w b e i) /\ (~ holds w b e i \/ holds w a e i)).
Proof.
  assert (E2 : forall P Q : Prop, Exists (fun p : nat -> Prop => p 0) [fun _ => P; fun _ => Q] <-> P \/ Q). { intros P Q. rewrite !Exists_cons, Exists_nil. tauto. }
  split; [|split].
  - exists (TComp Not [a]). split; [reflexivity|]. intros w e i. cbn [holds map conn_holds]. reflexivity.
  - exists (TComp Or [TComp Not [a]; b]). split; [reflexivity|]. intros w e i. cbn [holds map conn_holds]. rewrite !Exists_cons, Exists_nil. tauto.
  - exists (TComp And [TComp Or [TComp Not [a]; b]; TComp Or [TComp Not [b]; a]]). split; [reflexivity|]. intros w e i. cbn [holds map conn_holds]. rewrite !Forall_cons_iff, !Exists_cons, !Exists_nil. split; [tauto|]. intros [A B]. split; [tauto|]. split; [tauto|constructor].
Qed.
Print Assumptions C79_connectives.

Lemma tcompound_ok c fs : comp_arity_ok c (List.length fs) = true -> tcompound c (map GF fs) = Ok (TComp c fs).
Proof. intros A. unfold tcompound. rewrite (proj2 (forms_ok (map GF fs) fs) eq_refl). cbn [bind]. rewrite A. reflexivity. Qed.
Lemma tbinary_step c (Hc : c = And \/ c = Or) w e i : forall l f0, exists f, fold_left (fun acc a => let! phi := acc in tcompound c [a; GF phi]) (map GF l) (Ok f0) = Ok f /\
  (holds w f e i <-> conn_holds c (map (fun g => holds w g e) (f0 :: l)) i).
Proof.
  induction l as [|g l IH]; intros f0; cbn [map fold_left].
  - exists f0. split; [reflexivity|]. destruct Hc as [-> | ->]; cbn [map conn_holds]; [rewrite !Forall_cons_iff|rewrite !Exists_cons, Exists_nil]; split; [intros Q; split; [exact Q|constructor]|tauto|tauto|tauto].
  - cbn [bind]. assert (E : tcompound c [GF g; GF f0] = Ok (TComp c [g; f0])) by (apply (tcompound_ok c [g; f0]); destruct Hc as [-> | ->]; reflexivity). rewrite E. destruct (IH (TComp c [g; f0])) as (f & Ef & Hf). exists f. split; [exact Ef|]. rewrite Hf.
    destruct Hc as [-> | ->]; cbn [map conn_holds holds].
    + rewrite !Forall_cons_iff. split; [tauto|]. intros (A & B & D). split; [|exact D]. split; [exact B|]. split; [exact A|constructor].
    + rewrite !Exists_cons, Exists_nil. tauto.
Qed.
(** land and lor, of any number of formulas, flat or not *)
Theorem C79_and_or (fs : list tform) (flat : bool) w e i :
  (exists f, tland (map GF fs) flat = Ok (GF f) /\ (holds w f e i <-> forall g, In g fs -> holds w g e i)) /\
  (exists f, tlor (map GF fs) flat = Ok (GF f) /\ (holds w f e i <-> exists g, In g fs /\ holds w g e i)).
Proof.
  assert (FA : forall l, Forall (fun p => p i) (map (fun g => holds w g e) l) <-> forall g, In g l -> holds w g e i). { intros l. rewrite Forall_map, Forall_forall. reflexivity. }
  assert (EX : forall l, Exists (fun p => p i) (map (fun g => holds w g e) l) <-> exists g, In g l /\ holds w g e i). { intros l. rewrite Exists_exists. split; [intros (p & I & Q); apply in_map_iff in I as (g & <- & I); exists g; auto|intros (g & I & Q); exists (holds w g e); split; [apply in_map_iff; exists g; auto|exact Q]]. }
  assert (C : forall c, c = And \/ c = Or -> 2 <= List.length fs -> exists f, tcreate (map GF fs) c flat = Ok (GF f) /\ (holds w f e i <-> conn_holds c (map (fun g => holds w g e) fs) i)).
  { intros c Hc L. destruct fs as [|f1 [|f2 fs']]; cbn [List.length] in L; [lia|lia|]. unfold tcreate. cbn [map]. change (GF f1 :: GF f2 :: map GF fs') with (map GF (f1 :: f2 :: fs')). destruct flat.
    - rewrite tcompound_ok by (destruct Hc as [-> | ->]; reflexivity). cbn [bind]. exists (TComp c (f1 :: f2 :: fs')). split; [reflexivity|]. cbn [holds]. reflexivity.
    - unfold tbinary. rewrite <- map_rev. destruct (rev (f1 :: f2 :: fs')) as [|z [|y r]] eqn:Er; [apply (f_equal (@List.length _)) in Er; rewrite rev_length in Er; discriminate Er|apply (f_equal (@List.length _)) in Er; rewrite rev_length in Er; discriminate Er|].
      cbn [map]. assert (E : tcompound c [GF y; GF z] = Ok (TComp c [y; z])) by (apply (tcompound_ok c [y; z]); destruct Hc as [-> | ->]; reflexivity). rewrite E.
      destruct (tbinary_step c Hc w e i r (TComp c [y; z])) as (f & Ef & Hf). rewrite Ef. cbn [bind]. exists f. split; [reflexivity|]. rewrite Hf.
      assert (P : forall g, In g (f1 :: f2 :: fs') <-> In g (z :: y :: r)). { intros g. rewrite <- Er. apply in_rev. }
      destruct Hc as [-> | ->]; cbn [conn_holds].
      + rewrite (FA (f1 :: f2 :: fs')), FA. split.
        * intros H g Ig. apply P in Ig. pose proof (H (TComp And [y; z]) (or_introl eq_refl)) as H0. cbn [holds map conn_holds] in H0. rewrite !Forall_cons_iff in H0. destruct Ig as [<-|[<-|Ig]]; [tauto|tauto|]. apply H. right. exact Ig.
        * intros H g [<-|Ig]; [|apply H; apply P; right; right; exact Ig]. cbn [holds map conn_holds]. constructor; [apply H; apply P; right; left; reflexivity|]. constructor; [apply H; apply P; left; reflexivity|constructor].
      + rewrite (EX (f1 :: f2 :: fs')), EX. split.
        * intros (g & [<-|Ig] & Q); [|exists g; split; [apply P; right; right; exact Ig|exact Q]]. cbn [holds map conn_holds] in Q. rewrite !Exists_cons, Exists_nil in Q. destruct Q as [Q|[Q|[]]]; [exists y|exists z]; (split; [apply P|exact Q]); [right; left; reflexivity|left; reflexivity].
        * intros (g & Ig & Q). apply P in Ig. destruct Ig as [<-|[<-|Ig]]; [| |exists g; split; [right; exact Ig|exact Q]]; exists (TComp Or [y; z]); (split; [left; reflexivity|]); cbn [holds map conn_holds]; rewrite !Exists_cons; tauto. }
  destruct fs as [|f1 [|f2 fs']].
  - split; [exists TTop|exists TBot]; (split; [reflexivity|]); cbn [holds]; [split; [intros _ g []|intros _; exact I]|split; [intros []|intros (g & [] & _)]].
  - split; exists f1; (split; [reflexivity|]); [split; [intros H g [<-|[]]; exact H|intros H; apply H; left; reflexivity]|split; [intros H; exists f1; split; [left; reflexivity|exact H]|intros (g & [<-|[]] & H); exact H]].
  - split.
    + destruct (C And (or_introl eq_refl)) as (f & Ef & Hf); [cbn [List.length]; lia|]. exists f. split; [exact Ef|]. rewrite Hf. cbn [conn_holds]. apply FA.
    + destruct (C Or (or_intror eq_refl)) as (f & Ef & Hf); [cbn [List.length]; lia|]. exists f. split; [exact Ef|]. rewrite Hf. cbn [conn_holds]. apply EX.
Qed.
Print Assumptions C79_and_or.
