(** Which PDDL conditions, expressions and effects are read *)
From Verif Require Import Base Syntax Build SemLemmas ListUtil ModelState ModelProofs FreeVars Lang LangSpec LangProofs LangProofs2 Theories TheoriesSpec PropsTermOps RddlRead RddlInitProofs2 PddlInstance PddlInstanceSpec PddlInstanceProofs PddlInstanceProofs2 PddlInstanceProofs3 PddlInstanceProofs4 PddlInstanceProofs5 PddlExpr PddlExprSpec PddlExprProofs PddlExprProofs2 PddlExprProofs3 PddlExprProofs4.
#[local] Open Scope string_scope.
#[local] Open Scope list_scope.

Lemma tree_total c fs : c <> Not -> fs <> [] -> exists g, create_compound fs c false = Ok g.
Proof.
  intros C N. assert (F : forall rest acc, exists g, fold_left (fun acc arg => let! phi := acc in compound c [arg; phi]) rest (Ok acc) = Ok g).
  { induction rest as [|a rest IH]; intros acc; cbn [fold_left]; [eauto|]. cbn [bind]. replace (compound c [a; acc]) with (Ok (Comp c [a; acc])) by (destruct c; try congruence; reflexivity). apply IH. }
  destruct fs as [|a [|b fs]]; [congruence|cbn; eauto|]. unfold create_compound, to_binary_tree. assert (L : List.length (rev (a :: b :: fs)) >= 2) by (rewrite rev_length; cbn; lia). destruct (rev (a :: b :: fs)) as [|z [|y rest]]; cbn in L; try lia.
  replace (compound c [y; z]) with (Ok (Comp c [y; z])) by (destruct c; try congruence; reflexivity). apply F.
Qed.
Lemma land_total fs : exists g, land fs false = Ok g.
Proof. destruct fs as [|f fs]; [cbn; eauto|]. apply (tree_total And (f :: fs)); discriminate. Qed.
Lemma lor_total fs : exists g, lor fs false = Ok g.
Proof. destruct fs as [|f fs]; [cbn; eauto|]. apply (tree_total Or (f :: fs)); discriminate. Qed.

Scheme has_type_mut := Minimality for has_type Sort Prop with has_types_mut := Minimality for has_types Sort Prop.
Combined Scheme has_type_both from has_type_mut, has_types_mut.

Section Accept.
Variable parse : bool -> string -> option Z.
Variable fuel : nat.
Variable i : pinst.
Variable es : list tentry.
Variable ds : list decl.
Hypothesis F : facts es ds i.
Hypothesis O : decides es i fuel.
Notation l := (pi_lang i).
Notation st := (with_theories i).
Notation so := (Theories.sort_of (with_theories i)).
Notation tys := (types_of es).

Lemma check_ok t s : In (so t) (sorts0 ++ tys) -> In s ("object" :: tys) -> check_sort fuel st t s = Ok tt <-> conforms es (so t) s.
Proof.
  intros Ht Hs. destruct (proj1 O _ _ Ht Hs) as (b & E & B). unfold check_sort. change (t_lang st) with l. rewrite E. cbn [bind]. rewrite <- B. destruct b; split; intros Q; congruence.
Qed.
Lemma check_real t : In (so t) (sorts0 ++ tys) -> check_sort fuel st t "Real" = Ok tt <-> numeric (so t).
Proof.
  intros Ht. destruct (proj2 O _ Ht) as (b & E & B). unfold check_sort. change (t_lang st) with l. rewrite E. cbn [bind]. rewrite <- B. destruct b; split; intros Q; congruence.
Qed.
Lemma check_object t : In (so t) (sorts0 ++ tys) -> check_sort fuel st t "object" = Ok tt.
Proof. intros H. apply check_ok; [exact H|now left|]. right. now left. Qed.
Lemma unit_ok {A} (r : res A) (x : A) (P : Prop) : (r = Ok x <-> P) -> P -> r = Ok x.
Proof. tauto. Qed.

(** ** Scopes *)
Record matches (d : scope) (sc : list (string * string)) : Prop := {
  ma_dist : distinct d;
  ma_nodup : NoDup (map fst sc);
  ma_get : forall x v, sget d x = Some v <-> fst v = x /\ In v sc;
  ma_typed : forall x s, In (x, s) sc -> In s ("object" :: tys)
}.
Lemma matches_empty : matches [] [].
Proof. constructor; [constructor|constructor|intros x v; split; [discriminate|intros [_ []]]|intros x s []]. Qed.
Lemma matches_enter d sc xs : matches d sc -> NoDup (map fst xs) -> (forall x, In x (map fst xs) -> ~ In x (map fst sc)) -> (forall x s, In (x, s) xs -> In s ("object" :: tys)) -> matches (enter d xs) (xs ++ sc).
Proof.
  intros [A B C D] N Di T. constructor.
  - now apply enter_distinct.
  - rewrite map_app. apply NoDup_app_iff_simple; [exact N|exact B|]. intros x Hx. exact (Di x Hx).
  - intros x v. destruct (in_dec string_dec x (map fst xs)) as [Hx|Hx].
    + apply in_map_iff in Hx as (u & <- & Hu). assert (G := enter_new xs u d N Hu). match goal with |- context [sget ?a ?b] => replace (sget a b) with (Some u) by (symmetry; exact G) end. rewrite in_app_iff. split; [intros Q; injection Q as <-; auto|]. intros [Q [W|W]].
      * f_equal. clear - N Hu W Q. revert N Hu W. induction xs as [|y xs IH]; intros N Hu W; [destruct Hu|]. cbn [map] in N. inversion N as [|? ? N1 N2]; subst. destruct Hu as [->|Hu], W as [->|W]; [reflexivity| | |auto].
        -- destruct N1. apply in_map_iff. exists v. split; [exact Q|exact W].
        -- destruct N1. apply in_map_iff. exists u. split; [symmetry; exact Q|exact Hu].
      * exfalso. apply (Di (fst u)); [now apply in_map|]. apply in_map_iff. exists v. split; [exact Q|exact W].
    + rewrite enter_other by exact Hx. rewrite C, in_app_iff. split; [tauto|]. intros [Q [W|W]]; [|auto]. destruct Hx. apply in_map_iff. exists v. split; [exact Q|exact W].
  - intros x s H. apply in_app_iff in H as [H|H]; eauto.
Qed.
Lemma matches_other d d' ns sc : matches d sc -> scope_ok d ns d' -> (forall x, In x (map fst sc) -> ~ In x ns) -> matches d' sc.
Proof.
  intros [A B C D] [S1 S2] Di. constructor; [exact S1|exact B| |exact D]. intros x v. rewrite S2. destruct (str_mem x ns) eqn:E; [|apply C]. apply str_mem_In in E. split; [discriminate|]. intros [<- W]. exfalso. apply (Di (fst v)); [apply in_map_iff; exists v; split; [reflexivity|exact W]|exact E].
Qed.
Lemma get_var d sc x : matches d sc -> forall s, In (x, s) sc <-> sget d x = Some (x, s).
Proof. intros M s. rewrite (ma_get _ _ M). cbn [fst]. tauto. Qed.

(** ** Terms *)
Section Terms.
Variable d : scope.
Variable sc : list (string * string).
Hypothesis M : matches d sc.
Notation ty := (has_type es ds sc).
Lemma symbol_args f ss cod : In (f, ss ++ [cod]) (symbols ds) -> (forall s, In s ss -> In s ("object" :: tys)) /\ In cod (sorts0 ++ tys).
Proof. intros H. destruct (fa_typed _ _ _ F f _ H) as (a & c & Q & A & C). apply app_inj_tail in Q as [-> ->]. auto. Qed.
Lemma typed_sort t s : ty t s -> In s (sorts0 ++ tys).
Proof.
  intros H. inversion H as [n s' K|x s' K|f ss cod ts K Ks]; subst.
  - apply in_app_iff. right. exact (fa_ctyped _ _ _ F _ _ K).
  - destruct (ma_typed _ _ M _ _ K) as [<- |Q]; apply in_app_iff; [left; now left|now right].
  - exact (proj2 (symbol_args _ _ _ K)).
Qed.
Definition names_element (t : ptm) : Prop := exists n, t = PId n /\ In n (reserved ++ tys ++ map fst (signatures ds)).
Definition reads (t : ptm) (x : item) : Prop := (exists u, x = ITerm u /\ ty t (so u)) \/ ((exists e, x = IElem e) /\ names_element t).
Lemma args_sound b ts : forall its us ss, Forall2 reads ts its -> List.length its = List.length ss -> (forall s, In s ss -> In s ("object" :: tys)) -> check_arguments fuel st b its ss = Ok us -> has_types es ds sc ts ss.
Proof.
  induction ts as [|t ts IH]; intros its us ss R L S C; inversion R as [|? x ? its' Rx Rs]; subst; destruct ss as [|s ss]; try discriminate L; [constructor|]. destruct x as [u|e]; cbn [check_arguments] in C; [|discriminate].
  apply bind_some in C as (v & C1 & C). apply bind_some in C as (vs & C2 & C). destruct Rx as [(u' & Q & T)|[(e & Q) _]]; [|discriminate Q]. injection Q as <-. apply (hts_cons _ _ _ t ts s (so u) ss T).
  - apply check_ok; [exact (typed_sort _ _ T)|apply S; now left|]. destruct v. exact C1.
  - apply (IH its' vs ss Rs); [now injection L|intros x Hx; apply S; now right|exact C2].
Qed.
Lemma call_sound f e its u ts : lget l (CStr f) = Ok e -> call_function fuel i e its = Ok u -> Forall2 reads ts its -> exists ss, In (f, ss ++ [so u]) (symbols ds) /\ has_types es ds sc ts ss.
Proof.
  intros L C R. destruct (fa_elem _ _ _ F f e L) as [[-> _]|[(s & -> & _)|(ss & -> & H)]]; try discriminate C. cbn [call_function] in C. destruct (Nat.eqb_spec (List.length its) (List.length (removelast ss))) as [Q|]; [|discriminate]. apply bind_some in C as (us & C & W). injection W as <-.
  destruct (fa_typed _ _ _ F f ss H) as (args & cod & -> & A & B). rewrite removelast_last in *. exists args. cbn [Theories.sort_of]. rewrite last_last. split; [exact H|]. exact (args_sound _ _ _ _ _ R Q A C).
Qed.
Lemma mapM_reads ts : Forall (fun t => forall x, read_term fuel i d t = Ok x -> reads t x) ts -> forall its, mapM (read_term fuel i d) ts = Ok its -> Forall2 reads ts its.
Proof. induction 1 as [|t ts H _ IH]; intros its R; cbn [mapM] in R; [injection R as <-; constructor|]. apply bind_some in R as (x & X & R). apply bind_some in R as (xs & Xs & R). injection R as <-. constructor; auto. Qed.
Theorem term_sound t : forall x, read_term fuel i d t = Ok x -> reads t x.
Proof.
  induction t as [n|x|f ts IH] using ptm_ind_nested; intros it R; cbn [read_term] in R.
  - apply bind_some in R as (e & L & R). apply semantic_ok in L. injection R as <-. unfold item_of, of_elem. destruct (fa_elem _ _ _ F n e L) as [[-> H]|[(s & -> & H)|(ss & -> & H)]].
    + right. split; [eauto|]. exists n. split; [reflexivity|]. rewrite app_assoc, in_app_iff. now left.
    + left. eexists. split; [reflexivity|]. now constructor.
    + right. split; [eauto|]. exists n. split; [reflexivity|]. destruct H as [H|H]; [injection H as <- _; cbn; tauto|]. rewrite !in_app_iff. right. right. now apply (in_map fst) in H.
  - destruct (sget d x) as [v|] eqn:G; [|discriminate]. injection R as <-. left. eexists. split; [reflexivity|]. apply (ma_get _ _ M) in G as [<- G]. destruct v as [y s]. now constructor.
  - apply bind_some in R as (its & S & R). apply bind_some in R as (e & L & R). apply semantic_ok in L. apply bind_some in R as (u & C & R). injection R as <-. left. exists u. split; [reflexivity|]. destruct (call_sound f e its u ts L C (mapM_reads ts IH its S)) as (ss & H & T). econstructor; eauto.
Qed.
Lemma all_read ts its : mapM (read_term fuel i d) ts = Ok its -> Forall2 reads ts its.
Proof. apply mapM_reads. apply Forall_forall. intros t _. apply term_sound. Qed.
Definition readable (ts : list ptm) (ss : list string) : Prop := exists us, mapM (read_term fuel i d) ts = Ok (map ITerm us) /\ List.length us = List.length ss /\ check_arguments fuel st SortMismatch (map ITerm us) ss = Ok us.
Lemma call_complete f ss cod ts : In (f, ss ++ [cod]) (symbols ds) -> readable ts ss -> exists its u, mapM (read_term fuel i d) ts = Ok its /\ lget l (CStr f) = Ok (EFun f (ss ++ [cod])) /\ call_function fuel i (EFun f (ss ++ [cod])) its = Ok u /\ so u = cod.
Proof.
  intros H (us & R & L & C). exists (map ITerm us), (App (FU f ss cod) us). split; [exact R|]. split; [exact (fa_sym _ _ _ F _ _ H)|]. cbn [call_function]. rewrite removelast_last, last_last, map_length, L, Nat.eqb_refl, C. split; reflexivity.
Qed.
Theorem terms_complete : (forall t s, ty t s -> exists u, read_term fuel i d t = Ok (ITerm u) /\ so u = s) /\ (forall ts ss, has_types es ds sc ts ss -> (forall s, In s ss -> In s ("object" :: tys)) -> readable ts ss).
Proof.
  apply has_type_both.
  - intros n s H. exists (Cst (CStr n) s). cbn [read_term]. rewrite (fa_const _ _ _ F n s H). split; reflexivity.
  - intros x s H. exists (Var x s). cbn [read_term]. rewrite (proj1 (get_var d sc x M s) H). split; reflexivity.
  - intros f ss cod ts H _ IH. destruct (call_complete f ss cod ts H (IH (proj1 (symbol_args _ _ _ H)))) as (its & u & R & L & C & S). exists u. cbn [read_term]. rewrite R. cbn [bind]. rewrite L. cbn [semantic bind]. rewrite C. split; [reflexivity|exact S].
  - intros _. exists []. split; [reflexivity|]. split; reflexivity.
  - intros t ts s s' ss H IH C _ IHs S. destruct IH as (u & R & Su). destruct (IHs (fun x Hx => S x (or_intror Hx))) as (us & Rs & L & Cs). exists (u :: us). cbn [mapM map List.length]. rewrite R. cbn [bind]. rewrite Rs. cbn [bind]. split; [reflexivity|]. split; [now rewrite L|]. cbn [check_arguments].
    rewrite (unit_ok _ tt _ (check_ok u s ltac:(rewrite Su; exact (typed_sort _ _ H)) (S s (or_introl eq_refl)))) by now rewrite Su. cbn [bind]. rewrite Cs. reflexivity.
Qed.
Lemma readable_iff ts ss : (forall s, In s ss -> In s ("object" :: tys)) -> has_types es ds sc ts ss -> readable ts ss.
Proof. intros S H. exact (proj2 terms_complete ts ss H S). Qed.
Theorem head_sound h u : read_head fuel i d h = Ok u -> head_type es ds sc h (so u).
Proof.
  destruct h as [n|f ts]; cbn [read_head head_type]; intros R.
  - apply semantic_ok in R. apply bind_some in R as (e & L & R). destruct (call_sound n e [] u [] L R (Forall2_nil _)) as (ss & H & T). inversion T; subst. exact H.
  - apply bind_some in R as (its & S & R). apply semantic_ok in R. apply bind_some in R as (e & L & R). exact (call_sound f e its u ts L R (all_read ts its S)).
Qed.
Theorem head_complete h s : head_type es ds sc h s -> exists u, read_head fuel i d h = Ok u /\ so u = s.
Proof.
  destruct h as [n|f ts]; cbn [read_head head_type].
  - intros H. destruct (call_complete n [] s [] H) as (its & u & R & L & C & S); [exists []; repeat split; reflexivity|]. cbn [mapM] in R. injection R as <-. exists u. cbn [app] in L, C. rewrite L. cbn [bind]. rewrite C. split; [reflexivity|exact S].
  - intros (ss & H & T). destruct (call_complete f ss s ts H (readable_iff ts ss (proj1 (symbol_args _ _ _ H)) T)) as (its & u & R & L & C & S). exists u. rewrite R. cbn [bind]. rewrite L. cbn [bind]. rewrite C. split; [reflexivity|exact S].
Qed.
Lemma head_sort h s : head_type es ds sc h s -> In s (sorts0 ++ tys).
Proof. destruct h as [n|f ts]; cbn [head_type]; [intros H; exact (proj2 (symbol_args n [] s H))|intros (ss & H & _); exact (proj2 (symbol_args _ _ _ H))]. Qed.

(** ** Expressions *)
Notation ety := (exp_type es ds sc).
Lemma exp_sort x s : ety x s -> In s (sorts0 ++ tys).
Proof.
  intros H. inversion H; subst; try (apply in_app_iff; left; cbn; tauto).
  - match goal with K : In (_, _) sc |- _ => destruct (ma_typed _ _ M _ _ K) as [<- |Q] end; apply in_app_iff; [left; now left|now right].
  - eapply head_sort; eauto.
  - eapply head_sort; eauto.
Qed.
Lemma number_kind s : In s numeric_sorts -> exists r r0, sget (l_sorts l) s = Some r /\ sget (l_sorts first_lang) s = Some r0 /\ s_kind r = s_kind r0.
Proof. exact (in_kind _ _ _ (fa_info _ _ _ F) s). Qed.
Lemma integer_literal z t : literal parse st (CInt z) "Integer" = Ok t <-> (Z.abs z <= 2 ^ 31 - 1)%Z /\ t = Cst (CInt z) "Integer".
Proof.
  destruct (number_kind "Integer") as (r & r0 & G & G0 & K); [cbn; tauto|]. unfold literal. change (t_lang st) with l. rewrite G, K. vm_compute in G0. injection G0 as <-. cbn [s_kind]. unfold cast, encode.
  destruct (Z.leb_spec (-2147483647) z), (Z.leb_spec z 2147483647); cbn [andb bind]; (split; [intros Q|intros [Q ->]]); try discriminate Q; try lia; [injection Q as <-; split; [lia|reflexivity]|reflexivity].
Qed.
Lemma real_literal z t : literal parse st (CInt z) "Real" = Ok t <-> (Z.abs z <= 2 ^ 53)%Z /\ t = Cst (CInt z) "Real".
Proof.
  destruct (number_kind "Real") as (r & r0 & G & G0 & K); [cbn; tauto|]. unfold literal. change (t_lang st) with l. rewrite G, K. vm_compute in G0. injection G0 as <-. cbn [s_kind]. unfold cast, encode.
  destruct (Z.leb_spec (-340282000000000000000000000000000000000) z), (Z.leb_spec z 340282000000000000000000000000000000000); cbn [andb bind]; try (split; [discriminate|intros [Q _]; lia]).
  destruct (Z.ltb_spec (2 ^ 53) (Z.abs z)) as [W|W]; split; intros Q; [discriminate|destruct Q; lia|injection Q as <-; split; [lia|reflexivity]|destruct Q as [_ ->]; reflexivity].
Qed.
Lemma operate_iff o t u : o = OpAdd \/ o = OpSub \/ o = OpMul \/ o = OpDiv -> In (so t) (sorts0 ++ tys) -> In (so u) (sorts0 ++ tys) -> (exists v, operate parse fuel i o t u = Ok v) <-> numeric (so t) /\ numeric (so u).
Proof.
  intros Ho Ht Hu. split.
  - intros (v & H). apply dispatch_fun_inv in H as (b & x & y & _ & C & _ & _ & _ & C1 & C2). cbn [cast_operands] in C. injection C as <- <-. split; apply check_real; auto.
  - intros [Nt Nu]. unfold operate, dispatch_fun. destruct Ho as [-> |[-> |[-> | ->]]]; cbn [op_fun cast_operands bind fst snd]; rewrite (unit_ok _ tt _ (check_real t Ht) Nt), (unit_ok _ tt _ (check_real u Hu) Nu); eexists; reflexivity.
Qed.
Lemma operate_sort o t u v : operate parse fuel i o t u = Ok v -> so v = "Real".
Proof. intros H. apply dispatch_fun_inv in H as (b & x & y & _ & _ & -> & _). reflexivity. Qed.
Lemma real_in : In "Real" (sorts0 ++ tys).
Proof. apply in_app_iff. left. cbn. tauto. Qed.
Lemma fold_sound o us : o = OpAdd \/ o = OpSub \/ o = OpMul \/ o = OpDiv -> (forall u, In u us -> In (so u) (sorts0 ++ tys)) -> forall t v, In (so t) (sorts0 ++ tys) -> us <> [] -> foldM (operate parse fuel i o) us t = Ok v -> so v = "Real" /\ numeric (so t) /\ forall u, In u us -> numeric (so u).
Proof.
  intros Ho. induction us as [|u us IH]; intros K t v Ht N H; [congruence|]. cbn [foldM] in H. apply bind_some in H as (w & W & H). assert (Sw := operate_sort _ _ _ _ W). destruct (proj1 (operate_iff o t u Ho Ht (K u (or_introl eq_refl)))) as [N1 N2]; [eauto|].
  destruct us as [|u' us].
  - cbn [foldM] in H. injection H as <-. split; [exact Sw|]. split; [exact N1|]. intros x [<- |[]]. exact N2.
  - destruct (IH (fun x Hx => K x (or_intror Hx)) w v ltac:(rewrite Sw; exact real_in) ltac:(discriminate) H) as (A & _ & C). split; [exact A|]. split; [exact N1|]. intros x [<- |Hx]; [exact N2|exact (C x Hx)].
Qed.
Lemma numeric_real : numeric "Real".
Proof. cbn. tauto. Qed.
Lemma fold_complete o us : o = OpAdd \/ o = OpSub \/ o = OpMul \/ o = OpDiv -> (forall u, In u us -> In (so u) (sorts0 ++ tys) /\ numeric (so u)) -> forall t, In (so t) (sorts0 ++ tys) -> numeric (so t) -> us <> [] -> exists v, foldM (operate parse fuel i o) us t = Ok v /\ so v = "Real".
Proof.
  intros Ho. induction us as [|u us IH]; intros K t Ht Nt N; [congruence|]. cbn [foldM]. destruct (K u (or_introl eq_refl)) as [Hu Nu]. destruct (proj2 (operate_iff o t u Ho Ht Hu) (conj Nt Nu)) as (w & W). rewrite W. cbn [bind]. assert (Sw := operate_sort _ _ _ _ W).
  destruct us as [|u' us]; [exists w; split; [reflexivity|exact Sw]|]. apply IH; [intros x Hx; apply K; now right|rewrite Sw; exact real_in|rewrite Sw; exact numeric_real|discriminate].
Qed.
Lemma exps_sound r : Forall (fun x => forall u, read_exp parse fuel i d x = Ok u -> ety x (so u)) r -> forall us, mapM (read_exp parse fuel i d) r = Ok us -> Forall2 (fun x u => ety x (so u)) r us.
Proof. induction 1 as [|x r H _ IH]; intros us R; cbn [mapM] in R; [injection R as <-; constructor|]. apply bind_some in R as (u & X & R). apply bind_some in R as (vs & Xs & R). injection R as <-. constructor; auto. Qed.
Lemma sum_sound o a b r t u us v : o = OpAdd \/ o = OpSub \/ o = OpMul \/ o = OpDiv -> ety a (so t) -> ety b (so u) -> Forall2 (fun x u => ety x (so u)) r us -> foldM (operate parse fuel i o) (u :: us) t = Ok v ->
  so v = "Real" /\ Forall (fun x => exists s, ety x s /\ numeric s) (a :: b :: r).
Proof.
  intros Ho A B R H. assert (Su : forall w, In w us -> exists x, In x r /\ ety x (so w)). { intros w Hw. clear - R Hw. induction R as [|x y r us X _ IH]; [destruct Hw|]. destruct Hw as [<- |Hw]; [exists x; split; [now left|exact X]|]. destruct (IH Hw) as (x' & ? & ?). exists x'. split; [now right|auto]. }
  destruct (fold_sound o (u :: us) Ho) with (t := t) (v := v) as (S & N & Ns); [|exact (exp_sort _ _ A)|discriminate|exact H|].
  { intros w [<- |Hw]; [exact (exp_sort _ _ B)|]. destruct (Su w Hw) as (x & _ & X). exact (exp_sort _ _ X). }
  split; [exact S|]. constructor; [eauto|]. constructor; [exists (so u); split; [exact B|apply Ns; now left]|]. assert (Q : Forall (fun w => numeric (so w)) us) by (apply Forall_forall; intros w Hw; apply Ns; now right). clear - R Q. revert Q. induction R as [|x w r us X _ IH]; intros Q; [constructor|]. inversion Q; subst. constructor; eauto.
Qed.
Theorem exp_sound x : forall u, read_exp parse fuel i d x = Ok u -> ety x (so u).
Proof.
  induction x as [z|c|x|n|f ts|a b IHa IHb|a b IHa IHb|a b r IHa IHb IHr|a b r IHa IHb IHr|a IHa] using pfe_ind_nested; intros u R; cbn [read_exp] in R.
  - apply integer_literal in R as [R ->]. now constructor.
  - destruct c as [r|z]; cbn [real_constant] in R; [injection R as <-; constructor|]. apply real_literal in R as [R ->]. now constructor.
  - destruct (sget d x) as [v|] eqn:G; [|discriminate]. injection R as <-. apply (ma_get _ _ M) in G as [<- G]. destruct v as [y s]. now constructor.
  - constructor. exact (head_sound _ _ R).
  - constructor. exact (head_sound _ _ R).
  - apply bind_some in R as (t & T & R). apply bind_some in R as (v & V & R). rewrite (operate_sort _ _ _ _ R). destruct (proj1 (operate_iff OpSub t v ltac:(auto) (exp_sort _ _ (IHa _ T)) (exp_sort _ _ (IHb _ V)))) as [N1 N2]; [eauto|]. econstructor; eauto.
  - apply bind_some in R as (t & T & R). apply bind_some in R as (v & V & R). rewrite (operate_sort _ _ _ _ R). destruct (proj1 (operate_iff OpDiv t v ltac:(auto) (exp_sort _ _ (IHa _ T)) (exp_sort _ _ (IHb _ V)))) as [N1 N2]; [eauto|]. econstructor; eauto.
  - apply bind_some in R as (t & T & R). apply bind_some in R as (v & V & R). apply bind_some in R as (us & Us & R). destruct (sum_sound OpAdd a b r t v us u ltac:(auto) (IHa _ T) (IHb _ V) (exps_sound r IHr us Us) R) as [-> Q]. now constructor.
  - apply bind_some in R as (t & T & R). apply bind_some in R as (v & V & R). apply bind_some in R as (us & Us & R). destruct (sum_sound OpMul a b r t v us u ltac:(auto) (IHa _ T) (IHb _ V) (exps_sound r IHr us Us) R) as [-> Q]. now constructor.
  - apply bind_some in R as (t & T & R). discriminate R.
Qed.
Lemma sum_complete o a b r : o = OpAdd \/ o = OpSub \/ o = OpMul \/ o = OpDiv -> Forall (fun x => forall s, ety x s -> exists u, read_exp parse fuel i d x = Ok u /\ so u = s) (a :: b :: r) -> Forall (fun x => exists s, ety x s /\ numeric s) (a :: b :: r) ->
  exists u, (let! t := read_exp parse fuel i d a in let! u := read_exp parse fuel i d b in let! us := mapM (read_exp parse fuel i d) r in foldM (operate parse fuel i o) (u :: us) t) = Ok u /\ so u = "Real".
Proof.
  intros Ho H K. assert (E : forall x, In x (a :: b :: r) -> exists u, read_exp parse fuel i d x = Ok u /\ In (so u) (sorts0 ++ tys) /\ numeric (so u)). { intros x Hx. rewrite Forall_forall in H, K. destruct (K x Hx) as (s & X & N). destruct (H x Hx s X) as (u & U & <-). exists u. split; [exact U|]. split; [exact (exp_sort _ _ X)|exact N]. }
  destruct (E a (or_introl eq_refl)) as (t & -> & T1 & T2). destruct (E b (or_intror (or_introl eq_refl))) as (u & -> & U1 & U2). cbn [bind].
  assert (R : exists us, mapM (read_exp parse fuel i d) r = Ok us /\ forall w, In w us -> In (so w) (sorts0 ++ tys) /\ numeric (so w)). { assert (E' : forall x, In x r -> exists u, read_exp parse fuel i d x = Ok u /\ In (so u) (sorts0 ++ tys) /\ numeric (so u)) by (intros x Hx; apply E; right; now right). clear - E'. induction r as [|x r IH]; [exists []; split; [reflexivity|intros w []]|]. destruct (E' x (or_introl eq_refl)) as (u & U & A). destruct (IH (fun y Hy => E' y (or_intror Hy))) as (us & Us & B). exists (u :: us). cbn [mapM]. rewrite U. cbn [bind]. rewrite Us. split; [reflexivity|]. intros w [<- |Hw]; auto. }
  destruct R as (us & -> & Us). cbn [bind]. apply fold_complete; [exact Ho| |exact T1|exact T2|discriminate]. intros w [<- |Hw]; auto.
Qed.
Theorem exp_complete x : forall s, ety x s -> exists u, read_exp parse fuel i d x = Ok u /\ so u = s.
Proof.
  induction x as [z|c|x|n|f ts|a b IHa IHb|a b IHa IHb|a b r IHa IHb IHr|a b r IHa IHb IHr|a IHa] using pfe_ind_nested; intros s H; inversion H; subst; cbn [read_exp].
  - exists (Cst (CInt z) "Integer"). split; [|reflexivity]. apply integer_literal. auto.
  - exists (Cst (CInt z) "Real"). split; [|reflexivity]. apply real_literal. auto.
  - eexists. split; reflexivity.
  - exists (Var x s). rewrite (proj1 (get_var d sc x M s)) by assumption. split; reflexivity.
  - apply head_complete. assumption.
  - apply head_complete. assumption.
  - match goal with A0 : ety a ?s1, B0 : ety b ?s2 |- _ => rename A0 into A; rename B0 into B end. destruct (IHa _ A) as (t' & Et & T); destruct (IHb _ B) as (u' & Eu & U). rewrite Et, Eu. cbn [bind]. destruct (proj2 (operate_iff OpSub t' u' ltac:(auto) ltac:(rewrite T; exact (exp_sort _ _ A)) ltac:(rewrite U; exact (exp_sort _ _ B)))) as (v & V); [rewrite T, U; auto|]. exists v. split; [exact V|exact (operate_sort _ _ _ _ V)].
  - match goal with A0 : ety a ?s1, B0 : ety b ?s2 |- _ => rename A0 into A; rename B0 into B end. destruct (IHa _ A) as (t' & Et & T); destruct (IHb _ B) as (u' & Eu & U). rewrite Et, Eu. cbn [bind]. destruct (proj2 (operate_iff OpDiv t' u' ltac:(auto) ltac:(rewrite T; exact (exp_sort _ _ A)) ltac:(rewrite U; exact (exp_sort _ _ B)))) as (v & V); [rewrite T, U; auto|]. exists v. split; [exact V|exact (operate_sort _ _ _ _ V)].
  - apply (sum_complete OpAdd); [auto|constructor; [exact IHa|constructor; [exact IHb|exact IHr]]|assumption].
  - apply (sum_complete OpMul); [auto|constructor; [exact IHa|constructor; [exact IHb|exact IHr]]|assumption].
Qed.
End Terms.

(** ** Conditions *)
Lemma number_value t z : z = 1%Z \/ z = 0%Z -> In (so t) (sorts0 ++ tys) -> (exists f, is_value parse fuel i t z = Ok f) <-> numeric (so t).
Proof.
  intros Hz Ht. unfold is_value, dispatch_pred. cbn [bpred_name with_theories t_handlers t_symbols t_lang cast_operands]. change (str_mem "=" _) with true. cbn iota. unfold numeric. destruct (in_dec string_dec (so t) numeric_sorts) as [N|N].
  - split; [auto|intros _]. destruct (number_kind (so t) N) as (r & r0 & G & G0 & K). assert (Lt : literal parse st (CInt z) (so t) = Ok (Cst (CInt z) (so t))).
    { unfold literal. change (t_lang st) with l. rewrite G, K. clear - N G0 Hz. revert r0 G0 N. generalize (so t) as s. intros s r0 G0 N. apply in_numeric in N as [-> |[-> |[-> | ->]]]; vm_compute in G0; injection G0 as <-; destruct Hz as [-> | ->]; reflexivity. }
    match goal with |- context [literal ?a ?b ?c ?e] => replace (literal a b c e) with (Ok (Cst (CInt z) (so t))) by (symmetry; exact Lt) end. cbn [bind fst snd pred_sort]. rewrite (check_object t Ht). cbn [bind]. rewrite (check_object (Cst (CInt z) (so t)) Ht). eexists. reflexivity.
  - split; [|contradiction]. intros (f & H). exfalso. apply bind_some in H as (p & C & _). apply bind_some in C as (u & C & _). assert (Pl : In (so t) ("object" :: tys)). { apply in_app_iff in Ht as [Ht|Ht]; [|now right]. destruct Ht as [<- |Ht]; [now left|contradiction]. }
    unfold literal in C. change (t_lang st) with l in C. destruct (sget (l_sorts l) (so t)) as [r|] eqn:G; [|discriminate]. destruct (fa_plain _ _ _ F (so t) r (CInt z) Pl G) as [K D]. rewrite K in C. destruct (cn_mem (CInt z) (s_dom r)) eqn:E; [|discriminate]. unfold cn_mem in E. apply existsb_exists in E as (c & Hc & E). apply cname_eqb_eq in E. subst c. destruct (D Hc) as (n & Q). discriminate Q.
Qed.
Lemma dispatch_ok b t u : In (so t) (sorts0 ++ tys) -> In (so u) (sorts0 ++ tys) -> (exists f, dispatch_pred parse fuel st b (PyTerm t) (PyTerm u) = Ok f) <-> (b = PEq \/ b = PNe \/ (numeric (so t) /\ numeric (so u))).
Proof.
  intros Ht Hu. split.
  - intros (f & H). apply dispatch_pred_inv in H as (x & y & C & _ & _ & _ & C1 & C2). cbn [cast_operands] in C. injection C as <- <-. destruct b; auto; right; right; (split; apply check_real; auto).
  - intros H. assert (C : check_sort fuel st t (pred_sort b) = Ok tt /\ check_sort fuel st u (pred_sort b) = Ok tt).
    { destruct b; cbn [pred_sort]; try (split; apply check_object; assumption); (destruct H as [H|[H|[H1 H2]]]; [discriminate H|discriminate H|split; apply check_real; assumption]). }
    destruct C as [C1 C2]. unfold dispatch_pred. cbn [cast_operands bind fst snd]. rewrite C1, C2. destruct b; eexists; reflexivity.
Qed.
Lemma atom_sound d sc p ts u : matches d sc -> read_atom fuel i d p ts = Ok u -> exists ss, In (p, ss ++ [so u]) (symbols ds) /\ has_types es ds sc ts ss.
Proof. intros M R. unfold read_atom in R. apply bind_some in R as (its & S & R). apply bind_some in R as (e & L & R). exact (call_sound d sc M p e its u ts L R (all_read d sc M ts its S)). Qed.
Lemma atom_complete d sc p ts ss cod : matches d sc -> In (p, ss ++ [cod]) (symbols ds) -> has_types es ds sc ts ss -> exists u, read_atom fuel i d p ts = Ok u /\ so u = cod.
Proof.
  intros M H T. destruct (call_complete d p ss cod ts H (readable_iff d sc M ts ss (proj1 (symbol_args _ _ _ H)) T)) as (its & u & R & L & C & S). exists u. unfold read_atom. rewrite R. cbn [bind]. rewrite L. cbn [bind]. rewrite C. split; [reflexivity|exact S].
Qed.
Lemma atom_iff d sc p ts z : matches d sc -> z = 1%Z \/ z = 0%Z -> (exists t f, read_atom fuel i d p ts = Ok t /\ is_value parse fuel i t z = Ok f) <-> atom_ok es ds sc p ts.
Proof.
  intros M Hz. split.
  - intros (t & f & R & V). destruct (atom_sound d sc p ts t M R) as (ss & H & T). exists ss, (so t). split; [exact H|]. split; [|exact T]. apply (number_value t z Hz); [exact (proj2 (symbol_args _ _ _ H))|eauto].
  - intros (ss & cod & H & N & T). destruct (atom_complete d sc p ts ss cod M H T) as (u & R & S). destruct (proj2 (number_value u z Hz ltac:(rewrite S; exact (proj2 (symbol_args _ _ _ H))))) as (f & V); [now rewrite S|]. eauto.
Qed.
Lemma equal_iff d sc a b : matches d sc -> (exists x y f, read_term fuel i d a = Ok x /\ read_term fuel i d b = Ok y /\ equal_items parse fuel i x y = Ok f) <-> exists s t, has_type es ds sc a s /\ has_type es ds sc b t.
Proof.
  intros M. split.
  - intros (x & y & f & X & Y & H). destruct x as [t|], y as [u|]; try discriminate H. apply (term_sound d sc M) in X as [(t' & Q & X)|[(e & Q) _]]; [|discriminate Q]. apply (term_sound d sc M) in Y as [(u' & Q' & Y)|[(e & Q') _]]; [|discriminate Q']. eauto.
  - intros (s & t & A & B). destruct (proj1 (terms_complete d sc M) a s A) as (u & U & Su). destruct (proj1 (terms_complete d sc M) b t B) as (v & V & Sv). destruct (proj2 (dispatch_ok PEq u v ltac:(rewrite Su; exact (typed_sort d sc M _ _ A)) ltac:(rewrite Sv; exact (typed_sort d sc M _ _ B))) (or_introl eq_refl)) as (f & E). exists (ITerm u), (ITerm v), f. auto.
Qed.
Notation rd := (read_gd parse fuel i).
Definition accepts (g : gd) : Prop := forall d sc, matches d sc -> no_rebinding (map fst sc) g -> (exists r, rd d g = Ok r) <-> gd_ok es ds sc g.
Lemma keeps_scope d sc g f d' : matches d sc -> no_rebinding (map fst sc) g -> rd d g = Ok (f, d') -> matches d' sc.
Proof.
  intros M N R. destruct (gd_scope _ _ _ _ _ _ _ (ma_dist _ _ M) R) as [_ S]. apply (matches_other d d' (quantified_names g) sc M S). exact (proj2 (proj1 (rebinding_names _ g) N)).
Qed.
Lemma list_iff gs : Forall accepts gs -> forall d sc, matches d sc -> Forall (no_rebinding (map fst sc)) gs -> (exists r, read_list rd d gs = Ok r) <-> Forall (gd_ok es ds sc) gs.
Proof.
  induction 1 as [|g gs Hg _ IH]; intros d sc M N; [split; [constructor|intros _; eexists; reflexivity]|]. inversion N as [|? ? N1 N2]; subst. rewrite Forall_cons_iff, <- (Hg d sc M N1). rewrite read_list_cons. split.
  - intros ([fs d'] & R). apply bind_some in R as ([f d1] & R1 & R). apply bind_some in R as ([fs' d2] & R2 & _). split; [eauto|]. apply (IH d1 sc (keeps_scope _ _ _ _ _ M N1 R1) N2). cbn [snd] in R2. eauto.
  - intros [([f d1] & R1) G]. rewrite R1. cbn [bind fst snd]. destruct (proj2 (IH d1 sc (keeps_scope _ _ _ _ _ M N1 R1) N2) G) as ([fs d2] & ->). eexists. reflexivity.
Qed.
Lemma quantified_iff q vs g : accepts g -> forall d sc, matches d sc -> NoDup (map fst (typed_variables vs)) -> (forall x, In x (map fst (typed_variables vs)) -> ~ In x (map fst sc)) -> no_rebinding (map fst (typed_variables vs) ++ map fst sc) g ->
  (exists r, (let! xs := normalize i [] vs in let! fd := rd (enter d xs) g in let! h := make_quantified q xs (fst fd) in let! d' := leave (snd fd) xs in Ok (h, d')) = Ok r) <-> typed_variables vs <> [] /\ variables_ok es vs /\ gd_ok es ds (typed_variables vs ++ sc) g.
Proof.
  intros Hg d sc M N1 N2 N3. rewrite <- (fa_vars _ _ _ F vs). split.
  - intros (r & R). apply bind_some in R as (xs & X & R). assert (Q := X). apply normalize_typed in Q. cbn [map app] in Q. subst xs. apply bind_some in R as ([f1 d1] & R1 & R). apply bind_some in R as (h & K & R). split; [|split; [eauto|]].
    + unfold make_quantified in K. intros Q. rewrite Q in K. discriminate K.
    + assert (Mx : matches (enter d (typed_variables vs)) (typed_variables vs ++ sc)) by (apply matches_enter; auto; apply variables_typed; apply (fa_vars _ _ _ F); eauto). apply (Hg _ _ Mx); [rewrite map_app; exact N3|eauto].
  - intros (Ne & (xs & X) & G). assert (Mx : matches (enter d (typed_variables vs)) (typed_variables vs ++ sc)) by (apply matches_enter; auto; apply variables_typed; apply (fa_vars _ _ _ F); eauto).
    rewrite X. cbn [bind]. apply normalize_typed in X. cbn [map app] in X. subst xs. assert (N3' : no_rebinding (map fst (typed_variables vs ++ sc)) g) by (rewrite map_app; exact N3). destruct (proj2 (Hg _ _ Mx N3') G) as ([f1 d1] & R1). rewrite R1. cbn [bind fst snd].
    assert (M1 := keeps_scope _ _ _ _ _ Mx N3' R1). assert (K : exists h, make_quantified q (typed_variables vs) f1 = Ok h) by (unfold make_quantified; destruct (typed_variables vs); [congruence|eauto]). destruct K as (h & ->). cbn [bind].
    destruct (leave_ok (typed_variables vs) d1 (ma_dist _ _ M1) N1) as (d2 & ->); [|eexists; reflexivity]. intros v Hv. exists v. apply (ma_get _ _ M1). split; [reflexivity|]. apply in_app_iff. now left.
Qed.
Theorem gd_accept g : accepts g.
Proof.
  induction g as [p ts|p ts|a b|a b|gs IH|gs IH|g IH|g h IHg IHh|vs g IH|vs g IH|b x y] using gd_ind_nested; intros d sc M N; cbn [read_gd].
  - split; intros H.
    + constructor. apply (atom_iff d sc p ts 1 M (or_introl eq_refl)). destruct H as (r & R). apply bind_some in R as (t & T & R). apply bind_some in R as (f & V & _). eauto.
    + inversion H; subst. destruct (proj2 (atom_iff d sc p ts 1 M (or_introl eq_refl)) ltac:(assumption)) as (t & f & T & V). rewrite T. cbn [bind]. rewrite V. eexists. reflexivity.
  - split; intros H.
    + constructor. apply (atom_iff d sc p ts 0 M (or_intror eq_refl)). destruct H as (r & R). apply bind_some in R as (t & T & R). apply bind_some in R as (f & V & _). eauto.
    + inversion H; subst. destruct (proj2 (atom_iff d sc p ts 0 M (or_intror eq_refl)) ltac:(assumption)) as (t & f & T & V). rewrite T. cbn [bind]. rewrite V. eexists. reflexivity.
  - split; intros H.
    + destruct H as (r & R). apply bind_some in R as (x & X & R). apply bind_some in R as (y & Y & R). apply bind_some in R as (f & V & _). destruct (proj1 (equal_iff d sc a b M)) as (s & t & A & B); [eauto 6|]. econstructor; eauto.
    + inversion H; subst. destruct (proj2 (equal_iff d sc a b M)) as (x & y & f & X & Y & V); [eauto|]. rewrite X. cbn [bind]. rewrite Y. cbn [bind]. rewrite V. eexists. reflexivity.
  - split; intros H.
    + destruct H as (r & R). apply bind_some in R as (x & X & R). apply bind_some in R as (y & Y & R). apply bind_some in R as (f & V & _). destruct (proj1 (equal_iff d sc a b M)) as (s & t & A & B); [eauto 6|]. econstructor; eauto.
    + inversion H; subst. destruct (proj2 (equal_iff d sc a b M)) as (x & y & f & X & Y & V); [eauto|]. rewrite X. cbn [bind]. rewrite Y. cbn [bind]. rewrite V. eexists. reflexivity.
  - inversion N as [| | | | |? ? N1| | | | |]; subst. split; intros H.
    + constructor. apply (list_iff gs IH d sc M N1). destruct H as (r & R). apply bind_some in R as (fd & R & _). eauto.
    + inversion H; subst. destruct (proj2 (list_iff gs IH d sc M N1) ltac:(assumption)) as ([fs d1] & ->). cbn [bind fst snd]. destruct (land_total fs) as (k & ->). eexists. reflexivity.
  - inversion N as [| | | | | |? ? N1| | | |]; subst. split; intros H.
    + constructor. apply (list_iff gs IH d sc M N1). destruct H as (r & R). apply bind_some in R as (fd & R & _). eauto.
    + inversion H; subst. destruct (proj2 (list_iff gs IH d sc M N1) ltac:(assumption)) as ([fs d1] & ->). cbn [bind fst snd]. destruct (lor_total fs) as (k & ->). eexists. reflexivity.
  - inversion N as [| | | | | | |? ? N1| | |]; subst. split; intros H.
    + constructor. apply (IH d sc M N1). destruct H as (r & R). apply bind_some in R as (fd & R & _). eauto.
    + inversion H; subst. destruct (proj2 (IH d sc M N1) ltac:(assumption)) as ([f d1] & ->). eexists. reflexivity.
  - inversion N as [| | | | | | | |? ? ? N1 N2| |]; subst. split; intros H.
    + destruct H as (r & R). apply bind_some in R as ([f d1] & R1 & R). apply bind_some in R as ([f2 d2] & R2 & R). cbn [snd] in R2. constructor; [apply (IHg d sc M N1); eauto|]. apply (IHh d1 sc (keeps_scope _ _ _ _ _ M N1 R1) N2). eauto.
    + inversion H; subst. destruct (proj2 (IHg d sc M N1) ltac:(assumption)) as ([f d1] & R1). rewrite R1. cbn [bind fst snd]. destruct (proj2 (IHh d1 sc (keeps_scope _ _ _ _ _ M N1 R1) N2) ltac:(assumption)) as ([f2 d2] & ->). cbn [bind fst snd]. unfold neg, compound. cbn [List.length comp_arity_ok bind]. eexists. reflexivity.
  - inversion N as [| | | | | | | | |? ? ? N1 N2 N3|]; subst. assert (Q := quantified_iff QEx vs g IH d sc M N1 N2 N3). cbv zeta. split; intros H; [apply Q in H as (A & B & C); now constructor|apply Q; inversion H; subst; auto].
  - inversion N as [| | | | | | | | | |? ? ? N1 N2 N3]; subst. assert (Q := quantified_iff QAll vs g IH d sc M N1 N2 N3). cbv zeta. split; intros H; [apply Q in H as (A & B & C); now constructor|apply Q; inversion H; subst; auto].
  - split; intros H.
    + destruct H as (r & R). apply bind_some in R as (t & T & R). apply bind_some in R as (u & U & R). apply bind_some in R as (f & V & _). assert (A := exp_sound d sc M x t T). assert (B := exp_sound d sc M y u U). econstructor; [exact A|exact B|]. apply (dispatch_ok b t u (exp_sort d sc M _ _ A) (exp_sort d sc M _ _ B)). eauto.
    + inversion H as [| | | | | | | | | |? ? ? ? s t A B C]; subst. destruct (exp_complete d sc M x s A) as (p & -> & Sp). destruct (exp_complete d sc M y t B) as (q & -> & Sq). cbn [bind]. destruct (proj2 (dispatch_ok b p q ltac:(rewrite Sp; exact (exp_sort d sc M _ _ A)) ltac:(rewrite Sq; exact (exp_sort d sc M _ _ B)))) as (f & ->); [rewrite Sp, Sq; exact C|]. eexists. reflexivity.
Qed.
(** ** Effects *)
Lemma scaled_iff o d sc h x : matches d sc -> o = OpAdd \/ o = OpSub \/ o = OpMul \/ o = OpDiv -> (exists a, scaled parse fuel i o d h x = Ok a) <-> exists s t, head_type es ds sc h s /\ numeric s /\ exp_type es ds sc x t /\ numeric t.
Proof.
  intros M Ho. unfold scaled. split.
  - intros (a & R). apply bind_some in R as (t & T & R). apply bind_some in R as (u & U & R). apply bind_some in R as (v & V & _). assert (A := head_sound d sc M h t T). assert (B := exp_sound d sc M x u U). destruct (proj1 (operate_iff o t u Ho (head_sort sc _ _ A) (exp_sort d sc M _ _ B))) as [N1 N2]; [eauto|]. eauto 6.
  - intros (s & t & A & N1 & B & N2). destruct (head_complete d sc M h s A) as (u & -> & Su). destruct (exp_complete d sc M x t B) as (v & -> & Sv). cbn [bind]. destruct (proj2 (operate_iff o u v Ho ltac:(rewrite Su; exact (head_sort sc _ _ A)) ltac:(rewrite Sv; exact (exp_sort d sc M _ _ B)))) as (w & ->); [rewrite Su, Sv; auto|]. eexists. reflexivity.
Qed.
Theorem effect_accept d sc f : matches d sc -> (exists a, read_effect parse fuel i d f = Ok a) <-> effect_ok es ds sc f.
Proof.
  intros M.
  assert (At : forall p ts (z : Z), (exists a, (let! t := read_atom fuel i d p ts in Ok (ITerm t, PyVal (CInt z))) = Ok a) <-> exists ss cod, In (p, ss ++ [cod]) (symbols ds) /\ has_types es ds sc ts ss).
  { intros p ts z. split; [intros (a & R); apply bind_some in R as (t & T & _); destruct (atom_sound d sc p ts t M T) as (ss & A & B); eauto|]. intros (ss & cod & A & B). destruct (atom_complete d sc p ts ss cod M A B) as (u & -> & _). eexists. reflexivity. }
  assert (Tm : forall t u, read_term fuel i d t = Ok (ITerm u) -> exists s, has_type es ds sc t s). { intros t u X. apply (term_sound d sc M) in X as [(t' & Q & X)|[(e & Q) _]]; [eauto|discriminate Q]. }
  destruct f as [p ts|p ts|x y|x y|h x|g ts t|g ts|h x|h x|h x|h x|fs|g fs]; cbn [read_effect effect_ok].
  - apply At.
  - apply At.
  - split.
    + intros (a & R). apply bind_some in R as (x' & X & R). apply bind_some in R as (y' & Y & R). destruct y' as [u|]; [|discriminate R]. split; [|eauto]. apply (term_sound d sc M) in X as [(t' & -> & X)|[_ X]]; [left; eauto|right; exact X].
    + intros [X (t & Y)]. assert (Ex : exists x', read_term fuel i d x = Ok x'). { destruct X as [(s & X)|(n & -> & Hn)]; [destruct (proj1 (terms_complete d sc M) x s X) as (u & -> & _); eauto|]. cbn [read_term]. destruct (fa_used _ _ _ F n Hn) as (e & ->). cbn [semantic bind]. eauto. }
      destruct Ex as (x' & ->). destruct (proj1 (terms_complete d sc M) y t Y) as (u & -> & _). cbn [bind]. eexists. reflexivity.
  - split; [|tauto]. intros (a & R). apply bind_some in R as (x' & X & R). apply bind_some in R as (y' & Y & R). discriminate R.
  - split.
    + intros (a & R). apply bind_some in R as (t & T & R). apply bind_some in R as (u & U & R). exists (so t), (so u). split; [exact (head_sound d sc M h t T)|exact (exp_sound d sc M x u U)].
    + intros (s & t & A & B). destruct (head_complete d sc M h s A) as (u & -> & _). destruct (exp_complete d sc M x t B) as (v & -> & _). eexists. reflexivity.
  - split.
    + intros (a & R). apply bind_some in R as (u & U & R). apply bind_some in R as (y & Y & R). destruct y as [v|]; [|discriminate R]. destruct (Tm t v Y) as (s & X). exists (so u), s. split; [exact (head_sound d sc M (HApp g ts) u U)|exact X].
    + intros (s & s' & A & B). destruct (head_complete d sc M (HApp g ts) s A) as (u & -> & _). destruct (proj1 (terms_complete d sc M) t s' B) as (v & -> & _). eexists. reflexivity.
  - split; [|tauto]. intros (a & R). apply bind_some in R as (x' & X & R). discriminate R.
  - apply (scaled_iff OpMul d sc h x M). auto.
  - apply (scaled_iff OpMul d sc h x M). auto.
  - apply (scaled_iff OpAdd d sc h x M). auto.
  - apply (scaled_iff OpSub d sc h x M). auto.
  - split; [|tauto]. intros (a & R). discriminate R.
  - split; [|tauto]. intros (a & R). discriminate R.
Qed.
Lemma effects_accept d sc fs : matches d sc -> (exists a, mapM (read_effect parse fuel i d) fs = Ok a) <-> Forall (effect_ok es ds sc) fs.
Proof.
  intros M. induction fs as [|f fs IH]; [split; [constructor|intros _; eexists; reflexivity]|]. cbn [mapM]. rewrite Forall_cons_iff, <- IH, <- (effect_accept d sc f M). split.
  - intros (a & R). apply bind_some in R as (x & X & R). apply bind_some in R as (xs & Xs & _). eauto.
  - intros [(x & ->) (xs & ->)]. eexists. reflexivity.
Qed.
(** ** Actions *)
Theorem action_accept n params pre eff : (exists a d, read_action parse fuel i [] n params pre eff = Ok (a, d)) <-> action_ok es ds params pre eff.
Proof.
  unfold read_action, action_ok. set (xs := typed_variables params).
  assert (Mx : variables_ok es params -> NoDup (map fst xs) -> matches (enter [] xs) xs). { intros V N. rewrite <- (app_nil_r xs) at 2. apply matches_enter; [exact matches_empty|exact N|intros x _ []|exact (variables_typed _ _ V)]. }
  split.
  - intros (a & d & R). apply bind_some in R as (ys & X & R). assert (V : variables_ok es params) by (apply (fa_vars _ _ _ F); eauto). apply normalize_typed in X. cbn [map app] in X. subst ys. fold xs in R. apply bind_some in R as ([of d1] & R1 & R). apply bind_some in R as (oes & R2 & R). apply bind_some in R as (d2 & L & _). cbn [fst snd] in *.
    assert (D0 : distinct (enter [] xs)) by (apply enter_distinct; constructor).
    assert (Sc : exists ns, scope_ok (enter [] xs) ns d1 /\ forall g, pre = Some g -> ns = quantified_names g /\ no_rebinding [] g /\ exists r, rd (enter [] xs) g = Ok r).
    { destruct pre as [g|]; [|injection R1 as _ <-; exists []; split; [now apply scope_ok_refl|discriminate]]. apply bind_some in R1 as ([f d1'] & R1 & Q). injection Q as _ <-. destruct (gd_scope _ _ _ _ _ _ _ D0 R1) as [B S]. exists (quantified_names g). split; [exact S|]. intros g' Q. injection Q as <-. split; [reflexivity|]. split; [exact B|eauto]. }
    destruct Sc as (ns & S & G). destruct (leave_spec _ _ _ (proj1 S) L) as (_ & N & P & _). assert (M := Mx V N).
    assert (Di : forall x, In x (map fst xs) -> ~ In x ns). { intros x Hx Q. apply in_map_iff in Hx as (v & <- & Hv). destruct (P v Hv) as (u & Hu). destruct S as [_ S]. rewrite S in Hu. match type of Hu with context [str_mem ?a ?b] => replace (str_mem a b) with true in Hu by (symmetry; apply str_mem_In; exact Q) end. discriminate Hu. }
    split; [exact V|]. split; [exact N|]. split.
    + intros g Q. destruct (G g Q) as (-> & B & r & Rg). assert (Nb : no_rebinding (map fst xs) g) by (apply rebinding_names; auto). split; [|exact Nb]. apply (gd_accept g (enter [] xs) xs M Nb). eauto.
    + intros fs Q. subst eff. apply bind_some in R2 as (r & R2 & _). apply (effects_accept d1 xs fs (matches_other _ _ ns _ M S Di)). eauto.
  - intros (V & N & G & E). assert (M := Mx V N). destruct (proj2 (fa_vars _ _ _ F params) V) as (ys & X). rewrite X. cbn [bind]. apply normalize_typed in X. cbn [map app] in X. subst ys. fold xs.
    assert (R1 : exists of d1, match pre with None => Ok (None, enter [] xs) | Some g => let! fd := rd (enter [] xs) g in Ok (Some (fst fd), snd fd) end = Ok (of, d1) /\ matches d1 xs).
    { destruct pre as [g|]; [|exists None, (enter [] xs); split; [reflexivity|exact M]]. destruct (G g eq_refl) as [G1 G2]. destruct (proj2 (gd_accept g _ _ M G2) G1) as ([f d1] & R1). rewrite R1. cbn [bind fst snd]. exists (Some f), d1. split; [reflexivity|exact (keeps_scope _ _ _ _ _ M G2 R1)]. }
    destruct R1 as (of & d1 & -> & M1). cbn [bind fst snd].
    assert (R2 : exists oes, match eff with None => Ok None | Some es => let! r := mapM (read_effect parse fuel i d1) es in Ok (Some r) end = Ok oes). { destruct eff as [fs|]; [|eexists; reflexivity]. destruct (proj2 (effects_accept d1 xs fs M1) (E fs eq_refl)) as (r & ->). eexists; reflexivity. }
    destruct R2 as (oes & ->). cbn [bind]. destruct (leave_ok xs d1 (ma_dist _ _ M1) N) as (d2 & ->); [|eexists; eexists; reflexivity]. intros v Hv. exists v. apply (ma_get _ _ M1). split; [reflexivity|exact Hv].
Qed.
End Accept.
