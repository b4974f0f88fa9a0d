(** C83: searching expressions. *)
From Verif Require Import Base Syntax SubstProofs Visitors VisitorsSpec.

Lemma expr_eqb_eq a b : expr_eqb a b = true <-> a = b.
Proof. destruct a as [t|f], b as [u|g]; cbn [expr_eqb]; [rewrite term_eqb_eq|..|rewrite formula_eqb_eq]; split; intros H; try discriminate H; congruence. Qed.
Lemma expr_ind_ (P : expr -> Prop) : (forall e, (forall x, In x (parts e) -> P x) -> P e) -> forall e, P e.
Proof.
  intros H. assert (X : (forall t, P (XT t)) /\ (forall f, P (XF f))).
  { apply (syntax_ind (fun t => P (XT t)) (fun f => P (XF f))).
    - intros x s. apply H. intros y [].
    - intros c s. apply H. intros y [].
    - intros f ts F. apply H. intros y I. apply in_map_iff in I as (t & <- & I). rewrite Forall_forall in F. exact (F t I).
    - intros c a b Hc Ha Hb. apply H. intros y [<-|[<-|[<-|[]]]]; assumption.
    - apply H. intros y [].
    - apply H. intros y [].
    - intros p ts F. apply H. intros y I. apply in_map_iff in I as (t & <- & I). rewrite Forall_forall in F. exact (F t I).
    - intros c fs F. apply H. intros y I. apply in_map_iff in I as (t & <- & I). rewrite Forall_forall in F. exact (F t I).
    - intros q vs f _ Hf. apply H. intros y [<-|[]]. exact Hf. }
  intros [t|f]; apply X.
Qed.
Lemma at_app p q e : at_place (p ++ q) e = match at_place p e with Some x => at_place q x | None => None end.
Proof. revert e. induction p as [|i p IH]; intros e; [reflexivity|]. cbn [app at_place]. destruct (nth_error (parts e) i); [apply IH|reflexivity]. Qed.
(** No expression is a proper part of itself. *)
Lemma no_self e : forall p, at_place p e = Some e -> p = [].
Proof.
  induction e as [e IH] using expr_ind_. intros [|i p] H; [reflexivity|]. exfalso. cbn [at_place] in H. destruct (nth_error (parts e) i) as [x|] eqn:E; [|discriminate H].
  assert (Q : at_place (p ++ [i]) x = Some x). { rewrite at_app, H. cbn [at_place]. rewrite E. reflexivity. }
  apply (IH x (nth_error_In _ _ E)) in Q. destruct p; discriminate Q.
Qed.
Section Match.
Variable target : expr.
Definition count (e : expr) : nat := match_visit target e 0.
Lemma additive : forall e h, match_visit target e h = h + count e.
Proof.
  assert (L : forall (A : Type) (v : A -> nat -> nat) l, Forall (fun x => forall h, v x h = h + v x 0) l -> forall h, fold_left (fun h x => v x h) l h = h + list_sum (map (fun x => v x 0) l)).
  { intros A v l F. induction F as [|x l H F IH]; intros h; cbn [fold_left map list_sum fold_right]; [lia|]. rewrite IH, H. unfold list_sum. lia. }
  assert (X : (forall t h, match_term target t h = h + match_term target t 0) /\ (forall f h, match_form target f h = h + match_form target f 0)).
  { apply syntax_ind; try (intros; cbn [match_term match_form]; lia).
    - intros f ts F h. cbn [match_term]. destruct (expr_eqb (XT (App f ts)) target); [lia|]. rewrite (L _ _ ts F h), (L _ _ ts F 0). lia.
    - intros p ts F h. cbn [match_form]. destruct (expr_eqb (XF (Atom p ts)) target); [lia|]. rewrite (L _ _ ts F h), (L _ _ ts F 0). lia.
    - intros c fs F h. cbn [match_form]. destruct (expr_eqb (XF (Comp c fs)) target); [lia|]. rewrite (L _ _ fs F h), (L _ _ fs F 0). lia.
    - intros q vs f _ IH h. cbn [match_form]. destruct (expr_eqb (XF (Quant q vs f)) target); [lia|]. apply IH. }
  intros [t|f] h; apply X.
Qed.
Lemma count_eq e : searchable e = true -> count e = if expr_eqb e target then 1 else list_sum (map count (parts e)).
Proof.
  assert (L : forall (A : Type) (v : A -> nat -> nat) (k : A -> expr) l, (forall x h, v x h = h + count (k x)) -> forall h, fold_left (fun h x => v x h) l h = h + list_sum (map count (map k l))).
  { intros A v k l H. induction l as [|x l IH]; intros h; cbn [fold_left map list_sum fold_right]; [lia|]. rewrite IH, H. unfold list_sum. lia. }
  assert (T : forall t h, match_term target t h = h + count (XT t)) by (intros t h; apply (additive (XT t))). assert (G : forall f h, match_form target f h = h + count (XF f)) by (intros f h; apply (additive (XF f))).
  destruct e as [[x s|c s|f ts|c a b]|[| |p ts|c fs|q vs f]]; intros S; try discriminate S; unfold count at 1; cbn [match_visit match_term match_form]; destruct (expr_eqb _ target); try reflexivity; cbn [parts].
  - rewrite (L _ _ XT ts T 0). reflexivity.
  - rewrite (L _ _ XT ts T 0). reflexivity.
  - rewrite (L _ _ XF fs G 0). reflexivity.
  - rewrite G. cbn [map list_sum fold_right]. lia.
Qed.
Lemma places_list es : (forall e, In e es -> exists l, NoDup l /\ (forall p, In p l <-> at_place p e = Some target) /\ List.length l = count e) ->
  forall k, exists l, NoDup l /\ (forall p, In p l <-> exists i e p', p = (k + i) :: p' /\ nth_error es i = Some e /\ at_place p' e = Some target) /\ List.length l = list_sum (map count es).
Proof.
  induction es as [|e es IH]; intros H k.
  - exists []. split; [constructor|]. split; [|reflexivity]. intros p. split; [intros []|]. intros (i & e & p' & _ & E & _). destruct i; discriminate E.
  - destruct (H e (or_introl eq_refl)) as (l1 & N1 & S1 & L1). destruct (IH (fun x I => H x (or_intror I)) (S k)) as (l2 & N2 & S2 & L2). exists (map (cons k) l1 ++ l2). split; [|split].
    + clear - N1 N2 S2. assert (D : forall p, In p (map (cons k) l1) -> ~ In p l2). { intros p I1 I2. apply in_map_iff in I1 as (q & <- & _). apply S2 in I2 as (i & e' & p' & Q & _). injection Q as Q _. lia. }
      assert (M : NoDup (map (cons k) l1)). { clear - N1. induction N1 as [|x l N F IH]; [constructor|]. cbn [map]. constructor; [|exact IH]. intros I. apply in_map_iff in I as (y & Q & I). apply N. assert (y = x) by congruence. subst y. exact I. }
      induction M as [|x m Nx M IH]; [exact N2|]. cbn [app]. constructor; [|apply IH; intros p I; apply D; right; exact I]. rewrite in_app_iff. intros [I|I]; [exact (Nx I)|]. exact (D x (or_introl eq_refl) I).
    + intros p. rewrite in_app_iff, in_map_iff. split.
      * intros [(q & <- & I)|I]; [exists 0, e, q; split; [f_equal; lia|]; split; [reflexivity|]; apply S1; exact I|]. apply S2 in I as (i & e' & p' & -> & E & A). exists (S i), e', p'. split; [f_equal; lia|]. split; [exact E|exact A].
      * intros (i & e' & p' & -> & E & A). destruct i as [|i]; cbn [nth_error] in E.
        { left. exists p'. split; [f_equal; lia|]. assert (e' = e) by congruence. subst e'. apply S1. exact A. }
        { right. apply S2. exists i, e', p'. split; [f_equal; lia|]. split; [exact E|exact A]. }
    + rewrite app_length, map_length, L1, L2. reflexivity.
Qed.
Lemma places e : searchable target = true -> no_conditional e -> exists l, NoDup l /\ (forall p, In p l <-> at_place p e = Some target) /\ List.length l = count e.
Proof.
  intros St. induction e as [e IH] using expr_ind_. intros Nc. destruct (expr_eqb e target) eqn:E.
  - apply expr_eqb_eq in E. subst e. exists [[]]. split; [constructor; [intros []|constructor]|]. split.
    + intros p. split; [intros [<-|[]]; reflexivity|]. intros H. left. symmetry. exact (no_self target p H).
    + rewrite (count_eq target St). rewrite (proj2 (expr_eqb_eq target target) eq_refl). reflexivity.
  - assert (H : forall x, In x (parts e) -> exists l, NoDup l /\ (forall p, In p l <-> at_place p x = Some target) /\ List.length l = count x).
    { intros x I. apply (IH x I). intros p c a b H. apply In_nth_error in I as [i I]. apply (Nc (i :: p) c a b). unfold occurs_at. cbn [at_place]. rewrite I. exact H. }
    destruct (places_list (parts e) H 0) as (l & N & S & L). exists l. split; [exact N|]. split.
    + intros p. rewrite S. split; [intros (i & x & p' & -> & Ei & A); cbn [at_place Nat.add]; rewrite Ei; exact A|]. destruct p as [|i p]; cbn [at_place].
      * intros Q. assert (e = target) by congruence. rewrite (proj2 (expr_eqb_eq e target) H0) in E. discriminate E.
      * intros Q. destruct (nth_error (parts e) i) as [x|] eqn:Ei; [|discriminate Q]. exists i, x, p. split; [reflexivity|]. split; [exact Ei|exact Q].
    + rewrite L. destruct (searchable e) eqn:Se; [rewrite (count_eq e Se), E; reflexivity|]. destruct e as [[x s|c s|f ts|c a b]|[| |p ts|c fs|q vs f]]; try discriminate Se; try reflexivity. exfalso. exact (Nc [] c a b eq_refl).
Qed.
End Match.
(** A visitor that looks for an expression counts its occurrences, each once, and goes on counting over any number of visits. *)
Theorem C83_hits target es h0 : searchable target = true -> Forall no_conditional es ->
  exists ls, Forall2 (fun e l => NoDup l /\ forall p, In p l <-> occurs_at e target p) es ls /\ fold_left (fun h e => match_visit target e h) es h0 = h0 + list_sum (map (@List.length _) ls).
Proof.
  intros S F. revert h0. induction F as [|e es N F IH]; intros h0; [exists []; split; [constructor|cbn; lia]|]. destruct (places target e S N) as (l & Nl & Sl & Ll). cbn [fold_left]. destruct (IH (match_visit target e h0)) as (ls & Fl & El). exists (l :: ls). split; [constructor; [split; [exact Nl|exact Sl]|exact Fl]|]. rewrite El, additive, <- Ll. cbn [map list_sum fold_right]. unfold list_sum. lia.
Qed.
(** In particular it finds an expression exactly if it occurs. *)
Theorem C83_found target e : searchable target = true -> no_conditional e -> (match_visit target e 0 <> 0 <-> exists p, occurs_at e target p).
Proof.
  intros S N. destruct (places target e S N) as (l & _ & Sl & Ll). unfold count in Ll. rewrite <- Ll. split.
  - destruct l as [|p l]; [intros H; exfalso; apply H; reflexivity|]. intros _. exists p. apply Sl. left. reflexivity.
  - intros [p H] Q. apply Sl in H. destruct l; [exact H|discriminate Q].
Qed.
(** Variables, constants, conditional terms, true and false are never found. *)
Theorem C83_not_searchable target e h : searchable target = false -> match_visit target e h = h.
Proof.
  intros S. assert (X : (forall t h, match_term target t h = h) /\ (forall f h, match_form target f h = h)).
  { assert (L : forall (A : Type) (v : A -> nat -> nat) l, Forall (fun x => forall h, v x h = h) l -> forall h, fold_left (fun h x => v x h) l h = h). { intros A v l F. induction F as [|x l H F IH]; intros k; [reflexivity|]. cbn [fold_left]. rewrite H. apply IH. }
    assert (Ne : forall e, searchable e = true -> expr_eqb e target = false). { intros x Sx. destruct (expr_eqb x target) eqn:E; [|reflexivity]. apply expr_eqb_eq in E. congruence. }
    apply syntax_ind; try (intros; reflexivity).
    - intros f ts F k. cbn [match_term]. rewrite (Ne (XT (App f ts)) eq_refl). exact (L _ _ ts F k).
    - intros p ts F k. cbn [match_form]. rewrite (Ne (XF (Atom p ts)) eq_refl). exact (L _ _ ts F k).
    - intros c fs F k. cbn [match_form]. rewrite (Ne (XF (Comp c fs)) eq_refl). exact (L _ _ fs F k).
    - intros q vs f _ IH k. cbn [match_form]. rewrite (Ne (XF (Quant q vs f)) eq_refl). apply IH. }
  destruct e as [t|f]; apply X.
Qed.
(** Collecting variables raises TypeError as soon as there is a variable. *)
Lemma cv_parts e : match e with XT (Var _ _) => cv_visit e = Err TypeError | XT (Ite _ _ _) => True | _ => cv_visit e = visit_all cv_visit (parts e) end.
Proof.
  assert (L : forall (A : Type) (v : A -> res unit) (k : A -> expr) l, (forall x, v x = cv_visit (k x)) -> visit_all v l = visit_all cv_visit (map k l)). { intros A v k l H. induction l as [|x l IH]; [reflexivity|]. cbn [visit_all map]. rewrite H. fold (visit_all v) (visit_all cv_visit). rewrite IH. reflexivity. }
  destruct e as [[x s|c s|f ts|c a b]|[| |p ts|c fs|q vs f]]; try reflexivity; try exact I; cbn [cv_visit cv_term cv_form parts].
  - apply L. reflexivity.
  - apply L. reflexivity.
  - apply L. reflexivity.
  - cbn [visit_all cv_visit]. destruct (cv_form f) as [[]|]; reflexivity.
Qed.
Theorem C83_collect_variables e : no_conditional e -> (cv_visit e = Ok tt \/ cv_visit e = Err TypeError) /\ (cv_visit e = Err TypeError <-> exists p x s, occurs_at e (XT (Var x s)) p).
Proof.
  induction e as [e IH] using expr_ind_. intros N.
  assert (H : forall x, In x (parts e) -> (cv_visit x = Ok tt \/ cv_visit x = Err TypeError) /\ (cv_visit x = Err TypeError <-> exists p y s, occurs_at x (XT (Var y s)) p)).
  { intros x I. apply (IH x I). intros p c a b H. apply In_nth_error in I as [i I]. apply (N (i :: p) c a b). unfold occurs_at. cbn [at_place]. rewrite I. exact H. }
  assert (V : forall es, (forall x, In x es -> (cv_visit x = Ok tt \/ cv_visit x = Err TypeError) /\ (cv_visit x = Err TypeError <-> exists p y s, occurs_at x (XT (Var y s)) p)) ->
     (visit_all cv_visit es = Ok tt \/ visit_all cv_visit es = Err TypeError) /\ (visit_all cv_visit es = Err TypeError <-> exists x, In x es /\ exists p y s, occurs_at x (XT (Var y s)) p)).
  { induction es as [|x es IHes]; intros Hx; cbn [visit_all]; [split; [left; reflexivity|]; split; [intros Q; discriminate Q|intros (x & [] & _)]|]. fold (visit_all cv_visit). destruct (Hx x (or_introl eq_refl)) as [Hx1 Hx2]. destruct (IHes (fun y I => Hx y (or_intror I))) as [I1 I2]. destruct Hx1 as [E|E]; rewrite E.
    - split; [exact I1|]. rewrite I2. split; [intros (y & I & Q); exists y; split; [right; exact I|exact Q]|]. intros (y & [<-|I] & Q); [|exists y; split; assumption]. apply Hx2 in Q. rewrite E in Q. discriminate Q.
    - split; [right; reflexivity|]. split; [|reflexivity]. intros _. exists x. split; [left; reflexivity|]. apply Hx2. exact E. }
  specialize (V (parts e) H). destruct V as [V1 V2].
  assert (O : (exists p x s, occurs_at e (XT (Var x s)) p) <-> (exists x s, e = XT (Var x s)) \/ exists y, In y (parts e) /\ exists p x s, occurs_at y (XT (Var x s)) p).
  { split.
    - intros ([|i p] & x & s & Q); unfold occurs_at in Q; cbn [at_place] in Q; [left; exists x, s; congruence|]. right. destruct (nth_error (parts e) i) as [y|] eqn:E; [|discriminate Q]. exists y. split; [exact (nth_error_In _ _ E)|]. exists p, x, s. exact Q.
    - intros [(x & s & ->)|(y & I & p & x & s & Q)]; [exists [], x, s; reflexivity|]. apply In_nth_error in I as [i I]. exists (i :: p), x, s. unfold occurs_at. cbn [at_place]. rewrite I. exact Q. }
  assert (P := cv_parts e). destruct e as [[x s|c s|f ts|c a b]|[| |p ts|c fs|q vs f]]; cbv iota in P; try (rewrite P; split; [exact V1|]; rewrite V2, O; split; [intros Q; right; exact Q|intros [(x & s' & Q)|Q]; [discriminate Q|exact Q]]).
  - rewrite P. split; [right; reflexivity|]. split; [|reflexivity]. intros _. exists [], x, s. reflexivity.
  - exfalso. exact (N [] c a b eq_refl).
Qed.
(** Collecting equalities gives those that are reached through connectives, each once, besides what was there. *)
Lemma add_f_In f l g : In g (add_f f l) <-> g = f \/ In g l.
Proof.
  unfold add_f. destruct (existsb (formula_eqb f) l) eqn:E; [|rewrite in_app_iff; cbn [In]; split; [intros [H|[H|[]]]; [right; exact H|left; symmetry; exact H]|intros [-> |H]; [right; left; reflexivity|left; exact H]]].
  split; [intros H; right; exact H|]. intros [-> |H]; [|exact H]. apply existsb_exists in E as (h & I & E). apply formula_eqb_eq in E. subst h. exact I.
Qed.
Theorem C83_equalities f : forall found g, (In g (eq_visit f found) <-> In g found \/ (within f g /\ exists ts, g = Atom (PB PEq) ts)) /\ (NoDup found -> NoDup (eq_visit f found)).
Proof.
  induction f as [| |p ts|c fs IH|q vs f IH] using formula_ind_simple; intros found g; cbn [eq_visit].
  - split; [|exact (fun H => H)]. split; [intros H; left; exact H|]. intros [H|(W & ts & ->)]; [exact H|]. inversion W.
  - split; [|exact (fun H => H)]. split; [intros H; left; exact H|]. intros [H|(W & ts & ->)]; [exact H|]. inversion W.
  - destruct (eq_symbol p) eqn:S.
    + assert (p = PB PEq) by (destruct p as [[]|]; try discriminate S; reflexivity). subst p. split.
      * rewrite add_f_In. split; [intros [-> |H]; [right; split; [apply within_here|exists ts; reflexivity]|left; exact H]|]. intros [H|(W & us & ->)]; [right; exact H|]. inversion W; subst. left. reflexivity.
      * intros N. unfold add_f. destruct (existsb (formula_eqb (Atom (PB PEq) ts)) found) eqn:E; [exact N|]. assert (Nf : ~ In (Atom (PB PEq) ts) found). { intros I. assert (Q : existsb (formula_eqb (Atom (PB PEq) ts)) found = true) by (apply existsb_exists; exists (Atom (PB PEq) ts); split; [exact I|apply formula_eqb_refl]). congruence. }
        clear E S. induction N as [|x l Nx N IH]; [constructor; [intros []|constructor]|]. cbn [app]. constructor; [rewrite in_app_iff; intros [H|[H|[]]]; [exact (Nx H)|]; apply Nf; left; symmetry; exact H|]. apply IH. intros H. apply Nf. right. exact H.
    + split; [|exact (fun H => H)]. split; [intros H; left; exact H|]. intros [H|(W & us & ->)]; [exact H|]. inversion W; subst. discriminate S.
  - assert (X : forall found, (In g (fold_left (fun s h => eq_visit h s) fs found) <-> In g found \/ exists h, In h fs /\ within h g /\ exists ts, g = Atom (PB PEq) ts) /\ (NoDup found -> NoDup (fold_left (fun s h => eq_visit h s) fs found))).
    { induction IH as [|h fs Hh F IHf]; intros k; cbn [fold_left]; [split; [|exact (fun H => H)]; split; [intros H; left; exact H|intros [H|(h & [] & _)]; exact H]|]. destruct (IHf (eq_visit h k)) as [I1 I2]. destruct (Hh k g) as [H1 H2]. split; [|intros N; apply I2, H2, N]. rewrite I1, H1. split.
      - intros [[H|H]|(x & Ix & H)]; [left; exact H|right; exists h; split; [left; reflexivity|exact H]|right; exists x; split; [right; exact Ix|exact H]].
      - intros [H|(x & [<-|Ix] & H)]; [left; left; exact H|left; right; exact H|right; exists x; split; [exact Ix|exact H]]. }
    destruct (X found) as [X1 X2]. split; [|exact X2]. rewrite X1. split.
    + intros [H|(h & I & W & E)]; [left; exact H|right; split; [exact (within_part c fs h g I W)|exact E]].
    + intros [H|[W (ts & E)]]; [left; exact H|]. right. inversion W as [k Hk|c' fs' h g' I W' E1]; subst; [discriminate|]. exists h. split; [exact I|]. split; [exact W'|exists ts; reflexivity].
  - split; [|exact (fun H => H)]. split; [intros H; left; exact H|]. intros [H|(W & ts & ->)]; [exact H|]. inversion W.
Qed.

(** ** Known limits and a concrete case *)
#[local] Open Scope string_scope.
Definition vx := Var "x" "object". Definition va := Cst (CStr "a") "object".
Definition on_xa := Atom (PU "on" ["object"; "object"]) [vx; App (FU "f" ["object"] "object") [va]].
Definition ex := Comp And [Comp Not [on_xa]; Quant QAll [vx] (Comp Or [on_xa; Atom (PB PEq) [vx; va]]); Atom (PB PEq) [va; va]].
(** Variables cannot be collected; equalities below quantifiers are not collected; nothing is found below a conditional term, and variables and constants are not found at all. *)
Theorem C83_variables_refuted : exists f, (exists p, occurs_at (XF f) (XT vx) p) /\ cv_visit (XF f) = Err TypeError.
Proof. exists on_xa. split; [exists [0]; reflexivity|reflexivity]. Qed.
Theorem C83_quantifier_refuted : exists f p ts, occurs_at (XF f) (XF (Atom (PB PEq) ts)) p /\ eq_visit f [] = [].
Proof. exists (Quant QEx [vx] (Atom (PB PEq) [vx; va])), [0], [vx; va]. split; reflexivity. Qed.
Theorem C83_conditional_refuted : exists e target p, searchable target = true /\ occurs_at e target p /\ match_visit target e 0 = 0.
Proof. exists (XF (Atom (PU "q" ["object"]) [Ite on_xa va vx])), (XF on_xa), [0; 0]. split; [reflexivity|]. split; reflexivity. Qed.
Theorem C83_constants_refuted : exists e target p, occurs_at e target p /\ match_visit target e 0 = 0.
Proof. exists (XF on_xa), (XT va), [1; 0]. split; reflexivity. Qed.
Lemma ex_plain : no_conditional (XF ex).
Proof.
  assert (T : forall x, In x [XT vx; XT va; XT (App (FU "f" ["object"] "object") [va])] -> no_conditional x).
  { intros x [<-|[<-|[<-|[]]]] p c a b H; unfold occurs_at in H.
    - destruct p as [|[|i] p]; discriminate H.
    - destruct p as [|[|i] p]; discriminate H.
    - destruct p as [|[|i] p]; try discriminate H; cbn in H; [destruct p as [|[|j] p]; discriminate H|destruct i; discriminate H]. }
  assert (Step : forall e, (forall c a b, e <> XT (Ite c a b)) -> (forall x, In x (parts e) -> no_conditional x) -> no_conditional e).
  { intros e N H [|i p] c a b Q; unfold occurs_at in Q; cbn [at_place] in Q; [apply (N c a b); congruence|]. destruct (nth_error (parts e) i) as [x|] eqn:E; [|discriminate Q]. exact (H x (nth_error_In _ _ E) p c a b Q). }
  assert (O : no_conditional (XF on_xa)). { apply Step; [discriminate|]. intros x [<-|[<-|[]]]; apply T; cbn; tauto. }
  apply Step; [discriminate|]. intros x [<-|[<-|[<-|[]]]]; apply Step; try discriminate; intros y Iy; cbn in Iy.
  - destruct Iy as [<-|[]]. exact O.
  - destruct Iy as [<-|[]]. apply Step; [discriminate|]. intros z [<-|[<-|[]]]; [exact O|]. apply Step; [discriminate|]. intros w [<-|[<-|[]]]; apply T; cbn; tauto.
  - destruct Iy as [<-|[<-|[]]]; apply T; cbn; tauto.
Qed.
Example C83_nonvacuous : no_conditional (XF ex) /\ match_visit (XF on_xa) (XF ex) 5 = 7 /\ match_visit (XT (App (FU "f" ["object"] "object") [va])) (XF ex) 0 = 2 /\ eq_visit ex [] = [Atom (PB PEq) [va; va]].
Proof. split; [exact ex_plain|]. split; [vm_compute; reflexivity|]. split; vm_compute; reflexivity. Qed.
