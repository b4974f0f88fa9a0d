(** C78: the walkers for substitution (transform/substitutions.py:10-32) and for existential quantification (manipulation/simplify.py:212-241) are what C08 and C32 are about *)
From Verif Require Import Base Syntax Build Subst FreeVars SimplifyEx Effects Represent Grounding Walker WalkerSpec WalkerProofs.

(** substitutions.py:10-20: what is looked up in the dictionary is the node with its new parts. *)
Definition substitution_walker (s : subst) (c : option context) (n : node) (u : unit) : res (reply * unit) :=
  Ok (Keep (match n with
            | NT t => match get_t (sub_t s) t with Some x => NT x | None => n end
            | NF f => match get_f (sub_f s) f with Some x => NF x | None => n end
            | NE _ => n
            end), u).
(** simplify.py:218-241 *)
Definition existential_methods (order : list term -> list term) (n : node) : option (option context -> unit -> res (reply * unit)) :=
  match n with NF (Quant q vs g) => Some (fun _ u => let! f := visit_quantified order q vs g in Ok (Keep (NF f), u)) | _ => None end.

Section Rewrite.
Variables (rt : term -> res term) (rf : formula -> res formula) (h : option context -> node -> unit -> res (reply * unit)).
Hypothesis HT : forall c t u, h c (NT t) u = let! x := rt t in Ok (Keep (NT x), u).
Hypothesis HF : forall c f u, h c (NF f) u = let! x := rf f in Ok (Keep (NF x), u).
Fixpoint up_t (t : term) : res term :=
  match t with
  | Var _ _ | Cst _ _ => rt t
  | App f ts => let! ts' := mapM up_t ts in rt (App f ts')
  | Ite c a b => let! c' := up_f c in let! a' := up_t a in let! b' := up_t b in rt (Ite c' a' b')
  end
with up_f (f : formula) : res formula :=
  match f with
  | Top | Bot => rf f
  | Atom p ts => let! ts' := mapM up_t ts in rf (Atom p ts')
  | Comp c fs => let! fs' := mapM up_f fs in rf (Comp c fs')
  | Quant q vs g => let! g' := up_f g in let! vs' := mapM up_t vs in rf (Quant q vs' g')
  end.
Lemma visit_rt t st : visit h (NT t) st = let! u := rt t in Ok (Keep (NT u), st).
Proof. unfold visit. rewrite HT. destruct (rt t); cbn [bind fst snd]; [destruct st; reflexivity|reflexivity]. Qed.
Lemma visit_rf t st : visit h (NF t) st = let! u := rf t in Ok (Keep (NF u), st).
Proof. unfold visit. rewrite HF. destruct (rf t); cbn [bind fst snd]; [destruct st; reflexivity|reflexivity]. Qed.
Lemma walk_up {A} (go : A -> state unit -> res (reply * state unit)) (up : A -> res A) (nd : A -> node) l :
  Forall (fun x => forall st, go x st = let! u := up x in Ok (Keep (nd u), st)) l -> forall st, walk_list go l st = let! us := mapM up l in Ok (map (fun u => Keep (nd u)) us, st).
Proof.
  intros H. induction H as [|x l Hx H IH]; intros st; [reflexivity|]. cbn [walk_list]. unfold mapM at 1. fold (mapM up l). rewrite Hx. destruct (up x) as [u|]; [|reflexivity]. cbn [bind fst snd]. rewrite IH. destruct (mapM up l); reflexivity.
Qed.
Lemma up_both : (forall t st, Walker.visit_t h t st = let! u := up_t t in Ok (Keep (NT u), st)) /\ (forall f st, Walker.visit_f h f st = let! u := up_f f in Ok (Keep (NF u), st)).
Proof.
  apply syntax_ind; intros; cbn [Walker.visit_t Walker.visit_f up_t up_f]; fold (@Walker.visit_t unit h); fold (@Walker.visit_f unit h).
  - apply visit_rt.
  - apply visit_rt.
  - rewrite (walk_up (Walker.visit_t h) up_t NT ts H). fold up_t. destruct (mapM up_t ts) as [us|]; [|reflexivity]. cbn [bind fst snd]. rewrite accept_terms_keep. cbn [bind]. apply visit_rt.
  - rewrite H. destruct (up_f c) as [c'|]; [|reflexivity]. cbn [bind fst snd a_formula]. rewrite H0. destruct (up_t t) as [a'|]; [|reflexivity]. cbn [bind fst snd]. rewrite H1. destruct (up_t e) as [b'|]; [|reflexivity]. cbn [bind fst snd accept_terms]. apply visit_rt.
  - apply visit_rf.
  - apply visit_rf.
  - rewrite (walk_up (Walker.visit_t h) up_t NT ts H). fold up_t. destruct (mapM up_t ts) as [us|]; [|reflexivity]. cbn [bind fst snd]. rewrite accept_terms_keep. cbn [bind]. apply visit_rf.
  - rewrite (walk_up (Walker.visit_f h) up_f NF fs H). fold up_f. destruct (mapM up_f fs) as [us|]; [|reflexivity]. cbn [bind fst snd]. rewrite accept_formulas_keep. cbn [bind]. apply visit_rf.
  - rewrite H0. destruct (up_f f) as [g'|]; [|reflexivity]. cbn [bind fst snd a_formula]. rewrite (walk_up (Walker.visit_t h) up_t NT vs H). fold up_t. destruct (mapM up_t vs) as [us|]; [|reflexivity]. cbn [bind fst snd]. rewrite accept_terms_keep. cbn [bind]. apply visit_rf.
Qed.
End Rewrite.
Lemma mapM_map {A B} (f : A -> res B) (g : A -> B) l : Forall (fun x => f x = Ok (g x)) l -> mapM f l = Ok (map g l).
Proof. intros H. induction H as [|x l Hx H IH]; [reflexivity|]. unfold mapM. fold (mapM f l). rewrite Hx, IH. reflexivity. Qed.
Lemma mapM_same {A B} (f g : A -> res B) l : Forall (fun x => f x = g x) l -> mapM f l = mapM g l.
Proof. intros H. induction H as [|x l Hx H IH]; [reflexivity|]. unfold mapM. fold (mapM f l). fold (mapM g l). rewrite Hx, IH. reflexivity. Qed.

Theorem C78_substitution_agree s st : (forall t, run (substitution_walker s) (NT t) st = Ok (Keep (NT (subst_term s t)), st)) /\ (forall f, run (substitution_walker s) (NF f) st = Ok (Keep (NF (subst_formula s f)), st)).
Proof.
  set (rt := fun t => Ok (Subst.visit_t s t)). set (rf := fun f => Ok (Subst.visit_f s f)).
  assert (HT : forall c t u, substitution_walker s c (NT t) u = let! x := rt t in Ok (Keep (NT x), u)). { intros c t u. unfold substitution_walker, rt, Subst.visit_t. cbn [bind]. destruct (get_t (sub_t s) t); reflexivity. }
  assert (HF : forall c f u, substitution_walker s c (NF f) u = let! x := rf f in Ok (Keep (NF x), u)). { intros c t u. unfold substitution_walker, rf, Subst.visit_f. cbn [bind]. destruct (get_f (sub_f s) t); reflexivity. }
  assert (E : (forall t, up_t rt rf t = Ok (subst_term s t)) /\ (forall f, up_f rt rf f = Ok (subst_formula s f))).
  { apply syntax_ind; intros; cbn [up_t up_f subst_term subst_formula]; fold (up_t rt rf); fold (up_f rt rf); try reflexivity.
    - rewrite (mapM_map _ _ _ H). reflexivity.
    - rewrite H, H0, H1. reflexivity.
    - rewrite (mapM_map _ _ _ H). reflexivity.
    - rewrite (mapM_map _ _ _ H). reflexivity.
    - rewrite H0. cbn [bind]. rewrite (mapM_map _ _ _ H). reflexivity. }
  split; intros x; cbn [run]; [rewrite (proj1 (up_both rt rf _ HT HF)), (proj1 E)|rewrite (proj2 (up_both rt rf _ HT HF)), (proj2 E)]; reflexivity.
Qed.
Theorem C78_existential_agree order st : (forall f, run (dispatch false (existential_methods order)) (NF f) st = let! g := simplify_existential order f in Ok (Keep (NF g), st)) /\ (forall t, run (dispatch false (existential_methods order)) (NT t) st = let! u := sx_term order t in Ok (Keep (NT u), st)).
Proof.
  set (rt := fun t : term => Ok t). set (rf := fun f => match f with Quant q vs g => visit_quantified order q vs g | _ => Ok f end).
  assert (HT : forall c t u, dispatch false (existential_methods order) c (NT t) u = let! x := rt t in Ok (Keep (NT x), u)) by reflexivity.
  assert (HF : forall c f u, dispatch false (existential_methods order) c (NF f) u = let! x := rf f in Ok (Keep (NF x), u)) by (intros c [| |p ts|k fs|q vs g] u; reflexivity).
  assert (E : (forall t, up_t rt rf t = sx_term order t) /\ (forall f, up_f rt rf f = simplify_existential order f)).
  { apply syntax_ind; intros; cbn [up_t up_f sx_term simplify_existential]; fold (up_t rt rf); fold (up_f rt rf); fold (sx_term order); fold (simplify_existential order); try reflexivity.
    - rewrite (mapM_same _ _ _ H). reflexivity.
    - rewrite H, H0, H1. reflexivity.
    - rewrite (mapM_same _ _ _ H). reflexivity.
    - rewrite (mapM_same _ _ _ H). reflexivity.
    - rewrite H0. destruct (simplify_existential order f); [|reflexivity]. cbn [bind]. rewrite (mapM_same _ _ _ H). reflexivity. }
  split; intros x; cbn [run]; [rewrite (proj2 (up_both rt rf _ HT HF)), (proj2 E)|rewrite (proj1 (up_both rt rf _ HT HF)), (proj1 E)]; reflexivity.
Qed.
