From Verif Require Import Base Syntax HashEq.
#[local] Open Scope string_scope.

Section HInduction.
  Variables (P : hterm -> Prop) (Q : hformula -> Prop).
  Hypothesis H1 : forall x s, P (HVar x s).
  Hypothesis H2 : forall c s, P (HCst c s).
  Hypothesis H3 : forall f ts, Forall P ts -> P (HApp f ts).
  Hypothesis H4 : forall c t e, Q c -> P t -> P e -> P (HIte c t e).
  Hypothesis H5 : Q HTop.
  Hypothesis H6 : Q HBot.
  Hypothesis H7 : forall p ts, Forall P ts -> Q (HAtom p ts).
  Hypothesis H8 : forall c k fs, Forall Q fs -> Q (HComp c k fs).
  Hypothesis H9 : forall q vs f, Forall P vs -> Q f -> Q (HQuant q vs f).
  Fixpoint hterm_ind2 (t : hterm) : P t :=
    let terms := fix terms (ts : list hterm) : Forall P ts :=
      match ts with [] => Forall_nil P | u :: us => Forall_cons u (hterm_ind2 u) (terms us) end in
    match t with
    | HVar x s => H1 x s | HCst c s => H2 c s | HApp f ts => H3 f ts (terms ts)
    | HIte c a b => H4 c a b (hformula_ind2 c) (hterm_ind2 a) (hterm_ind2 b)
    end
  with hformula_ind2 (f : hformula) : Q f :=
    let terms := fix terms (ts : list hterm) : Forall P ts :=
      match ts with [] => Forall_nil P | u :: us => Forall_cons u (hterm_ind2 u) (terms us) end in
    let formulas := fix formulas (fs : list hformula) : Forall Q fs :=
      match fs with [] => Forall_nil Q | g :: gs => Forall_cons g (hformula_ind2 g) (formulas gs) end in
    match f with
    | HTop => H5 | HBot => H6 | HAtom p ts => H7 p ts (terms ts) | HComp c k fs => H8 c k fs (formulas fs)
    | HQuant q vs g => H9 q vs g (terms vs) (hformula_ind2 g)
    end.
  Lemma hsyntax_ind : (forall t, P t) /\ (forall f, Q f).
  Proof. split; [exact hterm_ind2 | exact hformula_ind2]. Qed.
End HInduction.

(** Equality is equality of canonical forms (floats replaced by ints). *)
Definition canon_n (n : hname) : hname := match n with NFloat z => NInt z | _ => n end.
Fixpoint canon_t (t : hterm) : hterm :=
  match t with
  | HVar x s => HVar x s
  | HCst n s => HCst (canon_n n) s
  | HApp f ts => HApp f (map canon_t ts)
  | HIte c a b => HIte (canon_f c) (canon_t a) (canon_t b)
  end
with canon_f (f : hformula) : hformula :=
  match f with
  | HTop => HTop | HBot => HBot
  | HAtom p ts => HAtom p (map canon_t ts)
  | HComp c k fs => HComp c k (map canon_f fs)
  | HQuant q vs g => HQuant q (map canon_t vs) (canon_f g)
  end.

Lemma hname_eqb_canon a b : hname_eqb a b = true <-> canon_n a = canon_n b.
Proof.
  destruct a, b; simpl; rewrite ?String.eqb_eq, ?Z.eqb_eq; split; try congruence.
Qed.
Definition terms_eqb := fix terms (ts us : list hterm) : bool :=
  match ts, us with [], [] => true | a :: ts', b :: us' => hterm_eqb a b && terms ts' us' | _, _ => false end.
Definition formulas_eqb := fix formulas (fs gs : list hformula) : bool :=
  match fs, gs with [], [] => true | a :: fs', b :: gs' => hformula_eqb a b && formulas fs' gs' | _, _ => false end.
Lemma sig_h_eq a b : sig_eqb_h a b = true <-> a = b.
Proof. unfold sig_eqb_h. destruct (list_eq_dec string_dec a b); split; congruence. Qed.

Lemma heqb_canon :
  (forall t u, hterm_eqb t u = true <-> canon_t t = canon_t u) /\ (forall f g, hformula_eqb f g = true <-> canon_f f = canon_f g).
Proof.
  assert (LT : forall ts, Forall (fun t => forall u, hterm_eqb t u = true <-> canon_t t = canon_t u) ts ->
    forall us, terms_eqb ts us = true <-> map canon_t ts = map canon_t us).
  { induction 1 as [|t ts Ht _ IH]; intros [|u us]; simpl; try (split; congruence).
    rewrite andb_true_iff, Ht, IH. split; [intros [-> ->]; reflexivity | intros E; inversion E; auto]. }
  assert (LF : forall ts, Forall (fun t => forall u, hformula_eqb t u = true <-> canon_f t = canon_f u) ts ->
    forall us, formulas_eqb ts us = true <-> map canon_f ts = map canon_f us).
  { induction 1 as [|t ts Ht _ IH]; intros [|u us]; simpl; try (split; congruence).
    rewrite andb_true_iff, Ht, IH. split; [intros [-> ->]; reflexivity | intros E; inversion E; auto]. }
  apply hsyntax_ind.
  - intros x s [y r|n r|f ts|c a b]; cbn [hterm_eqb canon_t]; try (split; congruence).
    rewrite andb_true_iff, !String.eqb_eq. split; [intros [-> ->]; reflexivity | intros E; inversion E; auto].
  - intros n s [y r|n' r|f ts|c a b]; cbn [hterm_eqb canon_t]; try (split; congruence).
    rewrite andb_true_iff, String.eqb_eq, hname_eqb_canon. split; [intros [-> ->]; reflexivity | intros E; inversion E; auto].
  - intros f ts Hts [y r|n r|g us|c a b]; try (simpl; split; congruence).
    change (hterm_eqb (HApp f ts) (HApp g us)) with (sig_eqb_h f g && terms_eqb ts us).
    rewrite andb_true_iff, sig_h_eq, (LT ts Hts). simpl. split; [intros [-> ->]; reflexivity | intros E; inversion E; auto].
  - intros c a b Hc Ha Hb [y r|n r|g us|c' a' b']; cbn [hterm_eqb canon_t]; try (split; congruence).
    rewrite !andb_true_iff, Hc, Ha, Hb. split; [intros (-> & -> & ->); reflexivity | intros E; inversion E; auto].
  - intros []; simpl; split; congruence.
  - intros []; simpl; split; congruence.
  - intros p ts Hts [| |q us|c k fs|q vs g]; try (simpl; split; congruence).
    change (hformula_eqb (HAtom p ts) (HAtom q us)) with (sig_eqb_h p q && terms_eqb ts us).
    rewrite andb_true_iff, sig_h_eq, (LT ts Hts). simpl. split; [intros [-> ->]; reflexivity | intros E; inversion E; auto].
  - intros c k fs Hfs [| |q us|c' k' gs|q vs g]; try (simpl; split; congruence).
    change (hformula_eqb (HComp c k fs) (HComp c' k' gs)) with ((if connective_eq_dec c c' then true else false) && Bool.eqb k k' && formulas_eqb fs gs).
    rewrite !andb_true_iff, Bool.eqb_true_iff, (LF fs Hfs). simpl.
    destruct (connective_eq_dec c c') as [->|n]; split; [intros [[_ ->] ->]; reflexivity | intros E; inversion E; auto | intros [[? _] _]; discriminate | intros E; inversion E; congruence].
  - intros q vs f Hvs Hf [| |p us|c' k' gs|r us g]; try (simpl; split; congruence).
    change (hformula_eqb (HQuant q vs f) (HQuant r us g)) with ((if quant_eq_dec q r then true else false) && terms_eqb vs us && hformula_eqb f g).
    rewrite !andb_true_iff, Hf, (LT vs Hvs). simpl.
    destruct (quant_eq_dec q r) as [->|n]; split; [intros [[_ ->] ->]; reflexivity | intros E; inversion E; auto | intros [[? _] _]; discriminate | intros E; inversion E; congruence].
Qed.
Definition canon (r : href) : href := match r with RTerm t => RTerm (canon_t t) | RFormula f => RFormula (canon_f f) end.
Lemma ref_eqb_canon a b : ref_eqb a b = true <-> canon a = canon b.
Proof.
  destruct heqb_canon as [A B]. destruct a, b; simpl; try (split; congruence).
  - rewrite A. split; congruence.
  - rewrite B. split; congruence.
Qed.

(** No float occurs. *)
Definition no_float_n (n : hname) : bool := match n with NFloat _ => false | _ => true end.
Fixpoint no_float_t (t : hterm) : bool :=
  match t with
  | HVar _ _ => true | HCst n _ => no_float_n n | HApp _ ts => forallb no_float_t ts
  | HIte c a b => no_float_f c && no_float_t a && no_float_t b
  end
with no_float_f (f : hformula) : bool :=
  match f with
  | HTop | HBot => true
  | HAtom _ ts => forallb no_float_t ts
  | HComp _ _ fs => forallb no_float_f fs
  | HQuant _ vs g => forallb no_float_t vs && no_float_f g
  end.
Definition no_float (r : href) : bool := match r with RTerm t => no_float_t t | RFormula f => no_float_f f end.

Lemma map_id_forallb {A} (p : A -> bool) (f : A -> A) l : Forall (fun x => p x = true -> f x = x) l -> forallb p l = true -> map f l = l.
Proof. induction 1 as [|x l Hx _ IH]; simpl; [auto|]. rewrite andb_true_iff. intros [Ha Hb]. rewrite Hx, IH; auto. Qed.
Lemma canon_id : (forall t, no_float_t t = true -> canon_t t = t) /\ (forall f, no_float_f f = true -> canon_f f = f).
Proof.
  apply hsyntax_ind; simpl; intros; auto.
  - now destruct c.
  - rewrite (map_id_forallb no_float_t); auto.
  - rewrite !andb_true_iff in *. destruct H2 as [[? ?] ?]. rewrite H, H0, H1; auto.
  - rewrite (map_id_forallb no_float_t); auto.
  - rewrite (map_id_forallb no_float_f); auto.
  - rewrite !andb_true_iff in *. destruct H1. rewrite (map_id_forallb no_float_t), H0; auto.
Qed.
Lemma canon_id_ref r : no_float r = true -> canon r = r.
Proof. destruct canon_id as [A B]. destruct r; simpl; intros H; [rewrite A|rewrite B]; auto. Qed.

(** The walk. *)
Fixpoint has_tuple_t (t : hterm) : bool :=
  match t with
  | HVar _ _ | HCst _ _ => false
  | HApp _ ts => existsb has_tuple_t ts
  | HIte c a b => has_tuple_f c || has_tuple_t a || has_tuple_t b
  end
with has_tuple_f (f : hformula) : bool :=
  match f with
  | HTop | HBot => false
  | HAtom _ ts => existsb has_tuple_t ts
  | HComp _ k fs => k || existsb has_tuple_f fs
  | HQuant _ vs g => existsb has_tuple_t vs || has_tuple_f g
  end.
Lemma existsb_Forall_iff {A} (p : A -> bool) (q : A -> A -> Prop) (w c : A -> A) l :
  Forall (fun x => q (w x) x <-> p x = false) l -> (forall x, q (w x) x <-> c (w x) = c x) ->
  (map c (map w l) = map c l <-> existsb p l = false).
Proof.
  intros H Hq. induction H as [|x l Hx _ IH]; simpl; [tauto|]. rewrite Hq in Hx. rewrite orb_false_iff, <- Hx, <- IH.
  split; [intros E; inversion E; auto | intros [-> ->]; reflexivity].
Qed.
Lemma walk_canon :
  (forall t, canon_t (walk_t t) = canon_t t <-> has_tuple_t t = false) /\
  (forall f, canon_f (walk_f f) = canon_f f <-> has_tuple_f f = false).
Proof.
  apply hsyntax_ind; simpl.
  - tauto.
  - tauto.
  - intros f ts H. rewrite <- (existsb_Forall_iff has_tuple_t (fun a b => canon_t a = canon_t b) walk_t canon_t ts); [|auto|tauto].
    split; [intros E; inversion E; auto|intros ->; auto].
  - intros c a b Hc Ha Hb. rewrite !orb_false_iff, <- Hc, <- Ha, <- Hb. split; [intros E; inversion E; auto|intros [[-> ->] ->]; auto].
  - tauto.
  - tauto.
  - intros p ts H. rewrite <- (existsb_Forall_iff has_tuple_t (fun a b => canon_t a = canon_t b) walk_t canon_t ts); [|auto|tauto].
    split; [intros E; inversion E; auto|intros ->; auto].
  - intros c k fs H. rewrite orb_false_iff, <- (existsb_Forall_iff has_tuple_f (fun a b => canon_f a = canon_f b) walk_f canon_f fs); [|auto|tauto].
    split; [intros E; inversion E; auto|intros [-> ->]; auto].
  - intros q vs f H Hf. rewrite orb_false_iff, <- Hf, <- (existsb_Forall_iff has_tuple_t (fun a b => canon_t a = canon_t b) walk_t canon_t vs); [|auto|tauto].
    split; [intros E; inversion E; auto|intros [-> ->]; auto].
Qed.
Lemma walk_hash : (forall t, hash_t (walk_t t) = hash_t t) /\ (forall f, hash_f (walk_f f) = hash_f f).
Proof.
  apply hsyntax_ind; simpl; intros; auto.
  - do 4 f_equal. rewrite map_map. now apply map_ext_Forall.
  - congruence.
  - do 5 f_equal. rewrite map_map. now apply map_ext_Forall.
  - do 3 f_equal. rewrite map_map. now apply map_ext_Forall.
  - rewrite map_map, H0, (map_ext_Forall _ _ H). reflexivity.
Qed.
