(** C81: the text of a formula determines the formula, up to sorts and the symbols behind names. *)
From Coq Require Import Ascii.
From Verif Require Import Base Syntax ModelState ModelText Ltl FormulaText FormulaTextSpec FormulaTextProofs FormulaTextLink.
#[local] Open Scope string_scope.
#[local] Open Scope list_scope.

(** Two terms have the same text iff they have the same tree of names. *)
Theorem C81_terms (isvar : string -> bool) t u : ok_term isvar t -> ok_term isvar u -> (term_text t = term_text u <-> tskel t = tskel u).
Proof.
  intros W W'. rewrite (term_link isvar t W), (term_link isvar u W'). split; [|intros ->; reflexivity]. exact (pr_inj isvar false _ _ (proj1 (wfs_both isvar) t W) (proj1 (wfs_both isvar) u W')).
Qed.
(** The same for formulas *)
Theorem C81_formulas (isvar : string -> bool) f g : ok_form isvar f -> ok_form isvar g -> (form_text f = form_text g <-> fskel f = fskel g).
Proof.
  intros W W'. rewrite (proj2 (link_both isvar) f W), (proj2 (link_both isvar) g W'). split; [|intros ->; reflexivity]. exact (pr_inj isvar true _ _ (proj2 (wfs_both isvar) f W) (proj2 (wfs_both isvar) g W')).
Qed.
(** The same for formulas with temporal operators *)
Theorem C81_temporal (isvar : string -> bool) f g : ok_tform isvar f -> ok_tform isvar g -> (tform_text f = tform_text g <-> lskel f = lskel g).
Proof.
  intros W W'. destruct (tform_link isvar f W) as [-> Wf]. destruct (tform_link isvar g W') as [-> Wg]. split; [|intros ->; reflexivity]. exact (pr_inj isvar true _ _ Wf Wg).
Qed.
(** In a vocabulary where a name has one symbol or sort, the text determines the formula. *)
Theorem C81_vocabulary (isvar : string -> bool) (V : vocabulary) f g : ok_form isvar f -> ok_form isvar g -> over_form V f -> over_form V g -> (form_text f = form_text g <-> f = g).
Proof.
  intros W W' O O'. split; [|intros ->; reflexivity]. intros E. apply (C81_formulas isvar f g W W') in E. exact (proj2 (determined isvar V) f W O g W' O' E).
Qed.
Theorem C81_vocabulary_terms (isvar : string -> bool) (V : vocabulary) t u : ok_term isvar t -> ok_term isvar u -> over_term V t -> over_term V u -> (term_text t = term_text u <-> t = u).
Proof.
  intros W W' O O'. split; [|intros ->; reflexivity]. intros E. apply (C81_terms isvar t u W W') in E. exact (proj1 (determined isvar V) t W O u W' O' E).
Qed.
(** No text is the text of a term and the beginning of a formula's operand list: a formula followed by different contexts is read back, context included. *)
Theorem C81_prefix (isvar : string -> bool) f g r r' : ok_form isvar f -> ok_form isvar g -> (form_text f ++ ")" ++ r = form_text g ++ ")" ++ r')%string -> fskel f = fskel g /\ r = r'.
Proof.
  intros W W' E. rewrite (proj2 (link_both isvar) f W), (proj2 (link_both isvar) g W') in E. destruct (unique isvar _ true _ _ _ (proj2 (wfs_both isvar) f W) (proj2 (wfs_both isvar) g W') (good_close _ _) (good_close _ _) E) as [E1 E2]. split; [exact E1|congruence].
Qed.

(** ** The restrictions are needed *)
Definition obj : string := "object".
(** Sorts are not printed: quantifiers over different sorts have the same text. *)
Theorem C81_sorts_refuted : exists f g isvar, ok_form isvar f /\ ok_form isvar g /\ form_text f = form_text g /\ f <> g.
Proof.
  exists (Quant QAll [Var "x" "block"] (Atom (PU "p" [obj]) [Var "x" "block"])), (Quant QAll [Var "x" "table"] (Atom (PU "p" [obj]) [Var "x" "table"])), (String.eqb "x"). split; [|split; [|split]].
  - cbn. repeat split; discriminate.
  - cbn. repeat split; discriminate.
  - reflexivity.
  - intros E. discriminate E.
Qed.
(** A variable and a constant of the same name have the same text. *)
Theorem C81_constants_refuted : exists f g, form_text f = form_text g /\ fskel f <> fskel g.
Proof. exists (Atom (PU "p" [obj]) [Var "a" obj]), (Atom (PU "p" [obj]) [Cst (CStr "a") obj]). split; [reflexivity|]. intros E. discriminate E. Qed.
(** A name with punctuation: an atom with one argument and one with two *)
Theorem C81_punctuation_refuted : exists f g, form_text f = form_text g /\ fskel f <> fskel g.
Proof. exists (Atom (PU "p" [obj]) [Cst (CStr "a,b") obj]), (Atom (PU "p" [obj; obj]) [Cst (CStr "a") obj; Cst (CStr "b") obj]). split; [reflexivity|]. intros E. discriminate E. Qed.
(** An integer constant and a string constant with the same digits have the same text: the vocabulary has to tell them apart. *)
Theorem C81_digits_refuted : exists t u isvar, ok_term isvar t /\ ok_term isvar u /\ term_text t = term_text u /\ t <> u.
Proof. exists (Cst (CStr "7") "Integer"), (Cst (CInt 7) "Integer"), (fun _ => false). split; [cbn; repeat split; discriminate|]. split; [cbn; repeat split; discriminate|]. split; [reflexivity|]. intros E. discriminate E. Qed.

(** ** A concrete case *)
Definition ex_f : formula :=
  Quant QEx [Var "x" obj; Var "y" obj] (Comp And [Comp Not [Atom (PB PEq) [Var "x" obj; Var "y" obj]]; Comp Or [Atom (PU "on" [obj; obj]) [Var "x" obj; Cst (CStr "b1") obj]; Top];
    Atom (PB PLt) [App (FB BAdd) [App (FU "w" [obj] "Integer") [Var "x" obj]; Cst (CInt 3) "Integer"]; Ite (Atom (PU "clear" [obj]) [Var "y" obj]) (Cst (CInt 0) "Integer") (App (FU "w" [obj] "Integer") [Var "y" obj])]]).
Definition ex_var (s : string) : bool := String.eqb s "x" || String.eqb s "y".
Definition ex_V : vocabulary :=
  {| v_sort := fun _ => obj; v_const := fun s => if String.eqb s "3" then (CInt 3, "Integer") else if String.eqb s "0" then (CInt 0, "Integer") else (CStr s, obj);
     v_pred := fun s => if String.eqb s "=" then PB PEq else if String.eqb s "<" then PB PLt else if String.eqb s "on" then PU "on" [obj; obj] else PU "clear" [obj]; v_func := fun s => if String.eqb s "+" then FB BAdd else FU "w" [obj] "Integer" |}.
Example C81_nonvacuous : ok_form ex_var ex_f /\ over_form ex_V ex_f /\ form_text ex_f = "exists x, y : (((not =(x,y)) and (on(x,b1) or T) and <(+(w(x), 3),ite/2(clear(y), 0, w(y)))))".
Proof. split; [|split]; [| |reflexivity]; cbn; repeat split; first [discriminate | lia]. Qed.
Definition ex_t : tform := TComp And [TTemp OG [TComp Not [TAtom (PU "p" []) []]]; TTemp OU [TTop; TTemp OF [TAtom (PU "F" []) []]]].
Example C81_temporal_nonvacuous : ok_tform ex_var ex_t /\ tform_text ex_t = "(G ((not p())) and (T U F (F())))".
Proof. split; [|reflexivity]. cbn; repeat split; first [discriminate | lia]. Qed.
