(** The meaning of the text of an expression *)
From Coq Require Import Ascii DecimalString.
From Verif Require Import ListUtil Base Syntax Semantics SemLemmas ModelText PddlText Rddl RddlSpec RddlProofs RddlProofs2.
#[local] Open Scope string_scope.
#[local] Open Scope list_scope.

Section Meaning.
  Variable M : structure.
  Variable total : bool -> list (carrier M) -> carrier M.
  Variable dict : bool -> string -> list (carrier M) -> option (val M).
  Variable V : list var.
  Hypothesis apart : forall v w, In v V -> In w V -> strip (fst v) = strip (fst w) -> v = w.
  Definition agree (rho : env M) (eta : string -> carrier M) : Prop := forall v, In v V -> eta (strip (fst v)) = rho v.
  Let R := rsem M total dict.
  Let X := xsem M total.

  Lemma elements_length l r : elements M l = Some r -> List.length r = List.length l.
  Proof.
    revert r. induction l as [|[[a|b]|] l IH]; intros r H; cbn [elements] in H; try discriminate H; [injection H as <-; reflexivity|]. fold (elements M l) in H. destruct (elements M l) as [r'|]; [|discriminate H].
    cbn in H. injection H as <-. cbn. f_equal. now apply IH.
  Qed.
  Lemma ranging_agree {A} (k : (string -> carrier M) -> A) (k' : env M -> A) vs : (forall x s, In (x, s) vs -> strip x = x /\ In (x, s) V) ->
    (forall rho eta, agree rho eta -> k eta = k' rho) -> forall rho eta, agree rho eta -> ranging M vs k eta = xranging M vs k' rho.
  Proof.
    intros Hv Hk. induction vs as [|[x s] vs IH]; intros rho eta G; cbn [ranging xranging]; [f_equal; auto|]. cbn [snd]. destruct (Hv x s (or_introl eq_refl)) as [Sx Ix]. rewrite !flat_map_concat_map. f_equal. apply map_ext. intros d. apply IH; [intros y t I; apply Hv; now right|].
    intros v Iv. unfold bind_name, upd. destruct (var_eqb (x, s) v) eqn:E.
    - apply var_eqb_eq in E as <-. cbn [fst]. rewrite Sx, String.eqb_refl. reflexivity.
    - apply var_eqb_neq in E. destruct (String.eqb_spec x (strip (fst v))) as [Q|_]; [|now apply G]. exfalso. apply E. apply apart; auto. cbn [fst]. congruence.
  Qed.
  Lemma infix_args op ts rho eta : operands_ok ts -> map (fun a => R a eta) (map tr ts) = map (fun a => X a rho) ts ->
    exists a b, ts = [a; b] /\ R (infix_exp op (map tr ts)) eta = operate M op (X a rho) (X b rho).
  Proof. intros (a & b & -> & _) E. exists a, b. split; [reflexivity|]. cbn [map infix_exp] in *. injection E as Ea Eb. unfold R in *. cbn [rsem]. now rewrite Ea, Eb. Qed.
  Lemma meaning e : writable e -> dictionary_of M dict e -> incl (variables e) V -> forall rho eta, agree rho eta -> rsem M total dict (tr e) eta = xsem M total e rho.
  Proof.
    fold R X. induction e as [x s|c s|f ts IH|c a b IHc IHa IHb| | |p ts IH|c fs IH|q vs f IH|m vs f IH] using xexpr_ind_nested; intros W (D1 & D2 & D3) I rho eta G; pose proof (writable_here_of _ W) as Wh; cbn [writable_here] in Wh.
    - unfold R, X. cbn [tr rsem xsem]. do 2 f_equal. apply (G (x, s)). apply I. now left.
    - unfold R, X. cbn [tr rsem xsem map elements]. destruct Wh as [_ Wh]. rewrite Wh. apply D1. now left.
    - assert (E : map (fun a => R a eta) (map tr ts) = map (fun a => X a rho) ts).
      { rewrite map_map. apply map_ext_in. intros t Ht. rewrite Forall_forall in IH. apply IH; [exact Ht| | | |exact G].
        - pose proof (writable_args (XApp f ts) ts (fun t Ht => incl_tl' _ _ _ (args_parts ts t Ht)) W) as WS. rewrite Forall_forall in WS. auto.
        - pose proof (fun t Ht => incl_tl' (XApp f ts) _ _ (args_parts ts t Ht)) as P. repeat split; intros; [apply D1|eapply D2|eapply D3]; eauto; apply (P t Ht); eauto.
        - intros v Hv. apply I. unfold variables in *. apply in_flat_map in Hv as (u & Hu & Hv). apply in_flat_map. exists u. split; [|exact Hv]. right. now apply (args_parts ts t Ht). }
      destruct f as [b|n ds r].
      + unfold R, X in *. cbn [tr xsem]. destruct (infix_fun b) as [op|] eqn:Ei.
        * destruct Wh as [Io O]. destruct (infix_args op ts rho eta O E) as (a' & b' & -> & K). unfold R, X in K. rewrite K. cbn [map]. destruct b as [| | | |n']; cbn [infix_fun] in Ei;
            try (injection Ei as <-; destruct (xsem M total a' rho) as [[u|u]|], (xsem M total b' rho) as [[v|v]|]; reflexivity).
          destruct (String.eqb n' "**"); [injection Ei as <-|destruct (String.eqb n' "%"); [injection Ei as <-|discriminate Ei]]; exfalso; repeat (destruct Io as [Io|Io]; [discriminate Io|]); destruct Io.
        * destruct Wh as (NE & n & -> & J). apply function_words_clean in J as (_ & m & Em & C & N & K & Q). unfold fun_word. rewrite Em. destruct (random_binary (BOther n)); cbn [rsem]; rewrite E; destruct (elements M (map (fun a => xsem M total a rho) ts)); try reflexivity; rewrite Q; reflexivity.
      + unfold R, X in *. cbn [tr xsem rsem]. rewrite E. destruct Wh as [_ Wh]. rewrite Wh. destruct (elements M (map (fun a => xsem M total a rho) ts)) as [l|] eqn:El; [|reflexivity]. cbn [option_map]. apply (D2 n ds r ts); [now left|]. apply elements_length in El. now rewrite El, map_length.
    - assert (WS : Forall writable [c; a; b]).
      { apply (writable_args _ _) with (2 := W). cbn [parts]. intros t Ht u Hu. right. rewrite !in_app_iff. destruct Ht as [<-|[<-|[<-|[]]]]; auto. }
      inversion_clear WS as [|? ? Wc WS1]. inversion_clear WS1 as [|? ? Wa WS2]. inversion_clear WS2 as [|? ? Wb _].
      assert (Q : forall t, incl (parts t) (parts (XIte c a b)) -> dictionary_of M dict t /\ incl (variables t) V).
      { intros t P. split; [repeat split; intros; [apply D1|eapply D2|eapply D3]; eauto|]. intros v Hv. apply I. unfold variables in *. apply in_flat_map in Hv as (u & Hu & Hv). apply in_flat_map. exists u. auto. }
      assert (Pc : incl (parts c) (parts (XIte c a b))) by (intros u Hu; right; rewrite !in_app_iff; auto).
      assert (Pa : incl (parts a) (parts (XIte c a b))) by (intros u Hu; right; rewrite !in_app_iff; auto).
      assert (Pb : incl (parts b) (parts (XIte c a b))) by (intros u Hu; right; rewrite !in_app_iff; auto).
      unfold R, X in *. cbn [tr rsem xsem]. rewrite (IHc Wc (proj1 (Q c Pc)) (proj2 (Q c Pc)) rho eta G), (IHa Wa (proj1 (Q a Pa)) (proj2 (Q a Pa)) rho eta G), (IHb Wb (proj1 (Q b Pb)) (proj2 (Q b Pb)) rho eta G). reflexivity.
    - reflexivity.
    - reflexivity.
    - assert (E : map (fun a => R a eta) (map tr ts) = map (fun a => X a rho) ts).
      { rewrite map_map. apply map_ext_in. intros t Ht. rewrite Forall_forall in IH. apply IH; [exact Ht| | | |exact G].
        - pose proof (writable_args (XAtom p ts) ts (fun t Ht => incl_tl' _ _ _ (args_parts ts t Ht)) W) as WS. rewrite Forall_forall in WS. auto.
        - pose proof (fun t Ht => incl_tl' (XAtom p ts) _ _ (args_parts ts t Ht)) as P. repeat split; intros; [apply D1|eapply D2|eapply D3]; eauto; apply (P t Ht); eauto.
        - intros v Hv. apply I. unfold variables in *. apply in_flat_map in Hv as (u & Hu & Hv). apply in_flat_map. exists u. split; [|exact Hv]. right. now apply (args_parts ts t Ht). }
      destruct p as [b|n ss].
      + unfold R, X in *. cbn [tr xsem]. destruct (infix_args (infix_pred b) ts rho eta Wh E) as (a' & b' & -> & K). unfold R, X in K. rewrite K. cbn [map]. destruct b; destruct (xsem M total a' rho) as [[u|u]|], (xsem M total b' rho) as [[v|v]|]; reflexivity.
      + unfold R, X in *. cbn [tr xsem rsem]. rewrite E. destruct Wh as [_ Wh]. rewrite Wh. destruct (elements M (map (fun a => xsem M total a rho) ts)) as [l|] eqn:El; [|reflexivity]. cbn [option_map]. apply (D3 n ss ts); [now left|]. apply elements_length in El. now rewrite El, map_length.
    - assert (E : map (fun a => R a eta) (map tr fs) = map (fun a => X a rho) fs).
      { rewrite map_map. apply map_ext_in. intros t Ht. rewrite Forall_forall in IH. apply IH; [exact Ht| | | |exact G].
        - pose proof (writable_args (XComp c fs) fs (fun t Ht => incl_tl' _ _ _ (args_parts fs t Ht)) W) as WS. rewrite Forall_forall in WS. auto.
        - pose proof (fun t Ht => incl_tl' (XComp c fs) _ _ (args_parts fs t Ht)) as P. repeat split; intros; [apply D1|eapply D2|eapply D3]; eauto; apply (P t Ht); eauto.
        - intros v Hv. apply I. unfold variables in *. apply in_flat_map in Hv as (u & Hu & Hv). apply in_flat_map. exists u. split; [|exact Hv]. right. now apply (args_parts fs t Ht). }
      destruct Wh as [N O]. unfold R, X in *. cbn [tr xsem]. destruct (infix_args (connective_symbol c) fs rho eta O E) as (a' & b' & -> & K). unfold R, X in K. rewrite K. cbn [map].
      destruct c; [| |contradiction]; destruct (xsem M total a' rho) as [[u|u]|], (xsem M total b' rho) as [[v|v]|]; try reflexivity; destruct u, v; reflexivity.
    - assert (Wf : writable f) by (apply Forall_forall; intros u Hu; apply (proj1 (Forall_forall _ _) W); right; exact Hu).
      assert (Df : dictionary_of M dict f) by (repeat split; intros; [apply D1|eapply D2|eapply D3]; eauto; right; eauto).
      assert (If : incl (variables f) V) by (intros v Hv; apply I; unfold variables; cbn [parts flat_map]; apply in_or_app; right; exact Hv).
      assert (Q : ranging M vs (fun e' => R (tr f) e') eta = xranging M vs (fun e' => X f e') rho).
      { apply ranging_agree; [|intros r e H; now apply IH|exact G]. intros x s Hx. split; [apply (proj2 Wh x s Hx)|]. apply I. unfold variables. cbn [parts flat_map own_variables]. apply in_or_app. now left. }
      unfold R, X in *. cbn [tr rsem]. rewrite Q. destruct q; reflexivity.
    - assert (Wf : writable f) by (apply Forall_forall; intros u Hu; apply (proj1 (Forall_forall _ _) W); right; exact Hu).
      assert (Df : dictionary_of M dict f) by (repeat split; intros; [apply D1|eapply D2|eapply D3]; eauto; right; eauto).
      assert (If : incl (variables f) V) by (intros v Hv; apply I; unfold variables; cbn [parts flat_map]; apply in_or_app; right; exact Hv).
      assert (Q : ranging M vs (fun e' => R (tr f) e') eta = xranging M vs (fun e' => X f e') rho).
      { apply ranging_agree; [|intros r e H; now apply IH|exact G]. intros x s Hx. split; [apply (proj2 Wh x s Hx)|]. apply I. unfold variables. cbn [parts flat_map own_variables]. apply in_or_app. now left. }
      unfold R, X in *. cbn [tr rsem]. rewrite Q. destruct m; reflexivity.
  Qed.
End Meaning.

Lemma tr_same e : writable e -> variables_apart e -> same_meaning (tr e) e.
Proof. intros W A M total dict rho eta D G. apply (meaning M total dict (variables e)); auto; [intros x Hx; exact Hx|]. intros [x s] Hv. now apply G. Qed.

(** Terms and formulas: the meaning is that of Semantics.v. *)
Lemma elements_VE M (l : list (carrier M)) : elements M (map (fun a => Some (VE a)) l) = Some l.
Proof. induction l as [|a l IH]; [reflexivity|]. cbn [map elements]. fold (elements M (map (fun a => Some (VE a)) l)). now rewrite IH. Qed.
Lemma booleans_VB M l : booleans M (map (fun a => Some (VB a)) l) = Some l.
Proof. induction l as [|a l IH]; [reflexivity|]. cbn [map booleans]. fold (booleans M (map (fun a => Some (VB a)) l)). now rewrite IH. Qed.
Lemma vars_of_wf vs : forallb is_var vs = true -> vs = map (fun v => Var (fst v) (snd v)) (vars_of vs).
Proof. induction vs as [|[x s| | |] vs IH]; cbn; intros H; try discriminate H; [reflexivity|]. f_equal. now apply IH. Qed.
Lemma qsem_ranging M q vs k rho : qsem M q (map (fun v => Var (fst v) (snd v)) vs) k rho = (if q then existsb (fun b => b) (xranging M vs k rho) else forallb (fun b => b) (xranging M vs k rho)).
Proof.
  revert rho. induction vs as [|[x s] vs IH]; intros rho; cbn [map qsem xranging fst snd]; [destruct q; cbn; [now rewrite orb_false_r|now rewrite andb_true_r]|].
  destruct q.
  - induction (dom M s) as [|d l IHl]; [reflexivity|]. cbn [existsb flat_map]. rewrite IHl, IH, existsb_app. reflexivity.
  - induction (dom M s) as [|d l IHl]; [reflexivity|]. cbn [forallb flat_map]. rewrite IHl, IH, forallb_app. reflexivity.
Qed.
Lemma xranging_some M {A B} (f : A -> B) vs (k : env M -> A) rho : xranging M vs (fun e => f (k e)) rho = map f (xranging M vs k rho).
Proof. revert rho. induction vs as [|v vs IH]; intros rho; [reflexivity|]. cbn [xranging]. induction (dom M (snd v)) as [|d l IHl]; [reflexivity|]. cbn [flat_map]. rewrite IHl, map_app, IH. reflexivity. Qed.
Lemma xranging_ext M {A} vs (k k' : env M -> A) rho : (forall e, k e = k' e) -> xranging M vs k rho = xranging M vs k' rho.
Proof. intros H. revert rho. induction vs as [|v vs IH]; intros rho; cbn [xranging]; [now rewrite H|]. apply flat_map_ext. intros d. apply IH. Qed.
Lemma of_syntax M total : (forall t, wf_term t = true -> forall rho, xsem M total (of_term t) rho = Some (VE (tsem M t rho))) /\
  (forall f, wf f = true -> forall rho, xsem M total (of_formula f) rho = Some (VB (fsem M f rho))).
Proof.
  apply (syntax_ind (fun t => wf_term t = true -> forall rho, xsem M total (of_term t) rho = Some (VE (tsem M t rho))) (fun f => wf f = true -> forall rho, xsem M total (of_formula f) rho = Some (VB (fsem M f rho)))); try reflexivity.
  - intros f ts IH W rho. cbn [of_term xsem tsem]. rewrite map_map. cbn [wf_term] in W. assert (E : map (fun x => xsem M total (of_term x) rho) ts = map (fun a => Some (VE a)) (map (fun u => tsem M u rho) ts)).
    { rewrite map_map. apply map_ext_in. intros t Ht. rewrite Forall_forall in IH. rewrite forallb_forall in W. auto. }
    rewrite E, elements_VE. reflexivity.
  - intros c t e IHc IHt IHe W rho. cbn [of_term xsem tsem]. cbn [wf_term] in W. apply andb_true_iff in W as [W We]. apply andb_true_iff in W as [Wc Wt]. rewrite IHc, IHt, IHe by auto. cbn [conditional]. now destruct (fsem M c rho).
  - intros p ts IH W rho. cbn [of_formula xsem fsem]. rewrite map_map. cbn [wf] in W. assert (E : map (fun x => xsem M total (of_term x) rho) ts = map (fun a => Some (VE a)) (map (fun u => tsem M u rho) ts)).
    { rewrite map_map. apply map_ext_in. intros t Ht. rewrite Forall_forall in IH. rewrite forallb_forall in W. auto. }
    rewrite E, elements_VE. reflexivity.
  - intros c fs IH W rho. cbn [wf] in W. apply andb_true_iff in W as [Wl W]. assert (E : map (fun x => xsem M total (of_formula x) rho) fs = map (fun a => Some (VB a)) (map (fun u => fsem M u rho) fs)).
    { rewrite map_map. apply map_ext_in. intros t Ht. rewrite Forall_forall in IH. rewrite forallb_forall in W. auto. }
    cbn [of_formula]. destruct c; cbn [xsem fsem]; rewrite map_map, E.
    + rewrite booleans_VB. cbn [option_map]. do 2 f_equal. clear. induction fs as [|f fs IHf]; [reflexivity|]. cbn. now rewrite IHf.
    + rewrite booleans_VB. cbn [option_map]. do 2 f_equal. clear. induction fs as [|f fs IHf]; [reflexivity|]. cbn. now rewrite IHf.
    + destruct fs as [|f [|g fs]]; try discriminate Wl. reflexivity.
  - intros q vs f _ IH W rho. cbn [wf] in W. apply andb_true_iff in W as [W Wf]. apply andb_true_iff in W as [_ Wv]. cbn [of_formula fsem]. rewrite (vars_of_wf vs Wv) at 2. rewrite qsem_ranging.
    cbn [xsem]. rewrite (xranging_ext M (vars_of vs) (fun e' => xsem M total (of_formula f) e') (fun e' => Some (VB (fsem M f e')))) by (intros; now apply IH). rewrite (xranging_some M (fun b => Some (VB b))), booleans_VB. now destruct q.
Qed.
