(** Unique readability of the texts of formulas *)
From Coq Require Import Ascii.
From Verif Require Import ListUtil Base Syntax ModelState ModelText Ltl FormulaText FormulaTextSpec.
#[local] Open Scope string_scope.

Lemma sapp_assoc (a b c : string) : (a ++ b) ++ c = a ++ (b ++ c).
Proof. induction a as [|x a IH]; [reflexivity|]. cbn [append]. rewrite IH. reflexivity. Qed.
Lemma sapp_nil (a : string) : a ++ "" = a.
Proof. induction a as [|x a IH]; [reflexivity|]. cbn [append]. rewrite IH. reflexivity. Qed.

Lemma sapp_cancel (a b c : string) : a ++ b = a ++ c -> b = c.
Proof. induction a as [|x a IH]; [exact (fun H => H)|]. cbn [append]. intros H. injection H as H. exact (IH H). Qed.

(** ** Induction *)
Section Ind.
Variable P : skeleton -> Prop.
Hypotheses (H1 : forall x, P (SVar x)) (H2 : forall c, P (SConst c)) (H3 : forall f l, Forall P l -> P (SApp f l)) (H4 : forall c a b, P c -> P a -> P b -> P (SIte c a b)) (H5 : P STop) (H6 : P SBot)
  (H7 : forall p l, Forall P l -> P (SAtom p l)) (H8 : forall f, P f -> P (SNot f)) (H9 : forall l, Forall P l -> P (SAnd l)) (H10 : forall l, Forall P l -> P (SOr l)) (H11 : forall q xs f, P f -> P (SQuant q xs f))
  (H12 : forall f, P f -> P (SNext f)) (H13 : forall f, P f -> P (SFinally f)) (H14 : forall f, P f -> P (SGlobally f)) (H15 : forall l, Forall P l -> P (SUntil l)) (H16 : forall l, Forall P l -> P (SRelease l)).
Fixpoint skel_ind (n : skeleton) : P n :=
  let go := fix go (l : list skeleton) : Forall P l := match l with [] => Forall_nil P | x :: r => Forall_cons x (skel_ind x) (go r) end in
  match n with
  | SVar x => H1 x | SConst c => H2 c | SApp f l => H3 f l (go l) | SIte c a b => H4 c a b (skel_ind c) (skel_ind a) (skel_ind b) | STop => H5 | SBot => H6
  | SAtom p l => H7 p l (go l) | SNot f => H8 f (skel_ind f) | SAnd l => H9 l (go l) | SOr l => H10 l (go l) | SQuant q xs f => H11 q xs f (skel_ind f)
  | SNext f => H12 f (skel_ind f) | SFinally f => H13 f (skel_ind f) | SGlobally f => H14 f (skel_ind f) | SUntil l => H15 l (go l) | SRelease l => H16 l (go l)
  end.
End Ind.

(** ** Printing skeletons *)
Fixpoint pr (n : skeleton) : string :=
  match n with
  | SVar x => x | SConst c => c
  | SApp f l => f ++ "(" ++ join ", " (map pr l) ++ ")"
  | SIte c a b => "ite/2(" ++ pr c ++ ", " ++ pr a ++ ", " ++ pr b ++ ")"
  | STop => "T" | SBot => "F"
  | SAtom p l => p ++ "(" ++ join "," (map pr l) ++ ")"
  | SNot f => "(not " ++ pr f ++ ")"
  | SAnd l => "(" ++ join " and " (map pr l) ++ ")"
  | SOr l => "(" ++ join " or " (map pr l) ++ ")"
  | SUntil l => "(" ++ join " U " (map pr l) ++ ")"
  | SRelease l => "(" ++ join " R " (map pr l) ++ ")"
  | SQuant q xs f => quant_text q ++ " " ++ join ", " xs ++ " : (" ++ pr f ++ ")"
  | SNext f => "X (" ++ pr f ++ ")"
  | SFinally f => "F (" ++ pr f ++ ")"
  | SGlobally f => "G (" ++ pr f ++ ")"
  end.
(** The name at the beginning, and what follows it, before [r] *)
Definition hd (n : skeleton) : string :=
  match n with
  | SVar x => x | SConst c => c | SApp f _ => f | SIte _ _ _ => "ite/2" | STop => "T" | SBot => "F" | SAtom p _ => p | SQuant q _ _ => quant_text q
  | SNext _ => "X" | SFinally _ => "F" | SGlobally _ => "G" | _ => ""
  end.
Definition tl (n : skeleton) (r : string) : string :=
  match n with
  | SVar _ | SConst _ | STop | SBot => r
  | SApp _ l => String "(" (join ", " (map pr l) ++ String ")" r)
  | SAtom _ l => String "(" (join "," (map pr l) ++ String ")" r)
  | SIte c a b => String "(" (pr c ++ String "," (String " " (pr a ++ String "," (String " " (pr b ++ String ")" r)))))
  | SNot f => String "(" ("not " ++ pr f ++ String ")" r)
  | SAnd l => String "(" (join " and " (map pr l) ++ String ")" r)
  | SOr l => String "(" (join " or " (map pr l) ++ String ")" r)
  | SUntil l => String "(" (join " U " (map pr l) ++ String ")" r)
  | SRelease l => String "(" (join " R " (map pr l) ++ String ")" r)
  | SQuant _ xs f => String " " (join ", " xs ++ " : (" ++ pr f ++ String ")" r)
  | SNext f | SFinally f | SGlobally f => String " " (String "(" (pr f ++ String ")" r))
  end.
Lemma pr_split n r : pr n ++ r = hd n ++ tl n r.
Proof. destruct n; cbn [pr hd tl append]; repeat (rewrite sapp_assoc; cbn [append]); reflexivity. Qed.

Section Names.
Variable isvar : string -> bool.
Fixpoint wfs (b : bool) (n : skeleton) : Prop :=
  match n with
  | SVar x => b = false /\ ok_name x /\ isvar x = true
  | SConst c => b = false /\ ok_name c /\ isvar c = false
  | SApp f l => b = false /\ ok_name f /\ f <> "ite/2" /\ all (wfs false) l
  | SIte c x y => b = false /\ wfs true c /\ wfs false x /\ wfs false y
  | STop | SBot => b = true
  | SAtom p l => b = true /\ ok_name p /\ all (wfs false) l
  | SNot f | SNext f | SFinally f | SGlobally f => b = true /\ wfs true f
  | SAnd l | SOr l | SUntil l | SRelease l => b = true /\ 2 <= List.length l /\ all (wfs true) l
  | SQuant _ xs f => b = true /\ xs <> [] /\ all ok_name xs /\ wfs true f
  end.
Definition good (b : bool) (r : string) : Prop :=
  r = "" \/ (exists z, r = String ")" z) \/ (exists z, r = String "," z) \/ (b = true /\ exists c z, r = String " " (String c z) /\ In c ["a"%char; "o"%char; "U"%char; "R"%char]).
Definition stops (r : string) : Prop := match r with "" => True | String c _ => punctuation c = true end.
Definition plain (s : string) : Prop := existsb punctuation (list_ascii_of_string s) = false.
Lemma split_name n : forall n' r r', plain n -> plain n' -> stops r -> stops r' -> n ++ r = n' ++ r' -> n = n' /\ r = r'.
Proof.
  unfold plain. induction n as [|c n IH]; intros n' r r' Pn Pn' S S' E; destruct n' as [|c' n']; cbn [append list_ascii_of_string existsb] in *.
  - split; [reflexivity|exact E].
  - subst r. cbn [stops] in S. apply orb_false_iff in Pn' as [Q _]. congruence.
  - subst r'. cbn [stops] in S'. apply orb_false_iff in Pn as [Q _]. congruence.
  - injection E as -> E. apply orb_false_iff in Pn as [_ Q]. apply orb_false_iff in Pn' as [_ Q']. destruct (IH n' r r' Q Q' S S' E) as [-> ->]. split; reflexivity.
Qed.
Lemma good_stops b r : good b r -> stops r.
Proof. intros [-> |[[z ->]|[[z ->]|(_ & c & z & -> & _)]]]; reflexivity || exact I. Qed.
Lemma good_paren b z : good b (String "(" z) -> False.
Proof. intros [Q|[[y Q]|[[y Q]|(_ & c & y & Q & _)]]]; discriminate Q. Qed.
Lemma good_space_paren b z : good b (String " " (String "(" z)) -> False.
Proof. intros [Q|[[y Q]|[[y Q]|(_ & c & y & Q & H)]]]; try discriminate Q. injection Q as <- _. cbn in H. repeat (destruct H as [H|H]; [discriminate H|]). exact H. Qed.
Lemma good_close b z : good b (String ")" z). Proof. right. left. exists z. reflexivity. Qed.
Lemma good_comma b z : good b (String "," z). Proof. right. right. left. exists z. reflexivity. Qed.
Lemma plain_lit s : existsb punctuation (list_ascii_of_string s) = false -> plain s. Proof. exact (fun H => H). Qed.
Lemma hd_plain b n : wfs b n -> plain (hd n).
Proof. destruct n as [x|c|f l|c x y| | |p l|f|l|l|q xs f|f|f|f|l|l]; cbn [wfs hd]; intros W; try (apply plain_lit; reflexivity); try (destruct W as (_ & [_ W] & _); exact W). destruct q; apply plain_lit; reflexivity. Qed.
Lemma tl_stops b n r : good b r -> stops (tl n r).
Proof. intros G. apply good_stops in G. destruct n; cbn [tl stops]; try reflexivity; exact G. Qed.
Lemma heads b n n' r r' : wfs b n -> wfs b n' -> good b r -> good b r' -> pr n ++ r = pr n' ++ r' -> hd n = hd n' /\ tl n r = tl n' r'.
Proof. intros W W' G G' E. rewrite !pr_split in E. apply split_name in E; [exact E|exact (hd_plain b n W)|exact (hd_plain b n' W')|exact (tl_stops b n r G)|exact (tl_stops b n' r' G')]. Qed.

(** ** Lists *)
Fixpoint more (sep : string) (l : list string) : string := match l with [] => "" | x :: r => sep ++ x ++ more sep r end.
Lemma join_more sep x l : join sep (x :: l) = x ++ more sep l.
Proof. revert x. induction l as [|y l IH]; intros x; [cbn; rewrite sapp_nil; reflexivity|]. change (join sep (x :: y :: l)) with (x ++ sep ++ join sep (y :: l)). rewrite IH. reflexivity. Qed.
Definition Inj (n : skeleton) : Prop := forall b n' r r', wfs b n -> wfs b n' -> good b r -> good b r' -> pr n ++ r = pr n' ++ r' -> n = n' /\ r = r'.
Definition sep_ok (b : bool) (sep : string) : Prop := exists c s, sep = String c s /\ c <> ")"%char /\ forall z, good b (sep ++ z).
Lemma more_inj b sep l : sep_ok b sep -> Forall Inj l -> all (wfs b) l -> forall l' r r', all (wfs b) l' -> more sep (map pr l) ++ String ")" r = more sep (map pr l') ++ String ")" r' -> l = l' /\ r = r'.
Proof.
  intros (c & s & -> & Nc & Gs) F. induction F as [|x l Ix F IH]; intros W l' r r' W' E; destruct l' as [|y l']; cbn [map more append] in E.
  - injection E as ->. split; reflexivity.
  - injection E as E _. congruence.
  - injection E as E _. congruence.
  - rewrite !sapp_assoc in E. injection E as E. assert (E2 : pr x ++ (more (String c s) (map pr l) ++ String ")" r) = pr y ++ (more (String c s) (map pr l') ++ String ")" r')). { exact (sapp_cancel _ _ _ E). }
    assert (Gm : forall k z, good b (more (String c s) k ++ String ")" z)). { intros k z. destruct k as [|a k]; [apply good_close|]. cbn [more]. rewrite !sapp_assoc. apply Gs. }
    cbn [all] in W, W'. destruct W as [W1 W2]. destruct W' as [W1' W2']. destruct (Ix b y _ _ W1 W1' (Gm _ _) (Gm _ _) E2) as [-> E3]. destruct (IH W2 l' r r' W2' E3) as [-> ->]. split; reflexivity.
Qed.
Lemma close_first b n z z' : wfs b n -> String ")" z = pr n ++ z' -> False.
Proof.
  intros W E. rewrite pr_split in E. assert (P := hd_plain b n W). destruct (hd n) as [|c s] eqn:H.
  - destruct n as [x|c|f l|c x y| | |p l|f|l|l|q xs f|f|f|f|l|l]; cbn [hd] in H; try discriminate H; cbn [tl append] in E; try discriminate E; try (destruct q; discriminate H); try (cbn [wfs] in W; destruct W as (_ & [W _] & _); congruence).
  - cbn [append] in E. injection E as <- _. unfold plain in P. cbn in P. discriminate P.
Qed.
Lemma join_inj b sep l l' r r' : sep_ok b sep -> Forall Inj l -> all (wfs b) l -> all (wfs b) l' -> join sep (map pr l) ++ String ")" r = join sep (map pr l') ++ String ")" r' -> l = l' /\ r = r'.
Proof.
  intros Hs F W W' E. assert (Gm : forall k z, good b (more sep k ++ String ")" z)). { destruct Hs as (c & s & -> & _ & Gs). intros k z. destruct k as [|a k]; [apply good_close|]. cbn [more]. rewrite !sapp_assoc. apply Gs. }
  destruct l as [|x l], l' as [|y l']; cbn [map] in E; rewrite ?join_more in E.
  - cbn [join append] in E. injection E as ->. split; reflexivity.
  - exfalso. cbn [join append] in E. rewrite sapp_assoc in E. destruct W' as [W' _]. exact (close_first b y _ _ W' E).
  - exfalso. cbn [join append] in E. rewrite sapp_assoc in E. destruct W as [W _]. symmetry in E. exact (close_first b x _ _ W E).
  - rewrite !sapp_assoc in E. inversion F as [|? ? Ix F2]; subst. destruct W as [W1 W2]. destruct W' as [W1' W2']. destruct (Ix b y _ _ W1 W1' (Gm _ _) (Gm _ _) E) as [-> E2]. destruct (more_inj b sep l Hs F2 W2 l' r r' W2' E2) as [-> ->]. split; reflexivity.
Qed.
(** Different connectives *)
Lemma conn_inj sep sep' l l' r r' : sep_ok true sep -> sep_ok true sep' -> Forall Inj l -> 2 <= List.length l -> 2 <= List.length l' -> all (wfs true) l -> all (wfs true) l' ->
  join sep (map pr l) ++ String ")" r = join sep' (map pr l') ++ String ")" r' -> exists z z', sep ++ z = sep' ++ z'.
Proof.
  intros Hs Hs' F L L' W W' E. destruct l as [|x [|x2 l]]; cbn in L; [lia|lia|]. destruct l' as [|y [|y2 l']]; cbn in L'; [lia|lia|]. change (map pr (x :: x2 :: l)) with (pr x :: map pr (x2 :: l)) in E. change (map pr (y :: y2 :: l')) with (pr y :: map pr (y2 :: l')) in E. rewrite !join_more, !sapp_assoc in E.
  inversion F as [|? ? Ix F2]; subst. destruct W as [W1 W2]. destruct W' as [W1' W2']. cbn [map more] in E. rewrite !sapp_assoc in E. destruct Hs as (c & s & Es & _ & Gs). destruct Hs' as (c' & s' & Es' & _ & Gs'). destruct (Ix true y _ _ W1 W1' (Gs _) (Gs' _) E) as [_ E2]. eexists. eexists. exact E2.
Qed.
Lemma sep_term1 : sep_ok false ", ". Proof. exists ","%char, " ". split; [reflexivity|]. split; [discriminate|]. intros z. apply good_comma. Qed.
Lemma sep_term2 : sep_ok false ",". Proof. exists ","%char, "". split; [reflexivity|]. split; [discriminate|]. intros z. apply good_comma. Qed.
Lemma sep_conn s : In s [" and "; " or "; " U "; " R "] -> sep_ok true s.
Proof.
  intros H. assert (G : forall c t, In c ["a"%char; "o"%char; "U"%char; "R"%char] -> sep_ok true (String " " (String c t))). { intros c t Hc. exists " "%char, (String c t). split; [reflexivity|]. split; [discriminate|]. intros z. right. right. right. split; [reflexivity|]. exists c, (t ++ z). split; [reflexivity|exact Hc]. }
  cbn in H. destruct H as [<-|[<-|[<-|[<-|[]]]]]; apply G; cbn; tauto.
Qed.
(** The bound variables *)
Lemma vars_inj xs : forall ys r r', all ok_name xs -> all ok_name ys -> more ", " xs ++ String " " r = more ", " ys ++ String " " r' -> xs = ys /\ r = r'.
Proof.
  induction xs as [|x xs IH]; intros ys r r' W W' E; destruct ys as [|y ys]; cbn [more append] in E; try (exfalso; discriminate E).
  - injection E as ->. split; reflexivity.
  - rewrite !sapp_assoc in E. injection E as E. destruct W as [[_ W1] W2]. destruct W' as [[_ W1'] W2'].
    assert (S : forall l z, stops (more ", " l ++ String " " z)) by (intros [|a l] z; reflexivity). destruct (split_name x y _ _ W1 W1' (S _ _) (S _ _) E) as [-> E2]. destruct (IH ys r r' W2 W2' E2) as [-> ->]. split; reflexivity.
Qed.
Lemma quant_inj xs ys r r' : xs <> [] -> ys <> [] -> all ok_name xs -> all ok_name ys -> join ", " xs ++ String " " r = join ", " ys ++ String " " r' -> xs = ys /\ r = r'.
Proof.
  intros N N' W W' E. destruct xs as [|x xs]; [congruence|]. destruct ys as [|y ys]; [congruence|]. rewrite !join_more, !sapp_assoc in E. destruct W as [[_ W1] W2]. destruct W' as [[_ W1'] W2'].
  assert (S : forall l z, stops (more ", " l ++ String " " z)) by (intros [|a l] z; reflexivity). destruct (split_name x y _ _ W1 W1' (S _ _) (S _ _) E) as [-> E2]. destruct (vars_inj xs ys r r' W2 W2' E2) as [-> ->]. split; reflexivity.
Qed.
Lemma not_first n l z z' sep : sep_ok true sep -> 2 <= List.length l -> all (wfs true) l -> "not " ++ pr n ++ z = join sep (map pr l) ++ String ")" z' -> False.
Proof.
  intros (c & s & Es & _ & Gs) L W E. destruct l as [|x l]; cbn in L; [lia|]. cbn [map] in E. rewrite join_more, sapp_assoc, (pr_split x) in E. destruct W as [W _]. change ("not " ++ pr n ++ z) with ("not" ++ String " " (pr n ++ z)) in E.
  assert (Gm : good true (more sep (map pr l) ++ String ")" z')). { destruct l as [|y l]; [apply good_close|]. cbn [map more]. rewrite !sapp_assoc. apply Gs. }
  apply split_name in E; [|reflexivity|exact (hd_plain true x W)|reflexivity|exact (tl_stops true x _ Gm)]. destruct E as [E1 E2].
  destruct x as [v|k|f a|k a b| | |p a|f|a|a|q xs f|f|f|f|a|a]; cbn [hd tl] in E1, E2; try discriminate E1; try discriminate E2; try (destruct W as [W _]; discriminate W). destruct q; discriminate E1.
Qed.

Lemma conn_case sep l : In sep [" and "; " or "; " U "; " R "] -> Forall Inj l -> 2 <= List.length l -> all (wfs true) l -> forall sep' l' r r', In sep' [" and "; " or "; " U "; " R "] -> 2 <= List.length l' -> all (wfs true) l' ->
  join sep (map pr l) ++ String ")" r = join sep' (map pr l') ++ String ")" r' -> sep = sep' /\ l = l' /\ r = r'.
Proof.
  intros Hs F L W sep' l' r r' Hs' L' W' E. assert (Q : sep = sep').
  { destruct (conn_inj sep sep' l l' r r' (sep_conn _ Hs) (sep_conn _ Hs') F L L' W W' E) as (z & z' & Q). cbn in Hs, Hs'. destruct Hs as [<-|[<-|[<-|[<-|[]]]]]; destruct Hs' as [<-|[<-|[<-|[<-|[]]]]]; try reflexivity; cbn [append] in Q; discriminate Q. }
  subst sep'. split; [reflexivity|]. exact (join_inj true sep l l' r r' (sep_conn _ Hs) F W W' E).
Qed.
Lemma one_inj n : Inj n -> wfs true n -> forall n' r r', wfs true n' -> pr n ++ String ")" r = pr n' ++ String ")" r' -> n = n' /\ r = r'.
Proof. intros In_ W n' r r' W' E. destruct (In_ true n' _ _ W W' (good_close _ _) (good_close _ _) E) as [-> Q]. injection Q as ->. split; reflexivity. Qed.
Ltac listin := cbn; tauto.
Ltac absurd_case W W' G G' E1 E2 :=
  exfalso; unfold ok_name in *; repeat match goal with H : _ /\ _ |- _ => destruct H end; repeat match type of E1 with context [quant_text ?q] => destruct q; cbn [quant_text] in E1 end;
  first [ congruence | (rewrite <- E2 in G'; exact (good_paren _ _ G')) | (rewrite E2 in G; exact (good_paren _ _ G)) | (rewrite <- E2 in G'; exact (good_space_paren _ _ G')) | (rewrite E2 in G; exact (good_space_paren _ _ G)) ].
Lemma unique n : Inj n.
Proof.
  induction n as [x|c|f l IH|c x y IHc IHx IHy| | |p l IH|f IH|l IH|l IH|q xs f IH|f IH|f IH|f IH|l IH|l IH] using skel_ind; intros b n' r r' W W' G G' E; destruct (heads b _ _ _ _ W W' G G' E) as [E1 E2]; clear E.
  - destruct n' as [x'|c'|f' l'|c' x' y'| | |p' l'|f'|l'|l'|q' xs' f'|f'|f'|f'|l'|l']; cbn [hd tl wfs] in E1, E2, W, W'; try (absurd_case W W' G G' E1 E2). subst. split; reflexivity.
  - destruct n' as [x'|c'|f' l'|c' x' y'| | |p' l'|f'|l'|l'|q' xs' f'|f'|f'|f'|l'|l']; cbn [hd tl wfs] in E1, E2, W, W'; try (absurd_case W W' G G' E1 E2). subst. split; reflexivity.
  - destruct n' as [x'|c'|f' l'|c' x' y'| | |p' l'|f'|l'|l'|q' xs' f'|f'|f'|f'|l'|l']; cbn [hd tl wfs] in E1, E2, W, W'; try (absurd_case W W' G G' E1 E2). subst f'. injection E2 as E2. destruct W as (_ & _ & _ & W). destruct W' as (_ & _ & _ & W'). destruct (join_inj false ", " l l' r r' sep_term1 IH W W' E2) as [-> ->]. split; reflexivity.
  - destruct n' as [x'|c'|f' l'|c' x' y'| | |p' l'|f'|l'|l'|q' xs' f'|f'|f'|f'|l'|l']; cbn [hd tl wfs] in E1, E2, W, W'; try (absurd_case W W' G G' E1 E2). injection E2 as E2. destruct W as (_ & Wc & Wx & Wy). destruct W' as (_ & Wc' & Wx' & Wy').
    destruct (IHc true c' _ _ Wc Wc' (good_comma _ _) (good_comma _ _) E2) as [-> E3]. injection E3 as E3. destruct (IHx false x' _ _ Wx Wx' (good_comma _ _) (good_comma _ _) E3) as [-> E4]. injection E4 as E4. destruct (IHy false y' _ _ Wy Wy' (good_close _ _) (good_close _ _) E4) as [-> E5]. injection E5 as ->. split; reflexivity.
  - destruct n' as [x'|c'|f' l'|c' x' y'| | |p' l'|f'|l'|l'|q' xs' f'|f'|f'|f'|l'|l']; cbn [hd tl wfs] in E1, E2, W, W'; try (absurd_case W W' G G' E1 E2); subst; split; reflexivity.
  - destruct n' as [x'|c'|f' l'|c' x' y'| | |p' l'|f'|l'|l'|q' xs' f'|f'|f'|f'|l'|l']; cbn [hd tl wfs] in E1, E2, W, W'; try (absurd_case W W' G G' E1 E2); subst; split; reflexivity.
  - destruct n' as [x'|c'|f' l'|c' x' y'| | |p' l'|f'|l'|l'|q' xs' f'|f'|f'|f'|l'|l']; cbn [hd tl wfs] in E1, E2, W, W'; try (absurd_case W W' G G' E1 E2). subst p'. injection E2 as E2. destruct W as (_ & _ & W). destruct W' as (_ & _ & W'). destruct (join_inj false "," l l' r r' sep_term2 IH W W' E2) as [-> ->]. split; reflexivity.
  - destruct n' as [x'|c'|f' l'|c' x' y'| | |p' l'|f'|l'|l'|q' xs' f'|f'|f'|f'|l'|l']; cbn [hd tl wfs] in E1, E2, W, W'; try (absurd_case W W' G G' E1 E2).
    + injection E2 as E2. destruct W as [_ W]. destruct W' as [_ W']. destruct (one_inj f IH W f' r r' W' E2) as [-> ->]. split; reflexivity.
    + exfalso. assert (E3 : "not " ++ pr f ++ String ")" r = join " and " (map pr l') ++ String ")" r') by congruence. destruct W' as (_ & L' & W'). apply (not_first f l' _ _ _ (sep_conn " and " ltac:(listin)) L' W' E3).
    + exfalso. assert (E3 : "not " ++ pr f ++ String ")" r = join " or " (map pr l') ++ String ")" r') by congruence. destruct W' as (_ & L' & W'). apply (not_first f l' _ _ _ (sep_conn " or " ltac:(listin)) L' W' E3).
    + exfalso. assert (E3 : "not " ++ pr f ++ String ")" r = join " U " (map pr l') ++ String ")" r') by congruence. destruct W' as (_ & L' & W'). apply (not_first f l' _ _ _ (sep_conn " U " ltac:(listin)) L' W' E3).
    + exfalso. assert (E3 : "not " ++ pr f ++ String ")" r = join " R " (map pr l') ++ String ")" r') by congruence. destruct W' as (_ & L' & W'). apply (not_first f l' _ _ _ (sep_conn " R " ltac:(listin)) L' W' E3).
  - destruct n' as [x'|c'|f' l'|c' x' y'| | |p' l'|f'|l'|l'|q' xs' f'|f'|f'|f'|l'|l']; cbn [hd tl wfs] in E1, E2, W, W'; try (absurd_case W W' G G' E1 E2).
    + exfalso. assert (E3 : "not " ++ pr f' ++ String ")" r' = join " and " (map pr l) ++ String ")" r) by congruence. destruct W as (_ & L & W). exact (not_first f' l _ _ _ (sep_conn " and " ltac:(listin)) L W E3).
    + injection E2 as E2. destruct W as (_ & L & W). destruct W' as (_ & L' & W'). destruct (conn_case " and " l ltac:(listin) IH L W " and " l' r r' ltac:(listin) L' W' E2) as (Q & -> & ->); first [discriminate Q | split; reflexivity].
    + injection E2 as E2. destruct W as (_ & L & W). destruct W' as (_ & L' & W'). destruct (conn_case " and " l ltac:(listin) IH L W " or " l' r r' ltac:(listin) L' W' E2) as (Q & -> & ->); first [discriminate Q | split; reflexivity].
    + injection E2 as E2. destruct W as (_ & L & W). destruct W' as (_ & L' & W'). destruct (conn_case " and " l ltac:(listin) IH L W " U " l' r r' ltac:(listin) L' W' E2) as (Q & -> & ->); first [discriminate Q | split; reflexivity].
    + injection E2 as E2. destruct W as (_ & L & W). destruct W' as (_ & L' & W'). destruct (conn_case " and " l ltac:(listin) IH L W " R " l' r r' ltac:(listin) L' W' E2) as (Q & -> & ->); first [discriminate Q | split; reflexivity].
  - destruct n' as [x'|c'|f' l'|c' x' y'| | |p' l'|f'|l'|l'|q' xs' f'|f'|f'|f'|l'|l']; cbn [hd tl wfs] in E1, E2, W, W'; try (absurd_case W W' G G' E1 E2).
    + exfalso. assert (E3 : "not " ++ pr f' ++ String ")" r' = join " or " (map pr l) ++ String ")" r) by congruence. destruct W as (_ & L & W). exact (not_first f' l _ _ _ (sep_conn " or " ltac:(listin)) L W E3).
    + injection E2 as E2. destruct W as (_ & L & W). destruct W' as (_ & L' & W'). destruct (conn_case " or " l ltac:(listin) IH L W " and " l' r r' ltac:(listin) L' W' E2) as (Q & -> & ->); first [discriminate Q | split; reflexivity].
    + injection E2 as E2. destruct W as (_ & L & W). destruct W' as (_ & L' & W'). destruct (conn_case " or " l ltac:(listin) IH L W " or " l' r r' ltac:(listin) L' W' E2) as (Q & -> & ->); first [discriminate Q | split; reflexivity].
    + injection E2 as E2. destruct W as (_ & L & W). destruct W' as (_ & L' & W'). destruct (conn_case " or " l ltac:(listin) IH L W " U " l' r r' ltac:(listin) L' W' E2) as (Q & -> & ->); first [discriminate Q | split; reflexivity].
    + injection E2 as E2. destruct W as (_ & L & W). destruct W' as (_ & L' & W'). destruct (conn_case " or " l ltac:(listin) IH L W " R " l' r r' ltac:(listin) L' W' E2) as (Q & -> & ->); first [discriminate Q | split; reflexivity].
  - destruct n' as [x'|c'|f' l'|c' x' y'| | |p' l'|f'|l'|l'|q' xs' f'|f'|f'|f'|l'|l']; cbn [hd tl wfs] in E1, E2, W, W'; try (absurd_case W W' G G' E1 E2). assert (q' = q) by (destruct q, q'; try reflexivity; discriminate E1). subst q'. destruct W as (_ & N & W1 & W2). destruct W' as (_ & N' & W1' & W2').
    assert (E3 : join ", " xs ++ String " " (String ":" (String " " (String "(" (pr f ++ String ")" r)))) = join ", " xs' ++ String " " (String ":" (String " " (String "(" (pr f' ++ String ")" r')))))by (cbn [append] in E2; congruence).
    destruct (quant_inj xs xs' _ _ N N' W1 W1' E3) as [-> E4]. assert (E5 : pr f ++ String ")" r = pr f' ++ String ")" r') by congruence. destruct (one_inj f IH W2 f' r r' W2' E5) as [-> ->]. split; reflexivity.
  - destruct n' as [x'|c'|f' l'|c' x' y'| | |p' l'|f'|l'|l'|q' xs' f'|f'|f'|f'|l'|l']; cbn [hd tl wfs] in E1, E2, W, W'; try (absurd_case W W' G G' E1 E2). injection E2 as E2. destruct W as [_ W]. destruct W' as [_ W']. destruct (one_inj f IH W f' r r' W' E2) as [-> ->]. split; reflexivity.
  - destruct n' as [x'|c'|f' l'|c' x' y'| | |p' l'|f'|l'|l'|q' xs' f'|f'|f'|f'|l'|l']; cbn [hd tl wfs] in E1, E2, W, W'; try (absurd_case W W' G G' E1 E2). injection E2 as E2. destruct W as [_ W]. destruct W' as [_ W']. destruct (one_inj f IH W f' r r' W' E2) as [-> ->]. split; reflexivity.
  - destruct n' as [x'|c'|f' l'|c' x' y'| | |p' l'|f'|l'|l'|q' xs' f'|f'|f'|f'|l'|l']; cbn [hd tl wfs] in E1, E2, W, W'; try (absurd_case W W' G G' E1 E2). injection E2 as E2. destruct W as [_ W]. destruct W' as [_ W']. destruct (one_inj f IH W f' r r' W' E2) as [-> ->]. split; reflexivity.
  - destruct n' as [x'|c'|f' l'|c' x' y'| | |p' l'|f'|l'|l'|q' xs' f'|f'|f'|f'|l'|l']; cbn [hd tl wfs] in E1, E2, W, W'; try (absurd_case W W' G G' E1 E2).
    + exfalso. assert (E3 : "not " ++ pr f' ++ String ")" r' = join " U " (map pr l) ++ String ")" r) by congruence. destruct W as (_ & L & W). exact (not_first f' l _ _ _ (sep_conn " U " ltac:(listin)) L W E3).
    + injection E2 as E2. destruct W as (_ & L & W). destruct W' as (_ & L' & W'). destruct (conn_case " U " l ltac:(listin) IH L W " and " l' r r' ltac:(listin) L' W' E2) as (Q & -> & ->); first [discriminate Q | split; reflexivity].
    + injection E2 as E2. destruct W as (_ & L & W). destruct W' as (_ & L' & W'). destruct (conn_case " U " l ltac:(listin) IH L W " or " l' r r' ltac:(listin) L' W' E2) as (Q & -> & ->); first [discriminate Q | split; reflexivity].
    + injection E2 as E2. destruct W as (_ & L & W). destruct W' as (_ & L' & W'). destruct (conn_case " U " l ltac:(listin) IH L W " U " l' r r' ltac:(listin) L' W' E2) as (Q & -> & ->); first [discriminate Q | split; reflexivity].
    + injection E2 as E2. destruct W as (_ & L & W). destruct W' as (_ & L' & W'). destruct (conn_case " U " l ltac:(listin) IH L W " R " l' r r' ltac:(listin) L' W' E2) as (Q & -> & ->); first [discriminate Q | split; reflexivity].
  - destruct n' as [x'|c'|f' l'|c' x' y'| | |p' l'|f'|l'|l'|q' xs' f'|f'|f'|f'|l'|l']; cbn [hd tl wfs] in E1, E2, W, W'; try (absurd_case W W' G G' E1 E2).
    + exfalso. assert (E3 : "not " ++ pr f' ++ String ")" r' = join " R " (map pr l) ++ String ")" r) by congruence. destruct W as (_ & L & W). exact (not_first f' l _ _ _ (sep_conn " R " ltac:(listin)) L W E3).
    + injection E2 as E2. destruct W as (_ & L & W). destruct W' as (_ & L' & W'). destruct (conn_case " R " l ltac:(listin) IH L W " and " l' r r' ltac:(listin) L' W' E2) as (Q & -> & ->); first [discriminate Q | split; reflexivity].
    + injection E2 as E2. destruct W as (_ & L & W). destruct W' as (_ & L' & W'). destruct (conn_case " R " l ltac:(listin) IH L W " or " l' r r' ltac:(listin) L' W' E2) as (Q & -> & ->); first [discriminate Q | split; reflexivity].
    + injection E2 as E2. destruct W as (_ & L & W). destruct W' as (_ & L' & W'). destruct (conn_case " R " l ltac:(listin) IH L W " U " l' r r' ltac:(listin) L' W' E2) as (Q & -> & ->); first [discriminate Q | split; reflexivity].
    + injection E2 as E2. destruct W as (_ & L & W). destruct W' as (_ & L' & W'). destruct (conn_case " R " l ltac:(listin) IH L W " R " l' r r' ltac:(listin) L' W' E2) as (Q & -> & ->); first [discriminate Q | split; reflexivity].
Qed.
End Names.
