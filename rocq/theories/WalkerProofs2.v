(** The order in which a walker visits *)
From Verif Require Import Base Syntax Effects Represent Walker WalkerSpec WalkerProofs.
From Coq Require Import Sorting.Sorted.

(** What the recorder writes down when it is in an effect or not *)
Fixpoint recs (b : bool) (l : list ev) : list (bool * node) :=
  match l with [] => [] | Visit n :: l' => (b, n) :: recs b l' | Enter :: l' => recs true l' | Exit :: l' => recs false l' | Reject :: l' => recs b l' end.
Fixpoint flag (b : bool) (l : list ev) : bool := match l with [] => b | Enter :: l' => flag true l' | Exit :: l' => flag false l' | _ :: l' => flag b l' end.
Lemma recs_app b a c : recs b (a ++ c) = (recs b a ++ recs (flag b a) c)%list.
Proof. revert b. induction a as [|[n| | |] a IH]; intros b; cbn [recs flag app]; [reflexivity|rewrite IH; reflexivity|apply IH|apply IH|apply IH]. Qed.
Lemma flag_app b a c : flag b (a ++ c) = flag (flag b a) c.
Proof. revert b. induction a as [|[n| | |] a IH]; intros b; cbn [flag app]; auto. Qed.
Definition record_step (c : option context) (n : node) (s : list (bool * node)) : res (list (bool * node)) := Ok (s ++ [(told c, n)])%list.
Definition no_reject (l : list ev) : Prop := ~ In Reject l.
Lemma play_records l : no_reject l -> forall c s, exists c', play _ record_step l (c, s) = Ok (c', (s ++ recs (told c) l)%list) /\ told c' = flag (told c) l.
Proof.
  intros N. assert (M : Forall (fun x => x <> Reject) l). { apply Forall_forall. intros x I ->. exact (N I). } clear N. induction M as [|x l Hx M IH]; intros c s; [exists c; cbn; rewrite app_nil_r; auto|].
  destruct x as [n| | |]; cbn [play step record_step bind fst snd recs flag]; [| | |congruence].
  - destruct (IH c (s ++ [(told c, n)])%list) as (c' & E & F). exists c'. rewrite E, <- app_assoc. auto.
  - destruct (IH (Some InEffect) s) as (c' & E & F). exists c'. auto.
  - destruct (IH (Some InFormula) s) as (c' & E & F). exists c'. auto.
Qed.

(** [R] lists the places of [n] *)
Definition good (n : node) (fl : list nat -> bool) (R : list (bool * node)) : Prop :=
  exists ps, StronglySorted comes_before ps /\ (forall p, In p ps <-> at_place n p <> None) /\ map (fun x => (fst x, Some (snd x))) R = map (fun p => (fl p, at_place n p)) ps.
Definition goods (ns : list node) (fl : list nat -> bool) (R : list (bool * node)) : Prop :=
  exists ps, StronglySorted comes_before ps /\ (forall p, In p ps <-> at_place_of ns p <> None) /\ map (fun x => (fst x, Some (snd x))) R = map (fun p => (fl p, at_place_of ns p)) ps.
Lemma sorted_app {A} (P : A -> A -> Prop) a b : StronglySorted P a -> StronglySorted P b -> (forall x y, In x a -> In y b -> P x y) -> StronglySorted P (a ++ b).
Proof.
  intros Ha Hb H. induction Ha as [|x a Ha IH Hx]; [exact Hb|]. cbn [app]. constructor.
  - apply IH. intros u v Hu Hv. apply H; [right; exact Hu|exact Hv].
  - apply Forall_app. split; [exact Hx|]. apply Forall_forall. intros v Hv. apply H; [left; reflexivity|exact Hv].
Qed.
Lemma sorted_map {A B} (P : A -> A -> Prop) (Q : B -> B -> Prop) (f : A -> B) l : (forall x y, In x l -> In y l -> P x y -> Q (f x) (f y)) -> StronglySorted P l -> StronglySorted Q (map f l).
Proof.
  intros H S. induction S as [|x l S IH Hx]; cbn [map]; constructor.
  - apply IH. intros u v Hu Hv. apply H; right; assumption.
  - apply Forall_forall. intros y Hy. apply in_map_iff in Hy as (z & <- & Hz). rewrite Forall_forall in Hx. apply H; [left; reflexivity|right; exact Hz|exact (Hx z Hz)].
Qed.
Lemma before_cons i p q : comes_before p q -> comes_before (i :: p) (i :: q).
Proof.
  intros [(r & N & ->)|(c & a & b & r & r' & L & -> & ->)]; [left; exists r; auto|right]. exists (i :: c), a, b, r, r'. auto.
Qed.
Definition shift (p : list nat) : list nat := match p with i :: q => S i :: q | [] => [] end.
Lemma before_shift p q : p <> [] -> q <> [] -> comes_before p q -> comes_before (shift p) (shift q).
Proof.
  intros Np Nq [(r & N & ->)|(c & a & b & r & r' & L & -> & ->)].
  - destruct q as [|i q]; [congruence|]. left. exists r. auto.
  - right. destruct c as [|i c]; cbn [app shift].
    + exists [], (S a), (S b), r, r'. split; [lia|auto].
    + exists (S i :: c), a, b, r, r'. auto.
Qed.
Lemma goods_nil fl : goods [] fl [].
Proof. exists []. split; [constructor|]. split; [|reflexivity]. intros p. split; [intros []|]. intros H. exfalso. apply H. destruct p as [|[|i] p]; reflexivity. Qed.
Lemma goods_cons n ns fl R Rs : good n (fun p => fl (0 :: p)) R -> goods ns (fun p => fl (shift p)) Rs -> goods (n :: ns) fl (R ++ Rs).
Proof.
  intros (ps & S1 & C1 & E1) (qs & S2 & C2 & E2). exists (map (cons 0) ps ++ map shift qs)%list.
  assert (NQ : forall q, In q qs -> q <> []). { intros q I ->. apply C2 in I. apply I. reflexivity. }
  split; [|split].
  - apply sorted_app.
    + apply sorted_map with (P := comes_before); [|exact S1]. intros x y _ _. apply before_cons.
    + apply sorted_map with (P := comes_before); [|exact S2]. intros x y Ix Iy. apply before_shift; apply NQ; assumption.
    + intros x y Ix Iy. apply in_map_iff in Ix as (p & <- & Ip). apply in_map_iff in Iy as (q & <- & Iq). destruct q as [|i q]; [exfalso; exact (NQ _ Iq eq_refl)|]. right. exists [], 0, (S i), p, q. split; [lia|auto].
  - intros p. rewrite in_app_iff. split.
    + intros [I|I]; apply in_map_iff in I as (q & <- & Iq).
      * cbn [at_place_of nth_error]. apply C1. exact Iq.
      * assert (K := NQ q Iq). destruct q as [|i q]; [congruence|]. cbn [shift at_place_of nth_error]. apply C2 in Iq. exact Iq.
    + intros H. destruct p as [|[|i] p]; [exfalso; apply H; reflexivity| |].
      * left. apply in_map. apply C1. exact H.
      * right. change (S i :: p) with (shift (i :: p)). apply in_map. apply C2. exact H.
  - rewrite !map_app, E1, E2, !map_map. f_equal. apply map_ext_in. intros q Iq. assert (K := NQ q Iq). destruct q as [|i q]; [congruence|]. reflexivity.
Qed.
Lemma good_whole n fl R : goods (parts n) fl R -> good n fl (R ++ [(fl [], n)]).
Proof.
  intros (ps & S1 & C1 & E1). exists (ps ++ [[]])%list.
  assert (NQ : forall q, In q ps -> q <> []). { intros q I ->. apply C1 in I. apply I. reflexivity. }
  assert (A : forall p, p <> [] -> at_place n p = at_place_of (parts n) p). { intros [|i p] N; [congruence|]. reflexivity. }
  split; [|split].
  - apply sorted_app; [exact S1|constructor; constructor|]. intros x y Ix [<-|[]]. left. exists x. split; [apply NQ; exact Ix|reflexivity].
  - intros p. rewrite in_app_iff. split.
    + intros [I|[<-|[]]]; [|discriminate]. rewrite A by (apply NQ; exact I). apply C1. exact I.
    + intros H. destruct p as [|i p]; [right; left; reflexivity|]. left. apply C1. exact H.
  - rewrite !map_app, E1. cbn [map fst snd]. f_equal. apply map_ext_in. intros q Iq. rewrite A by (apply NQ; exact Iq). reflexivity.
Qed.
(** Expressions *)
Lemma flag_const b l : Forall (fun x => exists n, x = Visit n) l -> flag b l = b.
Proof. intros H. induction H as [|x l [n ->] H IH]; [reflexivity|exact IH]. Qed.
Definition visits_only (l : list ev) : Prop := Forall (fun x => exists n, x = Visit n) l.
Lemma visits_flat {A} (lg : A -> list ev) xs : Forall (fun x => visits_only (lg x)) xs -> visits_only (flat_map lg xs).
Proof. intros H. induction H as [|x l Hx H IH]; [constructor|]. apply Forall_app. auto. Qed.
Lemma visits_one n : visits_only [Visit n].
Proof. constructor; [exists n; reflexivity|constructor]. Qed.
Lemma log_visits : (forall t, visits_only (log_t t)) /\ (forall f, visits_only (log_f f)).
Proof.
  apply syntax_ind; intros; cbn [log_t log_f]; unfold visits_only; rewrite ?Forall_app; repeat (apply conj); try apply visits_one; try assumption; apply visits_flat; assumption.
Qed.
Lemma goods_list {A} (lg : A -> list ev) (nd : A -> node) b xs : (forall x, visits_only (lg x)) -> Forall (fun x => good (nd x) (fun _ => b) (recs b (lg x))) xs -> goods (map nd xs) (fun _ => b) (recs b (flat_map lg xs)).
Proof.
  intros V H. induction H as [|x xs Hx H IH]; [apply goods_nil|]. cbn [map flat_map]. rewrite recs_app, (flag_const b (lg x) (V x)). apply goods_cons; [exact Hx|exact IH].
Qed.
Lemma good_both b : (forall t, good (NT t) (fun _ => b) (recs b (log_t t))) /\ (forall f, good (NF f) (fun _ => b) (recs b (log_f f))).
Proof.
  destruct log_visits as [VT VF].
  assert (L : forall n l, visits_only l -> goods (parts n) (fun _ => b) (recs b l) -> good n (fun _ => b) (recs b (l ++ [Visit n]))). { intros n l V G. rewrite recs_app, flag_const by exact V. cbn [recs]. exact (good_whole n (fun _ => b) _ G). }
  apply syntax_ind; intros; cbn [log_t log_f].
  - apply (L (NT (Var x s)) []); [constructor|apply goods_nil].
  - apply (L (NT (Cst c s)) []); [constructor|apply goods_nil].
  - apply L; [apply visits_flat; apply Forall_forall; auto|]. cbn [parts]. apply goods_list; assumption.
  - rewrite !app_assoc. rewrite <- (app_assoc (log_f c)). apply L; [apply Forall_app; split; [exact (VF c)|apply Forall_app; split; [exact (VT t)|exact (VT e)]]|]. cbn [parts]. rewrite recs_app, (flag_const b (log_f c) (VF c)), recs_app, (flag_const b (log_t t) (VT t)). apply goods_cons; [assumption|]. apply goods_cons; [assumption|].
    rewrite <- (app_nil_r (recs b (log_t e))). apply goods_cons; [assumption|apply goods_nil].
  - apply (L (NF Top) []); [constructor|apply goods_nil].
  - apply (L (NF Bot) []); [constructor|apply goods_nil].
  - apply L; [apply visits_flat; apply Forall_forall; auto|]. cbn [parts]. apply goods_list; assumption.
  - apply L; [apply visits_flat; apply Forall_forall; auto|]. cbn [parts]. apply goods_list; assumption.
  - rewrite app_assoc. apply L; [apply Forall_app; split; [exact (VF f)|apply visits_flat; apply Forall_forall; intros; apply VT]|]. cbn [parts]. rewrite recs_app, (flag_const b _ (VF f)). apply goods_cons; [assumption|]. apply goods_list; assumption.
Qed.
(** Effects *)
Lemma visits_no_reject l : visits_only l -> no_reject l.
Proof. intros V I. unfold visits_only in V. rewrite Forall_forall in V. destruct (V _ I) as [n K]. discriminate. Qed.
Lemma good_ext n f g R : (forall p, f p = g p) -> good n f R -> good n g R.
Proof. intros E (ps & A & B & C). exists ps. split; [exact A|]. split; [exact B|]. rewrite C. apply map_ext. intros p. rewrite E. reflexivity. Qed.
Lemma goods_ext n f g R : (forall p, f p = g p) -> goods n f R -> goods n g R.
Proof. intros E (ps & A & B & C). exists ps. split; [exact A|]. split; [exact B|]. rewrite C. apply map_ext. intros p. rewrite E. reflexivity. Qed.
Definition fine (n : node) : Prop := flag false (log n) = false /\ good n (in_effect n) (recs false (log n)).
Lemma fine_expr n : match n with NE _ => False | _ => True end -> fine n.
Proof.
  destruct log_visits as [VT VF]. destruct (good_both false) as [GT GF]. assert (F : forall n, match n with NE _ => False | _ => True end -> forall p, in_effect n p = false).
  { intros m K p. revert m K. induction p as [|i p IH]; intros m K; [reflexivity|]. destruct m as [t|f|e]; [| |destruct K]; cbn [in_effect];
    [destruct (nth_error (parts (NT t)) i) as [m|] eqn:E|destruct (nth_error (parts (NF f)) i) as [m|] eqn:E]; try reflexivity; apply IH; apply nth_error_In in E; revert E; clear;
    [destruct t as [x s|c s|f ts|c a b]|destruct f as [| |q ts|c fs|q vs g]]; cbn [parts]; rewrite ?in_map_iff; cbn [In]; intros E; try (destruct E; fail);
    try (destruct E as (x & <- & _); exact I); try (destruct E as [<- | [<- | [<- | []]]]; exact I); try (destruct E as [<- | E]; [exact I|apply in_map_iff in E as (x & <- & _); exact I]). }
  destruct n as [t|f|e]; intros K; [| |destruct K]; (split; [apply flag_const; first [exact (VT t)|exact (VF f)]|]); (eapply good_ext; [|first [exact (GT t)|exact (GF f)]]); intros p; symmetry; apply F; exact I.
Qed.
Lemma fine_list ns : Forall fine ns -> flag false (flat_map log ns) = false /\ goods ns (in_effect_of ns) (recs false (flat_map log ns)).
Proof.
  intros H. induction H as [|n ns [Fn Gn] H [Fs Gs]]; [split; [reflexivity|apply goods_nil]|]. cbn [flat_map]. rewrite flag_app, Fn. split; [exact Fs|]. rewrite recs_app, Fn. apply goods_cons; [exact Gn|].
  eapply goods_ext; [|exact Gs]. intros [|i p]; reflexivity.
Qed.
Lemma fine_effect e : analysable e = true -> fine (NE e) /\ no_reject (log_e e).
Proof.
  destruct log_visits as [VT VF]. destruct (good_both false) as [GT GF]. destruct (good_both true) as [GT' GF'].
  assert (NR : forall l, visits_only l -> no_reject l) by exact visits_no_reject. unfold no_reject in *.
  induction e as [c a|c a|i c l r|c vs es IH|c l|c] using effect_ind_nested; cbn [analysable]; intros An; try discriminate.
  - split; [split|].
    + cbn [log log_e]. rewrite flag_app, (flag_const false _ (VF c)). cbn [app flag]. rewrite flag_app. reflexivity.
    + cbn [log log_e]. rewrite recs_app, (flag_const false _ (VF c)). cbn [app recs]. rewrite recs_app. cbn [recs]. rewrite app_assoc. apply (good_whole (NE (EAdd c a)) (in_effect (NE (EAdd c a)))). cbn [parts].
      apply goods_cons; [exact (GF c)|]. rewrite <- (app_nil_r (recs true (log_f a))). apply goods_cons; [exact (GF' a)|apply goods_nil].
    + cbn [log_e app]. rewrite in_app_iff. intros [I|I]; [exact (NR _ (VF c) I)|]. destruct I as [I|I]; [discriminate|]. rewrite in_app_iff in I. destruct I as [I|I]; [exact (NR _ (VF a) I)|]. destruct I as [I|[I|[]]]; discriminate.
  - split; [split|].
    + cbn [log log_e]. rewrite flag_app, (flag_const false _ (VF c)). cbn [app flag]. rewrite flag_app. reflexivity.
    + cbn [log log_e]. rewrite recs_app, (flag_const false _ (VF c)). cbn [app recs]. rewrite recs_app. cbn [recs]. rewrite app_assoc. apply (good_whole (NE (EDel c a)) (in_effect (NE (EDel c a)))). cbn [parts].
      apply goods_cons; [exact (GF c)|]. rewrite <- (app_nil_r (recs true (log_f a))). apply goods_cons; [exact (GF' a)|apply goods_nil].
    + cbn [log_e app]. rewrite in_app_iff. intros [I|I]; [exact (NR _ (VF c) I)|]. destruct I as [I|I]; [discriminate|]. rewrite in_app_iff in I. destruct I as [I|I]; [exact (NR _ (VF a) I)|]. destruct I as [I|[I|[]]]; discriminate.
  - split; [split|].
    + cbn [log log_e]. rewrite flag_app, (flag_const false _ (VF c)). cbn [app flag]. rewrite flag_app. cbn [flag]. rewrite flag_app. reflexivity.
    + cbn [log log_e]. rewrite recs_app, (flag_const false _ (VF c)). cbn [app recs]. rewrite recs_app. cbn [recs]. rewrite recs_app. cbn [recs]. rewrite !app_assoc. apply (good_whole (NE (EFun i c l r)) (in_effect (NE (EFun i c l r)))). cbn [parts]. rewrite <- app_assoc.
      apply goods_cons; [exact (GF c)|]. apply goods_cons; [exact (GT' l)|]. rewrite <- (app_nil_r (recs true (log_t r))). apply goods_cons; [exact (GT' r)|apply goods_nil].
    + cbn [log_e app]. rewrite in_app_iff. intros [I|I]; [exact (NR _ (VF c) I)|]. destruct I as [I|I]; [discriminate|]. rewrite in_app_iff in I. destruct I as [I|I]; [exact (NR _ (VT l) I)|]. destruct I as [I|[I|I]]; try discriminate. rewrite in_app_iff in I.
      destruct I as [I|I]; [exact (NR _ (VT r) I)|]. destruct I as [I|[I|[]]]; discriminate.
  - assert (K : Forall fine (map NE es) /\ ~ In Reject (flat_map log_e es)).
    { rewrite forallb_forall in An. rewrite Forall_forall in IH. split.
      - apply Forall_forall. intros n I. apply in_map_iff in I as (e & <- & Ie). exact (proj1 (IH e Ie (An e Ie))).
      - intros I. apply in_flat_map in I as (e & Ie & I). exact (proj2 (IH e Ie (An e Ie)) I). }
    destruct K as [K N]. apply fine_list in K as [F G]. assert (E : flat_map log (map NE es) = flat_map log_e es) by (clear; induction es as [|x l IH]; [reflexivity|]; cbn [map flat_map log]; rewrite IH; reflexivity). rewrite E in F, G.
    split; [split|].
    + cbn [log log_e]. rewrite flag_app, F. reflexivity.
    + cbn [log log_e]. rewrite recs_app, F. cbn [recs]. apply (good_whole (NE (EUni c vs es)) (in_effect (NE (EUni c vs es)))). cbn [parts]. eapply goods_ext; [|exact G]. intros [|j p]; reflexivity.
    + cbn [log_e]. rewrite in_app_iff. intros [I|[I|[]]]; [exact (N I)|discriminate].
Qed.
Lemma fine_node n : analysable_node n = true -> fine n /\ no_reject (log n).
Proof. destruct log_visits as [VT VF]. destruct n as [t|f|e]; intros A; [split; [apply fine_expr; exact I|apply visits_no_reject; apply VT]|split; [apply fine_expr; exact I|apply visits_no_reject; apply VF]|exact (fine_effect e A)]. Qed.
Lemma rejects e : analysable e = false -> In Reject (log_e e).
Proof.
  induction e as [c a|c a|i c l r|c vs es IH|c l|c] using effect_ind_nested; cbn [analysable log_e]; intros A; try discriminate; try (left; reflexivity).
  apply in_or_app. left. induction IH as [|x es Hx H IH2]; [discriminate|]. cbn [forallb flat_map] in *. apply in_or_app. destruct (analysable x) eqn:E; [right; apply IH2; exact A|left; apply Hx; reflexivity].
Qed.
Lemma play_rejects {S} (r : option context -> node -> S -> res S) l : (forall c n s, exists s', r c n s = Ok s') -> In Reject l -> forall st, play S r l st = Err RuntimeError.
Proof.
  intros H. induction l as [|x l IH]; intros I st; [destruct I|]. destruct x as [n| | |]; cbn [play step bind]; try (apply IH; destruct I as [I|I]; [discriminate|exact I]); [|reflexivity].
  destruct (H (fst st) n (snd st)) as [s' ->]. cbn [bind]. apply IH. destruct I as [I|I]; [discriminate|exact I].
Qed.
