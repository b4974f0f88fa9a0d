(** The language that the generator of the functional blocksworld builds, for every number of blocks *)
From Coq Require Import Lia Permutation Ascii String List.
Import ListNotations.
From Verif Require Import Base Syntax SemLemmas ListUtil Build ModelState ModelProofs ModelText ModelTextProofs Eval Subst QElim Effects FreeVars Represent SasText SasTextProofs Lang Theories Counters CountersProofs
  Blocks BlocksSpec BlocksProofs2 BlocksProofs3 FBlocks.
#[local] Open Scope string_scope.
#[local] Open Scope list_scope.

Definition bw_index : list (cname * elem) :=
  [(CStr "object", ESort "object"); (CStr "place", ESort "place"); (CStr "block", ESort "block"); (CStr "clear", EPred "clear" ["place"]); (CStr "loc", EFun "loc" ["block"; "place"]); (CStr "table", EConst (CStr "table") "place")].
Definition plain_of (d : list string) : sortrec := {| s_kind := KPlain; s_builtin := false; s_dom := map CStr d |}.
Definition bwlang (bs : list string) : lang :=
  {| l_sorts := [("object", plain_of ("table" :: bs)); ("place", plain_of ("table" :: bs)); ("block", plain_of bs)];
     l_parent := [("object", None); ("place", Some "object"); ("block", Some "place")];
     l_anc := [("object", []); ("place", ["object"]); ("block", ["place"; "object"])];
     l_ind := [("object", []); ("place", []); ("block", [])];
     l_preds := [("clear", ["place"])]; l_funs := [("loc", ["block"; "place"])];
     l_consts := (CStr "table", (CStr "table", "place")) :: map (fun c => (CStr c, (CStr c, "block"))) bs;
     l_index := bw_index ++ map (fun c => (CStr c, EConst (CStr c) "block")) bs |}.
Definition bwtlang (bs : list string) : tlang := {| t_lang := bwlang bs; t_theories := [TEquality]; t_handlers := ["="; "!="]; t_symbols := ["="; "!="] |}.

Lemma cn_mem_last c l : cn_mem c (l ++ [c]) = true.
Proof. unfold cn_mem. apply existsb_exists. exists c. split; [apply in_or_app; right; left; reflexivity|]. unfold cname_eqb. now destruct (cname_eq_dec c c). Qed.
Lemma add_plain d c : ~ In c d -> add_dom (CStr c) (plain_of d) = plain_of (d ++ [c]).
Proof. intros N. unfold add_dom, plain_of. cbn [s_kind s_dom s_builtin]. now rewrite (cn_mem_map d c N), map_app. Qed.
Lemma add_plain_again d c : add_dom (CStr c) (plain_of (d ++ [c])) = plain_of (d ++ [c]).
Proof. unfold add_dom, plain_of. cbn [s_kind s_dom s_builtin]. rewrite map_app. cbn [map]. now rewrite cn_mem_last. Qed.
Lemma extend_block bs c : c <> "table" -> ~ In c bs -> extend 4 (bwlang bs) "block" (CStr c) = Ok (set_sorts (bwlang bs) (l_sorts (bwlang (bs ++ [c])))).
Proof.
  intros T N. assert (N' : ~ In c ("table" :: bs)) by (intros [E|E]; [congruence|contradiction]).
  cbn [extend bwlang l_sorts sget dget String.eqb Ascii.eqb Bool.eqb s_kind s_dom s_builtin set_sorts l_anc fold_left dset bind plain_of add_dom].
  rewrite (add_plain bs c N), (add_plain ("table" :: bs) c N'), (add_plain_again ("table" :: bs) c). reflexivity.
Qed.
Lemma declare_block parse bs c : dget cname_eqb bw_index (CStr c) = None -> c <> "table" -> ~ In c bs -> tdo parse (bwtlang bs) (TOp (OConst (CStr c) "block")) = Ok (bwtlang (bs ++ [c])).
Proof.
  intros F T N. unfold tdo, tstep, lift. cbn [t_lang bwtlang lstep].
  assert (E : declare_constant parse (bwlang bs) (CStr c) "block" = (bwlang (bs ++ [c]), Ok tt)).
  { unfold declare_constant. change (sget (l_sorts (bwlang bs)) "block") with (Some (plain_of bs)). cbv beta iota. cbn [s_builtin plain_of].
    assert (TT : cname_eqb (CStr "table") (CStr c) = false) by (unfold cname_eqb; destruct (cname_eq_dec _ _) as [Q|]; [injection Q as <-; congruence|reflexivity]).
    unfold check_name, has_constant. assert (K1 : dget cname_eqb (l_consts (bwlang bs)) (CStr c) = None) by (cbn [bwlang l_consts dget]; rewrite TT; exact (dget_map_none (fun c => (CStr c, "block" : sort)) bs c N)). rewrite K1. cbv beta iota.
    assert (K2 : dget cname_eqb (l_index (bwlang bs)) (CStr c) = None) by (etransitivity; [exact (dget_app_none bw_index _ _ F)|exact (dget_map_none (fun c => EConst (CStr c) "block") bs c N)]). rewrite K2. cbv beta iota. cbn [s_kind plain_of].
    assert (K3 : dset cname_eqb (l_consts (bwlang bs)) (CStr c) (CStr c, "block" : sort) = l_consts (bwlang (bs ++ [c]))) by (cbn [bwlang l_consts dset]; rewrite TT; f_equal; exact (dset_map (fun c => (CStr c, "block" : sort)) bs c N)).
    assert (K4 : dset cname_eqb (l_index (bwlang bs)) (CStr c) (EConst (CStr c) "block") = l_index (bwlang (bs ++ [c]))).
    { etransitivity; [exact (dset_app_none bw_index _ _ _ F)|]. cbn [bwlang l_index]. f_equal. exact (dset_map (fun c => EConst (CStr c) "block") bs c N). }
    change (S (List.length (l_sorts (bwlang bs)))) with 4. rewrite (extend_block bs c T N). unfold set_index, set_consts. cbn [set_sorts l_consts l_index l_sorts l_parent l_anc l_ind l_preds l_funs]. cbv beta zeta in K3 |- *. cbn [l_consts l_index]. f_equal.
    transitivity {| l_sorts := l_sorts (bwlang (bs ++ [c])); l_parent := l_parent (bwlang bs); l_anc := l_anc (bwlang bs); l_ind := l_ind (bwlang bs); l_preds := l_preds (bwlang bs); l_funs := l_funs (bwlang bs); l_consts := l_consts (bwlang (bs ++ [c])); l_index := l_index (bwlang (bs ++ [c])) |}; [|reflexivity].
    now rewrite <- K3, <- K4. }
  rewrite E. reflexivity.
Qed.
Lemma declare_blocks parse : forall l bs, NoDup (bs ++ l) -> (forall c, In c l -> dget cname_eqb bw_index (CStr c) = None /\ c <> "table") ->
  foldM (tdo parse) (map (fun c => TOp (OConst (CStr c) "block")) l) (bwtlang bs) = Ok (bwtlang (bs ++ l)).
Proof.
  induction l as [|c l IH]; intros bs N F; [rewrite app_nil_r; reflexivity|]. cbn [map foldM]. destruct (F c (or_introl eq_refl)) as [F1 F2]. rewrite declare_block; [|exact F1|exact F2|].
  - rewrite IH; [now rewrite <- app_assoc|now rewrite <- app_assoc|]. intros d Hd. apply F. now right.
  - apply NoDup_remove_2 in N. intros H. apply N, in_or_app. now left.
Qed.
Lemma block_name_free k : dget cname_eqb bw_index (CStr (block_name k)) = None.
Proof.
  assert (D : forall s, dget cname_eqb bw_index (CStr (String "b"%char s)) = None \/ String "b"%char s = "block").
  { intros s. unfold bw_index. cbn [dget]. unfold cname_eqb. repeat (destruct (cname_eq_dec _ _) as [E|_]; [try (injection E; intros; discriminate); try discriminate; right; congruence|]). now left. }
  destruct (D (num k)) as [E|E]; [exact E|]. injection E as E. pose proof (num_digits k "l"%char) as H. rewrite E in H. specialize (H (or_introl eq_refl)). exfalso. vm_compute in H. intuition discriminate.
Qed.
(** The construction succeeds for every number of blocks. *)
Lemma bw_language_spec parse n : generate_fstrips_bw_language parse n = Ok (bwtlang (block_names n)).
Proof.
  unfold generate_fstrips_bw_language. set (l := map _ (block_names n)).
  assert (A : forall r, (let! st := language parse [TEquality] in foldM (tdo parse) ([TOp (OSort place_sort None); TOp (OSort block_sort (Some place_sort)); TOp (OPred "clear" [place_sort]); TOp (OFun "loc" [block_sort; place_sort]); TOp (OConst (CStr "table") place_sort)] ++ r) st) = foldM (tdo parse) r (bwtlang [])) by (intros r; reflexivity).
  rewrite A. apply (declare_blocks parse (block_names n) []); [apply block_names_NoDup|]. intros c Hc. split; [|intros ->; exact (block_names_table n Hc)]. unfold block_names in Hc. apply in_map_iff in Hc as (k & <- & _). apply block_name_free.
Qed.
Lemma bw_domain bs : NoDup ("table" :: bs) -> sort_domain (bwlang bs) block_sort = Ok (map CStr bs) /\ sort_domain (bwlang bs) place_sort = Ok (map CStr ("table" :: bs)).
Proof.
  intros N. assert (G : forall l, incl l bs -> mapM (fun c => match dget cname_eqb (l_consts (bwlang bs)) c with Some (sym, _) => Ok sym | None => Err UndefinedElement end) (map CStr l) = Ok (map CStr l)).
  { induction l as [|c l IH]; intros I; [reflexivity|]. cbn [map mapM]. 
    assert (H : dget cname_eqb (l_consts (bwlang bs)) (CStr c) = Some (CStr c, "block" : sort)).
    { cbn [bwlang l_consts dget]. unfold cname_eqb at 1. destruct (cname_eq_dec _ _) as [Q|_]; [injection Q as <-; inversion N; exfalso; eauto using in_eq|]. specialize (I c (or_introl eq_refl)). clear - I. induction bs as [|d bs IH]; [destruct I|]. cbn [map dget]. unfold cname_eqb at 1. destruct (cname_eq_dec _ _) as [Q|Q]; [injection Q as ->; reflexivity|]. apply IH. destruct I as [->|I]; [congruence|exact I]. }
    rewrite H. cbn [bind]. rewrite IH; [reflexivity|]. intros x Hx. apply I. now right. }
  split; [exact (G bs (incl_refl bs))|]. transitivity (let! r := mapM (fun c => match dget cname_eqb (l_consts (bwlang bs)) c with Some (sym, _) => Ok sym | None => Err UndefinedElement end) (map CStr bs) in Ok (CStr "table" :: r)); [reflexivity|]. now rewrite (G bs (incl_refl bs)).
Qed.
Lemma bw_sub bs fuel : 4 <= fuel -> (forall a b, In a [place_sort; block_sort; "object"] -> In b [place_sort; block_sort; "object"] ->
  lsub fuel (bwlang bs) a b = (String.eqb a b || String.eqb b "object" || (String.eqb a block_sort && String.eqb b place_sort))%bool).
Proof.
  intros F. destruct fuel as [|[|[|[|f]]]]; try lia. intros a b Ia Ib. cbn [In] in Ia, Ib. destruct Ia as [<-|[<-|[<-|[]]]]; destruct Ib as [<-|[<-|[<-|[]]]]; reflexivity.
Qed.
Lemma bw_get bs x : (forall c, In c bs -> dget cname_eqb bw_index (CStr c) = None) -> In x bs -> lget (bwlang bs) (CStr x) = Ok (EConst (CStr x) "block").
Proof.
  intros F Hx. unfold lget. cbn [bwlang l_index]. rewrite (dget_app_none bw_index _ _ (F x Hx)). clear F.
  assert (E : dget cname_eqb (map (fun c => (CStr c, EConst (CStr c) "block")) bs) (CStr x) = Some (EConst (CStr x) "block")).
  { induction bs as [|d bs IH]; [destruct Hx|]. cbn [map dget]. unfold cname_eqb at 1. destruct (cname_eq_dec _ _) as [Q|Q]; [injection Q as ->; reflexivity|]. apply IH. destruct Hx as [->|H]; [congruence|exact H]. }
  now rewrite E.
Qed.
