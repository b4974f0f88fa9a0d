(** The two documents *)
From Coq Require Import Permutation Ascii DecimalString.
From Verif Require Import Base Syntax Semantics SemLemmas ListUtil PropsGrounding Asp ModelState ModelSpec ModelProofs ModelText ModelTextSpec ModelTextProofs Lang LangSpec LangProofs LangProofs2 LangProofs3 Effects Represent Costs PddlText PddlRead PddlSpec PddlProofs PddlProofs2
  PddlAction PddlActionSpec PddlActionProofs PropsPddlAction PddlProblem PddlProblemSpec PddlProblemProofs PddlProblemProofs2 PddlProblemProofs3 PddlProblemProofs4 PddlProblemProofs5.
Local Open Scope string_scope.

Lemma domain_text D r rs ty tys c cx p px f fx a ax : legal_name D = true -> reads r rs -> reads ty tys -> reads c cx -> reads p px -> reads f fx -> reads a ax ->
  document (header "Domain" ++ "(define (domain " ++ D ++ ")" ++ newline ++ "    (:requirements " ++ r ++ ")" ++ newline ++
      section ":types" ty ++ newline ++ section ":constants" c ++ newline ++ section ":predicates" p ++ newline ++
      section ":functions" f ++ newline ++ "    " ++ "" ++ newline ++ newline ++ "    " ++ a ++ newline ++ ")" ++ newline) =
  Ok (L (A (TKey "define") :: L [A (TKey "domain"); A (TName D)] :: L (A (TKey ":requirements") :: rs) :: L (A (TKey ":types") :: tys) :: L (A (TKey ":constants") :: cx) ::
         L (A (TKey ":predicates") :: px) :: L (A (TKey ":functions") :: fx) :: ax)).
Proof.
  intros HD Hr Ht Hc Hp Hf Ha. apply header_document; [now left|].
  assert (E : "(define (domain " ++ D ++ ")" ++ newline ++ "    (:requirements " ++ r ++ ")" ++ newline ++
      section ":types" ty ++ newline ++ section ":constants" c ++ newline ++ section ":predicates" p ++ newline ++
      section ":functions" f ++ newline ++ "    " ++ "" ++ newline ++ newline ++ "    " ++ a ++ newline ++ ")" ++ newline =
    ("(" ++ "define" ++ " " ++ (("(" ++ "domain" ++ " " ++ D ++ ")") ++ (newline ++ "    ") ++ (("(" ++ ":requirements" ++ " " ++ r ++ ")") ++ newline ++
      (section ":types" ty ++ newline ++ (section ":constants" c ++ newline ++ (section ":predicates" p ++ newline ++
      (section ":functions" f ++ (newline ++ "    " ++ newline ++ newline ++ "    ") ++ (a ++ newline))))))) ++ ")") ++ newline) by (rewrite !sapp_assoc; reflexivity).
  rewrite E. apply (reads_trails newline); [reflexivity|]. apply reads_form; [key|].
  apply (reads_gap (newline ++ "    ") _ _ [_]); [discriminate|reflexivity|apply reads_form; [key|now apply name_reads]|].
  apply (reads_gap newline _ _ [_]); [discriminate|reflexivity|apply reads_form; [key|exact Hr]|].
  apply (reads_gap newline _ _ [_]); [discriminate|reflexivity|apply section_reads; [key|exact Ht]|].
  apply (reads_gap newline _ _ [_]); [discriminate|reflexivity|apply section_reads; [key|exact Hc]|].
  apply (reads_gap newline _ _ [_]); [discriminate|reflexivity|apply section_reads; [key|exact Hp]|].
  apply (reads_gap _ _ _ [_]); [discriminate|reflexivity|apply section_reads; [key|exact Hf]|].
  apply (reads_trails newline); [reflexivity|exact Ha].
Qed.
Lemma instance_text N D o ox i ix g gx m mx : legal_name N = true -> legal_name D = true -> reads o ox -> reads i ix -> reads g gx -> reads m mx ->
  document (header "Instance" ++ "(define (problem " ++ N ++ ")" ++ newline ++ "    (:domain " ++ D ++ ")" ++ newline ++ newline ++
      section ":objects" o ++ newline ++ section ":init" i ++ newline ++ section ":goal" g ++ newline ++
      "    " ++ newline ++ "    " ++ "" ++ newline ++ "    " ++ m ++ newline ++ ")" ++ newline) =
  Ok (L (A (TKey "define") :: L [A (TKey "problem"); A (TName N)] :: L [A (TKey ":domain"); A (TName D)] :: L (A (TKey ":objects") :: ox) :: L (A (TKey ":init") :: ix) :: L (A (TKey ":goal") :: gx) :: mx)).
Proof.
  intros HN HD Ho Hi Hg Hm. apply header_document; [now right|].
  assert (E : "(define (problem " ++ N ++ ")" ++ newline ++ "    (:domain " ++ D ++ ")" ++ newline ++ newline ++
      section ":objects" o ++ newline ++ section ":init" i ++ newline ++ section ":goal" g ++ newline ++
      "    " ++ newline ++ "    " ++ "" ++ newline ++ "    " ++ m ++ newline ++ ")" ++ newline =
    ("(" ++ "define" ++ " " ++ (("(" ++ "problem" ++ " " ++ N ++ ")") ++ (newline ++ "    ") ++ (("(" ++ ":domain" ++ " " ++ D ++ ")") ++ (newline ++ newline) ++
      (section ":objects" o ++ newline ++ (section ":init" i ++ newline ++ (section ":goal" g ++ (newline ++ "    " ++ newline ++ "    " ++ newline ++ "    ") ++ (m ++ newline)))))) ++ ")") ++ newline) by (rewrite !sapp_assoc; reflexivity).
  rewrite E. apply (reads_trails newline); [reflexivity|]. apply reads_form; [key|].
  apply (reads_gap (newline ++ "    ") _ _ [_]); [discriminate|reflexivity|apply reads_form; [key|now apply name_reads]|].
  apply (reads_gap (newline ++ newline) _ _ [_]); [discriminate|reflexivity|apply reads_form; [key|now apply name_reads]|].
  apply (reads_gap newline _ _ [_]); [discriminate|reflexivity|apply section_reads; [key|exact Ho]|].
  apply (reads_gap newline _ _ [_]); [discriminate|reflexivity|apply section_reads; [key|exact Hi]|].
  apply (reads_gap _ _ _ [_]); [discriminate|reflexivity|apply section_reads; [key|exact Hg]|].
  apply (reads_trails newline); [reflexivity|exact Hm].
Qed.
Lemma foldM_map {X Y T} (f : T -> Y -> res T) (g : X -> Y) xs : forall s, foldM f s (map g xs) = foldM (fun s x => f s (g x)) s xs.
Proof. induction xs as [|x xs IH]; intros s; [reflexivity|]. cbn [map foldM]. destruct (f s (g x)); cbn [bind]; auto. Qed.
Lemma foldM_ext {X T} (f g : T -> X -> res T) xs : (forall s x, In x xs -> f s x = g s x) -> forall s, foldM f s xs = foldM g s xs.
Proof. induction xs as [|x xs IH]; intros H s; [reflexivity|]. cbn [foldM]. rewrite H by now left. destruct (g s x); cbn [bind]; [apply IH; intros; apply H; now right|reflexivity]. Qed.
Lemma NoDup_drop {X} (a b c : list X) : NoDup (a ++ b ++ c) -> NoDup (a ++ c).
Proof. induction b as [|x b IH]; cbn [app]; intros H; [exact H|]. apply IH. now apply NoDup_remove_1 in H. Qed.
Lemma names_fewer S P P' F F' C C' : NoDup (names_of S (P ++ P') (F ++ F') (C ++ C')) -> NoDup (names_of S P F C).
Proof.
  unfold names_of. rewrite !map_app. intros H.
  set (s := map CStr S) in *. set (p := map CStr (map fst P)) in *. set (f := map CStr (map fst F)) in *. set (c := map fst C) in *.
  set (p' := map CStr (map fst P')) in *. set (f' := map CStr (map fst F')) in *. set (c' := map fst C') in *. clearbody s p f c p' f' c'.
  assert (H1 : NoDup ((s ++ p) ++ f ++ f' ++ c ++ c')) by (apply (NoDup_drop _ p'); rewrite <- !app_assoc in *; exact H).
  assert (H2 : NoDup ((s ++ p ++ f) ++ c ++ c')) by (apply (NoDup_drop _ f'); rewrite <- !app_assoc in *; exact H1).
  assert (H3 : NoDup ((s ++ p ++ f ++ c) ++ [])) by (apply (NoDup_drop _ c'); rewrite app_nil_r; rewrite <- !app_assoc in *; exact H2).
  rewrite app_nil_r in H3. exact H3.
Qed.
