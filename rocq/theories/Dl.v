(** Description-logic concepts, roles, features and their factory: src/tarski/dl/concepts.py, features.py, factory.py.
    The "model" object that [denotation] receives is not part of the repository: it offers [universe()], [primitive_denotation(e)], a bitset encoding
    [compressed] of sets over the universe (with ~, & and |, [count]) and the cached [compressed_denotation(e)] / [uncompressed_denotation(e)] of [e.denotation(model)].
    It is modelled by [interp]; a set, compressed or not, is a duplicate-free list. *)
From Verif Require Import Base Syntax ModelState Algorithms.
#[local] Open Scope string_scope.

(** concepts.py:46-58 Concept with its subclasses, 61-73 Role. The flag of a primitive says whether it is the Goal variant (188, 451). The [sort] attribute that is passed to a
    constructor is kept; the others are computed by [csort] and [rsort]. *)
Inductive concept : Set :=
| CTop (s : sort)                                  (* UniversalConcept, 76 *)
| CBot (s : sort)                                  (* EmptyConcept, 99 *)
| CNominal (name : string) (s : sort)              (* 122 *)
| CPrim (goal : bool) (name : string) (s : sort)   (* PrimitiveConcept, GoalConcept 151, 188: built from a symbol or a sort *)
| CNot (c : concept) (s : sort)                    (* 195 *)
| CAnd (c1 c2 : concept) (s : sort)                (* 225 *)
| COr (c1 c2 : concept) (s : sort)                 (* 260 *)
| CExists (r : role) (c : concept)                 (* 295 *)
| CForall (r : role) (c : concept)                 (* 333 *)
| CEqual (r1 r2 : role) (s : sort)                 (* 375 *)
with role : Set :=
| RPrim (goal : bool) (name : string) (s1 s2 : sort)  (* PrimitiveRole, GoalRole 417, 451 *)
| RInverse (r : role)                              (* 458 *)
| RStar (r : role)                                 (* 491 *)
| RComp (r1 r2 : role)                             (* CompositionRole, 523 *)
| RRestrict (r : role) (c : concept).              (* 566 *)

(** The [sort] attributes: concepts.py:78, 101, 124, 157-162, 198, 229, 264, 300, 338, 379 and 422, 461-462, 494, 527, 570 *)
Fixpoint rsort (r : role) : sort * sort :=
  match r with
  | RPrim _ _ s1 s2 => (s1, s2)
  | RInverse r => (snd (rsort r), fst (rsort r))
  | RStar r | RRestrict r _ => rsort r
  | RComp r1 r2 => (fst (rsort r1), snd (rsort r2))
  end.
Definition csort (c : concept) : sort :=
  match c with
  | CTop s | CBot s | CNominal _ s | CPrim _ _ s | CNot _ s | CAnd _ _ s | COr _ _ s | CEqual _ _ s => s
  | CExists r _ | CForall r _ => fst (rsort r)
  end.
(** The [size] attributes (same lines) *)
Fixpoint csize (c : concept) : nat :=
  match c with
  | CTop _ | CBot _ => 0
  | CNominal _ _ | CPrim _ _ _ => 1
  | CNot c _ => 1 + csize c
  | CAnd c1 c2 _ | COr c1 c2 _ => 1 + csize c1 + csize c2
  | CExists r c | CForall r c => 1 + rsize r + csize c
  | CEqual r1 r2 _ => 1 + rsize r1 + rsize r2
  end
with rsize (r : role) : nat :=
  match r with
  | RPrim _ _ _ _ => 1
  | RInverse r | RStar r => 1 + rsize r
  | RComp r1 r2 => 1 + rsize r1 + rsize r2
  | RRestrict r c => 1 + rsize r + csize c
  end.
(** [flatten] (the last method of each class): the node, then the nodes of its components *)
Inductive element := EC (c : concept) | ER (r : role).
Fixpoint cflatten (c : concept) : list element :=
  EC c :: match c with
          | CTop _ | CBot _ | CNominal _ _ | CPrim _ _ _ => []
          | CNot c _ => cflatten c
          | CAnd c1 c2 _ | COr c1 c2 _ => (cflatten c1 ++ cflatten c2)%list
          | CExists r c | CForall r c => (rflatten r ++ cflatten c)%list
          | CEqual r1 r2 _ => (rflatten r1 ++ rflatten r2)%list
          end
with rflatten (r : role) : list element :=
  ER r :: match r with
          | RPrim _ _ _ _ => []
          | RInverse r | RStar r => rflatten r
          | RComp r1 r2 => (rflatten r1 ++ rflatten r2)%list
          | RRestrict r c => (rflatten r ++ cflatten c)%list
          end.

Section Denotation.
Context {A : Type} (eqb : A -> A -> bool).
Record interp := {
  i_universe : list A;
  i_nominal : string -> list A;
  i_concept : bool -> string -> list A;
  i_role : bool -> string -> list (A * A)
}.
Variable I : interp.
(** The iteration order of a Python set of pairs *)
Variable order : list (A * A) -> list (A * A).
(** Bound on the iterations of [transitive_closure] (see Algorithms.v) *)
Variable fuel : nat.

(** concepts.py:548-552: the first pair of [ext_r2] whose first component is [b] *)
Definition first_match (b : A) (ext_r2 : list (A * A)) : list A :=
  match find (fun xy => eqb b (fst xy)) ext_r2 with Some xy => [snd xy] | None => [] end.

(** The methods [denotation]: concepts.py:87-88, 110-111, 139-140, 176-177, 213-214, 246-249, 281-284, 317-322, 355-364, 396-406 and 439-440, 477-480, 509-512, 544-555, 587-591 *)
Fixpoint cdenotation (c : concept) : res (list A) :=
  match c with
  | CTop _ => Ok (i_universe I)
  | CBot _ => Ok []
  | CNominal n _ => Ok (i_nominal I n)
  | CPrim g n _ => Ok (i_concept I g n)
  | CNot c _ => let! e := cdenotation c in Ok (filter (fun x => negb (smem eqb x e)) (i_universe I))
  | CAnd c1 c2 _ => let! e1 := cdenotation c1 in let! e2 := cdenotation c2 in Ok (filter (fun x => smem eqb x e2) e1)
  | COr c1 c2 _ => let! e1 := cdenotation c1 in let! e2 := cdenotation c2 in Ok (sunion eqb e1 e2)
  | CExists r c => let! ext_c := cdenotation c in let! ext_r := rdenotation r in
                   Ok (sof eqb (map fst (filter (fun xy => smem eqb (snd xy) ext_c) ext_r)))
  | CForall r c => let! ext_c := cdenotation c in let! ext_r := rdenotation r in
                   Ok (filter (fun x => let ys := sunion eqb ext_c (filter (fun y => negb (smem (pair_eqb eqb) (x, y) ext_r)) (i_universe I)) in
                                        Nat.eqb (List.length (i_universe I)) (List.length ys)) (i_universe I))
  | CEqual r1 r2 _ => let! ext_r1 := rdenotation r1 in let! ext_r2 := rdenotation r2 in
                      Ok (filter (fun x => let left := map snd (filter (fun yz => eqb (fst yz) x) ext_r1) in
                                           let right := map snd (filter (fun yz => eqb (fst yz) x) ext_r2) in
                                           forallb (fun z => smem eqb z right) left && forallb (fun z => smem eqb z left) right) (i_universe I))
  end
with rdenotation (r : role) : res (list (A * A)) :=
  match r with
  | RPrim g n _ _ => Ok (i_role I g n)
  | RInverse r => let! ext_r := rdenotation r in Ok (sof (pair_eqb eqb) (map (fun xy => (snd xy, fst xy)) ext_r))
  | RStar r => let! ext_r := rdenotation r in transitive_closure eqb fuel ext_r
  | RComp r1 r2 => let! ext_r1 := rdenotation r1 in let! ext_r2 := rdenotation r2 in
                   Ok (sof (pair_eqb eqb) (flat_map (fun ab => map (fun y => (fst ab, y)) (first_match (snd ab) (order ext_r2))) ext_r1))
  | RRestrict r c => let! ext_c := cdenotation c in let! ext_r := rdenotation r in Ok (filter (fun xy => smem eqb (snd xy) ext_c) ext_r)
  end.

(** features.py:89-90 ConceptCardinalityFeature, 125-128 EmpiricalBinaryConcept, 212-226 MinDistanceFeature, 259-263 DifferenceFeature *)
Definition cardinality (c : concept) : res Z := let! e := cdenotation c in Ok (Z.of_nat (List.length e)).
Definition empirical_binary (c : concept) : res bool :=
  let! val := cardinality c in if Z.eqb val 0 then Ok false else if Z.eqb val 1 then Ok true else Err AssertionError.
Definition min_distance (c1 : concept) (r : role) (c2 : concept) : res Z :=
  let! e1 := cdenotation c1 in let! e2 := cdenotation c2 in let! er := rdenotation r in compute_min_distance eqb fuel e1 er e2.
Definition difference (c1 c2 : concept) : res bool := let! v1 := cardinality c1 in let! v2 := cardinality c2 in Ok (Z.ltb v1 v2).
End Denotation.
Arguments interp : clear implicits.

(** features.py:49-68: the qualitative change of a feature between two values (INC, DEC, ADD, DEL, NIL) *)
Inductive change := Add_ | Del_ | Inc | Dec | Nil_.
Definition int_diff (x y : Z) : res change :=
  if Z.ltb x 0 || Z.ltb y 0 then Err AssertionError else if Z.eqb x y then Ok Nil_ else if Z.ltb y x then Ok Dec else Ok Inc.
Definition bool_diff (x y : bool) : change := if y && negb x then Add_ else if x && negb y then Del_ else Nil_.

Section Factory.
(** [hashes c1 c2]: the precomputed hashes agree. They are digests over class names, names and the *identities* of the components (utils/hashing.py:9-26), so nothing is assumed about them. *)
Variable chash : concept -> concept -> bool.
Variable rhash : role -> role -> bool.
(** The methods [__eq__]: concepts.py:84-85, 107-108, 131-137, 168-174, 205-211, 237-244, 272-279, 308-315, 346-353, 387-394, 431-437, 469-475, 501-507, 535-542, 578-585 *)
Fixpoint ceqb (c d : concept) : bool :=
  match c, d with
  | CTop _, CTop _ | CBot _, CBot _ => true
  | CNominal n _, CNominal m _ => chash c d && String.eqb n m
  | CPrim g n _, CPrim h m _ => chash c d && Bool.eqb g h && String.eqb n m
  | CNot c' _, CNot d' _ => chash c d && ceqb c' d'
  | CAnd c1 c2 _, CAnd d1 d2 _ | COr c1 c2 _, COr d1 d2 _ => chash c d && ceqb c1 d1 && ceqb c2 d2
  | CExists r c', CExists q d' | CForall r c', CForall q d' => chash c d && ceqb c' d' && reqb r q
  | CEqual r1 r2 _, CEqual q1 q2 _ => chash c d && reqb r1 q1 && reqb r2 q2
  | _, _ => false
  end
with reqb (r q : role) : bool :=
  match r, q with
  | RPrim g n _ _, RPrim h m _ _ => rhash r q && Bool.eqb g h && String.eqb n m
  | RInverse r', RInverse q' | RStar r', RStar q' => rhash r q && reqb r' q'
  | RComp r1 r2, RComp q1 q2 => rhash r q && reqb r1 q1 && reqb r2 q2
  | RRestrict r' c, RRestrict q' d => rhash r q && ceqb c d && reqb r' q'
  | _, _ => false
  end.

(** [sub]: the language's [is_subtype] on the declared sorts (see C17; unknown sorts are not modelled). *)
Variable sub : sort -> sort -> bool.
Definition universe_sort : sort := "object".
(** fol.py:381-384 [are_vertically_related], 344-349 [most_restricted_type] *)
Definition related (s t : sort) : bool := sub s t || sub t s.
Definition most_restricted (s t : sort) : option sort := if sub s t then Some s else if sub t s then Some t else None.
Definition is_top (c : concept) : bool := match c with CTop _ => true | _ => false end.
Definition is_bot (c : concept) : bool := match c with CBot _ => true | _ => false end.
Definition is_not (c : concept) : bool := match c with CNot _ _ => true | _ => false end.
Definition is_restrict (r : role) : bool := match r with RRestrict _ _ => true | _ => false end.

(** factory.py:96-114 [create_exists_concept]; [None] is Python's None *)
Definition create_exists (r : role) (c : concept) : option concept :=
  if is_bot c then None
  else if negb (related (snd (rsort r)) (csort c)) then None
  else if is_restrict r && is_top c then None
  else Some (CExists r c).
(** factory.py:116-121 *)
Definition create_not (c : concept) : option concept := if is_not c then None else Some (CNot c universe_sort).
(** factory.py:123-137 *)
Definition create_forall (r : role) (c : concept) : option concept :=
  if is_top c then None else if negb (related (snd (rsort r)) (csort c)) then None else Some (CForall r c).
(** factory.py:139-156 *)
Definition create_and (c1 c2 : concept) : option concept :=
  if ceqb c1 c2 then None
  else if is_top c1 || is_bot c1 || (is_top c2 || is_bot c2) then None
  else match most_restricted (csort c1) (csort c2) with None => None | Some s => Some (CAnd c1 c2 s) end.
(** factory.py:158-168: without a common subsort the constructor's assertion (concepts.py:50) fails *)
Definition create_or (c1 c2 : concept) : res (option concept) :=
  if ceqb c1 c2 then Ok None
  else if is_top c1 || is_bot c1 || (is_top c2 || is_bot c2) then Ok None
  else match most_restricted (csort c1) (csort c2) with None => Err AssertionError | Some s => Ok (Some (COr c1 c2 s)) end.
(** factory.py:170-178 *)
Definition create_equal (r1 r2 : role) : option concept :=
  match most_restricted (fst (rsort r1)) (fst (rsort r2)) with None => None | Some s => Some (CEqual r1 r2 s) end.
(** factory.py:180-194 *)
Definition create_restrict (r : role) (c : concept) : option role :=
  if negb (related (snd (rsort r)) (csort c)) then None
  else if is_top c || is_bot c then None
  else if is_restrict r then None
  else Some (RRestrict r c).
(** factory.py:28-30 [filter_subnodes] with CompositionRole, counted *)
Definition compositions (l : list element) : nat := List.length (filter (fun e => match e with ER (RComp _ _) => true | _ => false end) l).
(** factory.py:196-213 *)
Definition create_composition (r1 r2 : role) : option role :=
  let result := RComp r1 r2 in
  if negb (related (snd (rsort r1)) (fst (rsort r2))) then None
  else if Nat.ltb 2 (compositions (rflatten result)) then None
  else Some result.
End Factory.
