(** What a user expects of a register of named definitions after a history of requests *)
From Verif Require Import Base Syntax ModelState Lang Containers.

Section Spec.
Variable A : Type.
(** which request defines what, and whether it was acceptable after the requests before it *)
Variable defines : request -> option (string * A).
Variable acceptable : list request -> string -> A -> Prop.
Definition accepted_at (h1 : list request) (q : request) (n : string) (a : A) : Prop := defines q = Some (n, a) /\ acceptable h1 n a.
(** [a] is the first acceptable definition of [n] in the history *)
Definition first_definition (h : list request) (n : string) (a : A) : Prop :=
  exists h1 q h2, h = (h1 ++ q :: h2)%list /\ accepted_at h1 q n a /\ forall h1' q' h2' a', h1 = (h1' ++ q' :: h2')%list -> ~ accepted_at h1' q' n a'.
(** [a] is the last one *)
Definition last_definition (h : list request) (n : string) (a : A) : Prop :=
  exists h1 q h2, h = (h1 ++ q :: h2)%list /\ accepted_at h1 q n a /\ forall h3 q' h4 a', h2 = (h3 ++ q' :: h4)%list -> ~ accepted_at (h1 ++ q :: h3) q' n a'.
Definition undefined (h : list request) (n : string) : Prop := forall h1 q h2 a, h = (h1 ++ q :: h2)%list -> ~ accepted_at h1 q n a.
End Spec.

Definition an_action (q : request) := match q with QAction n a => Some (n, a) | _ => None end.
Definition a_derived (q : request) := match q with QDerived n d => Some (n, d) | _ => None end.
Definition a_reaction (q : request) := match q with QReaction n r => Some (n, r) | _ => None end.
Definition a_diff (q : request) := match q with QDiff n d => Some (n, d) | _ => None end.
Definition a_sensor (q : request) := match q with QSensor n s => Some (n, s) | _ => None end.
Definition anything {A} (h : list request) (n : string) (a : A) : Prop := True.

(** the language after a history *)
Definition declarations (h : list request) : list lop := flat_map (fun q => match q with QLang o => [o] | _ => [] end) h.
(** a derived predicate is a predicate of the language, whose sorts are those of the parameters *)
Definition fits_predicate (parse : bool -> string -> option Z) (h : list request) (n : string) (d : derived) : Prop :=
  sget (l_preds (lrun parse (declarations h))) n = Some (map snd (de_parameters d)).
(** an observation is a literal *)
Definition literal_observation (h : list request) (n : string) (s : sensor) : Prop := exists p ts, se_obs s = Atom p ts \/ exists fs, se_obs s = Comp Not (Atom p ts :: fs).
(** the variate is a function of the user applied to arguments *)
Definition proper_variate (h : list request) (n : string) (d : diffconstraint) : Prop := exists f ss c ts, dc_variate d = App (FU f ss c) ts.
(** what the code tests instead *)
Definition code_variate (h : list request) (n : string) (d : diffconstraint) : Prop := (exists f ts, dc_variate d = App f ts) /\ forall r, ~ In (QReaction n r) h.
