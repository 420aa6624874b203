(** Specification of the runs of multi-objective evolutionary algorithms (C149, C150), independent
    of the model's helpers. *)
From Coq Require Import List Arith Bool QArith Permutation.
From Verif Require Import Outcome OrderSpec ParetoSpec BreedModel MoaModel.
Import ListNotations.
Close Scope Q_scope.
Open Scope nat_scope.

Section Individuals.
Context {G : Type}.
Notation I := (indiv G worth).
(** the objective vector of a genotype *)
Variable value : G -> list Q.
(** carries the objective vector of its genotype; carries no wrong one *)
Definition measured (x : I) : Prop := exists v, fit x = Some v /\ vec v = value (geno x).
Definition not_wrong (x : I) : Prop := fit x = None \/ measured x.
(** also has a fitness and a diversity, so that selections can compare it *)
Definition comparable (x : I) : Prop := exists v f d, fit x = Some v /\ vec v = value (geno x) /\ wfit v = Some f /\ wdiv v = Some d.
(** what evaluating a population must do *)
Definition measures {W} (pe : list I -> list I -> W -> res (list I * list I * W)) : Prop :=
  forall par off w par' off' w', Forall measured par -> Forall not_wrong off -> pe par off w = Ok (par', off', w') ->
    Forall measured par' /\ Forall measured off' /\ map (@geno G worth) par' = map (@geno G worth) par /\ map (@geno G worth) off' = map (@geno G worth) off.
(** what breeding must do, given parents that satisfy [P] and an empty offspring population:
    offspring that carry no wrong objective vector *)
Definition breeds {W} (P : I -> Prop) (br : list I -> list I -> W -> res (list I * W)) : Prop :=
  forall pop w off w', Forall P pop -> br pop [] w = Ok (off, w') -> Forall not_wrong off.
(** what assigning fitnesses or diversities must do *)
Definition assigns {W} (f : list I -> W -> res (list I * W)) : Prop :=
  forall p w p' w', Forall measured p -> f p w = Ok (p', w') ->
    Forall measured p' /\ Permutation (map (@geno G worth) p) (map (@geno G worth) p').
(** what a replacement must do: choose among the parents and the offspring *)
Definition replaces {W} (rep : list I -> list I -> W -> res (list I * list I * W)) : Prop :=
  forall par off w par' off' w', Forall measured (par ++ off) -> rep par off w = Ok (par', off', w') ->
    Forall measured par' /\ forall x, In x par' -> exists y, In y (par ++ off) /\ geno y = geno x.

(** [y] is dominated by [x], both seen through their genotypes *)
Definition beats (dirs : list bool) (x y : I) : Prop := dominates dirs (value (geno x)) (value (geno y)).
Definition as_good (x y : I) : Prop := equal_vectors (value (geno x)) (value (geno y)).

(** what a generation of NSGA-II keeps of the parents and the offspring together *)
Definition elitist_step (dirs : list bool) (par off next : list I) : Prop :=
  (* as many as the parents, taken among the parents and the offspring *)
  length next = length par /\
  (exists dropped, Permutation (map (@geno G worth) (par ++ off)) (map (@geno G worth) next ++ dropped)) /\
  (* who dominates somebody kept is kept, or its objective vector is *)
  (forall x y, In x (par ++ off) -> In y next -> beats dirs x y -> exists z, In z next /\ as_good x z) /\
  (* a non-dominated objective vector is lost only when everybody kept is non-dominated *)
  (forall x, In x (par ++ off) -> (forall y, In y (par ++ off) -> ~ beats dirs y x) ->
    (exists z, In z next /\ as_good x z) \/ forall y z, In y (par ++ off) -> In z next -> ~ beats dirs y z).
End Individuals.

(** a history: every generation starts from (the genotypes of) the population the former left, up
    to the order *)
Fixpoint follows {G F} (start : list G) (h : list (generation (indiv G F))) : Prop :=
  match h with
  | [] => True
  | g :: r => Permutation start (map (@geno G F) (g_parents g)) /\ follows (map (@geno G F) (g_next g)) r
  end.

(** fitnesses that put the fronts in order: of two vectors, one dominating the other, the dominating
    one has somewhere a better fitness; a non-dominated vector has somewhere the best fitness *)
Definition orders_fronts (dirs : list bool) (l : list (list Q * Q)) : Prop :=
  (forall v f w g, In (v, f) l -> In (w, g) l -> dominates dirs w v -> exists w' g', In (w', g') l /\ equal_vectors w w' /\ (f < g')%Q) /\
  (forall v f, In (v, f) l -> (forall w g, In (w, g) l -> ~ dominates dirs w v) ->
     exists v' f', In (v', f') l /\ equal_vectors v v' /\ forall w g, In (w, g) l -> (g <= f')%Q).

(** two objectives must have the same direction (C95) *)
Definition usable (dirs : list bool) : Prop := dirs <> [] /\ forall a b, dirs = [a; b] -> a = b.

(** who makes the offspring of a generation only *)
Section Plain.
Context {G W : Type}.
Notation I := (indiv G (list Q)).
Variable value : G -> list Q.
Definition known (x : I) : Prop := fit x = Some (value (geno x)).
Definition unspoilt (x : I) : Prop := fit x = None \/ known x.
Definition evaluates_pop (pe : list I -> list I -> W -> res (list I * list I * W)) : Prop :=
  forall par off w par' off' w', Forall known par -> Forall unspoilt off -> pe par off w = Ok (par', off', w') ->
    par' = par /\ Forall known off' /\ map (@geno G (list Q)) off' = map (@geno G (list Q)) off.
Definition transforms (tr : list I -> W -> res (list I * W)) : Prop :=
  forall l w l' w', Forall known l -> tr l w = Ok (l', w') -> Forall unspoilt l'.
(** members of [l] dominated by / with the same vector *)
Definition under (dirs : list bool) (x y : I) : Prop := dominates dirs (value (geno y)) (value (geno x)).
Definition level (x y : I) : Prop := equal_vectors (value (geno x)) (value (geno y)).
End Plain.
