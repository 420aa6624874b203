(** Specification of the indicator-based fitness (C105) and of the hypervolume-difference
    indicator (C106), independent of the model.  A solution is its objective vector and its
    fitness; [h] is the decreasing weight exp(-x/kappa); [ind y x] the indicator of y against x. *)
From Coq Require Import List QArith Permutation.
From Verif Require Import EvalSpec ParetoSpec HvSpec.
Import ListNotations.
Close Scope Q_scope.
Open Scope nat_scope.

(** every solution's fitness is minus the sum, over the other solutions of the population, of the
    weight of their indicator against it *)
Definition indicator_fitness (h : Q -> Q) (ind : list Q -> list Q -> Q) (pop : list (list Q * Q)) : Prop :=
  forall before x f after, pop = before ++ (x, f) :: after ->
  (f == - qsum (before ++ after) (fun y => h (ind (fst y) x)))%Q.
(** [b] = (minimum, range) is spanned by the values of objective [i] in the population; when all
    are the same value v, the bounds are v - 1e-6 and v + 1e-6 *)
Definition spanned_bound (pop : list (list Q * Q)) (i : nat) (b : Q * Q) : Prop :=
  exists lo hi,
    (exists p, In p pop /\ nth_error (fst p) i = Some lo) /\ (exists p, In p pop /\ nth_error (fst p) i = Some hi) /\
    (forall p x, In p pop -> nth_error (fst p) i = Some x -> (lo <= x <= hi)%Q) /\
    ((lo < hi)%Q -> (fst b == lo)%Q /\ (snd b == hi - lo)%Q) /\
    ((lo == hi)%Q -> (fst b == lo - (1 # 1000000))%Q /\ (snd b == 2 # 1000000)%Q).
Definition spanned_bounds (nobj : nat) (pop : list (list Q * Q)) (bs : list (Q * Q)) : Prop :=
  length bs = nobj /\ forall i b, nth_error bs i = Some b -> spanned_bound pop i b.
(** one change of the population between two selections *)
Inductive change := Leaves (x : list Q) | Joins (x : list Q).
(** [w] is a weight: positive, strictly decreasing, the same on equal numbers *)
Definition weight (h : Q -> Q) : Prop :=
  (forall x, 0 < h x)%Q /\ (forall x y, x < y -> h y < h x)%Q /\ (forall x y, x == y -> h x == h y)%Q.
(** the vector lies inside the bounds (minimum, range), whose ranges are positive *)
Definition inside (bs : list (Q * Q)) (o : list Q) : Prop :=
  length o = length bs /\ forall i b x, nth_error bs i = Some b -> nth_error o i = Some x -> (fst b <= x <= fst b + snd b)%Q /\ (0 < snd b)%Q.
(** the sides of the box between a vector and the reference point, which lies [rho] times the
    range of each objective away from its best bound, as fractions of that length *)
Definition box_sides (rho : Q) (dirs : list bool) (bs : list (Q * Q)) (o p : list Q) : Prop :=
  length p = length dirs /\
  forall i (d : bool) mn range x y, nth_error dirs i = Some d -> nth_error bs i = Some (mn, range) -> nth_error o i = Some x -> nth_error p i = Some y ->
  (y == if d then (mn + rho * range - x) / (rho * range) else (x - (mn + range - rho * range)) / (rho * range))%Q.
