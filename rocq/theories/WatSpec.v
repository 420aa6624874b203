(** What watches a multi-objective run must be. *)
From Coq Require Import List Arith Bool ZArith QArith Qminmax.
From Verif Require Import HvSpec EvalSpec.
From Coq Require Import List.
Import ListNotations.
Close Scope Q_scope.
Open Scope nat_scope.

(** every vector of [s2] has one in [s1] that is at least as good on every objective *)
Definition reaches (dirs : list bool) (s1 s2 : list (list Q)) : Prop := forall t, In t s2 -> exists a, In a s1 /\ at_least dirs a t.
(** [p] is strictly better than the reference point on every objective *)
Definition ahead_of (dirs : list bool) (ref p : list Q) : Prop :=
  forall i d r x, nth_error dirs i = Some d -> nth_error ref i = Some r -> nth_error p i = Some x -> if d then (x < r)%Q else (r < x)%Q.
(** [x] is the best value of objective [o] in the population, and [i] the first individual that has it *)
Definition best_value (d : bool) (o : nat) (pop : list (list Q)) (i : nat) (x : Q) : Prop :=
  (exists p, nth_error pop i = Some p /\ nth_error p o = Some x) /\
  (forall p y, In p pop -> nth_error p o = Some y -> if d then (x <= y)%Q else (y <= x)%Q) /\
  (forall j p y, j < i -> nth_error pop j = Some p -> nth_error p o = Some y -> if d then (x < y)%Q else (y < x)%Q).
(** the part of an objective in the fitness with constraints: the weighted value when it is the one to optimise, minus the
    weighted violation otherwise *)
Definition part (opt : bool) (d : bool) (w x y : Q) : Q :=
  (if opt then (if d then - (x * w) else x * w) else - (w * Qmax 0 (if d then x - y else y - x)))%Q.
