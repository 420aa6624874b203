(** Specification of the hypervolume (C47), independent of the model: the measure of a finite
    union of boxes with a corner at the origin, by counting grid cells. *)
From Coq Require Import List Arith ZArith QArith.
Import ListNotations.
Close Scope Q_scope.
Open Scope nat_scope.

Definition natQ (n : nat) : Q := inject_Z (Z.of_nat n).
(** the first [k] coordinates of every point are non-negative multiples of 1/g *)
Definition on_grid (g k : nat) (pts : list (list Q)) : Prop :=
  0 < g /\ forall p i, In p pts -> i < k -> exists x m, nth_error p i = Some x /\ (x * natQ g == natQ m)%Q.
(** the cell of coordinates [c] on the grid of step 1/g (from c/g to (c+1)/g in each of the [k]
    dimensions) lies in one of the boxes from the origin to the points *)
Definition cell_inside (g k : nat) (pts : list (list Q)) (c : list nat) : Prop :=
  length c = k /\ exists p, In p pts /\ forall i a x, nth_error c i = Some a -> nth_error p i = Some x -> ((natQ a + 1) <= x * natQ g)%Q.
(** [v] is the volume of the union of the boxes: the number of cells inside, times the volume
    of a cell *)
Definition volume_on_grid (g k : nat) (pts : list (list Q)) (v : Q) : Prop :=
  exists cells, NoDup cells /\ (forall c, In c cells <-> cell_inside g k pts c) /\ (v * (natQ g) ^ (Z.of_nat k) == natQ (length cells))%Q.
(** coordinates are non-negative *)
Definition in_orthant (k : nat) (pts : list (list Q)) : Prop :=
  forall p i, In p pts -> i < k -> exists x, nth_error p i = Some x /\ (0 <= x)%Q.
(** the volume: on every grid that holds the points (there is one) *)
Definition is_hypervolume (k : nat) (pts : list (list Q)) (v : Q) : Prop :=
  (exists g, on_grid g k pts) /\ forall g, on_grid g k pts -> volume_on_grid g k pts v.
(** [q] is the point [p] seen from the reference point, objective by objective, in the direction
    of improvement ([true]: minimised), after scaling each objective from its bounds to 0..1 *)
Definition seen_from (dirs : list bool) (ref : list Q) (bounds : list (Q * Q)) (p q : list Q) : Prop :=
  length q = length dirs /\
  forall i d r mn mx x y, nth_error dirs i = Some d -> nth_error ref i = Some r -> nth_error bounds i = Some (mn, mx) ->
    nth_error p i = Some x -> nth_error q i = Some y ->
    (y == let t := (x - mn) / (mx - mn) in if d then r - t else t - r)%Q.
(** the point [p] is no worse than the reference point [ref] on every objective *)
Definition no_worse (dirs : list bool) (ref p : list Q) : Prop :=
  forall i d r x, nth_error dirs i = Some d -> nth_error ref i = Some r -> nth_error p i = Some x -> if d then (x <= r)%Q else (r <= x)%Q.
(** [mn] and [mx] are the extreme values of objective [i] over a set of points, and differ *)
Definition spans (set : list (list Q)) (i : nat) (mn mx : Q) : Prop :=
  (exists p, In p set /\ nth_error p i = Some mn) /\ (exists p, In p set /\ nth_error p i = Some mx) /\
  (forall p x, In p set -> nth_error p i = Some x -> (mn <= x <= mx)%Q) /\ (mn < mx)%Q.
(** [p] is at least as good as [q] on every objective *)
Definition at_least (dirs : list bool) (p q : list Q) : Prop :=
  forall i d x y, nth_error dirs i = Some d -> nth_error p i = Some x -> nth_error q i = Some y -> if d then (x <= y)%Q else (y <= x)%Q.
