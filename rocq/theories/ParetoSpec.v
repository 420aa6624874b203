(** Specification of domination between objective vectors, independent of the model.
    An objective is a boolean, [true] when it is minimised. *)
From Coq Require Import List QArith.
Import ListNotations.
Local Open Scope Q_scope.

(** value [x] is better than [y] by more than [t] *)
Definition better_by (t : Q) (minimise : bool) (x y : Q) : Prop :=
  if minimise then y - x > t else x - y > t.
Definition better := better_by 0.

(** objective [i] of two vectors *)
Definition objective (dirs : list bool) (v w : list Q) (i : nat) (d : bool) (x y : Q) : Prop :=
  nth_error dirs i = Some d /\ nth_error v i = Some x /\ nth_error w i = Some y.

(** textbook Pareto domination: [v] is nowhere worse and somewhere better than [w] *)
Definition dominates (dirs : list bool) (v w : list Q) : Prop :=
  (forall i d x y, objective dirs v w i d x y -> ~ better d y x) /\
  (exists i d x y, objective dirs v w i d x y /\ better d x y).
(** the same when differences up to [t] are ignored *)
Definition dominates_tol (t : Q) (dirs : list bool) (v w : list Q) : Prop :=
  (forall i d x y, objective dirs v w i d x y -> ~ better_by t d y x) /\
  (exists i d x y, objective dirs v w i d x y /\ better_by t d x y).
Definition weakly_dominates (dirs : list bool) (v w : list Q) : Prop :=
  forall i d x y, objective dirs v w i d x y -> ~ better d y x.
Definition strictly_dominates (dirs : list bool) (v w : list Q) : Prop :=
  forall i d x y, objective dirs v w i d x y -> better d x y.
(** equal vectors *)
Definition equal_vectors (v w : list Q) : Prop :=
  length v = length w /\ forall i x y, nth_error v i = Some x -> nth_error w i = Some y -> x == y.

(** [e] is the least number with [P e] *)
Definition least (P : Q -> Prop) (e : Q) : Prop := P e /\ forall e', P e' -> e <= e'.
(** after being improved by [e] in every objective normalised by [norm], [v] is nowhere
    worse than [w] *)
Definition covers_with (norm : nat -> Q -> Q) (dirs : list bool) (v w : list Q) (e : Q) : Prop :=
  forall i d x y, objective dirs v w i d x y ->
  if d then norm i x - e <= norm i y else norm i y <= norm i x + e.

(** [v] is on one side of the reference point in every objective *)
Definition comparable_to (ref v : list Q) : Prop :=
  (forall i x y, nth_error v i = Some x -> nth_error ref i = Some y -> x <= y) \/
  (forall i x y, nth_error v i = Some x -> nth_error ref i = Some y -> y <= x).
(** a value of objective [i] normalised with the bounds (minimum, range) of the objective *)
Definition norm_of (bs : list (Q * Q)) (i : nat) (x : Q) : Q :=
  (x - fst (nth i bs (0, 1))) / snd (nth i bs (0, 1)).
