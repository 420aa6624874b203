(** Specification of bounds repair (C26), independent of the model's
    functions (only the type [bounds] is shared). *)
From Coq Require Import ZArith QArith Qabs.
From Verif Require Import BoundsModel.
Open Scope Q_scope.

(** [y] is an image of [r] by the reflections on [mn] and [mx], that is by a translation
    of an even number of ranges, possibly after a reflection on [mn] *)
Definition mirror_image (mn mx r y : Q) : Prop :=
  exists k : Z, y == r + inject_Z k * (2 * (mx - mn)) \/ y == 2 * mn - r + inject_Z k * (2 * (mx - mn)).
(** [y] is the point of the set [S] nearest to [r] *)
Definition nearest (S : Q -> Prop) (r y : Q) : Prop := S y /\ forall z, S z -> Qabs (y - r) <= Qabs (z - r).
(** a rounding: monotone, and exact on [v] *)
Definition monotone (rnd : Q -> Q) : Prop := forall x y, x <= y -> rnd x <= rnd y.
Definition exact_on (rnd : Q -> Q) (v : Q) : Prop := rnd v == v.

(** the set a bound describes, and when it is not empty *)
Definition inside (b : bounds) (r : Q) : Prop :=
  match b with NoBounds => True | Interval mn mx => mn <= r <= mx | Below mn => mn <= r | Above mx => r <= mx end.
Definition not_empty (b : bounds) : Prop := match b with Interval mn mx => mn <= mx | _ => True end.
