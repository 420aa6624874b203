(** Specification of the components of edo (C137, C138, C140, C141), independent of the model. *)
From Coq Require Import ZArith QArith Qabs List Bool Arith.
Import ListNotations.
Open Scope Q_scope.

(** the bounds of a box: as many minima as maxima, no minimum above its maximum *)
Definition proper_box (mins maxs : list Q) : Prop := Forall2 Qle mins maxs.
(** every component of [v] is between its bounds *)
Definition in_box (mins maxs v : list Q) : Prop := Forall2 Qle mins v /\ Forall2 Qle v maxs.
(** component [d] of [v] is between its bounds *)
Definition inside_at (mins maxs v : list Q) (d : nat) : Prop := nth d mins 0 <= nth d v 0 <= nth d maxs 0.
Definition dist (x y : Q) : Q := Qabs (x - y).
Definition integer (x : Q) : Prop := exists z : Z, x == inject_Z z.
Definition multiple (step x : Q) : Prop := exists z : Z, x == inject_Z z * step.
(** what becomes of the component number [i] of value [x] when the functions of the index sets it belongs to are applied in turn *)
Fixpoint applied (pairs : list (list nat * (Q -> Q))) (i : nat) (x : Q) : Q :=
  match pairs with
  | [] => x
  | (idx, f) :: pairs => applied pairs i (if existsb (Nat.eqb i) idx then f x else x)
  end.

(** the column [d] of a population *)
Definition values {A} (dummy : A) (pop : list (list A)) (d : nat) : list A := map (fun x => nth d x dummy) pop.
Definition least (l : list Q) (m : Q) : Prop := In m l /\ forall x, In x l -> m <= x.
Definition greatest (l : list Q) (m : Q) : Prop := In m l /\ forall x, In x l -> x <= m.
(** all the vectors have [n] components *)
Definition same_size {A} (n : nat) (pop : list (list A)) : Prop := Forall (fun x => length x = n) pop.
(** the proportion of the [true] *)
Definition proportion (l : list bool) : Q := inject_Z (Z.of_nat (length (filter (fun b => b) l))) / inject_Z (Z.of_nat (length l)).

(** a run of a distribution-based search that began with [pop], showed the populations [tr] to the stopping criterion of
    populations, and ended with the distribution [d]: every population shown but the last let it go on; then either the criterion
    of distributions refused [d], or the criterion of populations refused the last population *)
Definition stopped {P D W} (pop_cont : P -> W -> option (bool * W)) (distrib_cont : D -> W -> option (bool * W)) (tr : list P) (d : D) : Prop :=
  let says_p p b := exists w w', pop_cont p w = Some (b, w') in
  (Forall (fun p => says_p p true) tr /\ exists w w', distrib_cont d w = Some (false, w')) \/
  (exists tr' p, tr = tr' ++ [p] /\ Forall (fun p => says_p p true) tr' /\ says_p p false).
