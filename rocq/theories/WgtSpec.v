(** Specification for the scalarizations and the weight strategies, independent of the model. *)
From Coq Require Import List QArith Arith.
From Verif Require Import ParetoSpec.
Import ListNotations.
Local Open Scope Q_scope.

Definition total_of (l : list Q) : Q := fold_right Qplus 0 l.
Definition nonnegative (w : list Q) : Prop := Forall (fun x => 0 <= x) w.
Definition positive (w : list Q) : Prop := Forall (fun x => 0 < x) w.
(** by how much [x] is worse than [y] *)
Definition worse_by (minimise : bool) (x y : Q) : Q := if minimise then x - y else y - x.
(** the weighted amounts by which [v] is worse than [ref], objective by objective *)
Definition weighted_shortfalls (dirs : list bool) (weight ref v l : list Q) : Prop :=
  length l = length dirs /\
  forall i d w x y, nth_error weight i = Some w -> objective dirs v ref i d x y -> nth_error l i = Some (w * worse_by d x y).
(** [m] is the greatest, or the least, number of the list *)
Definition greatest_in (l : list Q) (m : Q) : Prop := In m l /\ forall x, In x l -> x <= m.
Definition least_in (l : list Q) (m : Q) : Prop := In m l /\ forall x, In x l -> m <= x.
(** p/q is a reduced fraction strictly between 0 and 1 *)
Definition reduced (p q : nat) : Prop := (1 <= p < q)%nat /\ Nat.gcd p q = 1%nat.
(** by increasing denominator, then numerator *)
Definition before (a b : nat * nat) : Prop := (snd a < snd b)%nat \/ (snd a = snd b /\ fst a < fst b)%nat.
Definition fraction (pq : nat * nat) : Q := inject_Z (Z.of_nat (fst pq)) / inject_Z (Z.of_nat (snd pq)).
(** two weights between 0 and 1 that add up to 1 *)
Definition two_weights (w : Q * Q) : Prop := 0 <= fst w <= 1 /\ 0 <= snd w <= 1 /\ fst w + snd w == 1.
