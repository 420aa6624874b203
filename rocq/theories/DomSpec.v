(** Specification of the dominance matrix, counts and ranks (C45), independent of the model. *)
From Coq Require Import List Arith ZArith.
From Verif Require Import RankSpec.
Import ListNotations.

(** exactly [c] of the positions below [n] satisfy [P] *)
Definition how_many (n : nat) (P : nat -> Prop) (c : nat) : Prop :=
  exists l, NoDup l /\ (forall i, In i l <-> i < n /\ P i) /\ length l = c.
(** position [l] repeats the vector of an earlier position *)
Definition repeats {V} (same : V -> V -> Prop) (vs : list V) (l : nat) : Prop :=
  exists k a b, k < l /\ nth_error vs k = Some a /\ nth_error vs l = Some b /\ same a b.
(** [D a b]: [b] dominates [a]. Position [k] beats position [l]: it dominates it; when copies
    are penalised, a copy beats nobody and is beaten by every other that is not a copy *)
Definition beats {V} (D same : V -> V -> Prop) (nocopy : bool) (vs : list V) (k l : nat) : Prop :=
  if nocopy then ~ repeats same vs k /\ (repeats same vs l \/ dominated_at D vs l k) else dominated_at D vs l k.
(** [s] is the sum of [w k] over the positions below [n] that satisfy [P] *)
Definition sum_over (n : nat) (P : nat -> Prop) (w : nat -> Z) (s : Z) : Prop :=
  exists l, NoDup l /\ (forall i, In i l <-> i < n /\ P i) /\ fold_right Z.add 0%Z (map w l) = s.
