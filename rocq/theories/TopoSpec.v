(** Specification of the migration topologies (C30), independent of the model. *)
From Coq Require Import List Arith.
Import ListNotations.

(** a matrix of [n] nodes whose entry [i], [j] is the truth of [edge i j] *)
Definition is_graph (n : nat) (m : list (list bool)) (edge : nat -> nat -> Prop) : Prop :=
  length m = n /\
  forall i line, nth_error m i = Some line -> length line = n /\
    forall j b, nth_error line j = Some b -> (b = true <-> edge i j).
(** indices differ in exactly one bit *)
Definition one_bit_apart (i j : nat) : Prop := exists k, Nat.lxor i j = 2 ^ k.
(** neighbours, up, down, left or right, in a grid with rows of [width] nodes *)
Definition grid_adjacent (width i j : nat) : Prop :=
  (i / width = j / width /\ (i mod width = S (j mod width) \/ j mod width = S (i mod width))) \/
  (i mod width = j mod width /\ (i / width = S (j / width) \/ j / width = S (i / width))).
(** the divisor of [n] that makes the squarest grid *)
Definition squarest (n h : nat) : Prop :=
  Nat.divide h n /\ h * h <= n /\ forall k, Nat.divide k n -> k * k <= n -> k <= h.
Definition prime (n : nat) : Prop := 1 < n /\ forall k, Nat.divide k n -> k = 1 \/ k = n.
