(** Specifications for C208-C212. *)
From Coq Require Import ZArith QArith.
From Verif Require Import RtiModel.
From Coq Require Import List.
Open Scope Z_scope.

(** The integers that the bounds allow. *)
Definition allowed (b : int_bounds) (z : Z) : Prop :=
  match b with Free => True | Both mn mx => mn <= z <= mx | AtLeast mn => mn <= z | AtMost mx => z <= mx end.
(** Bounds that can be made, of ints. *)
Definition int_range (z : Z) : Prop := - 2 ^ 31 <= z < 2 ^ 31.
Definition proper_bounds (b : int_bounds) : Prop :=
  match b with Free => True | Both mn mx => int_range mn /\ int_range mx /\ mn < mx | AtLeast mn => int_range mn | AtMost mx => int_range mx end.
(** What rng.uniform(range) can answer. *)
Definition draws_for (b : int_bounds) (us : nat -> Q) : Prop :=
  match b with Both mn mx => forall i, (0 <= us i /\ us i < inject_Z mx - inject_Z mn)%Q | _ => True end.
