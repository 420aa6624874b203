(** What the other particle swarm components must do. *)
From Coq Require Import List Arith Bool ZArith QArith.
From Verif Require Import PsoSpec.
From Coq Require Import List.
Import ListNotations.
Open Scope nat_scope.

(** the bounds of component [j]: the last one given holds for all the components after it *)
Definition bound_for {B} (b : list B) (j : nat) (c : B) : Prop :=
  nth_error b j = Some c \/ length b <= j /\ exists front, b = front ++ [c].
(** a rational that is an integer *)
Definition integral (q : Q) : Prop := exists z : Z, (q == inject_Z z)%Q.
(** [z] is the integer nearest to [q], the one further from zero for halves *)
Definition nearest (q : Q) (z : Z) : Prop :=
  (q - (1 # 2) <= inject_Z z <= q + (1 # 2))%Q /\
  (inject_Z z == q - (1 # 2) -> q < 0)%Q /\ (inject_Z z == q + (1 # 2) -> 0 <= q)%Q.
