(** Specification of the Cholesky factor (C139), independent of the model. *)
From Coq Require Import Reals.
Open Scope R_scope.

(** f 0 + ... + f (n-1) *)
Fixpoint sum (n : nat) (f : nat -> R) : R := match n with 0%nat => 0 | S m => sum m f + f m end.
Definition symmetric (N : nat) (V : nat -> nat -> R) : Prop := forall i j, (i < N)%nat -> (j < N)%nat -> V i j = V j i.
(** x^T V x > 0 for every x that is not the null vector *)
Definition positive_definite (N : nat) (V : nat -> nat -> R) : Prop :=
  forall x, (exists i, (i < N)%nat /\ x i <> 0) -> 0 < sum N (fun i => sum N (fun j => x i * V i j * x j)).
(** L is lower triangular, has a positive diagonal, and L L^T = V *)
Definition cholesky_factor (N : nat) (V L : nat -> nat -> R) : Prop :=
  (forall i j, (i < j < N)%nat -> L i j = 0) /\ (forall i, (i < N)%nat -> 0 < L i i) /\
  (forall i j, (i < N)%nat -> (j < N)%nat -> sum N (fun k => L i k * L j k) = V i j).

(** an expectation: linear, and 1 on the constant 1 *)
Definition expectation {T} (E : (T -> R) -> R) : Prop :=
  (forall f g, (forall t, f t = g t) -> E f = E g) /\ (forall f g, E (fun t => f t + g t) = E f + E g) /\
  (forall c f, E (fun t => c * f t) = c * E f) /\ E (fun _ => 1) = 1.
(** the components of t have mean 0, variance 1 and are not correlated *)
Definition standard (N : nat) (E : ((nat -> R) -> R) -> R) : Prop :=
  (forall k, (k < N)%nat -> E (fun t => t k) = 0) /\
  (forall k l, (k < N)%nat -> (l < N)%nat -> E (fun t => t k * t l) = if Nat.eqb k l then 1 else 0).
