(** What the adaptive normal distribution and its estimator must be. The words on matrices are those of CmaSpec. *)
From Coq Require Import List Arith Reals.
From Verif Require Import CmaSpec.
Import ListNotations.
Open Scope R_scope.

(** symmetric on the indices below [n] *)
Definition symmetric_to (n : nat) (M : nat -> nat -> R) : Prop := forall i j, (i < n)%nat -> (j < n)%nat -> M i j = M j i.
(** the contract of the eigen solver in dimension [n]: it succeeds on a symmetric matrix, and gives its eigenvalues and orthonormal
    eigenvectors *)
Definition solves (n : nat) (solver : nat -> (nat -> nat -> R) -> bool * (nat -> R) * (nat -> nat -> R)) : Prop :=
  forall M, symmetric_to n M -> exists e B, solver n M = (true, e, B) /\ eigen_system n M e B.
(** a covariance a search can go on with: symmetric, positive definite; and a coordinate system with positive scalings *)
Definition healthy (n : nat) (C B : nat -> nat -> R) (D : nat -> R) (sigma : R) : Prop :=
  symmetric_to n C /\ positive_definite n C /\ orthogonal n B /\ (forall k, (k < n)%nat -> 0 < D k) /\ 0 < sigma.
(** [M] undoes the covariance [C] of a sample: M C M = I and M is symmetric *)
Definition whitens (n : nat) (M C : nat -> nat -> R) : Prop :=
  symmetric_to n M /\ forall i j, (i < n)%nat -> (j < n)%nat -> sum_over n (fun k => sum_over n (fun l => M i k * C k l * M l j)) = identity i j.
(** the expected length of a normal vector in [n] dimensions, as approximated in the literature on CMA-ES *)
Definition expected_length (n : nat) : R := sqrt (INR n) * (1 - 1 / (4 * INR n) + 1 / (21 * INR n ^ 2)).
(** a population of points in [n] dimensions, small enough for the learning rates: at most (n+2)^2/2 individuals *)
Definition fits (n : nat) (pop : list (list R)) : Prop := pop <> [] /\ Forall (fun x => length x = n) pop /\ (2 * length pop <= (n + 2) * (n + 2))%nat.
(** ratio of the largest to the smallest of n numbers *)
Definition largest (n : nat) (e : nat -> R) (x : R) : Prop := (exists k, (k < n)%nat /\ e k = x) /\ forall k, (k < n)%nat -> e k <= x.
Definition smallest (n : nat) (e : nat -> R) (x : R) : Prop := (exists k, (k < n)%nat /\ e k = x) /\ forall k, (k < n)%nat -> x <= e k.
