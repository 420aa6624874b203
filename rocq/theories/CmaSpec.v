(** What the matrices and the parameters of the CMA evolution strategy must be. *)
From Coq Require Import List Arith Reals.
Import ListNotations.
Open Scope R_scope.

(** sum of f 0 ... f (n-1) *)
Definition sum_over (n : nat) (f : nat -> R) : R := fold_right Rplus 0 (map f (seq 0 n)).
Definition total (l : list R) : R := fold_right Rplus 0 l.
(** x M x for the first [n] coordinates *)
Definition quadratic (n : nat) (M : nat -> nat -> R) (x : nat -> R) : R := sum_over n (fun i => sum_over n (fun j => M i j * x i * x j)).
Definition symmetric (M : nat -> nat -> R) : Prop := forall i j, M i j = M j i.
Definition positive_definite (n : nat) (M : nat -> nat -> R) : Prop := forall x, (exists i, (i < n)%nat /\ x i <> 0) -> 0 < quadratic n M x.
Definition identity (i j : nat) : R := if Nat.eqb i j then 1 else 0.
(** both products with the transpose are the identity *)
Definition orthogonal (n : nat) (B : nat -> nat -> R) : Prop :=
  (forall i j, (i < n)%nat -> (j < n)%nat -> sum_over n (fun k => B k i * B k j) = identity i j) /\
  (forall i j, (i < n)%nat -> (j < n)%nat -> sum_over n (fun k => B i k * B j k) = identity i j).
(** M = B diag(e) B^T with B orthogonal: the columns of B are eigenvectors, the e the eigenvalues *)
Definition eigen_system (n : nat) (M : nat -> nat -> R) (e : nat -> R) (B : nat -> nat -> R) : Prop :=
  orthogonal n B /\ forall i j, (i < n)%nat -> (j < n)%nat -> M i j = sum_over n (fun k => B i k * e k * B j k).
(** weights of a weighted average *)
Definition average_weights (w : list R) : Prop := Forall (fun x => 0 <= x) w /\ total w = 1.
(** parameters a state can work with: as many weights as parents, a weighted average, learning rates strictly between 0 and 1 *)
Definition usable (n mu : nat) (weights : list R) (mucov ccov ccumcov : R) : Prop :=
  (1 <= n)%nat /\ length weights = mu /\ average_weights weights /\ 1 <= mucov /\ 0 < ccov < 1 /\ 0 < ccumcov < 1.
(** strictly increasing or strictly decreasing *)
Definition strictly_monotone (g : R -> R) : Prop := (forall a b, a < b -> g a < g b) \/ (forall a b, a < b -> g b < g a).
