(** Specification of the statistics of mo (C131, C132), independent of the model. *)
From Coq Require Import List Bool Arith QArith.
Import ListNotations.
Close Scope Q_scope.
Open Scope nat_scope.

Fixpoint total (l : list Q) : Q := match l with [] => 0%Q | x :: r => (x + total r)%Q end.
Definition size (l : list Q) : Q := inject_Z (Z.of_nat (length l)).
Definition average (l : list Q) : Q := (total l / size l)%Q.
(** sum of the squares of the differences to the average *)
Definition scatter (l : list Q) : Q := total (map (fun x => (x - average l) * (x - average l))%Q l).
Definition variance (l : list Q) : Q := (scatter l / size l)%Q.
Definition covariance (l r : list Q) : Q :=
  (total (map (fun p => (fst p - average l) * (snd p - average r))%Q (combine l r)) / size l)%Q.
(** [v] is the value of rank [k], from 0, of [l] *)
Definition ranked (l : list Q) (k : nat) (v : Q) : Prop :=
  In v l /\ length (filter (fun x => negb (Qle_bool v x)) l) <= k < length (filter (fun x => Qle_bool x v) l).
Definition how_many {A} (p : A -> bool) (l : list A) : nat := length (filter p l).

(** sum of [f j] for j from 1 to k *)
Fixpoint sum1 (f : nat -> Q) (k : nat) : Q := match k with 0 => 0%Q | S k' => (sum1 f k' + f k)%Q end.
Definition gap (i j : nat) : nat := (i - j) + (j - i).
(** the Yule-Walker equations of order [k] *)
Definition yule_walker (rho : nat -> Q) (k : nat) (phi : nat -> Q) : Prop :=
  forall i, 1 <= i <= k -> (sum1 (fun j => phi j * rho (gap i j)) k == rho i)%Q.
(** what the prediction of order [k] leaves unexplained *)
Definition unexplained (rho phi : nat -> Q) (k : nat) : Q := (1 - sum1 (fun j => phi j * rho j) k)%Q.
