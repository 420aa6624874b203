(** What distances and the correlation must be. *)
From Coq Require Import List Arith Reals.
Import ListNotations.
Open Scope R_scope.

Definition total (l : list R) : R := fold_right Rplus 0 l.
Definition mean (l : list R) : R := total l / INR (length l).
(** the deviations from the mean *)
Definition centred (l : list R) : list R := map (fun x => x - mean l) l.
(** scalar product *)
Definition scalar (a b : list R) : R := total (map (fun p => fst p * snd p) (combine a b)).
(** Pearson's coefficient: the covariance over the product of the standard deviations *)
Definition pearson (a b : list R) : R := scalar (centred a) (centred b) / (sqrt (scalar (centred a) (centred a)) * sqrt (scalar (centred b) (centred b))).
(** all the values are the same *)
Definition constant (l : list R) : Prop := forall x y, In x l -> In y l -> x = y.
(** a distance on the elements satisfying [P] *)
Definition metric {T} (P : T -> Prop) (d : T -> T -> R) : Prop :=
  (forall a b, P a -> P b -> 0 <= d a b) /\ (forall a b, P a -> P b -> (d a b = 0 <-> a = b)) /\
  (forall a b, P a -> P b -> d a b = d b a) /\ (forall a b c, P a -> P b -> P c -> d a c <= d a b + d b c).
(** the number of positions at which two lists differ *)
Definition differences {T} (eqb : T -> T -> bool) (a b : list T) : nat := length (filter (fun p => negb (eqb (fst p) (snd p))) (combine a b)).
