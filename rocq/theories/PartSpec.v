(** Specification of partitions (C51), independent of the model's operations. *)
From Coq Require Import List Arith Sorted Permutation.
From Verif Require Import PartModel.
Import ListNotations.

(** the atoms 0..n-1, each in exactly one of the two sets *)
Definition partition_of (n : nat) (p : part) : Prop :=
  StronglySorted lt (selected p) /\ StronglySorted lt (rejected p) /\ Permutation (selected p ++ rejected p) (seq 0 n).
