(** Independent specifications for the bit-string operators (C16-C18). *)
From Coq Require Import List Arith Bool.
Import ListNotations.

(** number of positions at which two equally long strings differ *)
Fixpoint hamming (a b : list bool) : nat :=
  match a, b with
  | x :: a', y :: b' => (if Bool.eqb x y then 0 else 1) + hamming a' b'
  | _, _ => 0
  end.

(** [c'] is [c] with exactly the positions satisfying [P] flipped *)
Definition flipped_exactly (c c' : list bool) (P : nat -> Prop) : Prop :=
  length c' = length c /\
  forall i b b', nth_error c i = Some b -> nth_error c' i = Some b' ->
    (P i -> b' = negb b) /\ (~ P i -> b' = b).

(** numerical value, first bit most significant *)
Fixpoint value_from (acc : nat) (c : list bool) : nat :=
  match c with
  | [] => acc
  | b :: r => value_from (2 * acc + (if b then 1 else 0)) r
  end.
Definition value (c : list bool) : nat := value_from 0 c.

(** the children [x1],[x2] are the parents [c1],[c2] with the loci in [S] exchanged *)
Definition exchanged {A} (S : nat -> bool) (c1 c2 x1 x2 : list A) : Prop :=
  length x1 = length c1 /\ length x2 = length c2 /\
  forall i, i < Nat.min (length c1) (length c2) ->
    nth_error x1 i = (if S i then nth_error c2 i else nth_error c1 i) /\
    nth_error x2 i = (if S i then nth_error c1 i else nth_error c2 i).
(** beyond the shorter parent nothing changes *)
Definition tails_kept {A} (c1 c2 x1 x2 : list A) : Prop :=
  forall i, Nat.min (length c1) (length c2) <= i ->
    nth_error x1 i = nth_error c1 i /\ nth_error x2 i = nth_error c2 i.

(** number of cut points at positions 1..i *)
Fixpoint cuts_upto (cut : nat -> bool) (i : nat) : nat :=
  match i with
  | 0 => 0
  | S j => cuts_upto cut j + (if cut (S j) then 1 else 0)
  end.
