(** Specification of subsets of positions (C41), independent of the model. *)
From Coq Require Import List Arith Sorted.
Import ListNotations.

(** a subset of d of the positions 0..n-1, as an increasing list *)
Definition subset (n d : nat) (l : list nat) : Prop :=
  length l = d /\ StronglySorted lt l /\ forall x, In x l -> x < n.
(** [vec] lists every subset with a number of elements between lo and hi, each once *)
Definition all_subsets_once (n lo hi : nat) (vec : list (list nat)) : Prop :=
  NoDup vec /\ forall l, In l vec <-> exists d, lo <= d <= hi /\ subset n d l.
(** Pascal's triangle *)
Fixpoint binomial (n k : nat) : nat :=
  match n, k with
  | _, 0 => 1
  | 0, S _ => 0
  | S m, S j => binomial m j + binomial m (S j)
  end.
Fixpoint binomial_sum (n k : nat) : nat :=
  match k with
  | 0 => 0
  | S j => binomial_sum n j + binomial n (S j)
  end.
(** n (n-1) ... (n-k+1) and k! *)
Fixpoint falling (n k : nat) : nat :=
  match k with
  | 0 => 1
  | S j => n * falling (n - 1) j
  end.
(** [sol'] is [sol] with exactly the bits of [l] flipped *)
Definition flipped (l : list nat) (sol sol' : list bool) : Prop :=
  length sol' = length sol /\
  forall i, (In i l -> nth_error sol' i = option_map negb (nth_error sol i)) /\ (~ In i l -> nth_error sol' i = nth_error sol i).
