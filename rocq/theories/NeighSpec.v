(** Specification of explorations and moves (C34, C35), independent of the model. *)
From Coq Require Import List Arith.
Import ListNotations.

(** all pairs of positions i < j below [n], each once *)
Definition all_pairs_once (n : nat) (l : list (nat * nat)) : Prop :=
  NoDup l /\ forall i j, In (i, j) l <-> i < j < n.
(** [sol'] is [sol] with the elements at [i] and [j] exchanged *)
Definition exchanged {A} (i j : nat) (sol sol' : list A) : Prop :=
  length sol' = length sol /\ nth_error sol' i = nth_error sol j /\ nth_error sol' j = nth_error sol i /\
  forall k, k <> i -> k <> j -> nth_error sol' k = nth_error sol k.
(** [sol'] is [sol] with the elements from [i] to [j], both included, in reverse order *)
Definition reversed {A} (i j : nat) (sol sol' : list A) : Prop :=
  exists a b c, sol = a ++ b ++ c /\ sol' = a ++ rev b ++ c /\ length a = i /\ length (a ++ b) = S j.
(** [sol'] is [sol] with the element at [f] taken out and inserted before the element at [s] *)
Definition inserted {A} (f s : nat) (sol sol' : list A) : Prop :=
  exists a x b c, length a = Nat.min f s /\
    if f <? s then sol = a ++ [x] ++ b ++ c /\ sol' = a ++ b ++ [x] ++ c /\ length (a ++ [x] ++ b) = s
    else sol = a ++ b ++ [x] ++ c /\ sol' = a ++ [x] ++ b ++ c /\ length (a ++ b) = f.
(** (f, s) takes an element elsewhere: s is a position from 0 to n, and not just before or after f *)
Definition true_shift (n f s : nat) : Prop := f < n /\ s <= n /\ s <> f /\ s <> f + 1.
