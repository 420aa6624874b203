(** What the custom topologies and the table of the islands must be. *)
From Coq Require Import List Arith.
Import ListNotations.

(** a square matrix *)
Definition square {U} (m : list (list U)) : Prop := forall r, In r m -> length r = length m.
(** the entry of row [i] and column [j] *)
Definition entry_is {U} (m : list (list U)) (i j : nat) (x : U) : Prop := exists r, nth_error m i = Some r /\ nth_error r j = Some x.
(** two partial functions are inverse of each other *)
Definition inverse (f g : nat -> option nat) : Prop := forall a b, f a = Some b <-> g b = Some a.
