(** What a memory pool must guarantee. *)
From Coq Require Import List Arith.
Import ListNotations.

(** the bytes of two blocks of [n] bytes do not overlap *)
Definition apart (n : nat) (a b : nat * nat) : Prop := fst a <> fst b \/ snd a + n <= snd b \/ snd b + n <= snd a.
Definition pairwise_apart (n : nat) (held : list (nat * nat)) : Prop :=
  forall i j a b, i <> j -> nth_error held i = Some a -> nth_error held j = Some b -> apart n a b.
(** the block lies in one of the chunks, within its [size] bytes *)
Definition within (n size : nat) (chunks : list nat) (a : nat * nat) : Prop := In (fst a) chunks /\ snd a + n <= size.
