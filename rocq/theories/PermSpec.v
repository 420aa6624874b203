(** Independent specifications for the permutation operators (C19-C21). *)
From Coq Require Import List Arith Bool.
Import ListNotations.

(** [c'] is [c] with the positions from..to reversed *)
Definition segment_reversed {A} (from to : nat) (c c' : list A) : Prop :=
  length c' = length c /\
  forall i, nth_error c' i = if (from <=? i) && (i <=? to) then nth_error c (from + to - i) else nth_error c i.

(** [c'] is [c] with the positions from..to rotated one step to the right *)
Definition segment_rotated {A} (from to : nat) (c c' : list A) : Prop :=
  length c' = length c /\
  forall i, nth_error c' i = if i =? from then nth_error c to
                             else if (from <? i) && (i <=? to) then nth_error c (i - 1) else nth_error c i.

(** [c'] is [c] with the contents of two different positions exchanged *)
Definition two_exchanged {A} (i j : nat) (c c' : list A) : Prop :=
  length c' = length c /\ i <> j /\ i < length c /\ j < length c /\
  forall k, nth_error c' k = if k =? i then nth_error c j else if k =? j then nth_error c i else nth_error c k.

(** [k] successive exchanges *)
Inductive swaps {A} : nat -> list A -> list A -> Prop :=
| swaps_0 c : swaps 0 c c
| swaps_S k c c1 c2 i j : two_exchanged i j c c1 -> swaps k c1 c2 -> swaps (S k) c c2.

(** the genes of [c] between the cuts (cut1 included, cut2 excluded) *)
Definition segment {A} (cut1 cut2 : nat) (c : list A) : list A := firstn (cut2 - cut1) (skipn cut1 c).

(** the genes of [c] read cyclically from position [p], forwards or backwards *)
Definition read_cyclic (forward : bool) (p : nat) (c : list nat) : list nat :=
  map (fun i => nth (if forward then (p + i) mod length c else (p + length c - i) mod length c) c 0)
      (seq 0 (length c)).

Definition mem (x : nat) (l : list nat) : bool := existsb (Nat.eqb x) l.

(** order crossover: the segment of [c1], then the other genes in the cyclic order of
    [c2], starting from the position of the last gene of the segment *)
Definition order_child (forward : bool) (cut1 cut2 : nat) (c1 c2 child : list nat) : Prop :=
  exists p last, nth_error c1 (cut2 - 1) = Some last /\ nth_error c2 p = Some last /\
    child = segment cut1 cut2 c1 ++ filter (fun x => negb (mem x (segment cut1 cut2 c1))) (read_cyclic forward p c2).

(** following the exchanges of the segment i1..i2 (genes of [b] -> genes of [a])
    from [x] until a gene that [b] does not have there *)
Inductive follows (a b : list nat) (i1 i2 : nat) : nat -> nat -> Prop :=
| follows_stop x :
    (forall k, i1 <= k <= i2 -> nth_error b k <> Some x) -> follows a b i1 i2 x x
| follows_step x k u y :
    i1 <= k <= i2 -> nth_error b k = Some x -> nth_error a k = Some u ->
    follows a b i1 i2 u y -> follows a b i1 i2 x y.

(** [x] is the partially mapped child of [a] and [b]: the genes of [b] inside the
    segment, elsewhere those of [a] after following the exchanges *)
Definition pmx_child (i1 i2 : nat) (a b x : list nat) : Prop :=
  length x = length a /\
  (forall i, i1 <= i <= i2 -> nth_error x i = nth_error b i) /\
  (forall i v w, i < i1 \/ i2 < i -> nth_error a i = Some v -> nth_error x i = Some w -> follows a b i1 i2 v w).

(** [l] is a sequence of values produced by successive calls of [gen] *)
Inductive generated {A R : Type} (gen : A -> list nat -> R -> Prop) (value : R -> A) (rest : R -> list nat)
  : list A -> list nat -> list nat -> Prop :=
| generated_nil ds : generated gen value rest [] ds ds
| generated_cons x ds r l ds' :
    gen x ds r -> generated gen value rest l (rest r) ds' -> generated gen value rest (value r :: l) ds ds'.
