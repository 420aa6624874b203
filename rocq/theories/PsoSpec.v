(** What a particle swarm must remember, stated from the sequence of the evaluations. *)
From Coq Require Import List Arith Bool QArith Permutation.
From Verif Require Import OrderSpec.
From Coq Require Import List.
Import ListNotations.

Open Scope nat_scope.
Section Spec.
Context {X F : Type}.
Variables (lt : F -> F -> bool) (eval : X -> F).

(** [x] is the first of the best values met in [l]: better than all those before, not worse than those after *)
Definition first_best (l : list X) (x : X) : Prop :=
  exists l1 l2, l = l1 ++ x :: l2 /\
    (forall y, In y l1 -> lt (eval y) (eval x) = true) /\ (forall y, In y l2 -> lt (eval x) (eval y) = false).

(** the points evaluated for particle [k], in order *)
Definition history (log : list (nat * X)) (k : nat) : list X := map snd (filter (fun e => fst e =? k) log).
End Spec.

(** [hs] cuts the [n] particles into blocks of [size], the last block taking the rest as well *)
Definition blocks (size n : nat) (hs : list (list nat)) : Prop :=
  Permutation (concat hs) (seq 0 n) /\ length hs = n / size /\
  forall i l, nth_error hs i = Some l ->
    forall k, In k l <-> i * size <= k < (if S i =? n / size then n else S i * size).

(** [y] is [x] brought back between the bounds that exist *)
Definition brought_back (lo hi : option Q) (x y : Q) : Prop :=
  (forall m, lo = Some m -> m <= y)%Q /\ (forall m, hi = Some m -> y <= m)%Q /\
  ((forall m, lo = Some m -> m <= x)%Q -> (forall m, hi = Some m -> x <= m)%Q -> y = x) /\
  (forall m, lo = Some m -> x < m -> y = m)%Q /\ (forall m, hi = Some m -> m < x -> y = m)%Q.
(** bounds that some value satisfies *)
Definition consistent (lo hi : option Q) : Prop := forall a b, lo = Some a -> hi = Some b -> (a <= b)%Q.
