(** Specification of the benchmark problems (C39, C40, C50, C53): what each evaluation should return. *)
From Coq Require Import List Arith Bool ZArith NArith QArith.
From Verif Require Import Outcome NeighModel LsModel.
From Coq Require Import List.
Import ListNotations.
Open Scope nat_scope.

(** sums over a list of indices *)
Definition zsum {A} (l : list A) (f : A -> Z) : Z := fold_right (fun k a => (f k + a)%Z) 0%Z l.
Definition qsum {A} (l : list A) (f : A -> Q) : Q := fold_right (fun k a => (f k + a)%Q) 0%Q l.
(** bit [i] as a number, entry (i, j) of a matrix *)
Definition val (x : list bool) (i : nat) : Z := Z.b2z (nth i x false).
Definition mat (q : list (list Z)) (i j : nat) : Z := nth j (nth i q []) 0%Z.
Definition square_matrix {A} (n : nat) (q : list (list A)) : Prop := length q = n /\ Forall (fun r => length r = n) q.

(** the number of ones *)
Definition ones (x : list bool) : Z := zsum (seq 0 (length x)) (val x).
(** the number of complete blocks of [k] bits *)
Definition block_complete (k : nat) (x : list bool) (b : nat) : bool := forallb (fun j => nth (b * k + j) x false) (seq 0 k).
Definition complete_blocks (k : nat) (x : list bool) : Z := zsum (seq 0 (length x / k)) (fun b => Z.b2z (block_complete k x b)).
(** x^T Q x *)
Definition quadratic (n : nat) (q : list (list Z)) (x : list bool) : Z :=
  zsum (seq 0 n) (fun i => zsum (seq 0 n) (fun j => val x i * mat q i j * val x j)%Z).
(** lower triangular *)
Definition lower (n : nat) (q : list (list Z)) : Prop := square_matrix n q /\ forall i j, i < j -> mat q i j = 0%Z.
(** the cost of an assignment *)
Definition assignment_cost (n : nat) (a b : list (list Z)) (p : list nat) : Z :=
  zsum (seq 0 n) (fun i => zsum (seq 0 n) (fun j => mat a i j * mat b (nth i p 0%nat) (nth j p 0%nat))%Z).
(** literals are numbered from 1; a negative number is a negated variable *)
Definition literal_true (x : list bool) (l : Z) : bool :=
  if (0 <? l)%Z then nth (Z.to_nat l - 1) x false else negb (nth (Z.to_nat (- l) - 1) x false).
Definition satisfied (clauses : list (list Z)) (x : list bool) : Z := Z.of_nat (length (filter (existsb (literal_true x)) clauses)).
(** clauses over [n] variables, no variable twice in a clause *)
Definition cnf (n : nat) (clauses : list (list Z)) : Prop :=
  forall c, In c clauses -> NoDup (map Z.abs c) /\ forall l, In l c -> (l <> 0 /\ Z.abs l <= Z.of_nat n)%Z.
(** an NK landscape *)
Definition mask (ls : list nat) (x : list bool) : N := fold_right (fun l m => (2 * m + (if nth l x false then 1 else 0))%N) 0%N ls.
Definition nk_value (N : nat) (links : list (list nat)) (tables : list (list Q)) (x : list bool) : Q :=
  (qsum (seq 0 N) (fun i => nth (N.to_nat (mask (nth i links []) x)) (nth i tables []) 0%Q) / inject_Z (Z.of_nat N))%Q.
(** each bit has K + 1 different links, to bits; the tables have one value per mask *)
Definition links_ok (N K : nat) (links : list (list nat)) : Prop :=
  length links = N /\ forall l, In l links -> length l = S K /\ NoDup l /\ forall k, In k l -> k < N.
Definition tables_ok (N K : nat) (tables : list (list Q)) : Prop :=
  length tables = N /\ forall t, In t tables -> length t = 2 ^ S K.

(** an incremental evaluation is exact: for a solution carrying the value of the full evaluation, and any
    legal move, it returns what the full evaluation returns for the moved solution *)
Definition incremental_exact {G I F} (solution : G -> Prop) (legal : G -> I -> Prop) (move : I -> G -> res G)
    (same : F -> F -> Prop) (full : G -> res F) (incr : sol G F -> I -> res F) : Prop :=
  forall x i f, solution x -> legal x i -> full x = Ok f ->
  exists x' v v', move i x = Ok x' /\ full x' = Ok v /\ incr (Sol x (Some f)) i = Ok v' /\ same v' v.
(** bit strings of length [n], one bit of them, several bits *)
Definition bit_string (n : nat) (x : list bool) : Prop := length x = n.
Definition one_bit (x : list bool) (i : nat) : Prop := i < length x.
Definition some_bits (x : list bool) (bits : list nat) : Prop := forall b, In b bits -> b < length x.
(** assignments of [n] facilities to locations below [n]; two different positions *)
Definition assignment (n : nat) (p : list nat) : Prop := length p = n /\ forall k, In k p -> k < n.
Definition two_positions (p : list nat) (ij : nat * nat) : Prop := fst ij < length p /\ snd ij < length p /\ fst ij <> snd ij.
