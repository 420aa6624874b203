(** What the benchmark problems are, in their own terms. *)
From Coq Require Import ZArith QArith List Arith Bool.
From Coq Require Import List.
Import ListNotations.
Open Scope nat_scope.

(** two strings of bits: at how many places they differ *)
Fixpoint hamming (x y : list bool) : nat :=
  match x, y with
  | a :: x', b :: y' => (if Bool.eqb a b then 0 else 1) + hamming x' y'
  | _, _ => 0
  end.
Definition zeros (x : list bool) : nat := count_occ Bool.bool_dec x false.

(** *** the n queens: column i holds a queen on row q_i; two queens threaten each other on a diagonal when they are as many rows as columns apart *)
Definition threat (q : list Z) (i j : nat) : Prop := (Z.abs (nth i q 0 - nth j q 0) = Z.abs (Z.of_nat i - Z.of_nat j))%Z.
(** [c] pairs threaten each other *)
Definition threats (q : list Z) (c : nat) : Prop :=
  exists ps, NoDup ps /\ length ps = c /\ forall i j, In (i, j) ps <-> i < j < length q /\ threat q i j.

(** *** the long k-path on 1 + m k bits (Horn, Goldberg and Deb; Rudolph): the path on k bits fewer with k zeros added, then a bridge from its last point, then the same path backwards with k ones added *)
Fixpoint long_path (k m : nat) : list (list bool) :=
  match m with
  | 0 => [[false]; [true]]
  | S m' =>
      let p := long_path k m' in
      map (fun x => x ++ repeat false k) p
      ++ map (fun j => last p [] ++ repeat true j ++ repeat false (k - j)) (seq 1 (k - 1))
      ++ map (fun x => x ++ repeat true k) (rev p)
  end.

(** *** the building-block royal road: block i of a string *)
Definition block (k i : nat) (x : list bool) : list bool := firstn k (skipn (i * k) x).
Definition block_value (blk : list bool) (tw : list bool * Q) : Q :=
  if list_eq_dec Bool.bool_dec blk (fst tw) then snd tw else (1 / (1 + inject_Z (Z.of_nat (hamming blk (fst tw)))))%Q.
Definition bb_value (b k : nat) (targets : list (list bool * Q)) (x : list bool) : Q :=
  fold_right Qplus 0%Q (flat_map (fun i => map (block_value (block k i x)) targets) (seq 0 b)).
