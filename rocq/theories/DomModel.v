(** Model of moeo/src/utils/moeoDominanceMatrix.h and of the fitness assignments built on it
    (moeo/src/fitness/moeoDominance{Count,Rank,CountRanking}FitnessAssignment.h).
    The counts are doubles in the code; they are integers here (exact below 2^53). *)
From Coq Require Import List Arith Bool ZArith.
From Verif Require Import Outcome Lib TopoModel.
Import ListNotations.

(** the object: the matrix it inherits, countVector, rankVector, copySet (moeoDominanceMatrix.h:205-214) *)
Record dmat := { mat : matrix; cnt : list Z; rnk : list Z; cps : list nat }.

Fixpoint loop {S A} (l : list A) (body : S -> A -> res S) (s : S) : res S :=
  match l with [] => Ok s | x :: r => let! s' := body s x in loop r body s' end.

(** v[i] += d; out of bounds is undefined *)
Definition bump (v : list Z) (i : nat) (d : Z) : res (list Z) :=
  of_opt (obind (nth_error v i) (fun x => upd v i (x + d)%Z)).
(** std::set<unsigned>::insert: kept sorted, no duplicate *)
Fixpoint insert (x : nat) (l : list nat) : list nat :=
  match l with
  | [] => [x]
  | y :: r => if x <? y then x :: l else if x =? y then l else y :: insert x r
  end.

Section Dom.
Context {V : Type}.
(** [dominated a b]: comparator(a, b), true when [a] is dominated by [b] *)
Variable dominated : V -> V -> bool.
(** operator== on objective vectors *)
Variable same : V -> V -> bool.
Variable nocopy : bool.

(** this[k][l]=true; countVector[k]++; rankVector[l]++ (109-111) *)
Definition mark (s : dmat) (k l : nat) : res dmat :=
  let! m := mset (mat s) k l true in
  let! c := bump (cnt s) k 1 in
  let! r := bump (rnk s) l 1 in
  Ok {| mat := m; cnt := c; rnk := r; cps := cps s |}.
(** the three tests for two objective vectors (108-120, 123-135, 138-150) *)
Definition compare_pair (s : dmat) (k l : nat) (vk vl : V) : res dmat :=
  if dominated vl vk then mark s k l
  else if dominated vk vl then mark s l k
  else if nocopy && same vk vl then Ok {| mat := mat s; cnt := cnt s; rnk := rnk s; cps := insert l (cps s) |}
  else Ok s.
(** body of the double loop (107-151) *)
Definition fill (pop1 pop2 : list V) (s : dmat) (kl : nat * nat) : res dmat :=
  let (k, l) := kl in
  let i := length pop1 in
  if (k <? i) && (l <? i) then
    let! a := of_opt (nth_error pop1 k) in let! b := of_opt (nth_error pop1 l) in compare_pair s k l a b
  else if (k <? i) && negb (l <? i) then
    let! a := of_opt (nth_error pop1 k) in let! b := of_opt (nth_error pop2 (l - i)) in compare_pair s k l a b
  else
    let! a := of_opt (nth_error pop2 (k - i)) in let! b := of_opt (nth_error pop2 (l - i)) in compare_pair s k l a b.
(** the pairs visited by the double loop (105-106). With two empty populations the bound of the
    outer loop wraps round, but the inner loop is then empty. *)
Definition pairs (n : nat) : list (nat * nat) :=
  flat_map (fun k => map (pair k) (seq (k + 1) (n - (k + 1)))) (seq 0 (n - 1)).
(** the column of each copy is set (158-166) *)
Definition set_column (s : dmat) (cl : nat * nat) : res dmat :=
  let (c, l) := cl in
  let! b := of_opt (mget (mat s) l c) in
  if negb b then
    let! m := mset (mat s) l c true in
    let! n := bump (cnt s) l 1 in
    Ok {| mat := m; cnt := n; rnk := rnk s; cps := cps s |}
  else Ok s.
(** the line of each copy is cleared (167-176) *)
Definition clear_line (s : dmat) (cl : nat * nat) : res dmat :=
  let (c, l) := cl in
  let! b := of_opt (mget (mat s) c l) in
  if b then
    let! m := mset (mat s) c l false in
    let! r := bump (rnk s) l (-1) in
    Ok {| mat := m; cnt := cnt s; rnk := r; cps := cps s |}
  else Ok s.
(** (177-182) *)
Definition set_copy (s : dmat) (c : nat) : res dmat :=
  let! n := of_opt (upd (cnt s) c 0%Z) in
  let! r := of_opt (upd (rnk s) c (Z.of_nat (length (mat s)) - Z.of_nat (length (cps s)))%Z) in
  Ok {| mat := mat s; cnt := n; rnk := r; cps := cps s |}.
(** operator()(_pop1, _pop2) (91-183). [old]: the content of copySet before the call, which the
    function never clears. *)
Definition dominance_matrix (pop1 pop2 : list V) (old : list nat) : res dmat :=
  let n := length pop1 + length pop2 in
  let! s := loop (pairs n) (fill pop1 pop2)
              {| mat := square n false; cnt := repeat 0%Z n; rnk := repeat 0%Z n; cps := old |} in
  if nocopy then
    let! s1 := loop (list_prod (cps s) (seq 0 n)) set_column s in
    let! s2 := loop (list_prod (cps s1) (seq 0 n)) clear_line s1 in
    loop (cps s2) set_copy s2
  else Ok s.

(** moeoDominanceCountFitnessAssignment::operator() (105-114): the fitnesses of the archive
    followed by those of the population *)
Definition count_fitness (archive pop : list V) (old : list nat) : res (list Z * list Z) :=
  let! s := dominance_matrix archive pop old in
  Ok (firstn (length archive) (cnt s), skipn (length archive) (cnt s)).
(** moeoDominanceRankFitnessAssignment::operator() (109-118) *)
Definition rank_fitness (start : Z) (archive pop : list V) (old : list nat) : res (list Z * list Z) :=
  let! s := dominance_matrix archive pop old in
  let f := map (fun r => - (r + start))%Z (rnk s) in
  Ok (firstn (length archive) f, skipn (length archive) f).
(** moeoDominanceCountRankingFitnessAssignment: countRanking (149-158) *)
Fixpoint count_ranking (m : matrix) (c : list Z) (i : nat) : res Z :=
  match m, c with
  | [], _ => Ok 0%Z
  | l :: m', x :: c' =>
      let! b := of_opt (nth_error l i) in
      let! r := count_ranking m' c' i in
      Ok (if b then r - x else r)%Z
  | _, [] => UB
  end.
Fixpoint all_ok {A} (l : list (res A)) : res (list A) :=
  match l with [] => Ok [] | x :: r => let! a := x in let! s := all_ok r in Ok (a :: s) end.
(** operator() (109-118) *)
Definition ranking_fitness (archive pop : list V) (old : list nat) : res (list Z * list Z) :=
  let! s := dominance_matrix archive pop old in
  let! f := all_ok (map (count_ranking (mat s) (cnt s)) (seq 0 (length (mat s)))) in
  Ok (firstn (length archive) f, skipn (length archive) f).
End Dom.
