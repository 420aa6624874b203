(** Model of the migration topologies of smp/src/topology. *)
From Coq Require Import List Arith Bool QArith Qabs Qminmax.
From Verif Require Import Outcome Lib.
Import ListNotations.
Open Scope nat_scope.

(** std::vector<std::vector<bool>> *)
Definition matrix := list (list bool).
Definition mget (m : matrix) (i j : nat) : option bool := obind (nth_error m i) (fun l => nth_error l j).
(** m[i][j] = b; out of bounds is undefined *)
Definition mset (m : matrix) (i j : nat) (b : bool) : res matrix :=
  of_opt (obind (nth_error m i) (fun l => obind (upd l j b) (fun l' => upd m i l'))).
(** clear(), resize(n), then each line resize(n), or assign(n, line) *)
Definition square (n : nat) (b : bool) : matrix := repeat (repeat b n) n.
Fixpoint for_each {A} (l : list A) (body : matrix -> A -> res matrix) (m : matrix) : res matrix :=
  match l with [] => Ok m | x :: r => let! m' := body m x in for_each r body m' end.

(** Complete (complete.cpp:33-46) *)
Definition complete (n : nat) : res matrix :=
  for_each (seq 0 n) (fun m i => mset m i i false) (square n true).
(** Ring (ring.cpp:33-47) *)
Definition ring (n : nat) : res matrix :=
  for_each (seq 0 n) (fun m i => mset m i ((i + 1) mod n) true) (square n false).
(** Star (star.cpp:33-47) *)
Definition star (center n : nat) : res matrix :=
  let! line := of_opt (upd (repeat false n) center true) in
  mset (repeat line n) center center false.
(** Hypercubic (hypercubic.cpp:35-62); [Throw] is the failed assertion.  With 0 nodes the
    loop computing [power] shifts beyond the width of int. *)
Fixpoint lowest_bit (fuel n : nat) : option nat :=
  match fuel with
  | 0 => None
  | S f => if Nat.odd n then Some 0 else option_map S (lowest_bit f (n / 2))
  end.
Definition cube_step (s : nat) (m : matrix) (ij : nat * nat) : res matrix :=
  let (i, j) := ij in
  let! b := of_opt (mget m i j) in
  let! m1 := mset m (i + s) (j + s) b in
  let! m2 := mset m1 (i + s) j (i =? j) in
  mset m2 i (j + s) (i =? j).
Definition cube_dim (m : matrix) (dim : nat) : res matrix :=
  let s := 2 ^ (dim - 1) in
  for_each (list_prod (seq 0 s) (seq 0 s)) (cube_step s) m.
Definition hypercubic (n : nat) : res matrix :=
  if n =? 0 then UB
  else if negb (Nat.land n (n - 1) =? 0) then Throw
  else
    let! power := of_opt (lowest_bit (S n) n) in
    let! m := mset (square n false) 0 0 false in
    for_each (seq 1 power) cube_dim m.

(** Mesh (mesh.cpp:34-90).  The square root and the ratios are doubles in the code; they
    are exact here (for 32-bit numbers of nodes the comparisons give the same answers when
    the ratio is 1). *)
Definition factorization (n : nat) : list nat :=
  filter (fun i => (n / i) * i =? n) (filter (fun i => i * i <? n + 1) (seq 1 n)).
Definition ratio_of (n h : nat) : Q := (inject_Z (Z.of_nat h) * inject_Z (Z.of_nat h) / inject_Z (Z.of_nat n))%Q.
(** the while loop (42-43) *)
Fixpoint find_factor (fuel : nat) (l : list nat) (n : nat) (ratio : Q) (i : nat) : res nat :=
  match fuel with
  | 0 => NoDraw
  | S f =>
      if i <? length l - 1 then
        let! h := of_opt (nth_error l i) in
        if Qle_bool ratio (ratio_of n h) then Ok i else find_factor f l n ratio (S i)
      else Ok i
  end.
Definition mesh_height (n : nat) (ratio : Q) : res nat :=
  let l := factorization n in
  match l with
  | [] => UB  (* size() - 1 wraps around, listFact[0] is out of bounds *)
  | _ =>
      let! i := find_factor (S (length l)) l n ratio 0 in
      let! hi := of_opt (nth_error l i) in
      match i with
      | 0 => UB  (* listFact[i-1] is out of bounds *)
      | S i' =>
          let! hp := of_opt (nth_error l i') in
          Ok (if Qle_bool (Qabs (ratio_of n hp - ratio)) (ratio - ratio_of n hi) then hp else hi)
      end
  end.
Definition mesh_cell (width : nat) (m : matrix) (i : nat) (j : nat) : res matrix :=
  let b := ((j - i =? 1) && negb (j mod width =? 0)) || (j - i =? width) in
  let! m1 := mset m i j b in
  mset m1 j i b.
Definition mesh_line (n width : nat) (m : matrix) (i : nat) : res matrix :=
  let! m1 := mset m i i false in
  for_each (seq (S i) (n - S i)) (fun m j => mesh_cell width m i j) m1.
Definition mesh (n : nat) (ratio : Q) : res matrix :=
  let! height := mesh_height n ratio in
  let width := n / height in
  for_each (seq 0 n) (mesh_line n width) (square n false).

(** Topology (topology.cpp:31-58) *)
Definition neighbors (m : matrix) (id : nat) : res (list nat) :=
  match m with
  | [] => Ok []
  | _ => let! line := of_opt (nth_error m id) in
         Ok (filter (fun j => nth j line false) (seq 0 (length m)))
  end.
Definition isolate (m : matrix) (id : nat) : res matrix :=
  for_each (seq 0 (length m)) (fun m i => let! m1 := mset m id i false in mset m1 i id false) m.
