(** Model of binary partitions and of their swap neighborhood (mo/src/problems/partition). A
    std::set<size_t> is the increasing list of its elements. *)
From Coq Require Import List Arith Bool.
From Verif Require Import Outcome Lib NeighModel.
Import ListNotations.

(** std::set::insert and erase *)
Fixpoint set_insert (x : nat) (l : list nat) : list nat :=
  match l with
  | [] => [x]
  | y :: r => if x <? y then x :: l else if x =? y then l else y :: set_insert x r
  end.
Definition set_erase (x : nat) (l : list nat) : list nat := filter (fun y => negb (y =? x)) l.

Record part := Part { selected : list nat; rejected : list nat }.
(** consistent constructor (moBinaryPartition.h:49-57) *)
Definition part_start (n : nat) : part :=
  Part [] (fold_left (fun l i => set_insert i l) (seq 0 n) []).
(** select (77-98) and reject (104-126); the assertions are the hypotheses of the theorems *)
Definition select (a : nat) (p : part) : part := Part (set_insert a (selected p)) (set_erase a (rejected p)).
Definition reject (a : nat) (p : part) : part := Part (set_erase a (selected p)) (set_insert a (rejected p)).
(** moBinaryPartitionSwapNeighbor::move (96-102) and moveBack (110-116); the move is the pair
    (select, reject) *)
Definition part_move (m : nat * nat) (p : part) : part := select (fst m) (reject (snd m) p).
Definition part_move_back (m : nat * nat) (p : part) : part := select (snd m) (reject (fst m) p).

(** moBinaryPartitionSwapNeighborhood (34-141) for the solution [p]: selected(from, i) is the i-th of
    the rejected atoms, rejected(from, j) the j-th of the selected ones; the state is (i_select,
    j_reject). *)
Definition part_at (p : part) (ij : nat * nat) (ds : list nat) : res ((nat * nat) * (nat * nat) * list nat) :=
  let! a := of_opt (nth_error (rejected p) (fst ij)) in
  let! b := of_opt (nth_error (selected p) (snd ij)) in
  Ok (ij, (a, b), ds).
Definition part_nh (p : part) : iterator (nat * nat) (nat * nat) := Iterator (nat * nat) (nat * nat)
  (fun _ ds => part_at p (0, 0) ds)
  (fun s ds => let '(i, j) := s in part_at p (if i =? length (rejected p) - 1 then (0, S j) else (S i, j)) ds)
  (fun s => negb ((fst s =? length (rejected p) - 1) && (snd s =? length (selected p) - 1))).
(** hasNeighbor (138-141) *)
Definition part_has_neighbor (p : part) : bool := 0 <? length (rejected p).

(** printOn (129-154) and readFrom (167-185), on the numbers following the fitness. An extraction at
    the end of the stream leaves the variable as it was: size keeps its value, atom is
    indeterminate (UB when it is used). *)
Definition part_print (p : part) : list nat := length (selected p) :: selected p.
Fixpoint read_atoms (n : nat) (acc : list nat) (toks : list nat) : res (list nat * list nat) :=
  match n with
  | 0 => Ok (acc, toks)
  | S k => match toks with [] => UB | a :: r => read_atoms k (set_insert a acc) r end
  end.
Definition part_read (p : part) (toks : list nat) : res (part * list nat) :=
  match toks with
  | [] => UB
  | size :: r =>
      let! (sel, r1) := read_atoms size (selected p) r in
      let (size2, r2) := match r1 with [] => (size, []) | s :: r' => (s, r') end in
      let! (rej, r3) := read_atoms size2 (rejected p) r2 in
      Ok (Part sel rej, r3)
  end.
