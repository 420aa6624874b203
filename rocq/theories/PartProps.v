(** C51: binary partitions and their swap neighborhood. *)
From Coq Require Import List Arith Bool Sorted Permutation Lia.
From Verif Require Import Outcome NeighModel PartModel PartSpec PartProofs.
Import ListNotations.

(** the constructor gives a partition where nothing is selected *)
Theorem C51_start : forall n, partition_of n (part_start n) /\ selected (part_start n) = [].
Proof. exact start_ok. Qed.
Print Assumptions C51_start.
(** selecting a rejected atom, or rejecting a selected one, keeps a partition *)
Theorem C51_select : forall n p a, partition_of n p ->
  (In a (rejected p) -> partition_of n (select a p) /\ (forall x, In x (selected (select a p)) <-> In x (selected p) \/ x = a)) /\
  (In a (selected p) -> partition_of n (reject a p) /\ (forall x, In x (rejected (reject a p)) <-> In x (rejected p) \/ x = a)).
Proof. exact select_reject_ok. Qed.
Print Assumptions C51_select.
(** a move keeps a partition with as many selected atoms, exchanges the two atoms and nothing else,
    and moveBack undoes it *)
Theorem C51_move : forall n p a b, partition_of n p -> In a (rejected p) -> In b (selected p) ->
  partition_of n (part_move (a, b) p) /\ length (selected (part_move (a, b) p)) = length (selected p) /\
  (forall x, In x (selected (part_move (a, b) p)) <-> x = a \/ (In x (selected p) /\ x <> b)) /\
  part_move_back (a, b) (part_move (a, b) p) = p.
Proof.
  intros n p a b P Ha Hb. destruct (move_ok n p P a b Ha Hb) as [A B]. split; auto. split; auto. split; [apply move_sel|eapply move_back_ok; eauto].
Qed.
Print Assumptions C51_move.
(** an exploration visits every pair of a rejected and a selected atom, once *)
Theorem C51_explore : forall n p st ds, partition_of n p -> rejected p <> [] -> selected p <> [] ->
  exists out st', explore (part_nh p) (length (rejected p) * length (selected p)) st ds = Ok (out, st', ds) /\ NoDup out /\
  forall a b, In (a, b) out <-> In a (rejected p) /\ In b (selected p).
Proof.
  intros n p st ds (A & B & _) H1 H2. apply part_explores; [destruct (rejected p); [congruence|cbn; lia]|destruct (selected p); [congruence|cbn; lia]|apply sorted_nodup; auto|apply sorted_nodup; auto].
Qed.
Print Assumptions C51_explore.
(** hasNeighbor only looks at the rejected atoms: with no selected atom the exploration that it
    allows dereferences the end of an empty set *)
Theorem C51_nothing_selected_outside : forall n st ds, 0 < n -> part_has_neighbor (part_start n) = true /\ explore (part_nh (part_start n)) (n * 0) st ds = UB.
Proof. exact has_neighbor_ub. Qed.
Print Assumptions C51_nothing_selected_outside.
(** printOn writes the selected atoms only, readFrom wants both sets: reading back a printed
    partition uses an indeterminate atom *)
Theorem C93_partition_read_print_refuted : forall p q, selected p <> [] -> part_read q (part_print p) = UB.
Proof. exact read_print. Qed.
Print Assumptions C93_partition_read_print_refuted.
Example C51_ex : let p := Part [1; 4] [0; 2; 3] in partition_of 5 p /\
  explore (part_nh p) 6 (9, 9) [] = Ok ([(0, 1); (2, 1); (3, 1); (0, 4); (2, 4); (3, 4)], (2, 1), []) /\
  part_move (2, 4) p = Part [1; 2] [0; 3; 4] /\ part_start 3 = Part [] [0; 1; 2].
Proof.
  cbv zeta. split; [|repeat split]. apply partition_iff. cbn [selected rejected]. split; [repeat constructor|]. split; [repeat constructor|]. split.
  - intros x. cbn. lia.
  - intros x. cbn. lia.
Qed.
