(** C30: the migration topologies.  [is_graph n m edge] says that [m] is an n by n matrix
    whose entry (i, j) is true exactly when [edge i j]. *)
From Coq Require Import List Arith Bool QArith Sorted.
From Verif Require Import Outcome Lib TopoModel TopoSpec TopoProofs.
Import ListNotations.
Open Scope nat_scope.

Theorem C30_complete : forall n, exists m, complete n = Ok m /\ is_graph n m (fun i j => i <> j).
Proof. exact complete_ok. Qed.
Print Assumptions C30_complete.
Example C30_complete_ex : complete 3 = Ok [[false; true; true]; [true; false; true]; [true; true; false]].
Proof. reflexivity. Qed.

(** the only neighbour is the next node (which for one node is itself) *)
Theorem C30_ring : forall n, exists m, ring n = Ok m /\ is_graph n m (fun i j => j = (i + 1) mod n).
Proof. exact ring_ok. Qed.
Print Assumptions C30_ring.
Example C30_ring_ex : ring 3 = Ok [[false; true; false]; [false; false; true]; [true; false; false]].
Proof. reflexivity. Qed.
Theorem C30_ring_of_one_outside : ~ forall n i l, ring n = Ok l -> i < n -> neighbors l i <> Ok [i].
Proof. intros H. apply (H 1 0 [[true]]); [reflexivity|auto|reflexivity]. Qed.
Print Assumptions C30_ring_of_one_outside.

(** every node but the center has the center as only neighbour *)
Theorem C30_star : forall center n, center < n ->
  exists m, star center n = Ok m /\ is_graph n m (fun i j => j = center /\ i <> center).
Proof. exact star_ok. Qed.
Print Assumptions C30_star.
Example C30_star_ex : star 1 3 = Ok [[false; true; false]; [false; false; false]; [false; true; false]].
Proof. reflexivity. Qed.

Theorem C30_hypercube : forall p, exists m, hypercubic (2 ^ p) = Ok m /\ is_graph (2 ^ p) m one_bit_apart.
Proof. exact hypercubic_ok. Qed.
Print Assumptions C30_hypercube.
Example C30_hypercube_ex : hypercubic 4 =
  Ok [[false; true; true; false]; [true; false; false; true]; [true; false; false; true]; [false; true; true; false]].
Proof. reflexivity. Qed.
(** any other number of nodes is refused by the assertion, 0 nodes is undefined *)
Theorem C30_hypercube_refused : forall n, (forall p, n <> 2 ^ p) -> hypercubic n = if n =? 0 then UB else Throw.
Proof. exact hypercubic_other. Qed.
Print Assumptions C30_hypercube_refused.
Example C30_hypercube_refused_ex : hypercubic 6 = Throw /\ hypercubic 0 = UB.
Proof. split; reflexivity. Qed.

(** whatever the ratio, the graph is a full grid, or the construction is undefined *)
Theorem C30_mesh : forall n ratio,
  (exists m h, mesh n ratio = Ok m /\ Nat.divide h n /\ 0 < h /\ is_graph n m (grid_adjacent (n / h))) \/ mesh n ratio = UB.
Proof. exact mesh_ok. Qed.
Print Assumptions C30_mesh.
(** with the default ratio and a composite number of nodes it is the squarest grid *)
Theorem C30_mesh_square : forall n, 1 < n -> ~ prime n ->
  exists h m, squarest n h /\ mesh n 1 = Ok m /\ is_graph n m (grid_adjacent (n / h)).
Proof. exact mesh_square. Qed.
Print Assumptions C30_mesh_square.
Example C30_mesh_ex : mesh 4 1 =
  Ok [[false; true; true; false]; [true; false; false; true]; [true; false; false; true]; [false; true; true; false]].
Proof. reflexivity. Qed.
(** a prime number of nodes (or a single node) reads before the list of divisors *)
Theorem C30_mesh_prime_outside : forall n ratio, n = 1 \/ prime n -> mesh n ratio = UB.
Proof. exact mesh_prime_ub. Qed.
Print Assumptions C30_mesh_prime_outside.
Example C30_mesh_prime_ex : prime 2 /\ mesh 2 1 = UB /\ mesh 7 1 = UB.
Proof.
  split; [|split; reflexivity]. split; auto. intros k [q Hq]. destruct k as [|[|[|k]]]; auto; destruct q as [|[|q]]; cbn in Hq; try discriminate.
  rewrite Nat.mul_0_r in Hq. discriminate.
Qed.

(** the neighbours of a node are its edges, each listed once and in increasing order *)
Theorem C30_neighbors : forall n m edge id, is_graph n m edge -> id < n ->
  exists l, neighbors m id = Ok l /\ StronglySorted lt l /\ forall j, In j l <-> j < n /\ edge id j.
Proof. exact neighbors_total. Qed.
Print Assumptions C30_neighbors.
Example C30_neighbors_ex : neighbors [[false; true; true]; [true; false; true]; [true; true; false]] 1 = Ok [0; 2].
Proof. reflexivity. Qed.
(** isolating a node removes the edges from and to it and no other *)
Theorem C30_isolate : forall n m edge id, is_graph n m edge -> id < n ->
  exists m', isolate m id = Ok m' /\ is_graph n m' (fun i j => i <> id /\ j <> id /\ edge i j).
Proof. exact isolate_ok. Qed.
Print Assumptions C30_isolate.
Example C30_isolate_ex : isolate [[false; true; true]; [true; false; true]; [true; true; false]] 1 =
  Ok [[false; false; true]; [false; false; false]; [true; false; false]].
Proof. reflexivity. Qed.
