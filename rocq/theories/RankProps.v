(** C44: dominance-depth ranking (non-dominated sorting).
    Front 1 is the set of non-dominated members, front 2 that of the members dominated only
    by front 1, and so on (RankSpec.v). The fitness is the number of fronts minus the front. *)
From Coq Require Import List Arith Bool ZArith QArith Permutation.
From Verif Require Import Outcome OrderSpec OrderLemmas ParetoModel ParetoSpec ParetoProofs RankModel RankSpec RankProofs RankSorted RankTwo RankFinal.
Import ListNotations.
Close Scope Q_scope.

(** three objectives or more, and any irreflexive and transitive comparator *)
Theorem C44_many : forall V (dominated : V -> V -> bool) vs f0, vs <> [] -> length f0 = length vs ->
  (forall a, In a vs -> dominated a a = false) ->
  (forall a b c, In a vs -> In b vs -> In c vs -> dominated a b = true -> dominated b c = true -> dominated a c = true) ->
  exists d zs, depth_many dominated vs f0 = Ok zs /\ length zs = length vs /\ fronts_count (fun a b => dominated a b = true) vs d /\
  forall i z, nth_error zs i = Some z -> exists r, in_front_number (fun a b => dominated a b = true) vs i r /\ z = (Z.of_nat d - Z.of_nat r)%Z.
Proof. exact many_ok. Qed.
Print Assumptions C44_many.
(** in particular with Pareto domination of real vectors *)
Theorem C44_pareto : forall dirs vs f0, vs <> [] -> length f0 = length vs -> Forall (fun v => length v = length dirs) vs ->
  exists d zs, depth_many (pareto 0 dirs) vs f0 = Ok zs /\ length zs = length vs /\ fronts_count (fun a b => dominates dirs b a) vs d /\
  forall i z, nth_error zs i = Some z -> exists r, in_front_number (fun a b => dominates dirs b a) vs i r /\ z = (Z.of_nat d - Z.of_nat r)%Z.
Proof.
  intros dirs vs f0 Hn Lf F. rewrite Forall_forall in F.
  assert (I : forall a b, In a vs -> In b vs -> (pareto 0 dirs a b = true <-> dominates dirs b a)) by (intros; apply pareto_exact; auto).
  destruct (many_ok (list Q) (pareto 0 dirs) vs f0 Hn Lf) as (d & zs & E & L & [C1 (i0 & C2)] & H).
  - intros a Ha. apply pareto_irrefl; auto. discriminate.
  - intros a b c Ha Hb Hc. apply pareto_trans; auto.
  - exists d, zs. split; auto. split; auto. split.
    + split; [intros i r Hr; apply (C1 i); apply (front_number_iff _ _ vs I); auto|exists i0; apply (front_number_iff _ _ vs I); auto].
    + intros i z Hz. destruct (H i z Hz) as (r & Hr & Ez). exists r. split; auto. apply (front_number_iff _ _ vs I); auto.
Qed.
Print Assumptions C44_pareto.
(** a dominated member is in a later front, so gets a strictly lower fitness *)
Theorem C44_order : forall V (D : V -> V -> Prop) vs i j r s, dominated_at D vs i j ->
  in_front_number D vs i r -> in_front_number D vs j s -> s < r.
Proof. intros V D vs. exact (front_dom D vs). Qed.
Print Assumptions C44_order.
Theorem C44_unique : forall V (D : V -> V -> Prop) vs i r s, in_front_number D vs i r -> in_front_number D vs i s -> r = s.
Proof. intros V D vs. exact (front_unique D vs). Qed.
Print Assumptions C44_unique.
(** two objectives in the same direction, pairwise distinct vectors, either value of the flag *)
Theorem C44_two : forall sort, std_sort_ok sort -> forall m rm_equiv vs f0, vs <> [] -> length f0 = length vs ->
  (forall i j a b, i <> j -> nth_error vs i = Some a -> nth_error vs j = Some b -> ~ equal_vectors (vec2 a) (vec2 b)) ->
  exists d zs, depth_two sort rm_equiv 0 [m; m] vs f0 = Ok zs /\ length zs = length vs /\
  fronts_count (fun a b => dominates [m; m] (vec2 b) (vec2 a)) vs d /\
  forall i z, nth_error zs i = Some z -> exists r, in_front_number (fun a b => dominates [m; m] (vec2 b) (vec2 a)) vs i r /\ z = (Z.of_nat d - Z.of_nat r)%Z.
Proof. exact two_distinct. Qed.
Print Assumptions C44_two.
(** with repeated vectors and the flag set, one of the individuals with a given vector gets
    its front and the others the worst possible rank (the population size) *)
Theorem C44_two_repeated : forall sort, std_sort_ok sort -> forall m vs f0, length f0 = length vs ->
  exists f', twoObjectives sort true 0 [m; m] vs f0 = Ok f' /\ length f' = length vs /\
  (forall i a, nth_error vs i = Some a -> exists r, nth_error f' i = Some (Some (Z.of_nat r)) /\
     (in_front_number (fun a b => dominates [m; m] (vec2 b) (vec2 a)) vs i r \/
      (r = length vs /\ exists j b r', j <> i /\ nth_error vs j = Some b /\ equal_vectors (vec2 a) (vec2 b) /\
         nth_error f' j = Some (Some (Z.of_nat r')) /\ in_front_number (fun a b => dominates [m; m] (vec2 b) (vec2 a)) vs j r'))).
Proof.
  intros sort Hsort m vs f0 L. destruct (two_ok sort Hsort m true vs f0 L) as (f' & E & L' & H); [discriminate|].
  exists f'. split; auto. split; auto. intros i a Ha. destruct (H i a Ha) as (r & R1 & [R2|(_ & R2)]); eauto.
Qed.
Print Assumptions C44_two_repeated.
(** one objective: the population is also sorted *)
Theorem C44_one : forall sort, std_sort_ok sort -> forall A (obj : A -> Q) m pop, pop <> [] ->
  exists d pop' zs, depth_one sort obj 0 m pop = Ok (pop', zs) /\ Permutation pop pop' /\ length zs = length pop' /\
  fronts_count (fun a b => dominates [m] [obj b] [obj a]) pop' d /\
  forall i z, nth_error zs i = Some z -> exists r, in_front_number (fun a b => dominates [m] [obj b] [obj a]) pop' i r /\ z = (Z.of_nat d - Z.of_nat r)%Z.
Proof. intros sort H A. exact (one_fitness sort H). Qed.
Print Assumptions C44_one.
Example C44_ex : depth_many (pareto 0 [true; true; true]) [[1; 1; 1]; [0; 2; 2]; [2; 2; 2]; [3; 3; 3]; [0; 0; 5]; [2; 2; 2]]%Q (repeat None 6)
  = Ok [2; 2; 1; 0; 2; 1]%Z.
Proof. vm_compute. reflexivity. Qed.
Example C44_ex_two : depth_two the_sort true 0 [false; false] [(1, 1); (3, 0); (2, 2); (0, 0); (0, 3)]%Q (repeat None 5) = Ok [1; 2; 2; 0; 2]%Z.
Proof. vm_compute. reflexivity. Qed.
Example C44_ex_one : depth_one the_sort (fun q : Q => q) 0 true [5; 3; 5; 1]%Q = Ok ([1; 3; 5; 5]%Q, [2; 1; 0; 0]%Z).
Proof. vm_compute. reflexivity. Qed.
(** a comparator that is only asymmetric: members that survive every removal keep the fitness
    they had before *)
Theorem C44_cyclic : forall V (dominated : V -> V -> bool) vs f0, length f0 = length vs ->
  (forall a b, In a vs -> In b vs -> dominated a b = true -> dominated b a = false) ->
  exists f', mObjectives V dominated vs f0 = Ok f' /\ length f' = length vs /\
  forall i z, nth_error f' i = Some z -> (exists r, z = Some (Z.of_nat r) /\ in_front_number (fun a b => dominated a b = true) vs i r) \/
    (nth_error f0 i = Some z /\ forall k, survives (fun a b => dominated a b = true) vs k i).
Proof. exact many_forever. Qed.
Print Assumptions C44_cyclic.
(** so with a positive tolerance the assignment can throw: three vectors in a cycle *)
Theorem C44_tolerance_outside : forall t, (0 < t)%Q -> exists u v w, length u = 3 /\ length v = 3 /\ length w = 3 /\
  depth_many (pareto t [true; true; true]) [u; v; w] [None; None; None] = Throw.
Proof. exact many_cycle. Qed.
Print Assumptions C44_tolerance_outside.
(** two objectives with opposite directions: a dominated individual can be ranked first *)
Theorem C95_two_mixed_refuted : forall sort, std_sort_ok sort -> exists f',
  twoObjectives sort true 0 [true; false] [(0, 1); (0, 2)]%Q [None; None] = Ok f' /\
  nth_error f' 0 = Some (Some 1%Z) /\ in_front_number (fun a b => dominates [true; false] (vec2 b) (vec2 a)) [(0, 1); (0, 2)]%Q 0 2.
Proof. exact two_mixed. Qed.
Print Assumptions C95_two_mixed_refuted.
(** without the flag, equal vectors are put in successive fronts *)
Theorem C95_two_equal_refuted : forall sort, std_sort_ok sort -> exists f',
  twoObjectives sort false 0 [true; true] [(0, 0); (0, 0)]%Q [None; None] = Ok f' /\
  ~ (forall i r, nth_error f' i = Some (Some (Z.of_nat r)) -> in_front_number (fun a b => dominates [true; true] (vec2 b) (vec2 a)) [(0, 0); (0, 0)]%Q i r).
Proof. exact two_duplicates. Qed.
Print Assumptions C95_two_equal_refuted.
(** an empty population is undefined *)
Theorem C44_empty : forall V (dominated : V -> V -> bool), depth_many dominated [] [] = UB.
Proof. reflexivity. Qed.
Print Assumptions C44_empty.
(** updating after a deletion does not give the fitnesses of the remaining population: here
    the second remaining individual is dominated by the first and gets the same fitness *)
Theorem C95_depth_delete_refuted : exists p p' q : list Q,
  depth_many (pareto 0 [true; true; true]) [p; p'; q] [None; None; None] = Ok [1; 1; 0]%Z /\
  depth_delete (pareto 0 [true; true; true]) [p'; q] [1; 0]%Z p = [1; 1]%Z /\
  dominates [true; true; true] p' q.
Proof.
  exists [0; 1; 0]%Q, [1; 0; 0]%Q, [1; 1; 0]%Q. split; [vm_compute; reflexivity|]. split; [vm_compute; reflexivity|].
  apply pareto_exact; auto; reflexivity.
Qed.
Print Assumptions C95_depth_delete_refuted.
