(** C45: dominance matrix, counts and ranks, and the fitness assignments built on them. *)
From Coq Require Import List Arith Bool ZArith QArith Lqa.
From Verif Require Import Outcome Lib TopoModel TopoSpec RankSpec ParetoModel ParetoSpec ParetoProofs DomModel DomSpec DomFinal.
Import ListNotations.
Close Scope Q_scope.

(** the matrix holds exactly the relation [beats], counts are the numbers of beaten members,
    ranks the numbers of members that beat it, and the totals agree: any populations, any
    asymmetric comparator that never separates equal vectors, first call on an object *)
Theorem C45_matrix : forall V (dominated same : V -> V -> bool) nocopy pop1 pop2,
  (forall a b, In a (pop1 ++ pop2) -> In b (pop1 ++ pop2) -> dominated a b = true -> dominated b a = false) ->
  (forall a b, In a (pop1 ++ pop2) -> In b (pop1 ++ pop2) -> same a b = true -> dominated a b = false /\ dominated b a = false) ->
  let n := length pop1 + length pop2 in
  let wins := beats (fun a b => dominated a b = true) (fun a b => same a b = true) nocopy (pop1 ++ pop2) in
  exists s, dominance_matrix dominated same nocopy pop1 pop2 [] = Ok s /\ is_graph n (mat s) wins /\
  (length (cnt s) = n /\ forall k z, nth_error (cnt s) k = Some z -> exists c, how_many n (wins k) c /\ z = Z.of_nat c) /\
  (length (rnk s) = n /\ forall l z, nth_error (rnk s) l = Some z -> exists c, how_many n (fun k => wins k l) c /\ z = Z.of_nat c) /\
  fold_right Z.add 0%Z (cnt s) = fold_right Z.add 0%Z (rnk s).
Proof. intros V dominated same nocopy pop1 pop2 H1 H2. exact (matrix_ok dominated same nocopy pop1 pop2 H1 H2). Qed.
Print Assumptions C45_matrix.
(** with real objective vectors *)
Theorem C45_pareto : forall dirs nocopy pop1 pop2, Forall (fun v => length v = length dirs) (pop1 ++ pop2) ->
  exists s, dominance_matrix (pareto 0 dirs) (same_vector 0) nocopy pop1 pop2 [] = Ok s /\
  is_graph (length pop1 + length pop2) (mat s) (beats (fun a b => dominates dirs b a) equal_vectors nocopy (pop1 ++ pop2)).
Proof.
  intros dirs nocopy pop1 pop2 F. rewrite Forall_forall in F.
  assert (Eq : forall a b, In a (pop1 ++ pop2) -> In b (pop1 ++ pop2) -> (same_vector 0 a b = true <-> equal_vectors a b)).
  { intros a b Ha Hb. apply same_vector_exact. rewrite (F a Ha), (F b Hb). auto. }
  assert (Dm : forall a b, In a (pop1 ++ pop2) -> In b (pop1 ++ pop2) -> (pareto 0 dirs a b = true <-> dominates dirs b a)).
  { intros a b Ha Hb. apply pareto_exact; auto. }
  destruct (matrix_ok (pareto 0 dirs) (same_vector 0) nocopy pop1 pop2) as (s & E & G & _).
  - intros a b Ha Hb. apply pareto_asym; auto. discriminate.
  - intros a b Ha Hb H. apply Eq in H; auto.
    assert (N : forall x y, In x (pop1 ++ pop2) -> In y (pop1 ++ pop2) -> equal_vectors x y -> pareto 0 dirs x y = false).
    { intros x y Hx Hy Exy. apply not_true_iff_false. intros Hd. apply Dm in Hd; auto.
      assert (H' : pareto 0 dirs x x = true) by (apply Dm; auto; eapply dominates_equal; [apply equal_vectors_sym; apply Exy|apply equal_vectors_refl|auto]).
      rewrite pareto_irrefl in H'; auto; discriminate. }
    split; apply N; auto. apply equal_vectors_sym; auto.
  - exists s. split; auto. destruct G as [G1 G2]. split; auto. intros i line Hl. destruct (G2 i line Hl) as [G3 G4]. split; auto.
    intros j b Hb. rewrite (G4 j b Hb).
    assert (R : forall k, repeats (fun a b => same_vector 0 a b = true) (pop1 ++ pop2) k <-> repeats equal_vectors (pop1 ++ pop2) k).
    { intros k. split; intros (x & u & v & H1 & H2 & H3 & H4); exists x, u, v; repeat split; auto; apply Eq; eauto using nth_error_In. }
    assert (T : forall k l, dominated_at (fun a b => pareto 0 dirs a b = true) (pop1 ++ pop2) k l <-> dominated_at (fun a b => dominates dirs b a) (pop1 ++ pop2) k l).
    { intros k l. split; intros (u & v & H1 & H2 & H3); exists u, v; repeat split; auto; apply Dm; eauto using nth_error_In. }
    unfold beats. destruct nocopy; rewrite ?R, T; tauto.
Qed.
Print Assumptions C45_pareto.
(** fitness assignments *)
Theorem C45_count : forall V (dominated same : V -> V -> bool) nocopy archive pop,
  (forall a b, In a (archive ++ pop) -> In b (archive ++ pop) -> dominated a b = true -> dominated b a = false) ->
  (forall a b, In a (archive ++ pop) -> In b (archive ++ pop) -> same a b = true -> dominated a b = false /\ dominated b a = false) ->
  let n := length archive + length pop in
  let wins := beats (fun a b => dominated a b = true) (fun a b => same a b = true) nocopy (archive ++ pop) in
  exists fa fp, count_fitness dominated same nocopy archive pop [] = Ok (fa, fp) /\ length fa = length archive /\ length fp = length pop /\
  forall k z, nth_error (fa ++ fp) k = Some z -> exists c, how_many n (wins k) c /\ z = Z.of_nat c.
Proof. intros V dominated same nocopy pop1 pop2 H1 H2. exact (count_fitness_ok dominated same nocopy pop1 pop2 H1 H2). Qed.
Print Assumptions C45_count.
Theorem C45_rank : forall V (dominated same : V -> V -> bool) nocopy archive pop,
  (forall a b, In a (archive ++ pop) -> In b (archive ++ pop) -> dominated a b = true -> dominated b a = false) ->
  (forall a b, In a (archive ++ pop) -> In b (archive ++ pop) -> same a b = true -> dominated a b = false /\ dominated b a = false) ->
  let n := length archive + length pop in
  let wins := beats (fun a b => dominated a b = true) (fun a b => same a b = true) nocopy (archive ++ pop) in
  forall start, exists fa fp, rank_fitness dominated same nocopy start archive pop [] = Ok (fa, fp) /\ length fa = length archive /\ length fp = length pop /\
  forall l z, nth_error (fa ++ fp) l = Some z -> exists c, how_many n (fun k => wins k l) c /\ z = (- (Z.of_nat c + start))%Z.
Proof. intros V dominated same nocopy pop1 pop2 H1 H2. exact (rank_fitness_ok dominated same nocopy pop1 pop2 H1 H2). Qed.
Print Assumptions C45_rank.
(** minus the sum of the counts [w] of the members that beat it *)
Theorem C45_ranking : forall V (dominated same : V -> V -> bool) nocopy archive pop,
  (forall a b, In a (archive ++ pop) -> In b (archive ++ pop) -> dominated a b = true -> dominated b a = false) ->
  (forall a b, In a (archive ++ pop) -> In b (archive ++ pop) -> same a b = true -> dominated a b = false /\ dominated b a = false) ->
  let n := length archive + length pop in
  let wins := beats (fun a b => dominated a b = true) (fun a b => same a b = true) nocopy (archive ++ pop) in
  exists fa fp w, ranking_fitness dominated same nocopy archive pop [] = Ok (fa, fp) /\ length fa = length archive /\ length fp = length pop /\
  (forall k, k < n -> exists c, how_many n (wins k) c /\ w k = Z.of_nat c) /\
  forall i z, nth_error (fa ++ fp) i = Some z -> exists t, sum_over n (fun k => wins k i) w t /\ z = (- t)%Z.
Proof. intros V dominated same nocopy pop1 pop2 H1 H2. exact (ranking_fitness_ok dominated same nocopy pop1 pop2 H1 H2). Qed.
Print Assumptions C45_ranking.
Example C45_ex : exists s, dominance_matrix (pareto 0 [true; true]) (same_vector 0) true [[1; 1]; [2; 2]]%Q [[1; 1]; [0; 3]; [3; 3]]%Q [] = Ok s /\
  cnt s = [3; 2; 0; 2; 1]%Z /\ rnk s = [0; 1; 4; 0; 3]%Z.
Proof. eexists. split; [vm_compute; reflexivity|]. vm_compute. auto. Qed.
(** a second call on the same object: positions that were copies the first time are still
    treated as copies, so a member is told to beat one that dominates it *)
Theorem C95_matrix_second_call_refuted : exists pop pop' : list nat, exists s s' : dmat,
  let dom a b := b <? a in let eq := Nat.eqb in
  dominance_matrix dom eq true pop [] [] = Ok s /\ dominance_matrix dom eq true pop' [] (cps s) = Ok s' /\
  NoDup pop' /\ nth_error pop' 1 = Some 1 /\ nth_error pop' 0 = Some 2 /\ mget (mat s') 0 1 = Some true.
Proof. exact matrix_stale. Qed.
Print Assumptions C95_matrix_second_call_refuted.
(** and with a smaller population it accesses memory out of bounds *)
Theorem C95_matrix_smaller_call_refuted : exists pop pop' : list nat, exists s : dmat,
  let dom a b := b <? a in let eq := Nat.eqb in
  dominance_matrix dom eq true pop [] [] = Ok s /\ dominance_matrix dom eq true pop' [] (cps s) = UB.
Proof. exact matrix_stale_ub. Qed.
Print Assumptions C95_matrix_smaller_call_refuted.
