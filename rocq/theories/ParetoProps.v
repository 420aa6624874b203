(** C42, C48, C67: comparisons of objective vectors and the additive epsilon indicator.
    The comparators answer "is the first vector dominated by the second". *)
From Coq Require Import List Bool QArith Lqa.
From Verif Require Import Outcome ParetoModel ParetoSpec ParetoProofs.
Import ListNotations.
Local Open Scope Q_scope.

(** ** C42 *)
(** without tolerance the comparator is textbook Pareto domination, for any directions *)
Theorem C42_textbook : forall dirs v w, length v = length dirs -> length w = length dirs ->
  (pareto 0 dirs v w = true <-> dominates dirs w v).
Proof. exact pareto_exact. Qed.
Print Assumptions C42_textbook.
Theorem C42_transitive : forall dirs u v w, length u = length dirs -> length v = length dirs -> length w = length dirs ->
  pareto 0 dirs u v = true -> pareto 0 dirs v w = true -> pareto 0 dirs u w = true.
Proof. exact pareto_trans. Qed.
Print Assumptions C42_transitive.
(** with any tolerance it is domination where differences up to the tolerance do not count *)
Theorem C42_tolerance : forall tol dirs v w, 0 <= tol -> length v = length dirs -> length w = length dirs ->
  (pareto tol dirs v w = true <-> dominates_tol tol dirs w v).
Proof. exact pareto_tol. Qed.
Print Assumptions C42_tolerance.
Theorem C42_irreflexive : forall tol dirs v, 0 <= tol -> length v = length dirs -> pareto tol dirs v v = false.
Proof. exact pareto_irrefl. Qed.
Print Assumptions C42_irreflexive.
Theorem C42_asymmetric : forall tol dirs v w, 0 <= tol -> length v = length dirs -> length w = length dirs ->
  pareto tol dirs v w = true -> pareto tol dirs w v = false.
Proof. exact pareto_asym. Qed.
Print Assumptions C42_asymmetric.
(** equal vectors are interchangeable *)
Theorem C42_congruence : forall dirs v v' w w', equal_vectors v v' -> equal_vectors w w' -> dominates dirs v w -> dominates dirs v' w'.
Proof. exact dominates_equal. Qed.
Print Assumptions C42_congruence.
Theorem C42_equal : forall v w, length v = length w -> (same_vector 0 v w = true <-> equal_vectors v w).
Proof. exact same_vector_exact. Qed.
Print Assumptions C42_equal.
Example C42_ex : pareto 0 [true; false] [3; 1] [2; 1] = true /\ pareto 0 [true; false] [3; 1] [2; 0] = false /\
  pareto 0 [true; false] [3; 1] [3; 1] = false /\ pareto 0 [true; false] [3; 1] [3; 2] = true.
Proof. repeat split. Qed.
(** every positive tolerance loses transitivity... *)
Theorem C42_not_transitive_with_tolerance : forall t, 0 < t -> exists u v w,
  pareto t [true; true] u v = true /\ pareto t [true; true] v w = true /\ pareto t [true; true] u w = false.
Proof. exact pareto_tol_not_trans. Qed.
Print Assumptions C42_not_transitive_with_tolerance.
(** ... and with three objectives allows three vectors to dominate each other in a cycle *)
Theorem C42_cycle_with_tolerance : forall t, 0 < t -> exists u v w,
  pareto t [true; true; true] u v = true /\ pareto t [true; true; true] v w = true /\ pareto t [true; true; true] w u = true.
Proof. exact pareto_tol_cycle. Qed.
Print Assumptions C42_cycle_with_tolerance.

(** ** C48 *)
(** the indicator is the least translation of the normalised first vector that makes it
    nowhere worse than the second *)
Theorem C48_least : forall dirs bs v w, dirs <> [] -> length bs = length dirs -> length v = length dirs -> length w = length dirs ->
  exists e, epsilon_metric dirs bs v w = Ok e /\ least (covers_with (norm_of bs) dirs v w) e.
Proof. exact epsilon_metric_least. Qed.
Print Assumptions C48_least.
Theorem C48_sign : forall dirs bs v w e, dirs <> [] -> length bs = length dirs -> length v = length dirs -> length w = length dirs ->
  Forall (fun b => 0 < snd b) bs -> epsilon_metric dirs bs v w = Ok e -> (e <= 0 <-> weakly_dominates dirs v w).
Proof. exact epsilon_sign. Qed.
Print Assumptions C48_sign.
Theorem C48_triangle : forall dirs bs u v w e1 e2 e3, dirs <> [] -> length bs = length dirs -> length u = length dirs -> length v = length dirs -> length w = length dirs ->
  epsilon_metric dirs bs u v = Ok e1 -> epsilon_metric dirs bs v w = Ok e2 -> epsilon_metric dirs bs u w = Ok e3 -> e3 <= e1 + e2.
Proof. exact epsilon_triangle. Qed.
Print Assumptions C48_triangle.
Example C48_ex : (exists e, epsilon_metric [true; false] [(0, 10); (0, 5)] [3; 1] [1; 2] = Ok e /\ e == 1 # 5) /\
  (exists e, epsilon_metric [true; false] [(0, 10); (0, 5)] [1; 3] [1; 2] = Ok e /\ e == 0).
Proof. split; eexists; split; [reflexivity| |reflexivity|]; reflexivity. Qed.

(** ** C67 *)
Theorem C67_weak : forall dirs v w, length v = length dirs -> length w = length dirs -> (weak 0 dirs v w = true <-> weakly_dominates dirs w v).
Proof. exact weak_exact. Qed.
Print Assumptions C67_weak.
(** Pareto domination is weak domination one way only *)
Theorem C67_pareto_weak : forall dirs v w, length v = length dirs -> length w = length dirs ->
  (pareto 0 dirs v w = true <-> weak 0 dirs v w = true /\ weak 0 dirs w v = false).
Proof. exact pareto_weak. Qed.
Print Assumptions C67_pareto_weak.
(** strict domination: better by at least the tolerance in every objective *)
Theorem C67_strict : forall tol dirs v w, 0 < tol -> length v = length dirs -> length w = length dirs ->
  (strict tol dirs v w = true <-> forall i d x y, objective dirs w v i d x y -> if d then y - x >= tol else x - y >= tol).
Proof. intros tol dirs v w H. exact (strict_tol tol dirs H v w). Qed.
Print Assumptions C67_strict.
(** with a zero tolerance it would accept equal vectors *)
Theorem C67_strict_zero_outside : ~ forall dirs v w, length v = length dirs -> length w = length dirs ->
  (strict 0 dirs v w = true <-> strictly_dominates dirs w v).
Proof.
  intros H. destruct (H [true] [0] [0] eq_refl eq_refl) as [A _]. specialize (A eq_refl 0%nat true 0 0 (conj eq_refl (conj eq_refl eq_refl))).
  unfold better in A. cbn in A. lra.
Qed.
Print Assumptions C67_strict_zero_outside.
(** multiplicative epsilon domination *)
Theorem C67_epsilon : forall eps dirs v w, length v = length dirs -> length w = length dirs ->
  (epsilon_cmp 0 eps dirs v w = true <-> weakly_dominates dirs w (map (fun x => x / eps) v)).
Proof. exact epsilon_cmp_exact. Qed.
Print Assumptions C67_epsilon.
(** g-domination: vectors comparable to the reference point come first *)
Theorem C67_g : forall dirs ref v w, length v = length dirs -> length w = length dirs -> length ref = length dirs ->
  (gdominance 0 dirs ref v w = true <-> comparable_to ref w /\ (~ comparable_to ref v \/ dominates dirs w v)).
Proof. exact gdominance_spec. Qed.
Print Assumptions C67_g.
Theorem C67_g_order : forall dirs ref u v w, length u = length dirs -> length v = length dirs -> length w = length dirs ->
  gdominance 0 dirs ref u u = false /\
  (gdominance 0 dirs ref u v = true -> gdominance 0 dirs ref v w = true -> gdominance 0 dirs ref u w = true).
Proof. intros dirs ref u v w A B C. split; [apply gdominance_irrefl; auto|apply gdominance_trans; auto]. Qed.
Print Assumptions C67_g_order.
(** feasible vectors first, then Pareto domination *)
Theorem C67_dual : forall dirs a b, length (snd a) = length dirs -> length (snd b) = length dirs ->
  (dual_pareto 0 dirs a b = true <-> (fst a = false /\ fst b = true) \/ (fst a = fst b /\ dominates dirs (snd b) (snd a))).
Proof. exact dual_pareto_spec. Qed.
Print Assumptions C67_dual.
Theorem C67_dual_order : forall dirs a b c, length (snd a) = length dirs -> length (snd b) = length dirs -> length (snd c) = length dirs ->
  dual_pareto 0 dirs a a = false /\
  (dual_pareto 0 dirs a b = true -> dual_pareto 0 dirs b c = true -> dual_pareto 0 dirs a c = true).
Proof. intros dirs a b c A B C. split; [apply dual_pareto_irrefl; auto|apply dual_pareto_trans; auto]. Qed.
Print Assumptions C67_dual_order.
(** the order used to sort and print: smaller on the first objective that differs *)
Theorem C67_lexicographic : forall dirs v w, length v = length dirs -> length w = length dirs ->
  (lexicographic 0 dirs v w = true <-> exists i x y, nth_error v i = Some x /\ nth_error w i = Some y /\ x < y /\
     forall j x' y', (j < i)%nat -> nth_error v j = Some x' -> nth_error w j = Some y' -> x' == y').
Proof. exact lexicographic_spec. Qed.
Print Assumptions C67_lexicographic.
Example C67_ex : weak 0 [true; false] [3; 1] [3; 1] = true /\ strict (1 # 2) [true; false] [3; 1] [2; 2] = true /\
  epsilon_cmp 0 2 [true] [4] [2] = true /\ epsilon_cmp 0 2 [true] [4] [3] = false /\
  gdominance 0 [true; true] [2; 2] [1; 3] [2; 1] = true /\ gdominance 0 [true; true] [2; 2] [2; 1] [1; 3] = false /\
  dual_pareto 0 [true] (false, [1]) (true, [9]) = true /\ lexicographic 0 [true; true] [1; 2] [1; 3] = true.
Proof. repeat split. Qed.
