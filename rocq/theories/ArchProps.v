(** C43, C49: archives of non-dominated individuals.
    Individuals are of any type [A], with objective vectors [obj a] of rational numbers;
    [dirs] gives the direction of each objective (true: minimised). *)
From Coq Require Import List Arith Bool Permutation QArith.
From Verif Require Import Outcome OrderSpec OrderLemmas ParetoModel ParetoSpec ArchModel ArchSpec ArchProofs ArchReal.
Import ListNotations.
Close Scope Q_scope.

Notation dominated_in dirs obj := (fun a b => dominates dirs (obj b) (obj a)).
Notation equal_in obj := (fun a b => equal_vectors (obj a) (obj b)).
Notation run A obj tol dirs replace := (update_pop A (list Q) obj (pareto tol dirs) (same_vector tol) replace).
Notation run_one A obj tol dirs replace := (update A (list Q) obj (pareto tol dirs) (same_vector tol) replace).

(** ** C43 *)
(** an archive that was offered any individuals, in any order, holds their Pareto front:
    non-dominated individuals only, one per objective vector, and all of these vectors *)
Theorem C43_front : forall A (obj : A -> list Q) dirs replace offered,
  Forall (fun a => length (obj a) = length dirs) offered ->
  exists l b, run A obj 0 dirs replace [] offered false = Ok (l, b) /\
  represents_front (dominated_in dirs obj) (equal_in obj) offered l.
Proof. exact real_front. Qed.
Print Assumptions C43_front.
(** the same from any archive without dominated or repeated members *)
Theorem C43_more : forall A (obj : A -> list Q) dirs replace init offered,
  Forall (fun a => length (obj a) = length dirs) (init ++ offered) ->
  antichain (dominated_in dirs obj) (equal_in obj) init ->
  exists l b, run A obj 0 dirs replace init offered false = Ok (l, b) /\
  represents_front (dominated_in dirs obj) (equal_in obj) (init ++ offered) l.
Proof. exact real_more. Qed.
Print Assumptions C43_more.
(** the order in which individuals are offered does not matter *)
Theorem C43_order : forall A (obj : A -> list Q) dirs replace offered offered' l l' b b',
  Forall (fun a => length (obj a) = length dirs) offered -> Permutation offered offered' ->
  run A obj 0 dirs replace [] offered false = Ok (l, b) -> run A obj 0 dirs replace [] offered' false = Ok (l', b') ->
  equals A (list Q) obj (same_vector 0) l l' = true.
Proof. exact real_equals. Qed.
Print Assumptions C43_order.
(** one update: the individual enters exactly when no member dominates it (nor, without
    replacement, has its vector); exactly the members it dominates (or, with replacement,
    that have its vector) leave *)
Theorem C43_update : forall A (obj : A -> list Q) dirs replace l x,
  Forall (fun a => length (obj a) = length dirs) (x :: l) ->
  exists l' b, run_one A obj 0 dirs replace l x = Ok (l', b) /\
  (b = true <-> forall y, In y l -> ~ dominates dirs (obj y) (obj x) /\ ~ (replace = false /\ equal_vectors (obj x) (obj y))) /\
  (forall y, In y l' <-> (In y l /\ ~ dominates dirs (obj x) (obj y) /\ ~ (replace = true /\ equal_vectors (obj x) (obj y))) \/
                         (b = true /\ y = x)).
Proof. exact real_update. Qed.
Print Assumptions C43_update.
(** whatever the comparator, no member is dominated by or equal to another one *)
Theorem C43_antichain : forall A V (obj : A -> V) dominated same replace,
  (forall a b, same (obj a) (obj b) = true -> same (obj b) (obj a) = true) ->
  forall pop l acc l' b, antichain (fun a b => dominated (obj a) (obj b) = true) (fun a b => same (obj a) (obj b) = true) l ->
  update_pop A V obj dominated same replace l pop acc = Ok (l', b) ->
  antichain (fun a b => dominated (obj a) (obj b) = true) (fun a b => same (obj a) (obj b) = true) l'.
Proof. intros A V obj dominated same replace Hs pop l acc l' b H E. apply antichain_sep. eapply pop_antichain; eauto. apply antichain_sep; auto. Qed.
Print Assumptions C43_antichain.
(** updating with a population reports whether one of its individuals entered *)
Theorem C43_flag : forall A V (obj : A -> V) dominated same replace pop l l' b,
  update_pop A V obj dominated same replace l pop false = Ok (l', b) ->
  (b = true <-> exists p x q l1 b1 l2, pop = p ++ x :: q /\ update_pop A V obj dominated same replace l p false = Ok (l1, b1) /\
     update A V obj dominated same replace l1 x = Ok (l2, true)).
Proof.
  intros A V obj dominated same replace pop l l' b H. rewrite (update_pop_flag A V obj dominated same replace pop l false l' b H).
  split; [intros [|]; [discriminate|auto]|auto].
Qed.
Print Assumptions C43_flag.
(** the queries: an archive dominates a vector when a member does, and contains it when a
    member has this vector; two archives are equal when each contains the other's vectors *)
Theorem C43_queries : forall A (obj : A -> list Q) dirs l l' v,
  Forall (fun a => length (obj a) = length dirs) (l ++ l') -> length v = length dirs ->
  (arch_dominates A (list Q) obj (pareto 0 dirs) l v = true <-> exists a, In a l /\ dominates dirs (obj a) v) /\
  (contains A (list Q) obj (same_vector 0) l v = true <-> exists a, In a l /\ equal_vectors (obj a) v) /\
  (equals A (list Q) obj (same_vector 0) l l' = true <->
     (forall a, In a l -> exists b, In b l' /\ equal_vectors (obj b) (obj a)) /\ (forall b, In b l' -> exists a, In a l /\ equal_vectors (obj a) (obj b))).
Proof. exact real_queries. Qed.
Print Assumptions C43_queries.
Example C43_ex :
  run (list Q) (fun v => v) 0 [true; true] false [] [[3; 3]; [1; 4]; [2; 2]; [4; 1]; [2; 2]; [5; 5]]%Q false
    = Ok ([[1; 4]; [2; 2]; [4; 1]]%Q, true).
Proof. reflexivity. Qed.
Example C43_ex_replace : run (nat * list Q) snd 0 [true; false] true [] [(1, [3; 3]%Q); (2, [3; 3]%Q); (3, [3; 2]%Q)] false = Ok ([(2, [3; 3]%Q)], true) /\
  run (nat * list Q) snd 0 [true; false] false [] [(1, [3; 3]%Q); (2, [3; 3]%Q); (3, [3; 2]%Q)] false = Ok ([(1, [3; 3]%Q)], true).
Proof. split; reflexivity. Qed.
(** with a positive tolerance an individual offered can be neither dominated by nor equal to
    any member *)
Theorem C43_coverage_with_tolerance_outside : forall t, (0 < t)%Q -> exists offered l b x,
  run (list Q) (fun v => v) t [true; true] true [] offered false = Ok (l, b) /\
  Forall (fun v => length v = 2) offered /\ In x offered /\
  forall m, In m l -> pareto t [true; true] x m = false /\ same_vector t x m = false.
Proof. exact tol_coverage. Qed.
Print Assumptions C43_coverage_with_tolerance_outside.

(** ** C49 *)
(** an improvement-only archive of bounded size *)
Theorem C49_bounded : forall A V (obj : A -> V) dominated same replace,
  (forall a b, same (obj a) (obj b) = true -> same (obj b) (obj a) = true) ->
  forall maxSize pop l acc,
  antichain (fun a b => dominated (obj a) (obj b) = true) (fun a b => same (obj a) (obj b) = true) l -> length l <= maxSize ->
  exists l' b, bounded_pop A V obj dominated same replace maxSize l pop acc = Ok (l', b) /\
  antichain (fun a b => dominated (obj a) (obj b) = true) (fun a b => same (obj a) (obj b) = true) l' /\
  length l' <= maxSize /\ (forall y, In y l' -> In y (l ++ pop)).
Proof.
  intros A V obj dominated same replace Hs maxSize pop l acc H L.
  destruct (bounded_pop_inv A V obj dominated same replace Hs maxSize pop l acc) as (l' & b & E & H' & L' & I); auto.
  - apply antichain_sep; auto.
  - exists l', b. split; auto. split; auto. apply antichain_sep; auto.
Qed.
Print Assumptions C49_bounded.
(** members leave only for an individual that dominates (or replaces) them; the individual
    enters exactly when no remaining member dominates (or equals) it and there is room *)
Theorem C49_entry : forall A V (obj : A -> V) dominated same replace maxSize l x,
  let stays y := dominated (obj y) (obj x) = false /\ (replace = true -> same (obj x) (obj y) = false) in
  exists l' b kept, bounded_update A V obj dominated same replace maxSize l x = Ok (l', b) /\
  Permutation l' (kept ++ if b then [x] else []) /\ (forall y, In y kept <-> In y l /\ stays y) /\
  (b = true <-> (forall y, In y kept -> dominated (obj x) (obj y) = false /\ (replace = false -> same (obj x) (obj y) = false)) /\
                length kept < maxSize).
Proof.
  intros A V obj dominated same replace maxSize l x stays.
  destruct (bounded_update_ok A V obj dominated same replace maxSize l x) as (l' & b & E & P & Hb).
  exists l', b, (filter (keep A V obj dominated same replace x) l). split; auto. split; auto.
  assert (K : forall y, keep A V obj dominated same replace x y = true <-> stays y).
  { intros y. rewrite keep_true. unfold stays. rewrite not_true_iff_false. destruct replace, (same (obj x) (obj y)); intuition congruence. }
  split.
  - intros y. rewrite filter_In, K. tauto.
  - rewrite Hb. split; intros [H1 H2]; split; auto.
    + intros y Hy. apply filter_In in Hy as [Hy Hk].
      split; [apply not_true_iff_false; intros C; apply H1; eauto 6|intros R; apply not_true_iff_false; intros C; apply H1; eauto 8].
    + intros (y & Hy & Hk & Hd). destruct (H1 y) as [N1 N2]; [apply filter_In; auto|]. destruct Hd as [Hd|[Hr Hd]]; [congruence|]. rewrite N2 in Hd; auto. discriminate.
Qed.
Print Assumptions C49_entry.
(** the archive bounded by fitness and diversity: size and mutual non-domination *)
Theorem C49_fitdiv : forall A (obj : A -> list Q) tol dirs replace assign worse sort,
  std_sort_ok sort -> strict_weak_order worse -> (forall l, Permutation (map obj l) (map obj (assign l))) ->
  forall maxSize l pop,
  antichain (fun a b => pareto tol dirs (obj a) (obj b) = true) (fun a b => same_vector tol (obj a) (obj b) = true) l ->
  exists l' b, fitdiv_pop A (list Q) obj (pareto tol dirs) (same_vector tol) replace assign worse sort maxSize l pop = Ok (l', b) /\
  antichain (fun a b => pareto tol dirs (obj a) (obj b) = true) (fun a b => same_vector tol (obj a) (obj b) = true) l' /\
  length l' <= maxSize /\ incl (map obj l') (map obj (l ++ pop)).
Proof. exact fitdiv_inv. Qed.
Print Assumptions C49_fitdiv.
(** when it has to shrink it keeps the worst individuals for its comparator... *)
Theorem C49_fitdiv_keeps_worst : forall A V (obj : A -> V) assign worse sort,
  std_sort_ok sort -> strict_weak_order worse -> (forall l, Permutation (map obj l) (map obj (assign l))) ->
  forall maxSize l, maxSize < length l -> best_n (fun a b => worse b a) (assign l) maxSize (shrink A assign worse sort maxSize l).
Proof. exact shrink_worst. Qed.
Print Assumptions C49_fitdiv_keeps_worst.
(** ... so it does not keep the best ones *)
Theorem C95_fitdiv_keeps_best_refuted : forall sort, std_sort_ok sort -> exists l' b,
  fitdiv_update (nat * list Q) (list Q) snd (pareto 0 [true; true]) (same_vector 0) false (fun l => l) (fun a b => fst a <? fst b) sort
    1 [(1, [0; 1]%Q)] (2, [1; 0]%Q) = Ok (l', b) /\
  ~ best_n (fun a b => fst a <? fst b) [(1, [0; 1]%Q); (2, [1; 0]%Q)] 1 l'.
Proof. exact fitdiv_not_best. Qed.
Print Assumptions C95_fitdiv_keeps_best_refuted.
Example C49_ex : bounded_pop (list Q) (list Q) (fun v => v) (pareto 0 [true; true]) (same_vector 0) false 2 []
    [[3; 1]; [1; 3]; [2; 2]; [0; 3]; [0; 0]]%Q false = Ok ([[0; 0]]%Q, true) /\
  bounded_pop (list Q) (list Q) (fun v => v) (pareto 0 [true; true]) (same_vector 0) false 2 [] [[3; 1]; [1; 3]; [2; 2]; [0; 3]]%Q false
    = Ok ([[3; 1]; [0; 3]]%Q, true).
Proof. split; reflexivity. Qed.
