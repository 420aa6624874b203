(** C144: the scalarizations. C145: the weight strategies. C146: what they document and do not do. *)
From Coq Require Import List Bool Arith QArith Qabs Qminmax Lia Lqa Sorted Permutation.
From Verif Require Import Lib Outcome OrderSpec OrderLemmas BoundsModel BoundsProofs ParetoModel ParetoSpec ParetoProofs ArchModel ArchProofs WgtModel WgtSpec WgtScal WgtSeq WgtRest.
From Coq Require Import List.
Import ListNotations.
Local Open Scope Q_scope.

(** ** C144 *)
(** Aggregation: a dominating vector never gets a lower fitness with non-negative weights, and gets a higher one with positive
    weights. *)
Theorem C144_aggregation : forall dirs weight v u, (length dirs <= length weight)%nat -> length v = length dirs -> length u = length dirs -> nonnegative weight ->
  weakly_dominates dirs v u ->
  exists a b, aggregation dirs weight v = Ok a /\ aggregation dirs weight u = Ok b /\ b <= a /\ (positive weight -> dominates dirs v u -> b < a).
Proof.
  intros dirs weight v u Lw Lv Lu N W. unfold aggregation. replace (length weight <? length dirs)%nat with false by (symmetry; apply Nat.ltb_ge; exact Lw).
  destruct (aggregate_mono dirs weight v u 0 0 Lw Lv Lu N W (Qle_refl 0)) as (a & b & Ea & Eb & L). exists a, b. split; [exact Ea|]. split; [exact Eb|]. split; [exact L|]. intros P [_ D].
  destruct (aggregate_strict dirs weight v u 0 0 Lw Lv Lu P W (Qle_refl 0) (or_intror D)) as (a' & b' & Ea' & Eb' & L'). rewrite Ea in Ea'. rewrite Eb in Eb'. inversion Ea'; inversion Eb'; subst. exact L'.
Qed.
Print Assumptions C144_aggregation.
(** With one weight per objective the fitness is the weighted sum of the objectives, minimised ones counted negatively. *)
Theorem C144_aggregation_value : forall dirs weight v l, (length dirs <= length weight)%nat -> length v = length dirs -> length l = length dirs ->
  (forall i (d : bool) w x, nth_error dirs i = Some d -> nth_error weight i = Some w -> nth_error v i = Some x -> nth_error l i = Some (if d then - (w * x) else w * x)) ->
  exists r, aggregation dirs weight v = Ok r /\ r == total_of l.
Proof.
  intros dirs weight v l Lw Lv Ll H. unfold aggregation. replace (length weight <? length dirs)%nat with false by (symmetry; apply Nat.ltb_ge; exact Lw).
  assert (G : forall dirs weight v l acc, (length dirs <= length weight)%nat -> length v = length dirs -> length l = length dirs ->
    (forall i (d : bool) w x, nth_error dirs i = Some d -> nth_error weight i = Some w -> nth_error v i = Some x -> nth_error l i = Some (if d then - (w * x) else w * x)) -> exists r, aggregate dirs weight v acc = Ok r /\ r == acc + total_of l).
  { clear. induction dirs as [|d dirs IH]; intros weight v l acc Lw Lv Ll H; cbn [aggregate].
    - destruct l; [|discriminate]. exists acc. split; [reflexivity|]. cbn. ring.
    - destruct weight as [|w weight]; cbn [length] in Lw; [lia|]. destruct v as [|x v]; [discriminate|]. destruct l as [|y l]; [discriminate|]. cbn [length] in Lv, Ll.
      destruct (IH weight v l (if d then acc - x * w else acc + x * w) ltac:(lia) ltac:(lia) ltac:(lia)) as (r & Er & Q); [intros i; exact (H (S i))|]. exists r. split; [exact Er|].
      specialize (H O d w x eq_refl eq_refl eq_refl). cbn in H. inversion H; subst y. rewrite Q. cbn [total_of fold_right]. fold (total_of l). destruct d; ring. }
  destruct (G dirs weight v l 0 Lw Lv Ll H) as (r & Er & Q). exists r. split; [exact Er|]. rewrite Q. ring.
Qed.
Print Assumptions C144_aggregation_value.
(** Too few weights: every vector gets 0. *)
Theorem C144_few_weights : forall dirs weight v, (length weight < length dirs)%nat -> aggregation dirs weight v = Ok 0.
Proof. intros dirs weight v L. unfold aggregation. apply Nat.ltb_lt in L. rewrite L. reflexivity. Qed.
Print Assumptions C144_few_weights.
Example C144_aggregation_ex : nonnegative [1; 2] /\ dominates [true; false] [1; 5] [2; 5] /\ exists a b, aggregation [true; false] [1; 2] [1; 5] = Ok a /\ aggregation [true; false] [1; 2] [2; 5] = Ok b /\ a == 9 /\ b == 8.
Proof.
  split; [repeat constructor; discriminate|]. split; [|do 2 eexists; split; [reflexivity|]; split; [reflexivity|]; split; reflexivity].
  apply (proj1 (pareto_exact [true; false] [2; 5] [1; 5] eq_refl eq_refl)). reflexivity.
Qed.

(** The achievement function is the greatest weighted amount by which the vector is worse than the reference. *)
Theorem C144_achievement : forall dirs weight ref v l, dirs <> [] -> length weight = length dirs -> length ref = length dirs -> length v = length dirs ->
  weighted_shortfalls dirs weight ref v l ->
  exists m, achievement dirs weight ref v = Ok m /\ greatest_in l m /\
    (positive weight -> (m <= 0 <-> weakly_dominates dirs v ref)) /\
    forall u, length u = length dirs -> nonnegative weight -> weakly_dominates dirs v u -> exists m', achievement dirs weight ref u = Ok m' /\ m <= m'.
Proof.
  intros dirs weight ref v l Nd Lw Lr Lv Hl. destruct (achievement_ok dirs weight ref v l Nd Lw Lr Lv Hl) as (m & E & G). exists m. split; [exact E|]. split; [exact G|]. split.
  - intros P. unfold positive in P. rewrite Forall_forall in P. split.
    + intros Hm i d x y O. assert (Hw : exists w, nth_error weight i = Some w).
      { destruct O as (O1 & _). destruct (nth_error weight i) eqn:X; [eauto|]. apply nth_error_None in X. assert (nth_error dirs i <> None) by congruence. apply nth_error_Some in H. lia. }
      destruct Hw as (w & Hw). destruct Hl as [_ Hl]. specialize (Hl i d w x y Hw O). apply nth_error_In in Hl. apply (proj2 G) in Hl. apply not_better.
      specialize (P w (nth_error_In _ _ Hw)). destruct (Qlt_le_dec 0 (worse_by d x y)) as [X|X]; [|exact X]. pose proof (Qmult_lt_0_compat _ _ P X). lra.
    + intros W. destruct G as [G _]. destruct (shortfall_in dirs weight ref v l m Lw Lr Lv Hl G) as (i & d & w & x & y & Hw & O & _ & ->).
      apply W in O. apply not_better in O. specialize (P w (nth_error_In _ _ Hw)). pose proof (Qmult_le_0_compat w (- worse_by d x y) ltac:(lra) ltac:(lra)). lra.
  - intros u Lu N W. destruct (shortfalls_ok dirs weight ref u Lw Lr Lu) as (l' & _ & Hl'). destruct (achievement_ok dirs weight ref u l' Nd Lw Lr Lu Hl') as (m' & E' & G'). exists m'. split; [exact E'|].
    exact (below_max l l' m m' (shortfalls_below dirs weight ref v u l l' Lw Lr Lv Lu N W Hl Hl') G G').
Qed.
Print Assumptions C144_achievement.
(** These weighted amounts exist and are determined by the arguments. *)
Theorem C144_shortfalls : forall dirs weight ref v, length weight = length dirs -> length ref = length dirs -> length v = length dirs ->
  exists l, weighted_shortfalls dirs weight ref v l /\ forall l', weighted_shortfalls dirs weight ref v l' -> l' = l.
Proof.
  intros dirs weight ref v Lw Lr Lv. destruct (shortfalls_ok dirs weight ref v Lw Lr Lv) as (l & _ & H). exists l. split; [exact H|]. intros l' H'. exact (shortfalls_unique dirs weight ref v l' l Lw Lr Lv H' H).
Qed.
Print Assumptions C144_shortfalls.
(** The augmented achievement function is the sum of these amounts plus rho times the greatest; it is lower for a dominating
    vector. *)
Theorem C144_augmented_achievement : forall rho dirs weight ref v u l, dirs <> [] -> length weight = length dirs -> length ref = length dirs -> length v = length dirs -> length u = length dirs ->
  weighted_shortfalls dirs weight ref v l ->
  exists m r, augmented_achievement rho dirs weight ref v = Ok r /\ greatest_in l m /\ r == total_of l + rho * m /\
    (0 <= rho -> positive weight -> dominates dirs v u -> exists r', augmented_achievement rho dirs weight ref u = Ok r' /\ r < r').
Proof.
  intros rho dirs weight ref v u l Nd Lw Lr Lv Lu Hl. destruct (augmented_ok rho dirs weight ref v l Nd Lw Lr Lv Hl) as (m & r & E & G & Er). exists m, r. split; [exact E|]. split; [exact G|]. split; [exact Er|].
  intros R P [W (i & d & x & y & O & B)]. assert (N : nonnegative weight). { unfold nonnegative, positive in *. eapply Forall_impl; [|exact P]. intros a Ha. cbv beta in Ha. lra. }
  destruct (shortfalls_ok dirs weight ref u Lw Lr Lu) as (l' & _ & Hl'). destruct (augmented_ok rho dirs weight ref u l' Nd Lw Lr Lu Hl') as (m' & r' & E' & G' & Er'). exists r'. split; [exact E'|].
  assert (Bl : below l l') by exact (shortfalls_below dirs weight ref v u l l' Lw Lr Lv Lu N W Hl Hl'). pose proof (below_max l l' m m' Bl G G') as M. pose proof (Qmult_le_0_compat rho (m' - m) R ltac:(lra)) as M2.
  destruct O as (O1 & O2 & O3). assert (Li : (i < length dirs)%nat) by (apply nth_error_Some; congruence).
  destruct (nth_error weight i) as [w|] eqn:Hw; [|apply nth_error_None in Hw; lia]. destruct (nth_error ref i) as [z|] eqn:Hz; [|apply nth_error_None in Hz; lia].
  pose proof (proj2 Hl i d w x z Hw (conj O1 (conj O2 Hz))) as H1. pose proof (proj2 Hl' i d w y z Hw (conj O1 (conj O3 Hz))) as H2.
  assert (S' : total_of l < total_of l').
  { apply (below_total_strict l l' i _ _ Bl H1 H2). unfold positive in P. rewrite Forall_forall in P. specialize (P w (nth_error_In _ _ Hw)).
    apply is_better in B. assert (D : worse_by d x z < worse_by d y z) by (destruct d; unfold worse_by in *; lra). 
    pose proof (Qmult_lt_0_compat w (worse_by d y z - worse_by d x z) P ltac:(lra)). lra. }
  lra.
Qed.
Print Assumptions C144_augmented_achievement.
Example C144_achievement_ex : weighted_shortfalls [true; false] [1; 2] [0; 4] [3; 3] [1 * (3 - 0); 2 * (4 - 3)] /\
  (exists m, achievement [true; false] [1; 2] [0; 4] [3; 3] = Ok m /\ m == 3) /\ (exists r, augmented_achievement 2 [true; false] [1; 2] [0; 4] [3; 3] = Ok r /\ r == 11).
Proof.
  split; [split; [reflexivity|]|split; eexists; split; reflexivity].
  intros [|[|i]] d w x y Hw (O1 & O2 & O3); cbn in *; try (inversion Hw; inversion O1; inversion O2; inversion O3; subst; reflexivity). destruct i; discriminate.
Qed.

(** Augmented Chebychev: the greatest weighted distance plus rho times the sum of the distances; 0 exactly on the reference. *)
Theorem C144_chebychev : forall rho weight ref v, v <> [] -> length weight = length v -> length ref = length v ->
  exists ds wds m r, augmented_chebychev rho weight ref v = Ok r /\ length ds = length v /\ length wds = length v /\
    (forall i x y w, nth_error v i = Some x -> nth_error ref i = Some y -> nth_error weight i = Some w -> nth_error ds i = Some (Qabs (x - y)) /\ nth_error wds i = Some (Qabs (x - y) * w)) /\
    greatest_in wds m /\ r == m + rho * total_of ds /\ (0 <= rho -> positive weight -> 0 <= r /\ (r == 0 <-> equal_vectors v ref)).
Proof.
  intros rho weight ref v Nv Lw Lr. destruct (distances_ok v ref Lr) as (ds & Ed & Ld & Hd). destruct (chebychev_ok rho weight ref v ds Nv Lw Lr Ed) as (m & r & E & G & Er).
  exists ds, (times weight ds), m, r. split; [exact E|]. split; [exact Ld|]. split; [rewrite times_len; congruence|].
  assert (N : forall i x y w, nth_error v i = Some x -> nth_error ref i = Some y -> nth_error weight i = Some w -> nth_error ds i = Some (Qabs (x - y)) /\ nth_error (times weight ds) i = Some (Qabs (x - y) * w)).
  { intros i x y w Hx Hy Hw. pose proof (Hd i x y Hx Hy) as H. split; [exact H|]. exact (times_nth weight ds i w _ Hw H). }
  assert (K : forall t, In t ds -> exists i x y, nth_error v i = Some x /\ nth_error ref i = Some y /\ nth_error ds i = Some t /\ t = Qabs (x - y)).
  { intros t Ht. apply In_nth_error in Ht as (i & Hi). assert (Li : (i < length v)%nat) by (rewrite <- Ld; apply nth_error_Some; congruence).
    destruct (nth_error v i) as [x|] eqn:Hx; [|apply nth_error_None in Hx; lia]. destruct (nth_error ref i) as [y|] eqn:Hy; [|apply nth_error_None in Hy; lia].
    exists i, x, y. split; [exact Hx|]. split; [exact Hy|]. split; [exact Hi|]. specialize (Hd i x y Hx Hy). congruence. }
  split; [exact N|]. split; [exact G|]. split; [rewrite Er; ring|]. intros R P. unfold positive in P. rewrite Forall_forall in P.
  assert (D0 : forall t, In t ds -> 0 <= t). { intros t Ht. destruct (K t Ht) as (i & x & y & _ & _ & _ & ->). apply Qabs_nonneg. }
  assert (T0 := total_nonneg ds D0). assert (RT := Qmult_le_0_compat rho (total_of ds) R T0).
  assert (W0 : forall i x y, nth_error v i = Some x -> nth_error ref i = Some y -> exists w, 0 < w /\ Qabs (x - y) * w <= m).
  { intros i x y Hx Hy. assert (Li : (i < length v)%nat) by (apply nth_error_Some; congruence). destruct (nth_error weight i) as [w|] eqn:Hw; [|apply nth_error_None in Hw; lia].
    exists w. split; [apply P; eapply nth_error_In; exact Hw|]. apply (proj2 G). eapply nth_error_In. exact (proj2 (N i x y w Hx Hy Hw)). }
  assert (M0 : 0 <= m). { destruct v as [|x v]; [congruence|]. destruct ref as [|y ref]; [discriminate|]. destruct (W0 O x y eq_refl eq_refl) as (w & Pw & L). pose proof (Qmult_le_0_compat (Qabs (x - y)) w (Qabs_nonneg _) ltac:(lra)). lra. }
  split; [lra|]. split.
  - intros Z. split; [congruence|]. intros i x y Hx Hy. destruct (W0 i x y Hx Hy) as (w & Pw & L). assert (m == 0) by lra. assert (A0 := Qabs_nonneg (x - y)).
    destruct (Qlt_le_dec 0 (Qabs (x - y))) as [X|X]; [pose proof (Qmult_lt_0_compat _ _ X Pw); lra|]. apply Qabs_Qle_condition in X. lra.
  - intros [_ Eq]. assert (Z : forall t, In t ds -> t == 0). { intros t Ht. destruct (K t Ht) as (i & x & y & Hx & Hy & _ & ->). specialize (Eq i x y Hx Hy). setoid_replace (x - y) with 0 by lra. reflexivity. }
    assert (T1 : total_of ds == 0). { clear -Z. induction ds as [|t ds IH]; [reflexivity|]. cbn [total_of fold_right]. fold (total_of ds). rewrite IH by (intros s Hs; apply Z; right; exact Hs). rewrite (Z t (or_introl eq_refl)). ring. }
    assert (M1 : m == 0). { destruct G as [Gi _]. apply In_nth_error in Gi as (i & Hi). assert (Li : (i < length (times weight ds))%nat) by (apply nth_error_Some; congruence). rewrite times_len in Li by congruence.
      destruct (nth_error ds i) as [t|] eqn:Ht; [|apply nth_error_None in Ht; lia]. destruct (nth_error weight i) as [w|] eqn:Hw; [|apply nth_error_None in Hw; lia].
      rewrite (times_nth weight ds i w t Hw Ht) in Hi. inversion Hi; subst m. rewrite (Z t (nth_error_In _ _ Ht)). ring. }
    rewrite Er, T1, M1. ring.
Qed.
Print Assumptions C144_chebychev.
Example C144_chebychev_ex : exists r, augmented_chebychev 1 [1; 2] [0; 0] [3; -(2)] = Ok r /\ r == 9.
Proof. eexists. split; reflexivity. Qed.

(** The achievement fitness is the least weighted margin to the reference plus [spn] times their sum; for minimised objectives
    a dominating vector gets a higher fitness. *)
Theorem C144_achievement_fitness : forall lambdas ref spn v u, v <> [] -> length lambdas = length v -> length ref = length v -> length u = length v ->
  exists ms m r, achievement_fitness lambdas ref spn v = Ok r /\ length ms = length v /\
    (forall i l y x, nth_error lambdas i = Some l -> nth_error ref i = Some y -> nth_error v i = Some x -> nth_error ms i = Some (l * (y - x))) /\
    least_in ms m /\ r == m + spn * total_of ms /\
    (0 < spn -> positive lambdas -> dominates (repeat true (length v)) v u -> exists r', achievement_fitness lambdas ref spn u = Ok r' /\ r' < r).
Proof.
  intros lambdas ref spn v u Nv Ll Lr Lu. destruct (achievement_fitness_ok lambdas ref spn v Nv Ll Lr) as (m & r & E & G & Er). exists (margins lambdas ref v), m, r.
  split; [exact E|]. split; [apply margins_len; assumption|]. split; [intros; apply margins_nth; assumption|]. split; [exact G|]. split; [exact Er|].
  intros Ps P [W (i & d & x & y & (O1 & O2 & O3) & B)]. assert (Nu : u <> []) by (intros ->; destruct v; [congruence|discriminate]).
  destruct (achievement_fitness_ok lambdas ref spn u Nu ltac:(congruence) ltac:(congruence)) as (m' & r' & E' & G' & Er'). exists r'. split; [exact E'|].
  assert (Bl : below (margins lambdas ref u) (margins lambdas ref v)).
  { split; [rewrite !margins_len; congruence|]. intros j a b Ha Hb. assert (Lj : (j < length (margins lambdas ref u))%nat) by (apply nth_error_Some; congruence). rewrite margins_len in Lj by congruence.
    destruct (nth_error lambdas j) as [l|] eqn:H1; [|apply nth_error_None in H1; lia]. destruct (nth_error ref j) as [z|] eqn:H2; [|apply nth_error_None in H2; lia].
    destruct (nth_error u j) as [t|] eqn:H3; [|apply nth_error_None in H3; lia]. destruct (nth_error v j) as [s|] eqn:H4; [|apply nth_error_None in H4; lia].
    rewrite (margins_nth lambdas ref u j l z t H1 H2 H3) in Ha. rewrite (margins_nth lambdas ref v j l z s H1 H2 H4) in Hb. inversion Ha; inversion Hb; subst a b.
    assert (Hd : nth_error (repeat true (length v)) j = Some true) by (apply nth_error_repeat; lia). specialize (W j true s t (conj Hd (conj H4 H3))). apply not_better in W. unfold worse_by in W.
    unfold positive in P. rewrite Forall_forall in P. specialize (P l (nth_error_In _ _ H1)). pose proof (Qmult_le_0_compat l (t - s) ltac:(lra) ltac:(lra)). lra. }
  pose proof (below_min _ _ m' m Bl G' G) as M.
  assert (Li : (i < length v)%nat) by (apply nth_error_Some; congruence). rewrite nth_error_repeat in O1 by exact Li. inversion O1; subst d.
  destruct (nth_error lambdas i) as [l|] eqn:H1; [|apply nth_error_None in H1; lia]. destruct (nth_error ref i) as [z|] eqn:H2; [|apply nth_error_None in H2; lia].
  assert (St : total_of (margins lambdas ref u) < total_of (margins lambdas ref v)).
  { apply (below_total_strict _ _ i (l * (z - y)) (l * (z - x)) Bl); [apply margins_nth; assumption|apply margins_nth; assumption|]. apply is_better in B. unfold worse_by in B.
    unfold positive in P. rewrite Forall_forall in P. specialize (P l (nth_error_In _ _ H1)). pose proof (Qmult_lt_0_compat l (y - x) P ltac:(lra)). lra. }
  pose proof (Qmult_lt_0_compat spn (total_of (margins lambdas ref v) - total_of (margins lambdas ref u)) Ps ltac:(lra)). lra.
Qed.
Print Assumptions C144_achievement_fitness.
Example C144_achievement_fitness_ex : dominates [true; true] [1; 2] [2; 2] /\ exists r r', achievement_fitness [1; 1] [0; 0] (1 # 10) [1; 2] = Ok r /\ achievement_fitness [1; 1] [0; 0] (1 # 10) [2; 2] = Ok r' /\ r == - (23 # 10) /\ r' == - (24 # 10).
Proof. split; [apply (proj1 (pareto_exact [true; true] [2; 2] [1; 2] eq_refl eq_refl)); reflexivity|]. do 2 eexists. split; [reflexivity|]. split; [reflexivity|]. split; reflexivity. Qed.

(** The fitness from the distance to a reference, through a normalizer with non-negative coefficients: a weakly dominating vector
    never gets a lower fitness. *)
Theorem C144_metric_fitness : forall sc dirs weight ref v u, dirs <> [] -> length sc = length dirs -> length weight = length dirs -> length ref = length dirs -> length v = length dirs -> length u = length dirs ->
  (forall c m, In (c, m) sc -> 0 <= c) -> nonnegative weight -> weakly_dominates dirs v u ->
  exists a b, metric_fitness sc dirs weight ref v = Ok a /\ metric_fitness sc dirs weight ref u = Ok b /\ b <= a.
Proof.
  intros sc dirs weight ref v u Nd Ls Lw Lr Lv Lu Hc N W. unfold metric_fitness.
  destruct (scaled_ok ref sc ltac:(congruence)) as (r' & Er & Lr' & _). destruct (scaled_ok v sc ltac:(congruence)) as (v' & Ev & Lv' & _). destruct (scaled_ok u sc ltac:(congruence)) as (u' & Eu & Lu' & _).
  rewrite Er, Ev, Eu. cbn [rbind]. pose proof (scaled_weak dirs sc v u v' u' Ls Lv Lu Hc Ev Eu W) as W'.
  destruct (shortfalls_ok dirs weight r' v' Lw ltac:(congruence) ltac:(congruence)) as (l & _ & Hl). destruct (shortfalls_ok dirs weight r' u' Lw ltac:(congruence) ltac:(congruence)) as (l' & _ & Hl').
  destruct (achievement_ok dirs weight r' v' l Nd Lw ltac:(congruence) ltac:(congruence) Hl) as (m & E & G). destruct (achievement_ok dirs weight r' u' l' Nd Lw ltac:(congruence) ltac:(congruence) Hl') as (m' & E' & G').
  rewrite E, E'. cbn [rbind]. exists (- m), (- m'). split; [reflexivity|]. split; [reflexivity|].
  assert (Bl : below l l') by (exact (shortfalls_below dirs weight r' v' u' l l' Lw ltac:(congruence) ltac:(congruence) ltac:(congruence) N W' Hl Hl')). pose proof (below_max l l' m m' Bl G G'). lra.
Qed.
Print Assumptions C144_metric_fitness.
(** The normalizer made from a population maps it into [0, max], keeps the order of the values, sends the least value to 0 and the
    greatest to max. *)
Theorem C144_normalizer : forall n max pop, pop <> [] -> 0 < max -> (forall v, In v pop -> length v = n) ->
  exists sc, scale_from_pop n max pop = Ok sc /\
  (forall v, length v = n -> exists r, scaled sc v = Ok r /\ length r = n /\ (In v pop -> forall x, In x r -> 0 <= x <= max)) /\
  (forall v u v' u' i x y x' y', length v = n -> length u = n -> scaled sc v = Ok v' -> scaled sc u = Ok u' ->
     nth_error v i = Some x -> nth_error u i = Some y -> nth_error v' i = Some x' -> nth_error u' i = Some y' -> (x < y <-> x' < y')) /\
  (forall i, (i < n)%nat -> exists v u v' u' x y x' y', In v pop /\ In u pop /\ scaled sc v = Ok v' /\ scaled sc u = Ok u' /\
     nth_error v i = Some x /\ nth_error u i = Some y /\ nth_error v' i = Some x' /\ nth_error u' i = Some y' /\ x' == 0 /\ (x < y -> y' == max) /\
     forall w z, In w pop -> nth_error w i = Some z -> x <= z <= y).
Proof.
  intros n max pop Np Pm Lp. destruct (scale_from_pop_ok n max pop Np Pm Lp) as (sc & E & Ls & H). exists sc. split; [exact E|]. split; [|split].
  - intros v Lv. destruct (scaled_ok v sc ltac:(congruence)) as (r & Er & Lr & Hr). exists r. split; [exact Er|]. split; [congruence|]. intros Iv x Hx.
    apply In_nth_error in Hx as (i & Hi). assert (Li : (i < n)%nat) by (rewrite <- Lv, <- Lr; apply nth_error_Some; congruence).
    destruct (H i Li) as (c & mn & mx & Hsc & Pc & _ & _ & Hb & _). destruct (nth_error v i) as [z|] eqn:Hz; [|apply nth_error_None in Hz; lia].
    specialize (Hr i z c mn Hz Hsc). rewrite Hr in Hi. inversion Hi; subst x. exact (proj2 (Hb v z Iv Hz)).
  - intros v u v' u' i x y x' y' Lv Lu Ev Eu Hx Hy Hx' Hy'. assert (Li : (i < n)%nat) by (rewrite <- Lv; apply nth_error_Some; congruence).
    destruct (H i Li) as (c & mn & mx & Hsc & Pc & _). destruct (scaled_ok v sc ltac:(congruence)) as (r & Er & _ & Hr). destruct (scaled_ok u sc ltac:(congruence)) as (q & Eq & _ & Hq).
    rewrite Ev in Er. rewrite Eu in Eq. inversion Er; inversion Eq; subst r q. rewrite (Hr i x c mn Hx Hsc) in Hx'. rewrite (Hq i y c mn Hy Hsc) in Hy'. inversion Hx'; inversion Hy'; subst x' y'.
    split; intros L; [pose proof (Qmult_lt_0_compat c (y - x) Pc ltac:(lra)); lra|]. destruct (Qlt_le_dec x y) as [|G]; [assumption|]. pose proof (Qmult_le_0_compat c (x - y) ltac:(lra) ltac:(lra)). lra.
  - intros i Li. destruct (H i Li) as (c & mn & mx & Hsc & Pc & (v & Iv & Hv) & (u & Iu & Hu) & Hb & Hm).
    destruct (scaled_ok v sc ltac:(rewrite (Lp v Iv); congruence)) as (v' & Ev & Lv' & Hv'). destruct (scaled_ok u sc ltac:(rewrite (Lp u Iu); congruence)) as (u' & Eu & Lu' & Hu').
    exists v, u, v', u', mn, mx, ((mn - mn) * c), ((mx - mn) * c). split; [exact Iv|]. split; [exact Iu|]. split; [exact Ev|]. split; [exact Eu|]. split; [exact Hv|]. split; [exact Hu|].
    split; [apply (Hv' i mn c mn); assumption|]. split; [apply (Hu' i mx c mn); assumption|]. split; [ring|]. split; [exact Hm|]. intros w z Iw Hz. exact (proj1 (Hb w z Iw Hz)).
Qed.
Print Assumptions C144_normalizer.
Example C144_normalizer_ex : exists sc, scale_from_pop 2 1 [[1; 5]; [3; 5]; [2; 9]] = Ok sc /\ exists a b, scaled sc [2; 9] = Ok [a; b] /\ a == 1 # 2 /\ b == 1.
Proof. eexists. split; [vm_compute; reflexivity|]. do 2 eexists. split; [vm_compute; reflexivity|]. split; reflexivity. Qed.

(** ** C145 *)
(** Q-explore gives 0, 1, and then the reduced fractions between 0 and 1 in increasing order of denominator, then numerator,
    without omission: each comes after a number of calls known in advance. *)
Theorem C145_qexplore : forall n, exists fs, calls qexplore (2 + n) (QState 0 0) = (0, 1) :: (1, 0) :: map (fun f => (fraction f, 1 - fraction f)) fs /\ length fs = n /\
  StronglySorted before fs /\ (forall p q, In (p, q) fs -> reduced p q) /\
  (forall p q f, reduced p q -> In f fs -> before (p, q) f -> In (p, q) fs) /\
  (forall p q, reduced p q -> (q * q + p + 1 < n)%nat -> In (p, q) fs).
Proof.
  intros n. destruct (enumerates n 1 1 ltac:(lia) ltac:(lia)) as (fs & E & L & S' & Hin & Hc). exists fs. split; [cbn [Nat.add calls]; cbn [qexplore Nat.eqb q_depth q_num]; rewrite E; reflexivity|].
  assert (NB : forall p q, reduced p q -> ~ before (p, q) (1%nat, 1%nat)) by (intros p q [R _]; unfold before; cbn [fst snd]; lia).
  split; [exact L|]. split; [exact S'|]. split; [intros p q H; exact (proj1 (Hin (p, q) H))|]. split.
  - intros p q f R Hf B. apply Hc; [exact R|apply NB; exact R|eauto].
  - intros p q R Ln. apply Hc; [exact R|apply NB; exact R|]. apply some_after; [exact S'|intros g Hg; exact (proj1 (Hin g Hg))|exact R|]. unfold rank. cbn [fst snd]. lia.
Qed.
Print Assumptions C145_qexplore.
Example C145_qexplore_ex : exists l, calls qexplore 7 (QState 0 0) = l /\ map (fun w => Qred (fst w)) l = [0; 1; 1 # 2; 1 # 3; 2 # 3; 1 # 4; 3 # 4].
Proof. eexists. split; [reflexivity|]. vm_compute. reflexivity. Qed.
(** One direction, with [n] steps to cross [0, 1]: the first weight is 0, step, 2 step, ..., 1, then step again, and so on. *)
Theorem C145_one_direction : forall step n m k w, 0 < step -> (1 <= n)%nat -> inject_Z (Z.of_nat (n - 1)) * step < 1 -> 1 <= inject_Z (Z.of_nat n) * step ->
  nth_error (calls (one_direction step) m 0) k = Some w ->
  fst w == match k with O => 0 | S j => Qmin 1 (inject_Z (Z.of_nat (S (j mod n))) * step) end /\ snd w == 1 - fst w.
Proof.
  intros step n m k w P Hn H1 H2 E. destruct (one_direction_calls step n P Hn H2 H1 m 0 0 k w) as [A B]; [reflexivity|exact E|]. cbn [Nat.add] in A, B. split; [exact A|]. rewrite A. exact B.
Qed.
Print Assumptions C145_one_direction.
Example C145_one_direction_ex : map (fun w => Qred (fst w)) (calls (one_direction (2 # 5)) 8 0) = [0; 2 # 5; 4 # 5; 1; 2 # 5; 4 # 5; 1; 2 # 5].
Proof. vm_compute. reflexivity. Qed.
(** The other strategies for two objectives always give two weights between 0 and 1 that add up to 1. *)
Theorem C145_both_directions : forall step m k w, 0 < step -> nth_error (calls (both_directions step) m (0, false)) k = Some w -> two_weights w.
Proof. intros step m k w P H. refine (both_weights step P m 0 false k w _ H). lra. Qed.
Print Assumptions C145_both_directions.
Theorem C145_anytime : forall m, exists ws, anytime_calls m (AState 0 0 1 []) = map Some ws /\ length ws = m /\ (forall w, In w ws -> two_weights w) /\
  (forall w, nth_error ws 0 = Some w -> fst w == 0) /\ (forall w, nth_error ws 1 = Some w -> fst w == 1).
Proof.
  intros m. assert (G : a_good (AState 0 0 1 [])). { unfold a_good. cbn. split; [lia|]. split; [reflexivity|]. split; [lia|]. intros x []. }
  assert (K : forall m s, a_good s -> exists ws, anytime_calls m s = map Some ws /\ length ws = m /\ forall w, In w ws -> two_weights w).
  { clear. induction m as [|m IH]; intros s G; cbn [anytime_calls]; [exists []; split; [reflexivity|]; split; [reflexivity|intros w []]|].
    destruct (anytime_step s G) as (w & s' & E & T & G'). rewrite E. destruct (IH s' G') as (ws & E' & L & H). exists (w :: ws). rewrite E'. split; [reflexivity|]. split; [cbn; lia|]. intros x [<-|Hx]; auto. }
  destruct (K m _ G) as (ws & E & L & H). exists ws. split; [exact E|]. split; [exact L|]. split; [exact H|].
  destruct m as [|[|m]]; cbn in E; (split; intros w Hw; [destruct ws as [|a ws]; cbn in Hw|destruct ws as [|a [|b ws]]; cbn in Hw]); try discriminate; inversion Hw; subst; cbn in E; inversion E; subst; reflexivity.
Qed.
Print Assumptions C145_anytime.
(** The dichotomic strategy, with two objectives: whatever the solutions of the previous calls, a call that returns gives such
    weights. *)
Theorem C145_dicho : forall dirs replace sort vs ws, std_sort_ok sort -> (forall v, In v vs -> length v = 2%nat) ->
  dicho_calls 0 dirs replace sort vs (DState [] [] 0 None) = Ok ws -> length ws = length vs /\ forall w, In w ws -> two_weights w.
Proof.
  intros dirs replace sort vs ws So Hv. assert (G : forall vs s ws, d_good dirs s -> (forall v, In v vs -> length v = 2%nat) -> dicho_calls 0 dirs replace sort vs s = Ok ws -> length ws = length vs /\ forall w, In w ws -> two_weights w).
  { clear vs ws Hv. induction vs as [|v vs IH]; intros s ws Gs Hv E; cbn [dicho_calls] in E; [inversion E; split; [reflexivity|intros w []]|].
    apply rbind_ok in E as ([w s'] & E1 & E). apply rbind_ok in E as (r & E2 & E). inversion E; subst ws. destruct (dicho_ok dirs replace sort So 4 s v w s' Gs (Hv v (or_introl eq_refl)) E1) as [T Gs'].
    destruct (IH s' r Gs' (fun x Hx => Hv x (or_intror Hx)) E2) as [L H]. split; [cbn; lia|]. intros x [<-|Hx]; auto. }
  apply G; [|exact Hv]. split; [constructor|]. split; constructor.
Qed.
Print Assumptions C145_dicho.
Example C145_dicho_ex : match dicho_calls 0 [true; true] true the_sort [[1; 4]; [3; 1]; [2; 2]; [5; 5]] (DState [] [] 0 None) with Ok ws => map (fun w => Qred (fst w)) ws = [0; 1; 2 # 5; 1 # 2] | _ => False end.
Proof. vm_compute. reflexivity. Qed.
(** Any number of objectives: random weights, equal weights. *)
Theorem C145_rand : forall draws, (forall x, In x draws -> 0 <= x) -> (exists x, In x draws /\ 0 < x) ->
  length (rand_weights draws) = length draws /\ total_of (rand_weights draws) == 1 /\ forall w, In w (rand_weights draws) -> 0 <= w <= 1.
Proof. exact rand_ok. Qed.
Print Assumptions C145_rand.
Theorem C145_dummy : forall n, (0 < n)%nat -> length (dummy_weights n) = n /\ total_of (dummy_weights n) == 1 /\ forall w, In w (dummy_weights n) -> w == 1 / inject_Z (Z.of_nat n).
Proof. exact dummy_ok. Qed.
Print Assumptions C145_dummy.
Example C145_rand_ex : map Qred (rand_weights [1; 2; 1]) = [1 # 4; 1 # 2; 1 # 4] /\ map Qred (dummy_weights 3) = [1 # 3; 1 # 3; 1 # 3].
Proof. vm_compute. auto. Qed.
(** The augmented Q-explore: every vector it gives has one weight per objective, between 0 and 1, and they add up to 1. *)
Inductive augmented_reaches (dim : nat) : gstate -> Prop :=
| AR0 : augmented_reaches dim (GState 0 [0%nat])
| ARS fuel s w s' : augmented_reaches dim s -> augmented_qexplore fuel dim s = Ok (w, s') -> augmented_reaches dim s'.
Lemma reaches_inv dim s : (0 < dim)%nat -> augmented_reaches dim s -> g_depth s = 0%nat \/ g_inv dim s.
Proof.
  intros Hd. induction 1 as [|fuel s w s' R IH E]; [left; reflexivity|right]. unfold augmented_qexplore in E. refine (proj1 (augmented_ok' dim Hd fuel _ w s' _ E)).
  destruct (Nat.eqb_spec (g_depth s) 0) as [Z|Z]; [apply reset_inv; [exact Hd|left; exact Z]|]. destruct IH; [contradiction|assumption].
Qed.
Lemma reaches_counts dim fuel s w s' : (0 < dim)%nat -> augmented_reaches dim s -> augmented_qexplore fuel dim s = Ok (w, s') ->
  exists d cs, doubling d /\ w = map (fun c => natq c / natq d) cs /\ length cs = dim /\ sum cs = d /\ (forall c, In c cs -> (c < d)%nat) /\ (exists c, In c cs /\ Nat.gcd c d = 1%nat) /\ exists c, In c cs /\ ~ doubling c.
Proof.
  intros Hd R E. pose proof (reaches_inv dim s Hd R) as G. unfold augmented_qexplore in E.
  destruct (augmented_ok' dim Hd fuel (if (g_depth s =? 0)%nat then do_reset s else s) w s') as (_ & s1 & G1 & T); [|exact E|].
  - destruct (Nat.eqb_spec (g_depth s) 0) as [Z|Z]; [apply reset_inv; [exact Hd|left; exact Z]|]. destruct G; [contradiction|assumption].
  - destruct (translate_ok dim s1 w G1 T) as (cs & H). exists (g_depth s1), cs. split; [exact (proj1 G1)|exact H].
Qed.
Theorem C145_augmented : forall dim fuel s w s', (0 < dim)%nat -> augmented_reaches dim s -> augmented_qexplore fuel dim s = Ok (w, s') ->
  length w = dim /\ total_of w == 1 /\ forall x, In x w -> 0 <= x <= 1.
Proof.
  intros dim fuel s w s' Hd R E. destruct (reaches_counts dim fuel s w s' Hd R E) as (d & cs & D & -> & L & Sm & Lt & _). assert (Pd := natq_pos d (doubling_pos d D)).
  split; [rewrite map_length; exact L|]. split; [rewrite total_counts by (apply doubling_pos; exact D); rewrite Sm; field; lra|].
  intros x Hx. apply in_map_iff in Hx as (c & <- & Hc). specialize (Lt c Hc). pose proof (natq_le c d ltac:(lia)). pose proof (natq_nonneg c). split; [apply Qle_shift_div_l; lra|apply Qle_shift_div_r; lra].
Qed.
Print Assumptions C145_augmented.
Example C145_augmented_ex : match augmented_qexplore 40 2 (GState 0 [0%nat]) with Ok (w, s) => map Qred w = [3 # 4; 1 # 4] /\ match augmented_qexplore 40 2 s with Ok (w, _) => map Qred w = [1 # 4; 3 # 4] | _ => False end | _ => False end.
Proof. vm_compute. auto. Qed.

(** ** C146 *)
(** The augmented achievement function of the literature is the greatest amount plus rho times the sum: the roles are exchanged,
    so that the preferred vector changes. *)
Theorem C146_augmented_refuted : exists rho dirs weight ref v u lv lu mv mu a b,
  weighted_shortfalls dirs weight ref v lv /\ weighted_shortfalls dirs weight ref u lu /\ greatest_in lv mv /\ greatest_in lu mu /\ 0 < rho /\
  augmented_achievement rho dirs weight ref v = Ok a /\ augmented_achievement rho dirs weight ref u = Ok b /\ mv + rho * total_of lv < mu + rho * total_of lu /\ b < a.
Proof.
  exists (1 # 10), [true; true], [1; 1], [0; 0], [3; 3], [4; 0], [1 * (3 - 0); 1 * (3 - 0)], [1 * (4 - 0); 1 * (0 - 0)], (1 * (3 - 0)), (1 * (4 - 0)). do 2 eexists.
  assert (W : forall a b, weighted_shortfalls [true; true] [1; 1] [0; 0] [a; b] [1 * (a - 0); 1 * (b - 0)]).
  { intros a b. split; [reflexivity|]. intros [|[|i]] d w x y Hw (O1 & O2 & O3); cbn in Hw, O1, O2, O3; try (inversion Hw; inversion O1; inversion O2; inversion O3; subst; reflexivity). destruct i; discriminate. }
  split; [apply W|]. split; [apply W|]. split; [split; [left; reflexivity|intros x [<-|[<-|[]]]; lra]|]. split; [split; [left; reflexivity|intros x [<-|[<-|[]]]; lra]|].
  split; [reflexivity|]. split; [reflexivity|]. split; [reflexivity|]. split; reflexivity.
Qed.
Print Assumptions C146_augmented_refuted.
(** The achievement fitness takes every objective as minimised: with a maximised one, a dominating vector gets a lower fitness. *)
Theorem C146_maximised_refuted : exists dirs lambdas ref spn v u a b, positive lambdas /\ 0 < spn /\ dominates dirs v u /\
  achievement_fitness lambdas ref spn v = Ok a /\ achievement_fitness lambdas ref spn u = Ok b /\ a < b.
Proof.
  exists [false; false], [1; 1], [0; 0], (1 # 10), [2; 2], [1; 1]. do 2 eexists. split; [repeat constructor|]. split; [reflexivity|].
  split; [apply (proj1 (pareto_exact [false; false] [1; 1] [2; 2] eq_refl eq_refl)); reflexivity|]. split; [reflexivity|]. split; reflexivity.
Qed.
Print Assumptions C146_maximised_refuted.
(** The constructor of the metric fitness that takes a normalizer does not use it. *)
Theorem C146_normalizer_refuted : (forall sc sc' dirs weight ref v, assignment_with_normalizer sc dirs weight ref v = assignment_with_normalizer sc' dirs weight ref v) /\
  exists sc dirs weight ref v u a b a' b', assignment_with_both sc dirs weight ref v = Ok a /\ assignment_with_both sc dirs weight ref u = Ok b /\ b < a /\
    assignment_with_normalizer sc dirs weight ref v = Ok a' /\ assignment_with_normalizer sc dirs weight ref u = Ok b' /\ a' < b'.
Proof.
  split; [reflexivity|]. exists [(1 # 100, 0); (1, 0)], [true; true], [1; 1], [0; 0], [50; 0], [0; 2]. do 4 eexists. split; [reflexivity|]. split; [reflexivity|]. split; [reflexivity|]. split; [reflexivity|]. split; reflexivity.
Qed.
Print Assumptions C146_normalizer_refuted.
(** Both directions: at the end of a pass the weights do not come back from the end reached: they restart from the other end. *)
Theorem C146_both_refuted : map (fun w => Qred (fst w)) (calls (both_directions (1 # 3)) 10 (0, false)) = [1; 2 # 3; 1 # 3; 1; 1 # 3; 2 # 3; 0; 2 # 3; 1 # 3; 1].
Proof. vm_compute. reflexivity. Qed.
Print Assumptions C146_both_refuted.
(** The dichotomic strategy: an offered vector that leaves one member in the archive, then a non-dominated one, and the next call
    goes on from an iterator that points nowhere. *)
Theorem C146_dicho_refuted : exists vs, (forall v, In v vs -> length v = 2%nat) /\
  forall sort, std_sort_ok sort -> dicho_calls 0 [true; true] true sort vs (DState [] [] 0 None) = UB.
Proof.
  exists [[1; 4]; [2; 5]; [3; 1]; [2; 2]]. split; [intros v [<-|[<-|[<-|[<-|[]]]]]; reflexivity|]. intros sort So.
  assert (S1 : sort_arch sort [[1; 4]] = [[1; 4]]). { destruct (So _ (fun a b => qltb (first_of b) (first_of a)) [[1; 4]]) as [P _]; [exact (swo_flip _ (DivProofs.qltb_swo first_of))|]. apply Permutation_length_1_inv in P. exact P. }
  cbn. rewrite S1. vm_compute. reflexivity.
Qed.
Print Assumptions C146_dicho_refuted.
(** The halving strategy gives weights several times. *)
Theorem C146_anytime_refuted : map (fun w => match w with Some (a, _) => Qred a | None => 2 end) (anytime_calls 8 (AState 0 0 1 [])) = [0; 1; 1 # 2; 1 # 4; 3 # 4; 3 # 8; 1 # 8; 1 # 2].
Proof. vm_compute. reflexivity. Qed.
Print Assumptions C146_anytime_refuted.
(** The augmented Q-explore never puts all the weight on one objective, never gives equal weights for two objectives, and never
    gives (1/2, 1/4, 1/4). *)
Theorem C146_augmented_explore_refuted : forall dim fuel s w s', (0 < dim)%nat -> augmented_reaches dim s -> augmented_qexplore fuel dim s = Ok (w, s') ->
  (forall x, In x w -> x < 1) /\ ~ (exists x y, w = [x; y] /\ x == y) /\ ~ (exists x y z, w = [x; y; z] /\ x == 1 # 2 /\ y == 1 # 4 /\ z == 1 # 4).
Proof.
  intros dim fuel s w s' Hd R E. destruct (reaches_counts dim fuel s w s' Hd R E) as (d & cs & D & -> & L & Sm & Lt & (c & Ic & Gc) & (b & Ib & Nb)). assert (Pd := doubling_pos d D). assert (Qd := natq_pos d Pd).
  assert (Inv : forall c k j, (0 < j)%nat -> natq c / natq d == natq k / natq j -> (c * j = k * d)%nat).
  { intros c0 k j Hj H. assert (Pj := natq_pos j Hj). assert (H' : natq c0 * natq j == natq k * natq d) by (setoid_replace (natq c0 * natq j) with ((natq c0 / natq d) * (natq d * natq j)) by (field; lra); rewrite H; field; lra).
    apply Nat2Z.inj. rewrite !Nat2Z.inj_mul. apply inject_Z_injective. rewrite !inject_Z_mult. exact H'. }
  assert (Even : d = 1%nat \/ exists e, d = (e * 2)%nat /\ doubling e) by (inversion D; eauto). split; [|split].
  - intros x Hx. apply in_map_iff in Hx as (a & <- & Ha). specialize (Lt a Ha). assert (Sa : natq (S a) <= natq d) by (apply natq_le; lia). rewrite natq_S in Sa. apply Qlt_shift_div_r; lra.
  - intros (x & y & M & Q). destruct cs as [|c1 [|c2 [|]]]; cbn [map] in M; inversion M; subst x y. cbn [sum fold_right] in Sm.
    assert (c1 = c2). { pose proof (Inv c1 c2 d Pd Q) as H. nia. } subst c2. destruct Even as [D1'|(e & -> & De)]; [lia|]. assert (c1 = e) by lia. subst c1.
    destruct Ib as [<-|[<-|[]]]; contradiction.
  - intros (x & y & z & M & Q1 & Q2 & Q3). destruct cs as [|c1 [|c2 [|c3 [|]]]]; cbn [map] in M; inversion M; subst x y z. cbn [sum fold_right] in Sm.
    assert (H1 := Inv c1 1%nat 2%nat ltac:(lia) ltac:(rewrite Q1; reflexivity)). assert (H2 := Inv c2 1%nat 4%nat ltac:(lia) ltac:(rewrite Q2; reflexivity)). assert (H3 := Inv c3 1%nat 4%nat ltac:(lia) ltac:(rewrite Q3; reflexivity)).
    assert (c3 = c2) by lia. subst c3. assert (c1 = c2 * 2)%nat by lia. subst c1. assert (d = c2 * 4)%nat by lia. subst d.
    assert (De : doubling (c2 * 2)). { destruct Even as [|(e & Ee & De)]; [lia|]. replace (c2 * 2)%nat with e by lia. exact De. }
    assert (Dc : doubling c2). { inversion De; [lia|]. replace c2 with n by lia. assumption. }
    destruct Ib as [<-|[<-|[<-|[]]]]; contradiction.
Qed.
Print Assumptions C146_augmented_explore_refuted.
