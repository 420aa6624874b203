(** C219: the distances between objective vectors and the bounds of normalized distances. C220: what they document and do not do. *)
From Coq Require Import Bool Arith QArith Qabs Qminmax Lia Lqa.
From Verif Require Import Lib Outcome WgtModel WgtScal DstModel DstSpec DstProofs.
From Coq Require Import List.
Import ListNotations.
Local Open Scope Q_scope.

(** The values: the sum of the absolute differences, of their squares; each difference is multiplied by the coefficient of the scale. *)
Theorem C219_values : forall sc a b, length sc = length a -> length sc = length b ->
  (exists d, manhattan sc a b = Ok d /\ d == total (map Qabs (scaled_differences sc a b))) /\
  (exists d, euclidean (DefaultMember sc) a b = Ok d /\ d == total (map (fun x => x * x) (scaled_differences sc a b))).
Proof. intros. split; [apply manhattan_ok|apply euclidean_ok]; assumption. Qed.

(** Without normalizer, the differences are those of the objectives. *)
Theorem C219_default : forall n a b, length a = n -> length b = n ->
  (exists d, manhattan_default n a b = Ok d /\ d == total (map Qabs (differences a b))) /\
  (exists d, euclidean (euclidean_default n) a b = Ok d /\ d == total (map (fun x => x * x) (differences a b))).
Proof.
  intros n a b La Lb. assert (K : Forall2 Qeq (scaled_differences (dummy_scale n) a b) (differences a b)).
  { subst n. unfold scaled_differences, dummy_scale. revert b Lb. induction a as [|x a IH]; intros [|y b] L; try discriminate L; [constructor|]. unfold differences in *.
    cbn [length repeat combine map fst snd]. constructor; [ring|]. apply IH. cbn in L. congruence. }
  assert (N : length (dummy_scale n) = n) by apply repeat_length.
  split; [destruct (manhattan_ok (dummy_scale n) a b ltac:(congruence) ltac:(congruence)) as (d & E & H)|destruct (euclidean_ok (dummy_scale n) a b ltac:(congruence) ltac:(congruence)) as (d & E & H)];
    exists d; (split; [exact E|]); rewrite H; [exact (l1_eq _ _ K)|exact (l2_eq _ _ K)].
Qed.

(** The Manhattan distance is a distance: defined, not negative, symmetric, 0 from a vector to itself and, when no coefficient is 0, to no other one, with
    the triangle inequality. *)
Theorem C219_manhattan : forall sc a b c, length sc = length a -> length sc = length b -> length sc = length c -> exists dab dba dbc dac,
  manhattan sc a b = Ok dab /\ manhattan sc b a = Ok dba /\ manhattan sc b c = Ok dbc /\ manhattan sc a c = Ok dac /\
  0 <= dab /\ dab == dba /\ dac <= dab + dbc /\ (same a b -> dab == 0) /\ ((forall k, In k sc -> ~ fst k == 0) -> dab == 0 -> same a b).
Proof.
  intros sc a b c La Lb Lc. destruct (manhattan_ok sc a b La Lb) as (x & Ex & Hx). destruct (manhattan_ok sc b a Lb La) as (y & Ey & Hy).
  destruct (manhattan_ok sc b c Lb Lc) as (z & Ez & Hz). destruct (manhattan_ok sc a c La Lc) as (w & Ew & Hw). exists x, y, z, w. do 4 (split; [assumption|]).
  split; [rewrite Hx; apply l1_nonneg|]. split; [rewrite Hx, Hy, (l1_eq _ _ (back sc a b La Lb)), l1_opp; reflexivity|].
  split; [rewrite Hw, Hx, Hz, (l1_eq _ _ (chain sc a b c La Lb Lc)); apply l1_sums; rewrite !sd_length; congruence|].
  split; [intros S; rewrite Hx; apply l1_zero, scaled_same_zero; assumption|]. intros Nz Z. rewrite Hx in Z. apply l1_zero in Z. apply (scaled_zero sc a b La Lb Nz). exact Z.
Qed.

(** The Euclidean distance likewise; with A, B, C the squares of the three distances, the triangle inequality sqrt C <= sqrt A + sqrt B says that C - A - B
    is not positive or that its square is at most 4 A B. *)
Theorem C219_euclidean : forall sc a b c, length sc = length a -> length sc = length b -> length sc = length c -> exists dab dba dbc dac,
  euclidean (DefaultMember sc) a b = Ok dab /\ euclidean (DefaultMember sc) b a = Ok dba /\ euclidean (DefaultMember sc) b c = Ok dbc /\
  euclidean (DefaultMember sc) a c = Ok dac /\
  0 <= dab /\ dab == dba /\ (dac - dab - dbc) * (dac - dab - dbc) <= 4 * (dab * dbc) /\
  (same a b -> dab == 0) /\ ((forall k, In k sc -> ~ fst k == 0) -> dab == 0 -> same a b).
Proof.
  intros sc a b c La Lb Lc. destruct (euclidean_ok sc a b La Lb) as (x & Ex & Hx). destruct (euclidean_ok sc b a Lb La) as (y & Ey & Hy).
  destruct (euclidean_ok sc b c Lb Lc) as (z & Ez & Hz). destruct (euclidean_ok sc a c La Lc) as (w & Ew & Hw). exists x, y, z, w. do 4 (split; [assumption|]).
  split; [rewrite Hx; apply l2_nonneg|]. split; [rewrite Hx, Hy, (l2_eq _ _ (back sc a b La Lb)), l2_opp; reflexivity|].
  split.
  { assert (L : length (scaled_differences sc a b) = length (scaled_differences sc b c)) by (rewrite !sd_length; congruence).
    rewrite Hw, Hx, Hz, (l2_eq _ _ (chain sc a b c La Lb Lc)), (l2_sums _ _ L). pose proof (cauchy _ _ L) as K.
    set (A := l2 (scaled_differences sc a b)) in *. set (B := l2 (scaled_differences sc b c)) in *. set (D := dot _ _) in *.
    setoid_replace ((A + B + 2 * D - A - B) * (A + B + 2 * D - A - B)) with (4 * (D * D)) by ring. lra. }
  split; [intros S; rewrite Hx; apply l2_zero, scaled_same_zero; assumption|]. intros Nz Z. rewrite Hx in Z. apply l2_zero in Z. apply (scaled_zero sc a b La Lb Nz). exact Z.
Qed.

Lemma total_le : forall l m, Forall (fun x => x <= m) l -> total l <= inject_Z (Z.of_nat (length l)) * m.
Proof.
  intros l m H. induction H as [|x l Hx H IH]; [change (0 <= 0 * m); lra|]. cbn [total fold_right length]. fold (total l). rewrite Nat2Z.inj_succ, <- Z.add_1_l, inject_Z_plus, Qmult_plus_distr_l. change (inject_Z 1) with 1. lra.
Qed.
(** With a normalizer made from the population, the distance of two members is at most max times the number of objectives; the square of the Euclidean one at
    most max * max times this number. *)
Theorem C219_range : forall n max pop, pop <> [] -> 0 < max -> (forall v, In v pop -> length v = n) ->
  exists sc, scale_from_pop n max pop = Ok sc /\ forall a b, In a pop -> In b pop -> exists d e,
    manhattan sc a b = Ok d /\ euclidean (DefaultMember sc) a b = Ok e /\
    0 <= d <= inject_Z (Z.of_nat n) * max /\ 0 <= e <= inject_Z (Z.of_nat n) * (max * max).
Proof.
  intros n max pop Np Pm V. destruct (scale_from_pop_ok n max pop Np Pm V) as (sc & E & Ls & H). exists sc. split; [exact E|]. intros a b Ia Ib.
  pose proof (V a Ia) as La. pose proof (V b Ib) as Lb. destruct (manhattan_ok sc a b ltac:(congruence) ltac:(congruence)) as (d & Ed & Hd).
  destruct (euclidean_ok sc a b ltac:(congruence) ltac:(congruence)) as (e & Ee & He). exists d, e. split; [exact Ed|]. split; [exact Ee|].
  assert (K : Forall (fun x => - max <= x <= max) (scaled_differences sc a b)).
  { assert (G : forall i c m x y, nth_error sc i = Some (c, m) -> nth_error a i = Some x -> nth_error b i = Some y -> - max <= c * (x - y) <= max).
    { intros i c m x y Hc Hx Hy. assert (Li : (i < n)%nat) by (rewrite <- Ls; apply nth_error_Some; congruence). destruct (H i Li) as (c' & mn & mx & Hs & _ & _ & _ & B & _).
      rewrite Hc in Hs. inversion Hs. subst c' mn. destruct (B a x Ia Hx) as (_ & B1). destruct (B b y Ib Hy) as (_ & B2).
      setoid_replace (c * (x - y)) with ((x - m) * c - (y - m) * c) by ring. lra. }
    clear - G Ls La Lb. rewrite <- Ls in La, Lb. clear Ls. revert a b G La Lb. unfold scaled_differences, differences.
    induction sc as [|[c m] sc IH]; intros [|x a] [|y b] G La Lb; try discriminate La; try discriminate Lb; [constructor|]. cbn [combine map fst snd]. constructor.
    - exact (G 0%nat c m x y eq_refl eq_refl eq_refl).
    - apply IH; [|cbn in *; congruence|cbn in *; congruence]. intros i. exact (G (S i)). }
  assert (L : length (scaled_differences sc a b) = n) by (rewrite sd_length; congruence).
  split; (split; [rewrite ?Hd, ?He; first [apply l1_nonneg|apply l2_nonneg]|]).
  - rewrite Hd. unfold l1. rewrite <- L, <- (map_length Qabs). apply total_le. apply Forall_forall. intros z Hz. apply in_map_iff in Hz as (x & <- & Hx).
    rewrite Forall_forall in K. specialize (K x Hx). apply Qabs_Qle_condition. lra.
  - rewrite He. unfold l2. rewrite <- L, <- (map_length (fun d => d * d)). apply total_le. apply Forall_forall. intros z Hz. apply in_map_iff in Hz as (x & <- & Hx).
    rewrite Forall_forall in K. specialize (K x Hx). cbn beta. pose proof (Qmult_le_0_compat (max - x) (max + x) ltac:(lra) ltac:(lra)) as P.
    setoid_replace ((max - x) * (max + x)) with (max * max - x * x) in P by ring. lra.
Qed.

(** The distance of fuzzy vectors is that of the expected values; vectors with the same expected values have distance 0. *)
Theorem C219_fuzzy : forall a b, length a = length b ->
  exists d, fuzzy_distance a b = Ok d /\ 0 <= d /\ d == total (map (fun x => x * x) (differences (map expected a) (map expected b))) /\
    (forall d', fuzzy_distance b a = Ok d' -> d == d') /\ (d == 0 <-> Forall2 (fun x y => expected x == expected y) a b).
Proof.
  intros a b L. unfold fuzzy_distance. destruct (euclidean_loop_ok (map expected a) (map expected b) 0 ltac:(rewrite !map_length; exact L)) as (d & E & H).
  exists d. split; [exact E|]. rewrite Qplus_0_l in H. split; [rewrite H; apply l2_nonneg|]. split; [exact H|]. split.
  - intros d' E'. destruct (euclidean_loop_ok (map expected b) (map expected a) 0 ltac:(rewrite !map_length; congruence)) as (e & E2 & H2). rewrite E' in E2. inversion E2. subst e.
    rewrite Qplus_0_l in H2. rewrite H, H2. clear - L. unfold l2, total, differences. revert b L. induction a as [|x a IH]; intros [|y b] L; try discriminate L; [reflexivity|].
    cbn [map combine fold_right fst snd]. rewrite (IH b) by (cbn in L; congruence). ring.
  - rewrite H, l2_zero. clear - L. unfold differences. revert b L. induction a as [|x a IH]; intros [|y b] L; try discriminate L; [split; constructor|].
    cbn [map combine fst snd]. specialize (IH b ltac:(cbn in L; congruence)). split; intros K; inversion K; subst; (constructor; [|apply IH; assumption]).
    + assert (Z : expected x - expected y == 0) by assumption. lra.
    + assert (Z : expected x == expected y) by assumption. rewrite Z. ring.
Qed.

(** The expected value of a triangular number: a quarter of each end and half of the middle; it lies between the ends. *)
Theorem C219_expected : forall lo mode hi, expected (lo, mode, hi) == (1 # 4) * lo + (1 # 2) * mode + (1 # 4) * hi /\
  (lo <= mode <= hi -> lo <= expected (lo, mode, hi) <= hi).
Proof.
  intros lo mode hi. assert (E : expected (lo, mode, hi) == (1 # 4) * lo + (1 # 2) * mode + (1 # 4) * hi) by (unfold expected; cbn [fst snd]; field).
  split; [exact E|]. rewrite E. intros H. lra.
Qed.

(** The bounds that moeoNormalizedDistance takes from a population: one interval for each objective, never empty or reduced to a point, that contains the
    objective of every member; its ends are reached, unless all the members agree on the objective: then they are 1e-6 below and above. *)
Theorem C219_bounds : forall n pop, pop <> [] -> (forall v, In v pop -> length v = n) ->
  exists bs, setup_bounds n pop = Ok bs /\ length bs = n /\ forall i lo hi, nth_error bs i = Some (lo, hi) -> lo < hi /\
    (forall v x, In v pop -> nth_error v i = Some x -> lo <= x <= hi) /\
    ((exists v w x y, In v pop /\ In w pop /\ nth_error v i = Some x /\ nth_error w i = Some y /\ x == lo /\ y == hi) \/
     (exists x, lo == x - (1 # 1000000) /\ hi == x + (1 # 1000000) /\ forall v y, In v pop -> nth_error v i = Some y -> y == x)).
Proof.
  intros n pop Np V. unfold setup_bounds. destruct (columns_of_ok n pop (seq 0 n) V) as (cols & Ec & F); [intros i Hi; apply in_seq in Hi; lia|]. rewrite Ec. cbn [rbind]. clear Ec.
  set (good := fun (i : nat) (b : Q * Q) => fst b < snd b /\ (forall v x, In v pop -> nth_error v i = Some x -> fst b <= x <= snd b) /\
    ((exists v w x y, In v pop /\ In w pop /\ nth_error v i = Some x /\ nth_error w i = Some y /\ x == fst b /\ y == snd b) \/
     (exists x, fst b == x - tiny /\ snd b == x + tiny /\ forall v y, In v pop -> nth_error v i = Some y -> y == x))).
  assert (One : forall i c, Forall2 (fun v x => nth_error v i = Some x) pop c -> exists b, bounds1 c = Ok b /\ good i b).
  { intros i c Fc. destruct Fc as [|v0 x0 vs xs H0 Fc]; [congruence|]. unfold bounds1.
    assert (Ext : forall l mn mx, let r := fold_left (fun mm y => (Qmin (fst mm) y, Qmax (snd mm) y)) l (mn, mx) in
      fst r <= mn /\ mx <= snd r /\ (forall y, In y l -> fst r <= y <= snd r) /\ (fst r == mn \/ exists y, In y l /\ y == fst r) /\ (snd r == mx \/ exists y, In y l /\ y == snd r)).
    { induction l as [|z l IH]; intros mn mx; cbn [fold_left fst snd].
      - cbn zeta. cbn [fst snd]. split; [lra|]. split; [lra|]. split; [intros y []|]. split; left; reflexivity.
      - specialize (IH (Qmin mn z) (Qmax mx z)). cbn zeta in *. set (r := fold_left _ _ _) in *. destruct IH as (I1 & I2 & I3 & I4 & I5).
        pose proof (Q.le_min_l mn z). pose proof (Q.le_min_r mn z). pose proof (Q.le_max_l mx z). pose proof (Q.le_max_r mx z).
        split; [lra|]. split; [lra|]. split; [intros y [<-|Hy]; [lra|apply I3; exact Hy]|]. split.
        + destruct I4 as [I4|(y & Hy & E)]; [|right; exists y; split; [right; exact Hy|exact E]]. destruct (Q.min_dec mn z) as [G|G]; rewrite G in I4; [left; exact I4|right; exists z; split; [left; reflexivity|symmetry; exact I4]].
        + destruct I5 as [I5|(y & Hy & E)]; [|right; exists y; split; [right; exact Hy|exact E]]. destruct (Q.max_dec mx z) as [G|G]; rewrite G in I5; [left; exact I5|right; exists z; split; [left; reflexivity|symmetry; exact I5]]. }
    specialize (Ext xs x0 x0). cbn zeta in Ext. destruct (fold_left _ xs (x0, x0)) as [mn mx]. cbn [fst snd] in Ext. destruct Ext as (E1 & E2 & E3 & E4 & E5).
    eexists. split; [reflexivity|].
    assert (In0 : forall v x, In v (v0 :: vs) -> nth_error v i = Some x -> mn <= x <= mx).
    { intros v x [<-|Hv] Hx; [rewrite H0 in Hx; inversion Hx; subst; lra|]. apply E3. clear - Fc Hv Hx. induction Fc as [|v' x' vs xs H' Fc IH]; [destruct Hv|].
      destruct Hv as [->|Hv]; [left; congruence|right; apply IH; exact Hv]. }
    assert (Back : forall y, In y (x0 :: xs) -> exists v, In v (v0 :: vs) /\ nth_error v i = Some y).
    { intros y [<-|Hy]; [exists v0; split; [left; reflexivity|exact H0]|]. clear - Fc Hy. induction Fc as [|v' x' vs xs H' Fc IH]; [destruct Hy|].
      destruct Hy as [->|Hy]; [exists v'; split; [right; left; reflexivity|exact H']|]. destruct (IH Hy) as (v & [->|Hv] & E); eexists; (split; [|exact E]); cbn; auto. }
    unfold good, widen. destruct (Qeq_bool mn mx) eqn:Q0.
    - apply Qeq_bool_iff in Q0. cbn [fst snd]. assert (T : 0 < tiny) by reflexivity. split; [lra|]. split; [intros v x Hv Hx; specialize (In0 v x Hv Hx); lra|].
      right. exists mn. split; [reflexivity|]. split; [rewrite Q0; reflexivity|]. intros v y Hv Hy. specialize (In0 v y Hv Hy). lra.
    - assert (Ne : ~ mn == mx) by (intros C; apply Qeq_bool_iff in C; congruence). cbn [fst snd]. split; [lra|]. split; [exact In0|]. left.
      assert (M1 : exists y, In y (x0 :: xs) /\ y == mn) by (destruct E4 as [E4|(y & Hy & E)]; [exists x0; split; [left; reflexivity|symmetry; exact E4]|exists y; split; [right; exact Hy|exact E]]).
      assert (M2 : exists y, In y (x0 :: xs) /\ y == mx) by (destruct E5 as [E5|(y & Hy & E)]; [exists x0; split; [left; reflexivity|symmetry; exact E5]|exists y; split; [right; exact Hy|exact E]]).
      destruct M1 as (y1 & Y1 & G1). destruct M2 as (y2 & Y2 & G2). destruct (Back y1 Y1) as (v1 & V1 & N1). destruct (Back y2 Y2) as (v2 & V2 & N2).
      exists v1, v2, y1, y2. tauto. }
  assert (All : forall is cols, Forall2 (fun i c => Forall2 (fun v x => nth_error v i = Some x) pop c) is cols -> exists bs, each_col bounds1 cols = Ok bs /\ Forall2 good is bs).
  { intros is cs Fs. induction Fs as [|i c is cs Hc Fs IH]; [exists []; split; [reflexivity|constructor]|]. destruct (One i c Hc) as (b & Eb & Gb). destruct IH as (bs & Ebs & Gbs).
    exists (b :: bs). cbn [each_col]. rewrite Eb. cbn [rbind]. rewrite Ebs. split; [reflexivity|constructor; assumption]. }
  destruct (All _ _ F) as (bs & Eb & G). exists bs. split; [exact Eb|]. assert (Lb : length bs = n) by (rewrite <- (seq_length n 0); clear - G; induction G; cbn [length]; congruence). split; [exact Lb|].
  intros i lo hi Hi. assert (Li : (i < n)%nat) by (rewrite <- Lb; apply nth_error_Some; congruence).
  assert (Gi : good i (lo, hi)).
  { clear - G Hi Li. assert (Pt : forall is bs k j b, Forall2 good is bs -> nth_error is k = Some j -> nth_error bs k = Some b -> good j b).
    { clear. intros is bs k j b G. revert k. induction G as [|i b' is bs Hg G IH]; intros [|k] H1 H2; try discriminate; [cbn in *; congruence|]. exact (IH k H1 H2). }
    apply (Pt _ _ i i _ G); [|exact Hi]. rewrite nth_error_nth' with (d := 0%nat) by (rewrite seq_length; exact Li). rewrite seq_nth by exact Li. reflexivity. }
  exact Gi.
Qed.
(** Bounds of an empty population: the first member is read. *)
Theorem C219_bounds_empty : forall n, (0 < n)%nat -> setup_bounds n [] = UB.
Proof. intros [|n] H; [lia|]. unfold setup_bounds. cbn [seq columns_of column_of rbind]. assert (E : exists c, columns_of (seq 1 n) [] = Ok c).
  { generalize (seq 1 n). intros l. induction l as [|i l (c & IH)]; [eexists; reflexivity|]. cbn [columns_of column_of rbind]. rewrite IH. eexists. reflexivity. }
  destruct E as (c & ->). reflexivity.
Qed.

Example C219_ex : exists d e, manhattan [(1 # 2, 1); (3, 0)] [1; 2] [5; 1] = Ok d /\ d == 5 /\ euclidean (DefaultMember [(1 # 2, 1); (3, 0)]) [1; 2] [5; 1] = Ok e /\ e == 13 /\
  (exists d, manhattan_default 2 [1; 2] [5; 1] = Ok d /\ d == 5) /\ ~ same [1; 2] [5; 1].
Proof.
  do 2 eexists. split; [vm_compute; reflexivity|]. split; [reflexivity|]. split; [vm_compute; reflexivity|]. split; [reflexivity|].
  split; [eexists; split; [vm_compute; reflexivity|reflexivity]|]. intros H. inversion H. discriminate.
Qed.
Example C219_range_ex : exists sc d, scale_from_pop 2 1 [[1; 5]; [3; 5]; [2; 9]] = Ok sc /\ manhattan sc [1; 5] [2; 9] = Ok d /\ d == 3 # 2.
Proof. do 2 eexists. split; [vm_compute; reflexivity|]. split; [vm_compute; reflexivity|]. reflexivity. Qed.
Example C219_bounds_ex : exists a b c d, setup_bounds 2 [[1; 5]; [3; 5]; [2; 5]] = Ok [(a, b); (c, d)] /\ a == 1 /\ b == 3 /\ c < 5 < d.
Proof. do 4 eexists. split; [vm_compute; reflexivity|]. split; [reflexivity|]. split; [reflexivity|]. split; reflexivity. Qed.
Example C219_fuzzy_ex : exists d, fuzzy_distance [(0, 1, 2); (0, 0, 4)] [(1, 1, 1); (1, 2, 3)] = Ok d /\ d == 1.
Proof. eexists. split; [vm_compute; reflexivity|]. reflexivity. Qed.

(** ** C220 *)
(** "A distance value then lies between 0 and nObjectives" (between 0 and its root): without normalizer any value is reached *)
Theorem C220_range_refuted : forall n m, (0 < n)%nat -> 0 <= m -> exists a b d e, length a = n /\ length b = n /\
  manhattan_default n a b = Ok d /\ d == m /\ euclidean (euclidean_default n) a b = Ok e /\ e == m * m.
Proof.
  intros [|n] m H Pm; [lia|]. assert (Z : total (map Qabs (differences (repeat 0 n) (repeat 0 n))) == 0 /\ total (map (fun x => x * x) (differences (repeat 0 n) (repeat 0 n))) == 0).
  { clear. unfold differences, total. induction n as [|n (I1 & I2)]; [split; reflexivity|]. cbn [repeat combine map fold_right fst snd]. rewrite I1, I2. split; reflexivity. }
  destruct (C219_default (S n) (m :: repeat 0 n) (0 :: repeat 0 n) ltac:(cbn [length]; rewrite repeat_length; reflexivity) ltac:(cbn [length]; rewrite repeat_length; reflexivity)) as ((d & Ed & Hd) & (e & Ee & He)).
  exists (m :: repeat 0 n), (0 :: repeat 0 n), d, e. split; [cbn [length]; rewrite repeat_length; reflexivity|]. split; [cbn [length]; rewrite repeat_length; reflexivity|].
  destruct Z as (Z1 & Z2). unfold differences, total in *. cbn [combine map fold_right fst snd] in Hd, He.
  split; [exact Ed|]. split; [rewrite Hd, Z1; rewrite Qabs_pos; lra|]. split; [exact Ee|]. rewrite He, Z2. ring.
Qed.
(** with the normalizer of a population and its default maximum, 100, two members of a population at distance 100 times the number of objectives *)
Theorem C220_default_maximum_refuted : forall n, exists sc d, scale_from_pop n 100 [repeat 0 n; repeat 1 n] = Ok sc /\
  manhattan sc (repeat 0 n) (repeat 1 n) = Ok d /\ d == inject_Z (Z.of_nat n) * 100.
Proof.
  intros n. destruct (scale_from_pop_ok n 100 [repeat 0 n; repeat 1 n] ltac:(discriminate) ltac:(reflexivity)) as (sc & E & Ls & H).
  { intros v [<-|[<-|[]]]; apply repeat_length. }
  destruct (manhattan_ok sc (repeat 0 n) (repeat 1 n) ltac:(rewrite repeat_length; exact Ls) ltac:(rewrite repeat_length; exact Ls)) as (d & Ed & Hd).
  exists sc, d. split; [exact E|]. split; [exact Ed|]. rewrite Hd.
  assert (C : forall k, In k sc -> fst k == 100).
  { intros [c m] Hk. apply In_nth_error in Hk as (i & Hi). assert (Li : (i < n)%nat) by (rewrite <- Ls; apply nth_error_Some; congruence).
    destruct (H i Li) as (c' & mn & mx & Hs & _ & (v & Iv & Hv) & (w & Iw & Hw) & B & Hm). rewrite Hi in Hs. inversion Hs. subst c' mn. cbn [fst].
    assert (R : forall q : Q, nth_error (repeat q n) i = Some q) by (intros q; rewrite nth_error_nth' with (d := q) by (rewrite repeat_length; exact Li); rewrite nth_repeat; reflexivity).
    pose proof (proj1 (B (repeat 0 n) 0 (or_introl eq_refl) (R 0))) as B0. pose proof (proj1 (B (repeat 1 n) 1 (or_intror (or_introl eq_refl)) (R 1))) as B1.
    assert (m == 0) by (destruct Iv as [<-|[<-|[]]]; rewrite R in Hv; inversion Hv; subst; lra).
    assert (mx == 1) by (destruct Iw as [<-|[<-|[]]]; rewrite R in Hw; inversion Hw; subst; lra).
    specialize (Hm ltac:(lra)). rewrite H0, H1 in Hm. lra. }
  clear - C Ls. subst n. unfold l1, scaled_differences, differences, total. induction sc as [|[c m] sc IH]; [reflexivity|].
  cbn [length repeat combine map fold_right fst snd]. rewrite IH by (intros; apply C; right; assumption). pose proof (C (c, m) (or_introl eq_refl)) as K. cbn [fst] in K. rewrite K.
  rewrite Nat2Z.inj_succ, <- Z.add_1_l, inject_Z_plus. setoid_replace (Qabs (100 * (0 - 1))) with 100 by reflexivity. ring.
Qed.
(** a Euclidean distance that is given a normalizer uses an object that does not exist any more *)
Theorem C220_euclidean_normalizer_refuted : forall sc a b, a <> [] -> euclidean (euclidean_with sc) a b = UB.
Proof. intros sc [|x a] b H; [congruence|reflexivity]. Qed.
(** the distance of fuzzy vectors does not tell different ones apart *)
Theorem C220_fuzzy_refuted : forall x s, 0 < s -> exists d, fuzzy_distance [(x, x, x)] [(x - s, x, x + s)] = Ok d /\ d == 0 /\ ~ x - s == x.
Proof.
  intros x s H. destruct (C219_fuzzy [(x, x, x)] [(x - s, x, x + s)] eq_refl) as (d & E & _ & _ & _ & Z). exists d. split; [exact E|]. split; [|lra].
  apply Z. constructor; [|constructor]. unfold expected. cbn [fst snd]. field.
Qed.
Print Assumptions C219_values.
Print Assumptions C219_default.
Print Assumptions C219_manhattan.
Print Assumptions C219_euclidean.
Print Assumptions C219_range.
Print Assumptions C219_fuzzy.
Print Assumptions C219_bounds.
Print Assumptions C219_bounds_empty.
Print Assumptions C220_range_refuted.
Print Assumptions C220_default_maximum_refuted.
Print Assumptions C220_euclidean_normalizer_refuted.
Print Assumptions C220_fuzzy_refuted.
Print Assumptions C219_expected.
