(** The seven problems *)
From Coq Require Import List Arith Bool Lia Reals Lra.
From Verif Require Import Lib Outcome DtlzModel DtlzSpec DtlzProofs.
From Coq Require Import List.
Import ListNotations.
Open Scope R_scope.

Lemma id_mult : forall a b : R, (fun v => v) (a * b) = (fun v => v) a * (fun v => v) b.
Proof. reflexivity. Qed.
Lemma id_mono : forall a b : R, 0 <= a <= b -> (fun v => v) a <= (fun v => v) b /\ ((fun v => v) a = (fun v => v) b -> a = b).
Proof. cbn. intros; split; [lra|auto]. Qed.
Definition sq (v : R) := v * v.
Lemma sq_mult : forall a b, sq (a * b) = sq a * sq b.
Proof. unfold sq. intros; ring. Qed.
Lemma sq_mono : forall a b, 0 <= a <= b -> sq a <= sq b /\ (sq a = sq b -> a = b).
Proof. unfold sq. intros a b H. split; [nra|]. intros E. nra. Qed.
Lemma sq_1 : sq 1 = 1.
Proof. unfold sq. ring. Qed.
Lemma norm_id l : norm (fun v => v) l = rsum l.
Proof. unfold norm. rewrite map_id. auto. Qed.

Lemma position_in m x v : In v (position m x) -> In v x.
Proof. unfold position. intros H. rewrite <- (firstn_skipn (m - 1) x). apply in_or_app. auto. Qed.
Lemma quarter v : 0 <= v <= 1 -> 0 <= quarter_cos v /\ 0 <= quarter_sin v.
Proof.
  intros H. unfold quarter_cos, quarter_sin. assert (P := PI_RGT_0). assert (0 <= v * PI / 2 <= PI / 2) by nra.
  split; [apply cos_ge_0|apply sin_ge_0]; lra.
Qed.
Lemma circle t : sq (cos t) + sq (sin t) = 1.
Proof. unfold sq. assert (H := sin2_cos2 t). unfold Rsqr in H. lra. Qed.
Lemma c_pow_01 v al : 0 < al -> 0 <= v <= 1 -> 0 <= c_pow v al <= 1.
Proof.
  intros Al H. unfold c_pow. destruct (Req_EM_T v 0) as [->|N]; [lra|]. split; [left; apply exp_pos|].
  unfold Rpower. rewrite <- exp_0. destruct (Req_dec v 1) as [->|N1]; [rewrite ln_1, Rmult_0_r; lra|]. left. apply exp_increasing.
  assert (ln v < 0) by (rewrite <- ln_1; apply ln_increasing; lra). nra.
Qed.

(** the distances *)
Lemma rast_term v : 0 <= 1 + ((v - / 2) * (v - / 2) - cos (20 * PI * (v - / 2))) /\ (1 + ((v - / 2) * (v - / 2) - cos (20 * PI * (v - / 2))) = 0 <-> v = / 2).
Proof.
  assert (C := COS_bound (20 * PI * (v - / 2))). assert (S2 : 0 <= (v - / 2) * (v - / 2)) by apply Rle_0_sqr. split; [lra|]. split; intros E.
  - assert ((v - / 2) * (v - / 2) = 0) by lra. apply Rmult_integral in H as [H|H]; lra.
  - subst. replace (20 * PI * (/ 2 - / 2)) with 0 by ring. rewrite cos_0. ring.
Qed.
Lemma sum_zero_iff (term : R -> R) v0 l : (forall v, In v l -> 0 <= term v /\ (term v = 0 <-> v = v0)) ->
  0 <= rsum (map term l) /\ (rsum (map term l) = 0 <-> forall v, In v l -> v = v0).
Proof.
  intros H. assert (P : forall t, In t (map term l) -> 0 <= t) by (intros t Ht; apply in_map_iff in Ht as (v & <- & Hv); apply H; auto).
  split; [apply rsum_nonneg; auto|]. split; intros E.
  - intros v Hv. apply H; auto. apply (rsum_zero _ P E). apply in_map. auto.
  - clear P. induction l as [|v l IH]; [reflexivity|]. cbn [map rsum fold_right]. fold (rsum (map term l)).
    rewrite IH; [|intros; apply H; right; auto|intros; apply E; right; auto]. rewrite (proj2 (proj2 (H v (or_introl eq_refl)))) by (apply E; left; auto). ring.
Qed.
Lemma rastrigin_zero l : 0 <= rastrigin l /\ (rastrigin l = 0 <-> forall v, In v l -> v = / 2).
Proof.
  unfold rastrigin. destruct (sum_zero_iff (fun v => 1 + ((v - / 2) * (v - / 2) - cos (20 * PI * (v - / 2)))) (/ 2) l) as [H1 H2]; [intros; apply rast_term|].
  split; [lra|]. rewrite <- H2. split; intros; lra.
Qed.
Lemma sphere_zero l : 0 <= sphere l /\ (sphere l = 0 <-> forall v, In v l -> v = / 2).
Proof.
  unfold sphere. apply sum_zero_iff. intros v _. assert (0 <= (v - / 2) * (v - / 2)) by apply Rle_0_sqr. split; auto. split; intros E; [|subst; ring].
  apply Rmult_integral in E as [E|E]; lra.
Qed.
Definition roots (l : list R) : R := rsum (map (fun v => c_pow v (/ 10)) l).
Lemma roots_zero l : in_box l -> 0 <= roots l /\ (roots l = 0 <-> forall v, In v l -> v = 0).
Proof.
  intros B. unfold roots. apply sum_zero_iff. intros v Hv. split; [apply c_pow_01; [lra|apply B; auto]|].
  unfold c_pow. destruct (Req_EM_T v 0); [tauto|]. split; intros E; [|contradiction]. assert (P := exp_pos (/ 10 * ln v)). unfold Rpower in E. lra.
Qed.
Lemma c_pow_root v : 0 <= v -> tenth_root v (c_pow v (/ 10)).
Proof.
  intros H. unfold tenth_root, c_pow. destruct (Req_EM_T v 0) as [->|N]; [split; [lra|ring]|]. split; [left; apply exp_pos|].
  rewrite <- Rpower_pow by apply exp_pos. rewrite Rpower_mult. replace (/ 10 * INR 10) with 1; [apply Rpower_1; lra|]. cbn. lra.
Qed.

Lemma g1_sum m x : (1 <= m <= length x + 1)%nat ->
  rsum (map g1_term (distance m x)) + INR (length x + 1 - m) = rsum (map (fun v => 1 + ((v - / 2) * (v - / 2) - cos (20 * PI * (v - / 2)))) (distance m x)).
Proof.
  intros M. assert (E : (length x + 1 - m = length (distance m x))%nat) by (unfold distance; rewrite skipn_length; lia).
  rewrite E, Rplus_comm, rsum_shift. f_equal. apply map_ext. intros v. unfold g1_term. ring.
Qed.
Lemma g2_sum l : rsum (map g2_term l) = sphere l.
Proof. unfold sphere. f_equal. apply map_ext. intros v. unfold g2_term. ring. Qed.

Lemma dtlz1_ok m x : (1 <= m <= length x + 1)%nat ->
  dtlz1 m x = Ok (map (Rmult (/ 2 * (1 + rastrigin (distance m x)))) (rev (spread (fun v => v) (fun v => 1 - v) (position m x)))).
Proof.
  intros M. unfold dtlz1. rewrite tail_sum_ok by lia. cbn [rbind]. rewrite shape_ok by lia. unfold rastrigin. rewrite <- g1_sum by auto. do 3 f_equal. f_equal. f_equal. f_equal. ring.
Qed.
Lemma dtlz2_ok m x : (1 <= m <= length x + 1)%nat ->
  dtlz2 m x = Ok (map (Rmult (1 + sphere (distance m x))) (rev (spread quarter_cos quarter_sin (position m x)))).
Proof. intros M. unfold dtlz2. rewrite tail_sum_ok by lia. cbn [rbind]. rewrite shape_ok by lia. rewrite g2_sum. auto. Qed.
Lemma dtlz3_ok m x : (1 <= m <= length x + 1)%nat ->
  dtlz3 m x = Ok (map (Rmult (1 + rastrigin (distance m x))) (rev (spread quarter_cos quarter_sin (position m x)))).
Proof. intros M. unfold dtlz3. rewrite tail_sum_ok by lia. cbn [rbind]. rewrite shape_ok by lia. unfold rastrigin. rewrite <- g1_sum by auto. do 3 f_equal. f_equal. f_equal. ring. Qed.
Lemma dtlz4_ok al m x : (1 <= m <= length x + 1)%nat ->
  dtlz4 al m x = Ok (map (Rmult (1 + sphere (distance m x))) (rev (spread (fun v => quarter_cos (c_pow v al)) (fun v => quarter_sin (c_pow v al)) (position m x)))).
Proof. intros M. unfold dtlz4. rewrite tail_sum_ok by lia. cbn [rbind]. rewrite shape_ok by lia. rewrite g2_sum. auto. Qed.

Lemma later_angles_ok g x : forall n a, (a + n <= length x)%nat -> later_angles (PI / (4 * (1 + g))) g x (seq a n) = Ok (map (later g) (firstn n (skipn a x))).
Proof.
  induction n as [|n IH]; intros a L; cbn [seq later_angles]; [auto|].
  destruct (some_nth x a) as (v & E); [lia|]. rewrite E. cbn [of_opt rbind]. rewrite IH by lia. cbn [rbind].
  assert (Sk : skipn a x = v :: skipn (S a) x).
  { clear -E. revert x E. induction a as [|a IH]; intros [|y x] E; try discriminate; cbn in *; [injection E as ->; auto|]. apply IH. auto. }
  rewrite Sk. reflexivity.
Qed.
Lemma angles_ok g m x : (2 <= m <= length x + 1)%nat -> angles g m x = Ok (theta g (position m x)).
Proof.
  intros M. unfold angles. destruct (m <? 2)%nat eqn:E; [apply Nat.ltb_lt in E; lia|]. destruct x as [|v x]; [cbn in M; lia|].
  cbn [nth_error of_opt rbind]. rewrite later_angles_ok by (cbn [length] in *; lia). cbn [rbind]. unfold position.
  destruct m as [|[|m]]; try lia. cbn [Nat.sub]. rewrite Nat.sub_0_r. reflexivity.
Qed.
Lemma theta_length g p : length (theta g p) = length p.
Proof. destruct p; cbn; rewrite ?map_length; auto. Qed.
Lemma position_all m p : (length p <= m - 1)%nat -> position m p = p.
Proof. intros L. unfold position. apply firstn_all2. auto. Qed.
Lemma dtlz5_ok m x : (2 <= m <= length x + 1)%nat ->
  dtlz5 m x = Ok (map (Rmult (1 + sphere (distance m x))) (rev (spread cos sin (theta (sphere (distance m x)) (position m x))))).
Proof.
  intros M. unfold dtlz5. rewrite tail_sum_ok by lia. cbn [rbind]. rewrite g2_sum, angles_ok by auto. cbn [rbind].
  assert (L : length (theta (sphere (distance m x)) (position m x)) = (m - 1)%nat) by (rewrite theta_length; unfold position; rewrite firstn_length; lia).
  rewrite shape_ok by lia. rewrite position_all by lia. auto.
Qed.
Lemma dtlz6_ok m x : (2 <= m <= length x + 1)%nat ->
  dtlz6 m x = Ok (map (Rmult (1 + roots (distance m x))) (rev (spread cos sin (theta (roots (distance m x)) (position m x))))).
Proof.
  intros M. unfold dtlz6. rewrite tail_sum_ok by lia. cbn [rbind]. fold (roots (distance m x)). rewrite angles_ok by auto. cbn [rbind].
  assert (L : length (theta (roots (distance m x)) (position m x)) = (m - 1)%nat) by (rewrite theta_length; unfold position; rewrite firstn_length; lia).
  rewrite shape_ok by lia. rewrite position_all by lia. auto.
Qed.
Lemma theta_quarter g p : 0 <= g -> in_box p -> forall t, In t (theta g p) -> 0 <= t <= PI / 2.
Proof.
  intros G B t. assert (P := PI_RGT_0). destruct p as [|v p]; cbn [theta]; [intros []|]. intros [<-|Ht].
  - assert (V := B v (or_introl eq_refl)). nra.
  - apply in_map_iff in Ht as (w & <- & Hw). assert (V := B w (or_intror Hw)). unfold later.
    assert (Q1 : 0 < / (4 * (1 + g))) by (apply Rinv_0_lt_compat; lra).
    assert (Q2 : / (4 * (1 + g)) * (4 * (1 + g)) = 1) by (field; lra). unfold Rdiv. split.
    + apply Rmult_le_pos; [apply Rmult_le_pos; lra|nra].
    + rewrite Rmult_assoc. apply Rmult_le_compat_l; [lra|]. set (q := / (4 * (1 + g))) in *.
      assert (1 + 2 * g * w <= 2 * (1 + g)) by nra. assert (q * (1 + 2 * g * w) <= q * (2 * (1 + g))) by (apply Rmult_le_compat_l; lra). lra.
Qed.

Lemma box_position m x : in_box x -> in_box (position m x).
Proof. intros B v H. apply B. eapply position_in; eauto. Qed.
Lemma ok_iff {A} (r : res A) a : r = Ok a -> forall v, r = Ok v <-> v = a.
Proof. intros -> v. split; [intros E; injection E; auto|intros ->; auto]. Qed.

Lemma rev_in {A} (l : list A) (P : A -> Prop) : (forall p, In p l -> P p) -> forall p, In p (rev l) -> P p.
Proof. intros H p Hp. apply H. apply in_rev. auto. Qed.
Lemma linear_norm (a : list R) : norm (fun v => v) (rev (spread (fun v => v) (fun v => 1 - v) a)) = 1.
Proof. rewrite norm_rev. apply spread_norm; auto. intros; ring. Qed.
Lemma round_norm c s a : (forall v, In v a -> sq (c v) + sq (s v) = 1) -> norm sq (rev (spread c s a)) = 1.
Proof. intros H. rewrite norm_rev. apply spread_norm; auto using sq_mult, sq_1. Qed.

Lemma optimal1 m x : (1 <= m <= length x)%nat -> in_box x ->
  (optimal (fun x v => dtlz1 m x = Ok v) x <-> forall v, In v (distance m x) -> v = / 2).
Proof.
  intros M B.
  assert (V : forall y v, in_box y -> (m <= length y)%nat -> (dtlz1 m y = Ok v <-> v = map (Rmult (/ 2 * (1 + rastrigin (distance m y)))) (rev (spread (fun v => v) (fun v => 1 - v) (position m y)))))
    by (intros y v By Ly; apply ok_iff, dtlz1_ok; lia).
  assert (Nn : forall y, in_box y -> (m <= length y)%nat -> forall p, In p (rev (spread (fun v => v) (fun v => 1 - v) (position m y))) -> 0 <= p).
  { intros y By Ly. apply rev_in. apply spread_nonneg. intros v Hv. apply position_in, By in Hv. lra. }
  split; intros H.
  - refine (optimal_zero m (fun v => v) _ _ rastrigin (/ 2) (/ 2) id_mult id_mono ltac:(lra) V Nn _ _ _ ltac:(lra) ltac:(lia) _ x B ltac:(lia) H).
    + intros; apply linear_norm.
    + intros; apply rastrigin_zero.
    + intros; apply rastrigin_zero.
    + cbn. intros y z _ _ _ _ E. rewrite E. auto.
  - refine (zero_optimal m (fun v => v) _ _ rastrigin (/ 2) (/ 2) id_mult id_mono ltac:(lra) V Nn _ _ _ ltac:(lia) x B ltac:(lia) H).
    + intros; apply linear_norm.
    + intros; apply rastrigin_zero.
    + intros; apply rastrigin_zero.
Qed.
Lemma optimal_round m x (f : list R -> res (list R)) g c s : (1 <= m <= length x)%nat -> in_box x ->
  (forall y, (1 <= m <= length y + 1)%nat -> f y = Ok (map (Rmult (1 + g (distance m y))) (rev (spread c s (position m y))))) ->
  (forall l, 0 <= g l /\ (g l = 0 <-> forall v, In v l -> v = / 2)) ->
  (forall v, 0 <= v <= 1 -> 0 <= c v /\ 0 <= s v) -> (forall v, sq (c v) + sq (s v) = 1) ->
  (optimal (fun x v => f x = Ok v) x <-> forall v, In v (distance m x) -> v = / 2).
Proof.
  intros M B F G CS Circ.
  assert (V : forall y v, in_box y -> (m <= length y)%nat -> (f y = Ok v <-> v = map (Rmult (1 * (1 + g (distance m y)))) (rev (spread c s (position m y)))))
    by (intros y v By Ly; rewrite Rmult_1_l; apply ok_iff, F; lia).
  assert (Nn : forall y, in_box y -> (m <= length y)%nat -> forall p, In p (rev (spread c s (position m y))) -> 0 <= p).
  { intros y By Ly. apply rev_in. apply spread_nonneg. intros v Hv. apply position_in, By in Hv. auto. }
  split; intros H.
  - refine (optimal_zero m sq _ _ g 1 (/ 2) sq_mult sq_mono ltac:(lra) V Nn _ _ _ ltac:(lra) ltac:(lia) _ x B ltac:(lia) H).
    + intros; apply round_norm; auto.
    + intros; apply G.
    + intros; apply G.
    + cbn. intros y z _ _ _ _ E. rewrite E. auto.
  - refine (zero_optimal m sq _ _ g 1 (/ 2) sq_mult sq_mono ltac:(lra) V Nn _ _ _ ltac:(lia) x B ltac:(lia) H).
    + intros; apply round_norm; auto.
    + intros; apply G.
    + intros; apply G.
Qed.
Lemma optimal2 m x : (1 <= m <= length x)%nat -> in_box x -> (optimal (fun x v => dtlz2 m x = Ok v) x <-> forall v, In v (distance m x) -> v = / 2).
Proof. intros M B. apply (optimal_round m x _ sphere quarter_cos quarter_sin); auto using sphere_zero, quarter. - intros; apply dtlz2_ok; auto. - intros; apply circle. Qed.
Lemma optimal3 m x : (1 <= m <= length x)%nat -> in_box x -> (optimal (fun x v => dtlz3 m x = Ok v) x <-> forall v, In v (distance m x) -> v = / 2).
Proof. intros M B. apply (optimal_round m x _ rastrigin quarter_cos quarter_sin); auto using rastrigin_zero, quarter. - intros; apply dtlz3_ok; auto. - intros; apply circle. Qed.
Lemma optimal4 al m x : 0 < al -> (1 <= m <= length x)%nat -> in_box x -> (optimal (fun x v => dtlz4 al m x = Ok v) x <-> forall v, In v (distance m x) -> v = / 2).
Proof.
  intros Al M B. apply (optimal_round m x _ sphere (fun v => quarter_cos (c_pow v al)) (fun v => quarter_sin (c_pow v al))); auto using sphere_zero.
  - intros; apply dtlz4_ok; auto. - intros v Hv. apply quarter. apply c_pow_01; auto. - intros; apply circle.
Qed.
Lemma optimal56 m x (f : list R -> res (list R)) g v0 : (2 <= m <= length x)%nat -> in_box x ->
  (forall y, (2 <= m <= length y + 1)%nat -> f y = Ok (map (Rmult (1 + g (distance m y))) (rev (spread cos sin (theta (g (distance m y)) (position m y)))))) ->
  (forall l, in_box l -> 0 <= g l /\ (g l = 0 <-> forall v, In v l -> v = v0)) ->
  (forall v, In v (distance m x) -> v = v0) -> optimal (fun x v => f x = Ok v) x.
Proof.
  intros M B F G H.
  assert (V : forall y v, in_box y -> (m <= length y)%nat -> (f y = Ok v <-> v = map (Rmult (1 * (1 + g (distance m y)))) (rev (spread cos sin (theta (g (distance m y)) (position m y))))))
    by (intros y v By Ly; rewrite Rmult_1_l; apply ok_iff, F; lia).
  assert (Nn : forall y, in_box y -> (m <= length y)%nat -> forall p, In p (rev (spread cos sin (theta (g (distance m y)) (position m y)))) -> 0 <= p).
  { intros y By Ly. apply rev_in. apply spread_nonneg. intros v Hv. apply theta_quarter in Hv; auto using box_position; [|apply G; apply distance_box; auto].
    assert (P := PI_RGT_0). split; [apply cos_ge_0|apply sin_ge_0]; lra. }
  refine (zero_optimal m sq _ _ g 1 v0 sq_mult sq_mono ltac:(lra) V Nn _ _ _ ltac:(lia) x B ltac:(lia) H).
  - intros; apply round_norm. intros; apply circle.
  - intros l Bl; apply (G l Bl).
  - intros l Bl; apply (G l Bl).
Qed.

(** sums *)
Lemma sum1 m x f : (1 <= m <= length x + 1)%nat -> dtlz1 m x = Ok f -> length f = m /\ rsum f = / 2 * (1 + rastrigin (distance m x)).
Proof.
  intros M E. rewrite dtlz1_ok in E by auto. injection E as <-. split.
  - rewrite map_length, rev_length, spread_length. unfold position. rewrite firstn_length. lia.
  - rewrite <- norm_id. rewrite norm_scale by apply id_mult. rewrite linear_norm. ring.
Qed.
Lemma sum_round m r c s p f : length p = (m - 1)%nat -> (1 <= m)%nat -> (forall v, In v p -> sq (c v) + sq (s v) = 1) -> f = map (Rmult r) (rev (spread c s p)) -> length f = m /\ sum_of_squares f = r * r.
Proof.
  intros L M H ->. split.
  - rewrite map_length, rev_length, spread_length. lia.
  - change (norm sq (map (Rmult r) (rev (spread c s p))) = r * r). rewrite norm_scale by apply sq_mult. rewrite round_norm by auto. unfold sq. ring.
Qed.
Lemma position_length m x : (m <= length x + 1)%nat -> length (position m x) = (m - 1)%nat.
Proof. intros. unfold position. rewrite firstn_length. lia. Qed.
Lemma scaled_nonneg r l : 0 <= r -> (forall p, In p l -> 0 <= p) -> forall v, In v (map (Rmult r) l) -> 0 <= v.
Proof. intros R0 H v Hv. apply in_map_iff in Hv as (p & <- & Hp). apply Rmult_le_pos; auto. Qed.

(** DTLZ7 *)
Lemma front_ok x : forall n a, (a + n <= length x)%nat -> for_objectives (fun i => of_opt (nth_error x (i - 1))) (seq (S a) n) = Ok (firstn n (skipn a x)).
Proof.
  induction n as [|n IH]; intros a L; cbn [seq for_objectives]; [auto|]. cbn [Nat.sub]. rewrite Nat.sub_0_r.
  destruct (some_nth x a) as (v & E); [lia|]. rewrite E. cbn [of_opt rbind]. rewrite IH by lia. cbn [rbind].
  assert (Sk : skipn a x = v :: skipn (S a) x).
  { clear -E. revert x E. induction a as [|a IH]; intros [|y x] E; try discriminate; cbn in *; [injection E as ->; auto|]. apply IH. auto. }
  rewrite Sk. reflexivity.
Qed.
Lemma dtlz7_ok m x : (1 <= m <= length x)%nat -> in_box x ->
  dtlz7 m x = Ok (position m x ++ [INR m * (1 + mean9 (distance m x)) - rsum (map (fun v => v * (1 + sin (3 * PI * v))) (position m x))]).
Proof.
  intros M B. unfold dtlz7. rewrite tail_sum_ok by lia. cbn [rbind]. rewrite map_id.
  destruct (length x + 1 - m =? 0)%nat eqn:E; [apply Nat.eqb_eq in E; lia|].
  rewrite (front_ok x (m - 1) 0) by lia. cbn [rbind skipn]. rewrite reading_sum by lia. cbn [rbind skipn]. fold (position m x).
  assert (L : (length x + 1 - m = length (distance m x))%nat) by (unfold distance; rewrite skipn_length; lia).
  rewrite L. fold (mean9 (distance m x)).
  assert (P : 0 < 1 + mean9 (distance m x)).
  { assert (0 <= rsum (distance m x)) by (apply rsum_nonneg; intros v Hv; apply (distance_box m x B v Hv)). unfold mean9, Rdiv.
    assert (0 < / INR (length (distance m x))) by (apply Rinv_0_lt_compat, lt_0_INR; lia). nra. }
  do 3 f_equal. rewrite Rplus_0_l, Rmult_minus_distr_l, <- rsum_scale, map_map. rewrite Rmult_comm. f_equal. f_equal. apply map_ext. intros v. field. lra.
Qed.
Lemma mean9_zero l : (1 <= length l)%nat -> in_box l -> 1 <= mean9 l /\ (mean9 l = 1 <-> forall v, In v l -> v = 0).
Proof.
  intros L B. destruct (sum_zero_iff (fun v => v) 0 l) as [S1 S2]; [intros v Hv; specialize (B v Hv); split; [lra|tauto]|]. rewrite map_id in *.
  assert (Q1 : 0 < / INR (length l)) by (apply Rinv_0_lt_compat, lt_0_INR; lia). unfold mean9, Rdiv. rewrite <- S2. split; [nra|]. split; intros E; [|rewrite E; ring].
  assert (E' : rsum l * / INR (length l) = 0) by lra. apply Rmult_integral in E' as [E'|E']; lra.
Qed.
Lemma optimal7 m x : (1 <= m <= length x)%nat -> in_box x -> optimal (fun x v => dtlz7 m x = Ok v) x -> forall v, In v (distance m x) -> v = 0.
Proof.
  intros M B (vx & Vx & Op). rewrite dtlz7_ok in Vx by auto. injection Vx as <-.
  assert (Ld : (1 <= length (distance m x))%nat) by (unfold distance; rewrite skipn_length; lia).
  destruct (mean9_zero (distance m x) Ld (distance_box m x B)) as [G1 G2]. apply G2.
  set (y := position m x ++ repeat 0 (length x + 1 - m)).
  assert (Lp : length (position m x) = (m - 1)%nat) by (apply position_length; lia).
  assert (Ly : length y = length x) by (unfold y; rewrite app_length, repeat_length; lia).
  assert (By : in_box y).
  { intros v H. apply in_app_or in H as [H|H]; [apply B; eapply position_in; eauto|apply repeat_spec in H; subst; lra]. }
  assert (Dy : distance m y = repeat 0 (length x + 1 - m)).
  { unfold distance, y. rewrite skipn_app, Lp, Nat.sub_diag, skipn_all2 by lia. reflexivity. }
  assert (Py : position m y = position m x).
  { unfold position at 1, y. rewrite firstn_app, Lp, Nat.sub_diag, firstn_all2 by lia. cbn. apply app_nil_r. }
  assert (Gy : mean9 (distance m y) = 1).
  { apply mean9_zero; rewrite ?Dy, ?repeat_length; [lia| |]; intros v H; apply repeat_spec in H; subst; lra. }
  assert (Im : 0 < INR m) by (apply lt_0_INR; lia).
  specialize (Op y _ By Ly (dtlz7_ok m y ltac:(lia) By)). rewrite Py, Gy in Op.
  assert (N : position m x ++ [INR m * (1 + 1) - rsum (map (fun v => v * (1 + sin (3 * PI * v))) (position m x))] =
    position m x ++ [INR m * (1 + mean9 (distance m x)) - rsum (map (fun v => v * (1 + sin (3 * PI * v))) (position m x))]).
  { apply Op. unfold no_worse. apply Forall2_app; [|constructor; [nra|constructor]]. clear. induction (position m x); constructor; auto; lra. }
  apply app_inv_head in N. injection N as N. assert (N' : INR m * (mean9 (distance m x) - 1) = 0) by lra. apply Rmult_integral in N' as [N'|N']; lra.
Qed.

(** *** more objectives than variables *)
Lemma reading_out f x i is acc : (length x <= i)%nat -> reading x (i :: is) f acc = UB.
Proof. intros L. cbn [reading]. rewrite (proj2 (nth_error_None x i)) by auto. reflexivity. Qed.
Lemma shape_out c s scale m a : (length a + 2 <= m)%nat -> shape c s scale m a = UB.
Proof.
  intros L. unfold shape. destruct m as [|m]; [lia|]. cbn [seq for_objectives]. unfold objective at 1. cbn [Nat.sub]. rewrite Nat.sub_0_r.
  destruct m as [|m]; [lia|]. rewrite seq_S, rev_app_distr. cbn [rev app Nat.add]. rewrite reading_out by lia. reflexivity.
Qed.
Lemma tail_sum_out term m x : (length x + 2 <= m)%nat -> tail_sum term m x = Ok 0.
Proof. intros L. unfold tail_sum. replace (length x + 1 - m)%nat with 0%nat by lia. reflexivity. Qed.
