(** The adaptive normal distribution: constants, mean, covariance. *)
From Coq Require Import List Arith ZArith Bool Reals Lia Lra Psatz.
From Verif Require Import Lib Outcome BreedModel CmaModel CmaSpec CmaProofs CmaState CmaMore NadModel NadSpec.
From Coq Require Import List.
Import ListNotations.
Open Scope nat_scope.

(** ** the weights *)
Definition raw (lambda : nat) : list R := map (fun i => (ln (INR lambda + 5 / 10) - ln (INR (i + 1)))%R) (seq 0 lambda).
Lemma raw_length l : length (raw l) = l.
Proof. unfold raw. rewrite map_length, seq_length. reflexivity. Qed.
Lemma raw_pos l : Forall (fun x => 0 < x)%R (raw l).
Proof.
  apply Forall_forall. intros x Hx. apply in_map_iff in Hx. destruct Hx as (i & <- & Hi). apply in_seq in Hi.
  assert (Hle : (INR (i + 1) <= INR l)%R) by (apply le_INR; lia). assert (0 < INR (i + 1))%R by (apply lt_0_INR; lia).
  assert (ln (INR (i + 1)) < ln (INR l + 5 / 10))%R by (apply ln_increasing; lra). lra.
Qed.
Definition strictly_decreasing (l : list R) : Prop := forall i j x y, i < j -> nth_error l i = Some x -> nth_error l j = Some y -> (y < x)%R.
Lemma raw_decreasing l : strictly_decreasing (raw l).
Proof.
  intros i j x y Hij Ex Ey. unfold raw in *. rewrite nth_error_map in Ex, Ey.
  assert (Hj : j < l). { destruct (nth_error (seq 0 l) j) eqn:E; [|discriminate]. apply nth_error_lt in E. rewrite seq_length in E. auto. }
  rewrite nth_error_seq' in Ex by lia. rewrite nth_error_seq' in Ey by lia. cbn in Ex, Ey. injection Ex as <-. injection Ey as <-.
  assert (INR (i + 1) < INR (j + 1))%R by (apply lt_INR; lia). assert (0 < INR (i + 1))%R by (apply lt_0_INR; lia).
  pose proof (ln_increasing (INR (i + 1)) (INR (j + 1)) ltac:(auto) ltac:(auto)). lra.
Qed.
Lemma raw_nonempty l : 1 <= l -> raw l <> [].
Proof. intros H E. apply (f_equal (@length R)) in E. rewrite raw_length in E. cbn in E. lia. Qed.
Lemma weights_length l : length (nad_weights l) = l.
Proof. unfold nad_weights, normalised. rewrite map_length. apply raw_length. Qed.
Lemma weights_ok l : 1 <= l -> length (nad_weights l) = l /\ Forall (fun x => 0 < x)%R (nad_weights l) /\ total (nad_weights l) = 1%R /\ strictly_decreasing (nad_weights l).
Proof.
  intros H. split; [apply weights_length|]. destruct (normalised_average (raw l) (raw_nonempty l H) (raw_pos l)) as [H1 H2]. split; [exact H1|]. split; [exact H2|].
  pose proof (total_pos _ (raw_nonempty l H) (raw_pos l)) as Hp. intros i j x y Hij Ex Ey. change (nad_weights l) with (normalised (raw l)) in *. unfold normalised in *.
  rewrite vsum_total in *. rewrite nth_error_map in Ex, Ey. destruct (nth_error (raw l) i) as [a|] eqn:Ea; [|discriminate].
  destruct (nth_error (raw l) j) as [b|] eqn:Eb; [|discriminate]. cbn in Ex, Ey. injection Ex as <-. injection Ey as <-.
  apply Rmult_lt_compat_r; [apply Rinv_0_lt_compat; auto|]. eapply raw_decreasing; eauto.
Qed.
Lemma weights_average l : 1 <= l -> average_weights (nad_weights l).
Proof. intros H. destruct (weights_ok l H) as (_ & H1 & H2 & _). split; auto. eapply Forall_impl; [|exact H1]. cbn. intros; lra. Qed.
Lemma mueff_ok l : 1 <= l -> (1 <= mueff_of (nad_weights l) <= INR l)%R.
Proof.
  intros H. destruct (weights_ok l H) as (Hl & H1 & _). rewrite <- (weights_length l) at 3. apply mueff_range; auto.
  intros E. rewrite E in Hl. cbn in Hl. lia.
Qed.

(** ** the learning rates *)
Lemma frac_lt a b : (0 < b)%R -> (a < b)%R -> (a / b < 1)%R.
Proof. intros Hb H. apply Rmult_lt_reg_r with b; auto. unfold Rdiv. rewrite Rmult_assoc, Rinv_l by lra. lra. Qed.
Lemma frac_le a b k : (0 < b)%R -> (a <= k * b)%R -> (a / b <= k)%R.
Proof. intros Hb H. apply Rmult_le_reg_r with b; auto. unfold Rdiv. rewrite Rmult_assoc, Rinv_l by lra. lra. Qed.
Lemma frac_ge a b k : (0 < b)%R -> (k * b <= a)%R -> (k <= a / b)%R.
Proof. intros Hb H. apply Rmult_le_reg_r with b; auto. unfold Rdiv. rewrite Rmult_assoc, Rinv_l by lra. lra. Qed.
Lemma over_n n m : 1 <= n -> (1 <= m)%R -> (0 < m / INR n)%R.
Proof. intros Hn Hm. apply INR_1 in Hn. apply Rdiv_lt_0_compat; lra. Qed.
Lemma cs_range n m : (1 <= m)%R -> (0 < cs_of n m < 1)%R.
Proof. intros Hm. pose proof (pos_INR n). unfold cs_of. split; [apply Rdiv_lt_0_compat; lra|]. apply frac_lt; lra. Qed.
Lemma cc_range n m : 1 <= n -> (1 <= m)%R -> (0 < cc_of n m < 1)%R.
Proof.
  intros Hn Hm. pose proof (over_n n m Hn Hm) as Ho. apply INR_1 in Hn. unfold cc_of. replace (2 * m / INR n)%R with (2 * (m / INR n))%R by (unfold Rdiv; ring).
  split; [apply Rdiv_lt_0_compat; lra|]. apply frac_lt; lra.
Qed.
Lemma c1_range n m : 1 <= n -> (1 <= m)%R -> (0 < c1_of n m < 1 / 3)%R.
Proof.
  intros Hn Hm. apply INR_1 in Hn. unfold c1_of. assert (6 < (INR n + 13 / 10) ^ 2 + m)%R by (cbn [pow]; nra). split; [apply Rdiv_lt_0_compat; lra|].
  apply Rmult_lt_reg_r with ((INR n + 13 / 10) ^ 2 + m)%R; [lra|]. unfold Rdiv at 1. rewrite Rmult_assoc, Rinv_l by lra. lra.
Qed.
Lemma square_over m : (1 <= m)%R -> (m - 2 + 1 / m = (m - 1) ^ 2 / m)%R.
Proof. intros H. field. lra. Qed.
Lemma cmu_range n m : 1 <= n -> (1 <= m)%R -> (0 <= cmu_of n m < 2)%R.
Proof.
  intros Hn Hm. apply INR_1 in Hn. unfold cmu_of. assert (Hi : (0 < 1 / m <= 1)%R) by (apply inverse_range; auto).
  assert (0 <= m - 2 + 1 / m)%R. { rewrite square_over by auto. apply Rmult_le_pos; [apply pow2_ge_0|apply Rlt_le, Rinv_0_lt_compat; lra]. }
  assert (9 < (INR n + 2) ^ 2 + m)%R by (cbn [pow]; nra). split; [apply Rmult_le_pos; [lra|apply Rlt_le, Rinv_0_lt_compat; lra]|].
  apply Rmult_lt_reg_r with ((INR n + 2) ^ 2 + m)%R; [lra|]. unfold Rdiv at 1. rewrite Rmult_assoc, Rinv_l by lra. nra.
Qed.
Lemma rates_small n m : 1 <= n -> (1 <= m)%R -> (2 * m <= (INR n + 2) ^ 2)%R -> (c1_of n m + cmu_of n m < 1)%R.
Proof.
  intros Hn Hm Hs. destruct (c1_range n m Hn Hm) as [_ H1]. assert (cmu_of n m <= 2 / 3)%R; [|lra].
  apply INR_1 in Hn. unfold cmu_of. assert (Hi : (0 < 1 / m <= 1)%R) by (apply inverse_range; auto).
  assert (9 < (INR n + 2) ^ 2 + m)%R by (cbn [pow]; nra). apply frac_le; [lra|]. lra.
Qed.
Lemma damps_ok n m : (1 <= m)%R -> (1 < damps_of n m)%R.
Proof. intros Hm. unfold damps_of. pose proof (cs_range n m Hm). pose proof (Rmax_l 0 (sqrt ((m - 1) / (INR n + 1)) - 1)). lra. Qed.
Lemma integer_quotient n : 1 <= n -> 1 / (4 * n) = 0.
Proof. intros H. apply Nat.div_small. lia. Qed.
Lemma nad_chi_eq n : 1 <= n -> nad_chi n = (expected_length n + 1 / (4 * sqrt (INR n)))%R.
Proof.
  intros H. unfold nad_chi, expected_length. rewrite integer_quotient by auto. apply INR_1 in H. assert (Hs : (0 < sqrt (INR n))%R) by (apply sqrt_lt_R0; lra).
  assert (E : (INR n = sqrt (INR n) * sqrt (INR n))%R) by (symmetry; apply sqrt_sqrt; lra). set (s := sqrt (INR n)) in *. rewrite E. cbn [INR]. field. lra.
Qed.
Lemma nad_chi_pos n : 1 <= n -> (sqrt (INR n) < nad_chi n)%R.
Proof.
  intros H. unfold nad_chi. rewrite integer_quotient by auto. apply INR_1 in H. assert (Hs : (0 < sqrt (INR n))%R) by (apply sqrt_lt_R0; lra). cbn [INR].
  assert (0 < 1 / (21 * INR n ^ 2))%R by (apply Rdiv_lt_0_compat; [lra|cbn [pow]; nra]). nra.
Qed.

(** ** the mean *)
Lemma nad_mean_between pop i lo hi : pop <> [] -> (forall x, In x pop -> lo <= at_ x i <= hi)%R -> (lo <= nad_mean pop i <= hi)%R.
Proof.
  intros Hn H. assert (Hl : 1 <= length pop) by (destruct pop; [congruence|cbn; lia]). destruct (weights_ok (length pop) Hl) as (Hw & Hp & Ht & _).
  rewrite <- vsum_total in Ht. unfold vsum in Ht. rewrite Hw in Ht. unfold nad_mean.
  assert (Hwk : forall k, (0 <= nth k (nad_weights (length pop)) 0)%R) by (intros k; apply nth_average, weights_average; auto).
  assert (G : forall j, j < length pop -> (lo <= at_ (nth j pop []) i <= hi)%R) by (intros j Hj; apply H, nth_In; auto). split.
  - replace lo with (lo * sum_to (length pop) (fun j => nth j (nad_weights (length pop)) 0))%R by (rewrite Ht; ring). rewrite <- sum_to_scale. apply sum_to_le.
    intros j Hj. apply Rmult_le_compat_r; [apply Hwk|apply G; auto].
  - replace hi with (hi * sum_to (length pop) (fun j => nth j (nad_weights (length pop)) 0))%R by (rewrite Ht; ring). rewrite <- sum_to_scale. apply sum_to_le.
    intros j Hj. apply Rmult_le_compat_r; [apply Hwk|apply G; auto].
Qed.

(** ** the covariance *)
Lemma nad_covar_sym n C pc old sigma h m pop : symmetric_to n C -> symmetric_to n (nad_covar n C pc old sigma h m pop).
Proof.
  intros H i j Hi Hj. unfold nad_covar. rewrite (H i j Hi Hj). f_equal; [ring|]. f_equal. apply sum_to_ext. intros k _. ring.
Qed.
Lemma nad_covar_pd n C pc old sigma h m pop : 1 <= n -> pop <> [] -> (1 <= m)%R -> (c1_of n m + cmu_of n m < 1)%R -> (h = 0 \/ h = 1)%R -> positive_definite n C ->
  positive_definite n (nad_covar n C pc old sigma h m pop).
Proof.
  intros Hn Hp Hm Hr Hh H x Hx. specialize (H x Hx). assert (Hl : 1 <= length pop) by (destruct pop; [congruence|cbn; lia]).
  destruct (c1_range n m Hn Hm) as [H1 _]. destruct (cmu_range n m Hn Hm) as [H2 _]. destruct (cc_range n m Hn Hm) as [H3 H4].
  set (a := (1 - c1_of n m - cmu_of n m + c1_of n m * ((1 - h) * cc_of n m * (2 - cc_of n m)))%R).
  set (art := fun k i => (1 / sigma * (at_ (nth k pop []) i - old i))%R).
  rewrite (quad_ext _ _ (fun i j => (a * C i j + c1_of n m * (pc i * pc j)) + cmu_of n m * sum_to (length pop) (fun k => nth k (nad_weights (length pop)) 0 * (art k i * art k j)))%R).
  2: { intros i j _ _. unfold nad_covar, a. f_equal; [ring|]. f_equal. apply sum_to_ext. intros k _. unfold art. ring. }
  rewrite quad_plus, quad_plus, !quad_scale. rewrite (quad_sum _ _ (fun k i j => nth k (nad_weights (length pop)) 0 * (art k i * art k j))%R).
  assert (Ha : (0 < a)%R). { unfold a. assert (0 <= c1_of n m * ((1 - h) * cc_of n m * (2 - cc_of n m)))%R; [|lra]. apply Rmult_le_pos; [lra|]. destruct Hh as [-> | ->]; nra. }
  assert (Q1 : (0 < a * quadratic n C x)%R) by (apply Rmult_lt_0_compat; auto).
  assert (Q2 : (0 <= c1_of n m * quadratic n (fun i j => pc i * pc j) x)%R) by (apply Rmult_le_pos; [lra|apply outer_nonneg]).
  match goal with |- (0 < _ + ?t)%R => assert (0 <= t)%R; [|lra] end. apply Rmult_le_pos; [auto|]. apply sum_to_nonneg. intros k _. rewrite quad_scale.
  apply Rmult_le_pos; [apply nth_average, weights_average; auto|apply (outer_nonneg _ (art k))].
Qed.
