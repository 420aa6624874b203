(** Sums, parameters and storage of the CMA evolution strategy. *)
From Coq Require Import List Arith ZArith Bool Reals Lia Lra Psatz.
From Verif Require Import Lib Outcome BreedModel CmaModel CmaSpec.
From Coq Require Import List.
Import ListNotations.
Open Scope nat_scope.

(** ** sums *)
Lemma sum_to_ext n (f g : nat -> R) : (forall i, i < n -> f i = g i) -> sum_to n f = sum_to n g.
Proof. induction n as [|n IH]; intros H; cbn [sum_to]; auto. rewrite IH by (intros; apply H; lia). rewrite H by lia. reflexivity. Qed.
Lemma sum_to_plus n (f g : nat -> R) : sum_to n (fun i => f i + g i)%R = (sum_to n f + sum_to n g)%R.
Proof. induction n as [|n IH]; cbn [sum_to]; [ring|]. rewrite IH. ring. Qed.
Lemma sum_to_scale n k (f : nat -> R) : sum_to n (fun i => k * f i)%R = (k * sum_to n f)%R.
Proof. induction n as [|n IH]; cbn [sum_to]; [ring|]. rewrite IH. ring. Qed.
Lemma sum_to_0 n : sum_to n (fun _ => 0%R) = 0%R.
Proof. induction n as [|n IH]; cbn [sum_to]; [ring|]. rewrite IH. ring. Qed.
Lemma sum_to_const n k : sum_to n (fun _ => k) = (INR n * k)%R.
Proof. induction n as [|n IH]; cbn [sum_to]; [cbn; ring|]. rewrite IH, S_INR. ring. Qed.
Lemma sum_to_swap n m (f : nat -> nat -> R) : sum_to n (fun i => sum_to m (fun j => f i j)) = sum_to m (fun j => sum_to n (fun i => f i j)).
Proof. induction n as [|n IH]; cbn [sum_to]; [symmetry; apply sum_to_0|]. rewrite IH. symmetry. apply (sum_to_plus m (fun j => sum_to n (fun i => f i j)) (fun j => f n j)). Qed.
Lemma sum_to_nonneg n (f : nat -> R) : (forall i, (i < n)%nat -> 0 <= f i)%R -> (0 <= sum_to n f)%R.
Proof. induction n as [|n IH]; intros H; cbn [sum_to]; [lra|]. assert (0 <= f n)%R by (apply H; lia). assert (0 <= sum_to n f)%R by (apply IH; intros; apply H; lia). lra. Qed.
Lemma sum_to_le n (f g : nat -> R) : (forall i, (i < n)%nat -> f i <= g i)%R -> (sum_to n f <= sum_to n g)%R.
Proof. induction n as [|n IH]; intros H; cbn [sum_to]; [lra|]. assert (f n <= g n)%R by (apply H; lia). assert (sum_to n f <= sum_to n g)%R by (apply IH; intros; apply H; lia). lra. Qed.
Lemma sum_to_term n (f : nat -> R) k : (forall i, (i < n)%nat -> 0 <= f i)%R -> k < n -> (f k <= sum_to n f)%R.
Proof.
  induction n as [|n IH]; intros H Hk; [lia|]. cbn [sum_to]. assert (0 <= sum_to n f)%R by (apply sum_to_nonneg; intros; apply H; lia).
  destruct (Nat.eq_dec k n) as [->|Hn]; [lra|]. assert (f k <= sum_to n f)%R by (apply IH; [intros; apply H; lia|lia]). assert (0 <= f n)%R by (apply H; lia). lra.
Qed.
Lemma sum_to_delta n i (f : nat -> R) : i < n -> sum_to n (fun k => identity i k * f k)%R = f i.
Proof.
  induction n as [|n IH]; intros Hi; [lia|]. cbn [sum_to]. destruct (Nat.eq_dec i n) as [->|Hn].
  - unfold identity at 2. rewrite Nat.eqb_refl. rewrite (sum_to_ext n _ (fun _ => 0%R)); [rewrite sum_to_0; ring|].
    intros j Hj. unfold identity. destruct (Nat.eqb_spec n j); [lia|ring].
  - rewrite IH by lia. unfold identity. destruct (Nat.eqb_spec i n); [lia|ring].
Qed.
Lemma sum_to_prod n (f g : nat -> R) : (sum_to n f * sum_to n g)%R = sum_to n (fun i => sum_to n (fun j => f i * g j))%R.
Proof.
  rewrite Rmult_comm, <- sum_to_scale. apply sum_to_ext. intros i _. rewrite sum_to_scale. ring.
Qed.
Lemma fold_sum l a : fold_right Rplus a l = (fold_right Rplus 0%R l + a)%R.
Proof. induction l as [|x l IH]; cbn [fold_right]; [ring|]. rewrite IH. ring. Qed.
Lemma sum_over_to n f : sum_over n f = sum_to n f.
Proof. induction n as [|n IH]; [reflexivity|]. unfold sum_over in *. rewrite seq_S, map_app, fold_right_app, fold_sum. cbn [map fold_right plus]. rewrite IH. cbn [sum_to]. ring. Qed.
Lemma vsum_total l : vsum l = total l.
Proof.
  unfold vsum, total. rewrite <- sum_over_to. unfold sum_over. f_equal. apply nth_error_ext. intros i. rewrite nth_error_map.
  destruct (nth_error l i) as [x|] eqn:E.
  - rewrite nth_error_seq' by (apply nth_error_Some; congruence). cbn. f_equal. apply nth_error_nth with (d := 0%R) in E. exact E.
  - apply nth_error_None in E. assert (En : nth_error (seq 0 (length l)) i = None) by (apply nth_error_None; rewrite seq_length; auto). rewrite En. reflexivity.
Qed.
Lemma total_pos l : l <> [] -> Forall (fun x => 0 < x)%R l -> (0 < total l)%R.
Proof.
  intros Hn H. destruct H as [|x l Hx Hl]; [congruence|]. unfold total. cbn [fold_right]. assert (0 <= fold_right Rplus 0%R l)%R; [|lra].
  clear Hn Hx. induction Hl as [|y l Hy Hl IH]; cbn [fold_right]; lra.
Qed.
Lemma total_div l k : total (map (fun x => x / k)%R l) = (total l / k)%R.
Proof. unfold total. induction l as [|x l IH]; cbn [map fold_right]; [unfold Rdiv; ring|]. rewrite IH. unfold Rdiv. ring. Qed.
(** sum of squares <= square of the sum, for non-negative numbers *)
Lemma squares_below l : Forall (fun x => 0 < x)%R l -> (0 <= total l)%R /\ (total (map (fun x => x * x)%R l) <= total l * total l)%R.
Proof.
  intros H. unfold total. induction H as [|x l Hx H IH]; cbn [map fold_right]; [lra|]. destruct IH as [I1 I2]. split; [lra|].
  assert (0 <= x * fold_right Rplus 0%R l)%R by (apply Rmult_le_pos; lra). nra.
Qed.
(** square of the sum <= number of terms times sum of squares *)
Lemma squares_above l : (total l * total l <= INR (length l) * total (map (fun x => x * x)%R l))%R.
Proof.
  assert (G : forall m, (0 <= INR (length l) * (m * m) - 2 * m * total l + total (map (fun x => x * x)%R l))%R).
  { intros m. unfold total. induction l as [|x l IH]; [cbn; lra|]. cbn [map fold_right length]. rewrite S_INR. pose proof (pow2_ge_0 (m - x)) as Hs. cbn in Hs. nra. }
  destruct l as [|a l']; [cbn; lra|]. set (l := a :: l') in *. assert (Hn : (0 < INR (length l))%R) by (apply lt_0_INR; cbn; lia).
  specialize (G (total l / INR (length l))%R). assert (E : (INR (length l) * (total l / INR (length l) * (total l / INR (length l))) - 2 * (total l / INR (length l)) * total l + total (map (fun x => x * x)%R l) = total (map (fun x => x * x)%R l) - total l * total l / INR (length l))%R) by (field; lra).
  rewrite E in G. assert (E2 : (INR (length l) * (total l * total l / INR (length l)) = total l * total l)%R) by (field; lra). nra.
Qed.

(** ** the parameters *)
Lemma default_mu_ge n : 2 <= default_mu n.
Proof. unfold default_mu, default_lambda. apply Nat.div_le_lower_bound; lia. Qed.
Lemma default_mu_lt n : default_mu n < default_lambda n.
Proof. unfold default_mu. apply Nat.div_lt; unfold default_lambda; lia. Qed.
Lemma usub_exact a b : b <= a -> (Z.of_nat a < 2 ^ 32)%Z -> usub a b = INR (a - b).
Proof. intros H Hb. unfold usub. rewrite Z.mod_small by lia. rewrite INR_IZR_INZ. f_equal. lia. Qed.
Definition decreasing (l : list R) : Prop := forall i j x y, i < j -> nth_error l i = Some x -> nth_error l j = Some y -> (y <= x)%R.
Lemma raw_weights_ok wt m : (Z.of_nat m < 2 ^ 32)%Z ->
  length (raw_weights wt m m) = m /\ Forall (fun x => 0 < x)%R (raw_weights wt m m) /\ decreasing (raw_weights wt m m).
Proof.
  intros Hb. assert (G : forall f, (forall i, (i < m)%nat -> 0 < f i)%R -> (forall i j, (i < j)%nat -> (j < m)%nat -> f j <= f i)%R ->
    length (map f (seq 0 m)) = m /\ Forall (fun x => 0 < x)%R (map f (seq 0 m)) /\ decreasing (map f (seq 0 m))).
  { intros f H1 H2. split; [rewrite map_length, seq_length; reflexivity|]. split.
    - apply Forall_forall. intros x Hx. apply in_map_iff in Hx. destruct Hx as (i & <- & Hi). apply in_seq in Hi. apply H1. lia.
    - intros i j x y Hij Ex Ey. rewrite nth_error_map in Ex, Ey.
      assert (Hj : j < m). { destruct (le_lt_dec m j) as [Hge|]; auto. assert (En : nth_error (seq 0 m) j = None) by (apply nth_error_None; rewrite seq_length; auto). rewrite En in Ey. discriminate. }
      rewrite nth_error_seq' in Ex, Ey by lia. cbn in Ex, Ey. injection Ex as <-. injection Ey as <-. apply H2; auto. }
  destruct wt as [|[|[|w]]]; cbn [raw_weights]; apply G.
  1,7: intros i Hi; assert (ln (INR i + 1) < ln (INR m + 1))%R; [apply ln_increasing; [pose proof (pos_INR i); lra|apply lt_INR in Hi; lra]|lra].
  1,6: intros i j Hij Hj; assert (ln (INR i + 1) < ln (INR j + 1))%R; [apply ln_increasing; [pose proof (pos_INR i); lra|apply lt_INR in Hij; lra]|lra].
  - intros i Hi. rewrite usub_exact by lia. apply lt_0_INR. lia.
  - intros i j Hij Hj. rewrite !usub_exact by lia. apply le_INR. lia.
  - intros; lra.
  - intros; lra.
Qed.
Lemma normalised_average w : w <> [] -> Forall (fun x => 0 < x)%R w -> Forall (fun x => 0 < x)%R (normalised w) /\ total (normalised w) = 1%R.
Proof.
  intros Hn H. pose proof (total_pos w Hn H) as Hp. unfold normalised. rewrite vsum_total. split.
  - apply Forall_forall. intros x Hx. apply in_map_iff in Hx. destruct Hx as (y & <- & Hy). rewrite Forall_forall in H. apply Rdiv_lt_0_compat; auto.
  - rewrite total_div. field. lra.
Qed.
Lemma normalised_decreasing w : (0 < total w)%R -> decreasing w -> decreasing (normalised w).
Proof.
  intros Hp H i j x y Hij Ex Ey. unfold normalised in *. rewrite vsum_total in *. rewrite nth_error_map in Ex, Ey.
  destruct (nth_error w i) as [a|] eqn:Ea; [|discriminate]. destruct (nth_error w j) as [b|] eqn:Eb; [|discriminate].
  cbn in Ex, Ey. injection Ex as <-. injection Ey as <-. apply Rmult_le_compat_r; [apply Rlt_le, Rinv_0_lt_compat; auto|]. eapply H; eauto.
Qed.
Lemma mueff_range w : w <> [] -> Forall (fun x => 0 < x)%R w -> (1 <= mueff_of w <= INR (length w))%R.
Proof.
  intros Hn H. unfold mueff_of. rewrite !vsum_total. pose proof (total_pos w Hn H) as Hp. pose proof (squares_below w H) as [_ H1]. pose proof (squares_above w) as H2.
  assert (Hs : (0 < total (map (fun x => x * x)%R w))%R).
  { apply total_pos; [destruct w; cbn; congruence|]. apply Forall_forall. intros x Hx. apply in_map_iff in Hx. destruct Hx as (y & <- & Hy). rewrite Forall_forall in H. specialize (H _ Hy). nra. }
  split.
  - apply Rmult_le_reg_r with (total (map (fun x => x * x)%R w)); auto. unfold Rdiv. rewrite Rmult_assoc, Rinv_l by lra. lra.
  - apply Rmult_le_reg_r with (total (map (fun x => x * x)%R w)); auto. unfold Rdiv. rewrite Rmult_assoc, Rinv_l by lra. lra.
Qed.
Lemma INR_1 n : 1 <= n -> (1 <= INR n)%R.
Proof. intros H. apply le_INR in H. exact H. Qed.
Lemma ccumsig_range n m : (1 <= m)%R -> (0 < ccumsig_of n m < 1)%R.
Proof.
  intros Hm. pose proof (pos_INR n). unfold ccumsig_of. split; [apply Rdiv_lt_0_compat; lra|].
  apply Rmult_lt_reg_r with (INR n + m + 3)%R; [lra|]. unfold Rdiv. rewrite Rmult_assoc, Rinv_l by lra. lra.
Qed.
Lemma ccumcov_range n : 1 <= n -> (0 < ccumcov_of n < 1)%R.
Proof.
  intros Hn. apply INR_1 in Hn. unfold ccumcov_of. split; [apply Rdiv_lt_0_compat; lra|].
  apply Rmult_lt_reg_r with (INR n + 4)%R; [lra|]. unfold Rdiv. rewrite Rmult_assoc, Rinv_l by lra. lra.
Qed.
Lemma ccov_range n m : 1 <= n -> (1 <= m)%R -> (0 < ccov_of n m < 1)%R.
Proof.
  intros Hn Hm. apply INR_1 in Hn. unfold ccov_of. set (t1 := (2 / ((INR n + 14142 / 10000) * (INR n + 14142 / 10000)))%R).
  set (t2 := ((2 * m - 1) / ((INR n + 2) * (INR n + 2) + m))%R). assert (Ha : (0 < (INR n + 14142 / 10000) * (INR n + 14142 / 10000))%R) by nra.
  assert (H1 : (0 < t1 < 1)%R). { unfold t1. split; [apply Rdiv_lt_0_compat; lra|]. apply Rmult_lt_reg_r with ((INR n + 14142 / 10000) * (INR n + 14142 / 10000))%R; [lra|]. unfold Rdiv at 1. rewrite Rmult_assoc, Rinv_l by lra. nra. }
  assert (H2 : (0 < t2)%R). { unfold t2. apply Rdiv_lt_0_compat; [lra|]. assert (0 < (INR n + 2) * (INR n + 2))%R by nra. lra. }
  assert (Hi : (0 < 1 / m <= 1)%R). { split; [apply Rdiv_lt_0_compat; lra|]. apply Rmult_le_reg_r with m; [lra|]. unfold Rdiv. rewrite Rmult_assoc, Rinv_l by lra. lra. }
  set (u := (1 / m)%R) in *. assert (H3 : (0 < (if Rlt_dec 1 t2 then 1 else t2) <= 1)%R) by (destruct (Rlt_dec 1 t2); lra).
  set (t := if Rlt_dec 1 t2 then 1%R else t2) in *. split; nra.
Qed.
Lemma damp_range n g m c : (0 < c)%R -> (1 < damp_of n g m c)%R.
Proof.
  intros Hc. unfold damp_of. set (sh := if g =? 0 then (3 / 10)%R else Rmax (3 / 10) (1 - INR n / INR g)).
  assert (H1 : (3 / 10 <= sh)%R) by (unfold sh; destruct (g =? 0); [lra|apply Rmax_l]). pose proof (Rmax_l 0 (sqrt ((m - 1) / (INR n + 1)) - 1)) as H2.
  set (r := Rmax 0 (sqrt ((m - 1) / (INR n + 1)) - 1)) in *. assert (0 < sh * (1 + 2 * r) / c)%R; [|lra]. apply Rdiv_lt_0_compat; auto. nra.
Qed.
(** the requests that leave the number of parents at the number of weights *)
Lemma default_size n g lam wt mins inits : (lam = None \/ exists L, lam = Some L /\ default_mu n < L) -> p_mu (cma_params n g lam None wt mins inits) = default_mu n.
Proof.
  intros H. unfold cma_params. cbn [p_mu]. pose proof (default_mu_ge n) as Hg. pose proof (default_mu_lt n) as Hl.
  destruct H as [->|(L & -> & HL)].
  - destruct (default_lambda n <? 2) eqn:E; destruct (default_lambda n <=? default_mu n) eqn:E2; auto; apply Nat.leb_le in E2; lia.
  - destruct (Nat.ltb_spec L 2); [lia|]. destruct (Nat.leb_spec L (default_mu n)); auto. lia.
Qed.

(** ** storage *)
Lemma tri_twice i : i * (i + 1) / 2 * 2 = i * (i + 1).
Proof. assert (E : (i * (i + 1)) mod 2 = 0). { induction i as [|i IH]; [reflexivity|]. replace (S i * (S i + 1)) with (i * (i + 1) + (i + 1) * 2) by lia. rewrite Nat.mod_add by lia. exact IH. } pose proof (Nat.div_mod (i * (i + 1)) 2 ltac:(lia)). lia. Qed.
Lemma tri_next i : S i * (S i + 1) / 2 = i * (i + 1) / 2 + S i.
Proof. pose proof (tri_twice i). pose proof (tri_twice (S i)). nia. Qed.
Lemma tri_mono i k : i < k -> i * (i + 1) / 2 + S i <= k * (k + 1) / 2.
Proof. induction 1 as [|k Hk IH]; [rewrite tri_next; lia|]. rewrite tri_next. lia. Qed.
