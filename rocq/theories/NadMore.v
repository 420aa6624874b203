(** Adaptive normal distribution: a population so large that the learning rates add up to more than one. *)
From Coq Require Import List Arith ZArith Bool Reals Lia Lra Psatz.
From Verif Require Import Lib Outcome BreedModel CmaModel CmaSpec CmaProofs CmaState CmaMore NadModel NadSpec NadProofs NadRun.
From Coq Require Import List.
Import ListNotations.
Open Scope nat_scope.

Lemma ln_le_minus x : (0 < x)%R -> (ln x <= x - 1)%R.
Proof. intros H. destruct (Req_dec x 1) as [->|Hn]; [rewrite ln_1; lra|]. pose proof (ln_below x H Hn). lra. Qed.
Lemma ln_inv x : (0 < x)%R -> ln (/ x) = (- ln x)%R.
Proof. intros H. assert (E : ln (x * / x) = 0%R) by (rewrite Rinv_r by lra; apply ln_1). rewrite ln_mult in E by (auto; apply Rinv_0_lt_compat; auto). lra. Qed.
Lemma ln_sqrt_le x : (0 < x)%R -> (ln x <= 2 * sqrt x)%R.
Proof.
  intros H. assert (Hs : (0 < sqrt x)%R) by (apply sqrt_lt_R0; auto). rewrite <- (sqrt_sqrt x) at 1 by lra. rewrite ln_mult by auto. pose proof (ln_le_minus _ Hs). lra.
Qed.
Lemma sum_indices l : sum_to l (fun i => INR (i + 1)) = (INR l * (INR l + 1) / 2)%R.
Proof. induction l as [|l IH]; cbn [sum_to]; [cbn; lra|]. rewrite IH, plus_INR, (S_INR l). change (INR 1) with 1%R. field. Qed.
(** ln (y/i) >= 1 - i/y *)
Lemma raw_total l : 1 <= l -> (INR l / 3 <= total (raw l))%R.
Proof.
  intros H. pose proof (INR_1 l H) as Hl. set (y := (INR l + 5 / 10)%R).
  assert (E : total (raw l) = sum_to l (fun i => ln y - ln (INR (i + 1)))%R).
  { rewrite <- vsum_total. unfold vsum. rewrite raw_length. apply sum_to_ext. intros i Hi. unfold raw.
    rewrite (nth_indep _ 0%R ((fun i => ln (INR l + 5 / 10) - ln (INR (i + 1)))%R 0)) by (rewrite map_length, seq_length; auto).
    rewrite (map_nth (fun i => ln (INR l + 5 / 10) - ln (INR (i + 1)))%R). rewrite seq_nth by auto. reflexivity. }
  rewrite E. apply Rle_trans with (sum_to l (fun i => 1 + - / y * INR (i + 1)))%R.
  - rewrite sum_to_plus, sum_to_const, sum_to_scale, sum_indices. unfold y. apply Rmult_le_reg_r with (2 * (INR l + 5 / 10))%R; [lra|].
    replace ((INR l * 1 + - / (INR l + 5 / 10) * (INR l * (INR l + 1) / 2)) * (2 * (INR l + 5 / 10)))%R with (2 * INR l * (INR l + 5 / 10) - INR l * (INR l + 1))%R by (field; lra). nra.
  - apply sum_to_le. intros i Hi. assert (Hi' : (0 < INR (i + 1))%R) by (apply lt_0_INR; lia). assert (Hy : (0 < y)%R) by (unfold y; lra).
    pose proof (ln_le_minus (INR (i + 1) * / y) ltac:(apply Rmult_lt_0_compat; auto; apply Rinv_0_lt_compat; auto)) as Hln.
    rewrite ln_mult in Hln by (auto; apply Rinv_0_lt_compat; auto). rewrite ln_inv in Hln by auto. lra.
Qed.
Lemma raw_bound l x : In x (raw l) -> (x <= ln (INR l + 5 / 10))%R.
Proof.
  intros H. apply in_map_iff in H. destruct H as (i & <- & _). assert (0 <= ln (INR (i + 1)))%R; [|lra]. rewrite <- ln_1.
  assert (1 <= INR (i + 1))%R by (apply INR_1; lia). destruct (Req_dec (INR (i + 1)) 1) as [->|]; [lra|]. apply Rlt_le, ln_increasing; lra.
Qed.
Lemma total_le_scale (l : list R) k : (forall x, In x l -> 0 <= x <= k)%R -> (total (map (fun x => x * x) l) <= k * total l)%R.
Proof.
  unfold total. induction l as [|x l IH]; intros H; cbn [map fold_right]; [lra|]. assert (0 <= x <= k)%R by (apply H; left; auto).
  assert (fold_right Rplus 0 (map (fun x => x * x) l) <= k * fold_right Rplus 0 l)%R by (apply IH; intros; apply H; right; auto). nra.
Qed.
Lemma mueff_large l : 1 <= l -> (sqrt (INR l) / 9 <= mueff_of (nad_weights l))%R.
Proof.
  intros H. pose proof (INR_1 l H) as Hl. destruct (weights_ok l H) as (Hlen & Hpos & Ht & _). pose proof (raw_total l H) as Hr. pose proof (total_pos _ (raw_nonempty l H) (raw_pos l)) as Hp.
  set (M := ln (INR l + 5 / 10)). set (W := total (raw l)) in *.
  assert (HM : (0 < M)%R) by (unfold M; rewrite <- ln_1; apply ln_increasing; lra).
  assert (Hs : (total (map (fun x => x * x) (nad_weights l)) <= M / W)%R).
  { replace (M / W)%R with (M / W * total (nad_weights l))%R by (rewrite Ht; ring). apply total_le_scale. intros x Hx. rewrite Forall_forall in Hpos. split; [apply Rlt_le; auto|].
    change (nad_weights l) with (normalised (raw l)) in Hx. unfold normalised in Hx. apply in_map_iff in Hx. destruct Hx as (y & <- & Hy). rewrite vsum_total. fold W.
    apply Rmult_le_compat_r; [apply Rlt_le, Rinv_0_lt_compat; auto|]. apply raw_bound; auto. }
  assert (Hs0 : (0 < total (map (fun x => x * x) (nad_weights l)))%R).
  { apply total_pos; [intros E; apply (f_equal (@length R)) in E; rewrite map_length, Hlen in E; cbn in E; lia|]. apply Forall_forall. intros x Hx. apply in_map_iff in Hx. destruct Hx as (y & <- & Hy).
    rewrite Forall_forall in Hpos. specialize (Hpos y Hy). nra. }
  unfold mueff_of. rewrite !vsum_total, Ht. set (s2 := total (map (fun x => x * x)%R (nad_weights l))) in *. apply frac_ge; [auto|].
  (* s2 <= M/W, M <= 2 sqrt (l + 1/2) <= 3 sqrt l, W >= l / 3 *)
  assert (Hsq : (0 < sqrt (INR l))%R) by (apply sqrt_lt_R0; lra). assert (Eq : (sqrt (INR l) * sqrt (INR l) = INR l)%R) by (apply sqrt_sqrt; lra).
  assert (HM3 : (M <= 3 * sqrt (INR l))%R).
  { eapply Rle_trans; [apply ln_sqrt_le; lra|]. assert (sqrt (INR l + 5 / 10) <= 3 / 2 * sqrt (INR l))%R; [|lra].
    rewrite <- (sqrt_square (3 / 2 * sqrt (INR l))) by lra. apply sqrt_le_1; nra. }
  assert (HsW : (s2 * W <= M)%R). { apply (Rmult_le_compat_r W) in Hs; [|lra]. unfold Rdiv in Hs. rewrite Rmult_assoc, Rinv_l in Hs by lra. lra. }
  apply Rmult_le_reg_r with W; [auto|]. apply Rle_trans with (sqrt (INR l) / 9 * M)%R; [replace (sqrt (INR l) / 9 * s2 * W)%R with (sqrt (INR l) / 9 * (s2 * W))%R by ring; apply Rmult_le_compat_l; lra|].
  apply Rle_trans with (sqrt (INR l) / 9 * (3 * sqrt (INR l)))%R; [apply Rmult_le_compat_l; lra|]. nra.
Qed.
(** [threshold n] individuals are too many in dimension n *)
Definition too_many (n : nat) : nat := 81 * (((n + 2) * (n + 2) + 4) * ((n + 2) * (n + 2) + 4)).
Lemma rates_large n l : 1 <= n -> too_many n <= l -> (1 < c1_of n (mueff_of (nad_weights l)) + cmu_of n (mueff_of (nad_weights l)))%R.
Proof.
  intros Hn Hl. assert (H1 : 1 <= l) by (unfold too_many in Hl; lia). destruct (mueff_ok l H1) as [Hm _]. destruct (c1_range n _ Hn Hm) as [Hc _]. pose proof (mueff_large l H1) as Hb.
  set (m := mueff_of (nad_weights l)) in *. assert (1 <= cmu_of n m)%R; [|lra].
  set (q := ((INR n + 2) * (INR n + 2) + 4)%R). assert (Hq : (q <= sqrt (INR l) / 9)%R).
  { apply le_INR in Hl. unfold too_many in Hl. rewrite !mult_INR, !plus_INR, !mult_INR, !plus_INR in Hl. replace (INR 81) with 81%R in Hl by (cbn; lra). replace (INR 4) with 4%R in Hl by (cbn; lra). replace (INR 2) with 2%R in Hl by (cbn; lra).
    change ((INR n + 2) * (INR n + 2) + 4)%R with q in Hl. assert (0 < q)%R by (unfold q; pose proof (pos_INR n); nra).
    assert (9 * q <= sqrt (INR l))%R; [|lra]. rewrite <- (sqrt_square (9 * q)) by lra. apply sqrt_le_1; nra. }
  unfold cmu_of. pose proof (pos_INR n) as Hn0. apply frac_ge; [cbn [pow]; nra|]. destruct (inverse_range m Hm) as [Hi _]. cbn [pow]. unfold q in Hq. lra.
Qed.

(** a population that stands at the mean *)
Definition at_mean (n l : nat) : list (list R) := repeat (repeat 0%R n) l.
Lemma at_mean_zero n l k i : at_ (nth k (at_mean n l) []) i = 0%R.
Proof.
  unfold at_, at_mean. destruct (Nat.lt_ge_cases k l) as [H|H].
  - rewrite (nth_indep _ [] (repeat 0%R n)) by (rewrite repeat_length; auto). rewrite nth_repeat. apply nth_repeat.
  - rewrite (nth_overflow (repeat _ l)) by (rewrite repeat_length; auto). destruct i; reflexivity.
Qed.
Lemma nad_mean_zero n l i : nad_mean (at_mean n l) i = 0%R.
Proof. unfold nad_mean. rewrite (sum_to_ext _ _ (fun _ => 0%R)); [apply sum_to_0|]. intros k _. rewrite at_mean_zero. ring. Qed.
Lemma usub_0 l : (Z.of_nat l < 2 ^ 32)%Z -> usub l 0 = INR l.
Proof. intros H. rewrite usub_exact by (auto; lia). f_equal. lia. Qed.
Lemma collapse solver n l : solves n solver -> 1 <= n -> too_many n <= l -> (Z.of_nat l < 2 ^ 32)%Z ->
  exists d c, nad_update solver (new_distr n) (Counters 0 0) (at_mean n l) = Ok (d, c) /\ (forall i, (i < n)%nat -> d_C d i i < 0)%R /\ d_nan d = true.
Proof.
  intros Hsol Hn Hl Hb. assert (H1 : 1 <= l) by (unfold too_many in Hl; lia).
  assert (Hlen : length (at_mean n l) = l) by apply repeat_length. destruct (mueff_ok l H1) as [Hm _]. pose proof (rates_large n l Hn Hl) as Hr.
  destruct (update_total solver (new_distr n) (Counters 0 0) (at_mean n l)) as (d & c & E).
  { intros E. rewrite E in Hlen. cbn in Hlen. lia. }
  { apply Forall_forall. intros x Hx. apply repeat_spec in Hx. subst x. apply repeat_length. }
  exists d, c. split; [exact E|]. apply update_shape in E. destruct E as (_ & _ & En & Em & Eps & (h & Eh & Epc & EC) & _ & _ & Hd). cbn [new_distr d_n d_mean d_ps d_pc d_C d_sigma d_nan d_B d_D c_calls c_last] in *. rewrite Hlen in *.
  set (m := mueff_of (nad_weights l)) in *.
  assert (Hps : forall i, d_ps d i = 0%R).
  { intros i. rewrite Eps. rewrite (sum_to_ext n _ (fun _ => 0%R)) by (intros j _; rewrite nad_mean_zero; ring). rewrite sum_to_0. unfold Rdiv. ring. }
  assert (Hpc : forall i, d_pc d i = 0%R) by (intros i; rewrite Epc, nad_mean_zero; unfold Rdiv; ring).
  assert (Hh : h = 1%R).
  { rewrite Eh. unfold nad_hsig. destruct (Rlt_dec _ _) as [|Hf]; [reflexivity|]. exfalso. apply Hf. unfold norm. rewrite (sum_to_ext n _ (fun _ => 0%R)) by (intros i _; rewrite Hps; ring).
    rewrite sum_to_0, sqrt_0. unfold Rdiv. rewrite !Rmult_0_l. pose proof (INR_1 n Hn). assert (0 < 2 * / (INR n + 1))%R; [apply Rmult_lt_0_compat; [lra|apply Rinv_0_lt_compat; lra]|lra]. }
  set (k := (1 - c1_of n m - cmu_of n m)%R). assert (Hk : (k < 0)%R) by (unfold k; lra).
  assert (EC' : forall i j, d_C d i j = (k * identity i j)%R).
  { intros i j. rewrite EC. unfold nad_covar. rewrite Hpc, Hh, Hlen. rewrite (sum_to_ext _ _ (fun _ => 0%R)) by (intros a _; rewrite !at_mean_zero; ring). rewrite sum_to_0. rewrite identity_diag. fold k. unfold k. ring. }
  split.
  { intros i Hi. rewrite EC'. unfold identity. rewrite Nat.eqb_refl. lra. }
  assert (Hdue : due n l (1 * l) 0 m = true).
  { apply due_iff; auto; try lia. replace (1 * l - 0) with l by lia. pose proof (INR_1 n Hn). pose proof (INR_1 l H1). assert (1 < INR n * (c1_of n m + cmu_of n m))%R by nra. nra. }
  destruct Hd as [(_ & _ & b & e & B & Esol & _ & _ & Enan)|(Hd & _)]; [|congruence].
  destruct (Hsol (d_C d)) as (e' & B' & E' & [Ho HM]).
  { intros i j _ _. rewrite !EC'. unfold identity. rewrite Nat.eqb_sym. reflexivity. }
  rewrite Esol in E'. injection E' as -> -> ->. rewrite Enan. cbn [orb]. apply existsb_exists. exists 0. split; [apply in_seq; lia|].
  assert (Hneg : (0 < - e' 0%nat)%R).
  { apply (eigen_positive n (fun i j => - d_C d i j)%R (fun a => - e' a)%R B'); [|intros x Hx|lia].
    - split; auto. intros i j Hi Hj. rewrite (HM i j Hi Hj), !sum_over_to. replace (- sum_to n (fun k => B' i k * e' k * B' j k))%R with (-1 * sum_to n (fun k => B' i k * e' k * B' j k))%R by ring.
      rewrite <- sum_to_scale. apply sum_to_ext. intros; ring.
    - rewrite (quad_ext n _ (fun i j => - k * identity i j)%R) by (intros; rewrite EC'; ring). rewrite quad_scale. apply Rmult_lt_0_compat; [lra|].
      rewrite <- (quad_ext n (diag (fun _ => 1%R)) identity x) by (intros; apply identity_diag). apply pd_identity; auto. }
  destruct (Rlt_dec (e' 0) 0); [reflexivity|lra].
Qed.
