(** The first state, samples, invariances of the learning and the breeder of the CMA evolution strategy. *)
From Coq Require Import List Arith ZArith Bool Reals Lia Lra Psatz FunctionalExtensionality.
From Verif Require Import Lib Outcome BreedModel CmaModel CmaSpec CmaProofs CmaState.
From Coq Require Import List.
Import ListNotations.
Open Scope nat_scope.

(** ** the first state *)
Lemma start_ok p point sigma s : 1 <= p_n p -> (forall i, i < p_n p -> p_init p i <> 0%R) -> start p point sigma = Ok s ->
  positive_definite (p_n p) (sym (s_C s)) /\ eigen_system (p_n p) (sym (s_C s)) (fun i => s_d s i * s_d s i)%R (s_B s) /\
  sum_over (p_n p) (fun i => s_d s i * s_d s i)%R = INR (p_n p) /\ s_sigma s = sigma /\ (forall i, i < p_n p -> nth_error point i = Some (s_mean s i)) /\ s_gen s = 0.
Proof.
  intros Hn Hi E. unfold start in E. destruct (Nat.ltb_spec (length point) (p_n p)) as [|Hlen]; [discriminate|]. injection E as <-. cbn [s_C s_d s_B s_sigma s_mean s_gen].
  set (n := p_n p) in *. set (trace := sum_to n (fun i => (p_init p i * p_init p i)%R)).
  assert (Ht : (0 < trace)%R). { assert (H0 : 0 < n) by lia. specialize (Hi 0 H0). apply Rlt_le_trans with (p_init p 0%nat * p_init p 0%nat)%R; [apply Rsqr_pos_lt in Hi; exact Hi|].
    apply (sum_to_term n (fun i => p_init p i * p_init p i)%R 0%nat); auto. intros; apply Rle_0_sqr. }
  assert (Hr : (0 < INR n / trace)%R) by (apply Rdiv_lt_0_compat; auto; apply lt_0_INR; lia).
  assert (Hs : (sqrt (INR n / trace) * sqrt (INR n / trace) = INR n / trace)%R) by (apply sqrt_sqrt; lra).
  assert (Hsp : (0 < sqrt (INR n / trace))%R) by (apply sqrt_lt_R0; auto).
  set (d := fun i => (p_init p i * sqrt (INR n / trace))%R) in *.
  assert (Hd : forall i, i < n -> (0 < d i * d i)%R). { intros i Hl. apply (Rsqr_pos_lt (d i)). unfold d. apply Rmult_integral_contrapositive_currified; [apply Hi; auto|lra]. }
  assert (Es : forall i j, sym (diag (fun i => d i * d i)%R) i j = (identity i j * (d i * d i))%R).
  { intros i j. unfold sym, diag, identity. destruct (Nat.leb_spec j i); destruct (Nat.eqb_spec i j) as [->|]; try rewrite Nat.eqb_refl; try ring; try lia. destruct (Nat.eqb_spec j i); [lia|ring]. }
  split; [|split; [|split; [|split; [reflexivity|split; [|reflexivity]]]]].
  - intros x (k & Hk & Hx). rewrite (quad_ext n _ (fun i j => identity i j * (d i * d i))%R) by (intros; apply Es). rewrite (quad_diag n (fun i => d i * d i)%R).
    apply Rlt_le_trans with (d k * d k * (x k * x k))%R; [apply Rmult_lt_0_compat; auto; apply (Rsqr_pos_lt _ Hx)|].
    apply (sum_to_term n (fun i => d i * d i * (x i * x i))%R k); auto. intros i Hl. apply Rmult_le_pos; apply Rle_0_sqr.
  - assert (Eo : forall i j, i < n -> sum_over n (fun k => diag (fun _ => 1%R) k i * diag (fun _ => 1%R) k j)%R = identity i j).
    { intros i j Hl. rewrite sum_over_to. rewrite (sum_to_ext n _ (fun k => identity i k * identity k j)%R).
      - apply (sum_to_delta n i (fun k => identity k j)); auto.
      - intros k _. unfold diag, identity. rewrite (Nat.eqb_sym k i). destruct (i =? k), (k =? j); ring. }
    assert (Ed : forall i j, diag (fun _ => 1%R) i j = diag (fun _ => 1%R) j i) by (intros i j; unfold diag; rewrite (Nat.eqb_sym j i); reflexivity).
    split; [split|].
    + intros i j Hl _. apply Eo; auto.
    + intros i j Hl _. rewrite <- (Eo i j Hl). rewrite !sum_over_to. apply sum_to_ext. intros k _. rewrite (Ed i k), (Ed j k). reflexivity.
    + intros i j Hl _. rewrite Es. rewrite sum_over_to. rewrite (sum_to_ext n _ (fun k => identity i k * (identity k j * (d k * d k)))%R).
      * rewrite sum_to_delta by auto. reflexivity.
      * intros k _. unfold diag, identity. rewrite (Nat.eqb_sym j k). unfold d. destruct (i =? k), (k =? j); ring.
  - rewrite sum_over_to. rewrite (sum_to_ext n _ (fun i => INR n / trace * (p_init p i * p_init p i))%R).
    + rewrite sum_to_scale. fold trace. field. lra.
    + intros i _. unfold d. transitivity (p_init p i * p_init p i * (sqrt (INR n / trace) * sqrt (INR n / trace)))%R; [ring|]. rewrite Hs. ring.
  - intros i Hl. unfold at_. apply nth_error_nth'. lia.
Qed.

(** ** samples *)
Lemma sample_ok p s zs v zs' : sample p s zs = Ok (v, zs') -> zs = firstn (p_n p) zs ++ zs' /\ p_n p <= length zs /\ length v = p_n p /\
  forall i, i < p_n p -> nth i v 0%R = (s_mean s i + s_sigma s * sum_over (p_n p) (fun j => s_B s i j * s_d s j * nth j zs 0))%R.
Proof.
  intros E. unfold sample in E. destruct (Nat.ltb_spec (length zs) (p_n p)); [discriminate|]. injection E as <- <-.
  split; [symmetry; apply firstn_skipn|]. split; [auto|]. split; [rewrite map_length, seq_length; reflexivity|]. intros i Hi.
  rewrite (nth_indep _ 0%R ((fun i => (s_mean s i + s_sigma s * sum_to (p_n p) (fun j => s_B s i j * (s_d s j * nth j zs 0)))%R) 0)) by (rewrite map_length, seq_length; auto).
  rewrite (map_nth (fun i => (s_mean s i + s_sigma s * sum_to (p_n p) (fun j => s_B s i j * (s_d s j * nth j zs 0)))%R) (seq 0 (p_n p)) 0 i). rewrite seq_nth by auto. cbn [plus]. rewrite sum_over_to.
  f_equal. f_equal. apply sum_to_ext. intros j _. ring.
Qed.
Lemma factor_ok n M e B i j : eigen_system n M (fun i => e i * e i)%R B -> i < n -> j < n -> sum_over n (fun k => (B i k * e k) * (B j k * e k))%R = M i j.
Proof. intros [_ H] Hi Hj. rewrite (H i j Hi Hj), !sum_over_to. apply sum_to_ext. intros; ring. Qed.

(** ** the path of the step size: the symmetric square root of the covariance *)
Definition root (n : nat) (e : vec) (B : mat) : mat := fun i j => sum_to n (fun k => B i k * e k * B j k)%R.
Lemma root_symmetric n e B : symmetric (root n e B).
Proof. intros i j. apply sum_to_ext. intros; ring. Qed.
Lemma root_square n M e B i j : eigen_system n M (fun i => e i * e i)%R B -> i < n -> j < n -> sum_over n (fun k => root n e B i k * root n e B k j)%R = M i j.
Proof.
  intros [[HB _] H] Hi Hj. rewrite H by auto. rewrite !sum_over_to. unfold root.
  rewrite (sum_to_ext n _ (fun k => sum_to n (fun a => sum_to n (fun b => B i a * e a * B j b * e b * (B k a * B k b))))%R).
  - rewrite sum_to_swap. apply sum_to_ext. intros a Ha. rewrite sum_to_swap.
    rewrite (sum_to_ext n _ (fun b => identity a b * (B i a * e a * B j b * e b))%R).
    + rewrite sum_to_delta by auto. ring.
    + intros b Hb. rewrite sum_to_scale. pose proof (HB a b Ha Hb) as E. rewrite sum_over_to in E. rewrite E. ring.
  - intros k _. rewrite sum_to_prod. apply sum_to_ext. intros a _. apply sum_to_ext. intros b _. ring.
Qed.
(** applying the root to B D^-1 B^T y gives y back *)
Lemma root_solves n e B y i : orthogonal n B -> (forall k, k < n -> e k <> 0%R) -> i < n ->
  sum_to n (fun j => root n e B i j * sum_to n (fun k => B j k * (sum_to n (fun l => B l k * y l) / e k)))%R = y i.
Proof.
  intros [H1 H2] He Hi. unfold root.
  set (t := fun k => (sum_to n (fun l => B l k * y l) / e k)%R).
  rewrite (sum_to_ext n _ (fun j => sum_to n (fun a => sum_to n (fun b => B i a * e a * t b * (B j a * B j b))))%R).
  2: { intros j _. rewrite sum_to_prod. apply sum_to_ext. intros a _. apply sum_to_ext. intros b _. unfold t. ring. }
  rewrite sum_to_swap. rewrite (sum_to_ext n _ (fun a => sum_to n (fun l => y l * (B i a * B l a)))%R).
  - rewrite sum_to_swap. rewrite (sum_to_ext n _ (fun l => identity i l * y l)%R).
    + apply sum_to_delta. auto.
    + intros l Hl. rewrite sum_to_scale. pose proof (H2 i l Hi Hl) as E. rewrite sum_over_to in E. rewrite E. ring.
  - intros a Ha. rewrite sum_to_swap. rewrite (sum_to_ext n _ (fun b => identity a b * (B i a * e a * t b))%R).
    + rewrite sum_to_delta by auto. unfold t. rewrite (sum_to_ext n (fun l => y l * (B i a * B l a))%R (fun l => B i a * (B l a * y l))%R) by (intros; ring). rewrite sum_to_scale. field. apply He; auto.
    + intros b Hb. rewrite sum_to_scale. pose proof (H1 a b Ha Hb) as E. rewrite sum_over_to in E. rewrite E. ring.
Qed.

(** ** the step size *)
Lemma ln_below q : (0 < q)%R -> q <> 1%R -> (1 + ln q < q)%R.
Proof. intros Hq Hn. assert (Hl : ln q <> 0%R). { intros E. apply Hn. rewrite <- (exp_ln q Hq), E. apply exp_0. } pose proof (exp_ineq1 (ln q) Hl) as H. rewrite exp_ln in H by auto. exact H. Qed.
Lemma chi_pos n : 1 <= n -> (0 < chi n)%R.
Proof.
  intros H. apply INR_1 in H. unfold chi. apply Rmult_lt_0_compat; [apply sqrt_lt_R0; lra|].
  assert (1 / (4 * INR n) <= 1 / 4)%R. { apply Rmult_le_reg_r with (4 * INR n)%R; [lra|]. unfold Rdiv. rewrite Rmult_assoc, Rinv_l by lra. lra. }
  assert (0 < 1 / (21 * INR n * INR n))%R by (apply Rdiv_lt_0_compat; nra). lra.
Qed.
Lemma calm_axes p s l : 1 <= p_n p -> forall sigma, fold_left (axis_step (fun _ _ => false) p s) l sigma = sigma.
Proof.
  intros Hn. induction l as [|a l IH]; intros sigma; cbn [fold_left]; auto. rewrite IH. unfold axis_step. destruct (p_n p) as [|m]; [lia|]. reflexivity.
Qed.
Lemma existsb_const {T} (l : list T) : existsb (fun _ => false) l = false.
Proof. induction l; cbn; auto. Qed.
(** without lost precision, convergence or narrow coordinate nothing is corrected *)
Lemma calm_treat p s best worst : 1 <= p_n p -> best <> worst -> (forall i, (i < p_n p)%nat -> p_min p i <= s_sigma s * sqrt (s_C s i i))%R ->
  s_sigma (treat (fun _ _ => false) p s best worst) = s_sigma s.
Proof.
  intros Hn Hb Hm. unfold treat. cbn [s_sigma].
  assert (Et : too_narrow p (s_C s) (s_sigma s) = false).
  { unfold too_narrow. apply Bool.not_true_is_false. intros E. apply existsb_exists in E. destruct E as (i & Hi & E). apply in_seq in Hi. destruct (Rlt_dec _ _) as [Hlt|]; [|discriminate]. specialize (Hm i ltac:(lia)). lra. }
  rewrite Et. destruct (Req_EM_T best worst); [contradiction|]. rewrite calm_axes by auto. rewrite existsb_const. reflexivity.
Qed.
