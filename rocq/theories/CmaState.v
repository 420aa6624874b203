(** Invariants of the state of the CMA evolution strategy. *)
From Coq Require Import List Arith ZArith Bool Reals Lia Lra Psatz.
From Verif Require Import Lib Outcome BreedModel CmaModel CmaSpec CmaProofs.
From Coq Require Import List.
Import ListNotations.
Open Scope nat_scope.

Lemma quad_to n M x : quadratic n M x = sum_to n (fun i => sum_to n (fun j => M i j * x i * x j)%R).
Proof. unfold quadratic. rewrite sum_over_to. apply sum_to_ext. intros i _. apply sum_over_to. Qed.
Lemma quad_ext n M M' x : (forall i j, i < n -> j < n -> M i j = M' i j) -> quadratic n M x = quadratic n M' x.
Proof. intros H. rewrite !quad_to. apply sum_to_ext. intros i Hi. apply sum_to_ext. intros j Hj. rewrite H; auto. Qed.
Lemma quad_plus n M M' x : quadratic n (fun i j => M i j + M' i j)%R x = (quadratic n M x + quadratic n M' x)%R.
Proof.
  rewrite !quad_to, <- sum_to_plus. apply sum_to_ext. intros i _. rewrite <- sum_to_plus. apply sum_to_ext. intros j _. ring.
Qed.
Lemma quad_scale n k M x : quadratic n (fun i j => k * M i j)%R x = (k * quadratic n M x)%R.
Proof. rewrite !quad_to, <- sum_to_scale. apply sum_to_ext. intros i _. rewrite <- sum_to_scale. apply sum_to_ext. intros j _. ring. Qed.
Lemma quad_outer n (u x : vec) : quadratic n (fun i j => u i * u j)%R x = (sum_to n (fun i => u i * x i) * sum_to n (fun i => u i * x i))%R.
Proof. rewrite quad_to, sum_to_prod. apply sum_to_ext. intros i _. apply sum_to_ext. intros j _. ring. Qed.
Lemma quad_sum n m (M : nat -> mat) x : quadratic n (fun i j => sum_to m (fun k => M k i j)) x = sum_to m (fun k => quadratic n (M k) x).
Proof.
  induction m as [|m IH]; cbn [sum_to].
  - rewrite quad_to. rewrite (sum_to_ext n _ (fun _ => 0%R)); [apply sum_to_0|]. intros i _. rewrite (sum_to_ext n _ (fun _ => 0%R)); [apply sum_to_0|]. intros; ring.
  - rewrite quad_plus, IH. reflexivity.
Qed.
Lemma quad_diag n (k x : vec) : quadratic n (fun i j => identity i j * k i)%R x = sum_to n (fun i => k i * (x i * x i))%R.
Proof.
  rewrite quad_to. apply sum_to_ext. intros i Hi. rewrite (sum_to_ext n _ (fun j => identity i j * (k i * x i * x j))%R) by (intros; ring).
  rewrite sum_to_delta by auto. ring.
Qed.
Lemma outer_nonneg n u x : (0 <= quadratic n (fun i j => u i * u j)%R x)%R.
Proof. rewrite quad_outer. apply Rle_0_sqr. Qed.

Lemma sym_symmetric C : symmetric (sym C).
Proof. intros i j. unfold sym. destruct (Nat.leb_spec j i), (Nat.leb_spec i j); auto; try lia. replace j with i by lia. reflexivity. Qed.
Lemma sym_add_diag C k i j : sym (add_diag C k) i j = (sym C i j + identity i j * k i)%R.
Proof.
  unfold sym, add_diag, identity. destruct (Nat.leb_spec j i); destruct (Nat.eqb_spec i j) as [->|]; try rewrite Nat.eqb_refl; try lia; try ring.
  destruct (Nat.eqb_spec j i); [lia|ring].
Qed.
Lemma pd_add_diag n C k : (forall i, (i < n)%nat -> 0 <= k i)%R -> positive_definite n (sym C) -> positive_definite n (sym (add_diag C k)).
Proof.
  intros Hk H x Hx. rewrite (quad_ext n _ (fun i j => sym C i j + identity i j * k i)%R) by (intros; apply sym_add_diag). rewrite quad_plus, quad_diag.
  specialize (H x Hx). assert (0 <= sum_to n (fun i => k i * (x i * x i)))%R; [|lra]. apply sum_to_nonneg. intros i Hi. apply Rmult_le_pos; [apply Hk; auto|apply Rle_0_sqr].
Qed.
(** the diagonal of a positive definite matrix *)
Lemma pd_diag n M i : positive_definite n M -> i < n -> (0 < M i i)%R.
Proof.
  intros H Hi. specialize (H (fun k => identity i k)). rewrite quad_to in H.
  rewrite (sum_to_ext n _ (fun a => identity i a * M a i)%R) in H.
  - rewrite sum_to_delta in H by auto. apply H. exists i. split; auto. unfold identity. rewrite Nat.eqb_refl. lra.
  - intros a Ha. rewrite (sum_to_ext n _ (fun j => identity i j * (identity i a * M a j))%R) by (intros; ring). rewrite sum_to_delta by auto. ring.
Qed.
(** q M q for the columns of the eigenvectors *)
Lemma eigen_positive n M e B : eigen_system n M e B -> positive_definite n M -> forall k, k < n -> (0 < e k)%R.
Proof.
  intros [[HB _] HM] HP k Hk. assert (E : quadratic n M (fun i => B i k) = e k).
  { rewrite (quad_ext n _ (fun i j => sum_to n (fun a => B i a * e a * B j a))%R) by (intros; rewrite HM by auto; apply sum_over_to).
    rewrite (quad_sum n n (fun a i j => B i a * e a * B j a)%R).
    rewrite (sum_to_ext n _ (fun a => identity k a * (e a * identity k a))%R).
    - rewrite sum_to_delta by auto. unfold identity. rewrite Nat.eqb_refl. ring.
    - intros a Ha. rewrite (quad_ext n _ (fun i j => e a * (B i a * B j a))%R) by (intros; ring). rewrite quad_scale, (quad_outer n (fun i => B i a)).
      rewrite (sum_to_ext n (fun i => B i a * B i k)%R (fun i => B i k * B i a)%R) by (intros; ring).
      pose proof (HB k a Hk Ha) as Hka. rewrite sum_over_to in Hka. rewrite Hka. ring. }
  rewrite <- E. apply HP. destruct (HB k k Hk Hk) as []. specialize (HB k k Hk Hk). rewrite sum_over_to in HB. unfold identity in HB. rewrite Nat.eqb_refl in HB.
  assert (G : forall m, sum_to m (fun i => B i k * B i k)%R <> 0%R -> exists i, i < m /\ B i k <> 0%R).
  { induction m as [|m IH]; cbn [sum_to]; intros Hs; [lra|]. destruct (Req_EM_T (B m k) 0) as [E0|E0]; [|exists m; split; auto].
    destruct IH as (i & Hi & Hb); [rewrite E0 in Hs; lra|]. exists i. split; [lia|auto]. }
  apply G. lra.
Qed.

(** ** learning *)
Section Learn.
Variable stuck : R -> R -> bool.
Definition fine (p : params) : Prop := usable (p_n p) (p_mu p) (p_weights p) (p_mucov p) (p_ccov p) (p_ccumcov p).
Lemma nth_average w k : average_weights w -> (0 <= nth k w 0)%R.
Proof. intros [H _]. destruct (nth_in_or_default k w 0%R) as [Hi| ->]; [|lra]. rewrite Forall_forall in H. auto. Qed.
Lemma inverse_range m : (1 <= m)%R -> (0 < 1 / m <= 1)%R.
Proof. intros H. split; [apply Rdiv_lt_0_compat; lra|]. apply Rmult_le_reg_r with m; [lra|]. unfold Rdiv. rewrite Rmult_assoc, Rinv_l by lra. lra. Qed.
Lemma sym_updated p C pc old sigma h pop i j : sym (updated p C pc old sigma h pop) i j = updated p (sym C) pc old sigma h pop i j.
Proof.
  unfold sym. destruct (j <=? i) eqn:E; unfold updated; rewrite E; [reflexivity|]. f_equal; [ring|]. apply sum_to_ext. intros k _. unfold Rdiv. ring.
Qed.
Lemma pd_updated p C pc old sigma h pop : fine p -> (0 < sigma)%R -> positive_definite (p_n p) (sym C) -> positive_definite (p_n p) (sym (updated p C pc old sigma h pop)).
Proof.
  intros (Hn & Hw & Ha & Hm & Hc & Hcc) Hs H x Hx. specialize (H x Hx). destruct (inverse_range _ Hm) as [Hi0 Hi1].
  set (a := (1 - p_ccov p + (1 - (if h then 1 else 0)) * p_ccumcov p * (2 - p_ccumcov p))%R).
  rewrite (quad_ext _ _ (fun i j => (a * sym C i j + p_ccov p * (1 / p_mucov p) * (pc i * pc j)) +
     sum_to (p_mu p) (fun k => (p_ccov p * (1 - 1 / p_mucov p) * nth k (p_weights p) 0 / sigma / sigma) * ((at_ (nth k pop []) i - old i) * (at_ (nth k pop []) j - old j))))%R).
  2: { intros i j _ _. rewrite sym_updated. unfold updated, a. f_equal; [ring|]. apply sum_to_ext. intros k _. unfold Rdiv. ring. }
  rewrite quad_plus, quad_plus, quad_scale, quad_scale.
  rewrite (quad_sum _ _ (fun k i j => (p_ccov p * (1 - 1 / p_mucov p) * nth k (p_weights p) 0 / sigma / sigma) * ((at_ (nth k pop []) i - old i) * (at_ (nth k pop []) j - old j)))%R).
  assert (Hpos : (0 < a)%R). { unfold a. assert (0 <= (1 - (if h then 1 else 0)) * p_ccumcov p * (2 - p_ccumcov p))%R; [|lra]. destruct h; [lra|]. nra. }
  assert (H1 : (0 < a * quadratic (p_n p) (sym C) x)%R) by (apply Rmult_lt_0_compat; auto).
  assert (H2 : (0 <= p_ccov p * (1 / p_mucov p) * quadratic (p_n p) (fun i j => pc i * pc j) x)%R) by (apply Rmult_le_pos; [nra|apply outer_nonneg]).
  match goal with |- (0 < _ + ?t)%R => assert (0 <= t)%R; [|lra] end. apply sum_to_nonneg. intros k _. rewrite quad_scale.
  apply Rmult_le_pos; [|apply (outer_nonneg _ (fun i => at_ (nth k pop []) i - old i)%R)]. pose proof (nth_average (p_weights p) k Ha) as Hwk.
  assert (0 <= / sigma)%R by (apply Rlt_le, Rinv_0_lt_compat; auto). unfold Rdiv at 1 2. repeat apply Rmult_le_pos; auto; lra.
Qed.
Lemma axis_step_pos p s sigma a : (0 < sigma)%R -> (0 < axis_step stuck p s sigma a)%R.
Proof. intros H. unfold axis_step. destruct (forallb _ _); auto. apply Rmult_lt_0_compat; auto. apply exp_pos. Qed.
Lemma axes_pos p s l : forall sigma, (0 < sigma)%R -> (0 < fold_left (axis_step stuck p s) l sigma)%R.
Proof. induction l as [|a l IH]; intros sigma H; cbn [fold_left]; auto. apply IH, axis_step_pos. auto. Qed.
Lemma treat_ok p s best worst : fine p -> (0 < s_sigma s)%R -> positive_definite (p_n p) (sym (s_C s)) ->
  (0 < s_sigma (treat stuck p s best worst))%R /\ positive_definite (p_n p) (sym (s_C (treat stuck p s best worst))).
Proof.
  intros (Hn & Hw & Ha & Hm & Hc & Hcc) Hs H. unfold treat. cbn [s_sigma s_C].
  set (s1 := if too_narrow p (s_C s) (s_sigma s) then (s_sigma s * exp (5 / 100 + 1 / p_damp p))%R else s_sigma s).
  assert (H1 : (0 < s1)%R) by (unfold s1; destruct (too_narrow _ _ _); auto; apply Rmult_lt_0_compat; auto; apply exp_pos).
  set (s2 := if Req_EM_T best worst then (s1 * exp (2 / 10 + 1 / p_damp p))%R else s1).
  assert (H2 : (0 < s2)%R) by (unfold s2; destruct (Req_EM_T _ _); auto; apply Rmult_lt_0_compat; auto; apply exp_pos).
  pose proof (axes_pos p s (seq 0 (p_n p)) s2 H2) as H3. set (s3 := fold_left (axis_step stuck p s) (seq 0 (p_n p)) s2) in *. split.
  - destruct (existsb _ _); auto. apply Rmult_lt_0_compat; auto. apply exp_pos.
  - set (lost := fun i => stuck (s_mean s i) (2 / 10 * s3 * sqrt (s_C s i i))%R).
    intros x Hx. rewrite (quad_ext _ _ (sym (add_diag (s_C s) (fun i => if lost i then s_C s i i * p_ccov p else 0)%R))).
    + apply (pd_add_diag (p_n p) (s_C s) (fun i => if lost i then s_C s i i * p_ccov p else 0)%R); auto.
      intros i Hi. destruct (lost i); [|lra]. pose proof (pd_diag _ _ i H Hi) as Hd. unfold sym in Hd. rewrite Nat.leb_refl in Hd. apply Rmult_le_pos; lra.
    + intros i j _ _. unfold sym, add_diag. destruct (j <=? i).
      * destruct (Nat.eqb_spec i j) as [->|]; cbn [andb]; auto. fold (lost j). destruct (lost j); ring.
      * destruct (Nat.eqb_spec j i) as [->|]; cbn [andb]; auto. fold (lost i). destruct (lost i); ring.
Qed.
Lemma reestimate_ok p s pop best worst s' : fine p -> (0 < s_sigma s)%R -> positive_definite (p_n p) (sym (s_C s)) -> reestimate stuck p s pop best worst = Ok s' ->
  (0 < s_sigma s')%R /\ positive_definite (p_n p) (sym (s_C s')).
Proof.
  intros Hf Hs H E. unfold reestimate in E. destruct (negb _); [discriminate|]. destruct (_ || _); [discriminate|].
  cbv zeta in E. match type of E with Ok (State (s_C (treat _ _ ?s1 _ _)) _ _ _ _ _ _ _ _) = _ => pose proof (treat_ok p s1 best worst Hf) as Ht; set (s2 := treat stuck p s1 best worst) in *; cbn [s_sigma s_C] in Ht end.
  injection E as <-. cbn [s_sigma s_C]. apply Ht.
  - apply Rmult_lt_0_compat; auto. apply exp_pos.
  - destruct (Req_EM_T _ _); auto. apply pd_updated; auto.
Qed.
(** the new mean *)
Lemma reestimate_mean p s pop best worst s' : reestimate stuck p s pop best worst = Ok s' -> length pop = p_mu p /\ length pop <= length (p_weights p) /\ s_mean s' = recombined p pop.
Proof.
  intros E. unfold reestimate in E. destruct (Nat.eqb_spec (length pop) (p_mu p)) as [Hl|]; cbn [negb] in E; [|discriminate].
  destruct (Nat.ltb_spec (length (p_weights p)) (length pop)) as [|Hle]; cbn [orb] in E; [discriminate|]. destruct (existsb _ _); [discriminate|].
  injection E as <-. split; [auto|]. split; [auto|]. reflexivity.
Qed.
Lemma recombined_between p pop i lo hi : fine p -> length pop = p_mu p -> (forall x, In x pop -> lo <= at_ x i <= hi)%R -> (lo <= recombined p pop i <= hi)%R.
Proof.
  intros (Hn & Hw & Ha & _) Hl H. unfold recombined. assert (E : sum_to (length pop) (fun j => nth j (p_weights p) 0%R) = 1%R).
  { rewrite Hl, <- Hw. destruct Ha as [_ Ht]. rewrite <- vsum_total in Ht. exact Ht. }
  assert (G : forall j, j < length pop -> (lo <= at_ (nth j pop []) i <= hi)%R) by (intros j Hj; apply H, nth_In; auto).
  split.
  - rewrite <- (Rmult_1_r lo), <- E, <- sum_to_scale. apply sum_to_le. intros j Hj. rewrite Rmult_comm. apply Rmult_le_compat_l; [apply nth_average; auto|apply G; auto].
  - rewrite <- (Rmult_1_r hi), <- E, <- sum_to_scale. apply sum_to_le. intros j Hj. rewrite (Rmult_comm hi). apply Rmult_le_compat_l; [apply nth_average; auto|apply G; auto].
Qed.
End Learn.

(** ** the eigen system *)
Lemma ql_complete maxIter : forall needs iter, iter + list_sum needs < maxIter -> ql_count maxIter needs iter = (iter + list_sum needs, true).
Proof.
  induction needs as [|k r IH]; intros iter H; cbn [ql_count list_sum fold_right] in *; [rewrite Nat.add_0_r; auto|]. change (fold_right Nat.add 0 r) with (list_sum r) in *.
  destruct (Nat.ltb_spec iter maxIter); [|lia]. destruct (Nat.ltb_spec maxIter (iter + k)); [lia|]. rewrite IH by lia. f_equal. lia.
Qed.
Lemma vmin_le n d i : i < n -> (vmin n d <= d i)%R.
Proof.
  induction n as [|n IH]; intros Hi; [lia|]. destruct n as [|n]; [replace i with 0 by lia; cbn; lra|]. change (vmin (S (S n)) d) with (Rmin (vmin (S n) d) (d (S n))).
  destruct (Nat.eq_dec i (S n)) as [->|]; [apply Rmin_r|]. eapply Rle_trans; [apply Rmin_l|]. apply IH. lia.
Qed.
Lemma vmax_ge n d i : i < n -> (d i <= vmax n d)%R.
Proof.
  induction n as [|n IH]; intros Hi; [lia|]. destruct n as [|n]; [replace i with 0 by lia; cbn; lra|]. change (vmax (S (S n)) d) with (Rmax (vmax (S n) d) (d (S n))).
  destruct (Nat.eq_dec i (S n)) as [->|]; [apply Rmax_r|]. eapply Rle_trans; [|apply Rmax_l]. apply IH. lia.
Qed.
Lemma vmin_in n d : 1 <= n -> exists i, i < n /\ vmin n d = d i.
Proof.
  induction n as [|n IH]; intros Hi; [lia|]. destruct n as [|n]; [exists 0; split; auto|]. change (vmin (S (S n)) d) with (Rmin (vmin (S n) d) (d (S n))).
  destruct (Rle_dec (vmin (S n) d) (d (S n))).
  - rewrite Rmin_left by auto. destruct IH as (i & Hl & E); [lia|]. exists i. split; [lia|auto].
  - rewrite Rmin_right by lra. exists (S n). split; [lia|auto].
Qed.
Lemma epsilon_range : (0 < epsilon < 1)%R.
Proof. unfold epsilon. split; [apply Rinv_0_lt_compat; apply pow_lt; lra|]. rewrite <- Rinv_1. apply Rinv_lt_contravar; [rewrite Rmult_1_l; apply pow_lt; lra|]. apply Rlt_pow_R1; [lra|lia]. Qed.

Section Eig.
Variable eig : nat -> nat -> mat -> list nat * vec * mat.
(** a run of the algorithm through all the indices gives the eigen system of the matrix *)
Definition eig_correct : Prop := forall maxIter n M needs d B, symmetric M -> eig maxIter n M = (needs, d, B) -> snd (ql_count maxIter needs 0) = true -> eigen_system n M d B.
(** a run reported as successful went through all the indices *)
Definition eig_honest : Prop := forall maxIter n M needs d B, eig maxIter n M = (needs, d, B) -> fst (ql_count maxIter needs 0) < maxIter -> snd (ql_count maxIter needs 0) = true.

Lemma shifted_system n M e B k : eigen_system n M e B -> eigen_system n (fun i j => M i j + identity i j * k)%R (fun i => e i + k)%R B.
Proof.
  intros [[H1 H2] HM]. split; [split; auto|]. intros i j Hi Hj. rewrite HM by auto. rewrite !sum_over_to.
  rewrite (sum_to_ext n (fun a => B i a * (e a + k) * B j a)%R (fun a => B i a * e a * B j a + k * (B i a * B j a))%R) by (intros; ring).
  rewrite sum_to_plus, sum_to_scale. pose proof (H2 i j Hi Hj) as E. rewrite sum_over_to in E. rewrite E. ring.
Qed.
Lemma eigen_ext n M M' e e' B : (forall i j, i < n -> j < n -> M i j = M' i j) -> (forall i, i < n -> e i = e' i) -> eigen_system n M e B -> eigen_system n M' e' B.
Proof.
  intros H He [H1 H2]. split; auto. intros i j Hi Hj. rewrite <- H, H2 by auto. rewrite !sum_over_to. apply sum_to_ext. intros k Hk. rewrite He by auto. reflexivity.
Qed.
(** what a call of updateEigenSystem leaves *)
Definition unchanged (s s' : state) : Prop := s_pc s' = s_pc s /\ s_ps s' = s_ps s /\ s_mean s' = s_mean s /\ s_sigma s' = s_sigma s /\ s_gen s' = s_gen s /\ s_hist s' = s_hist s.
Lemma tries_ok p maxIter : eig_correct -> eig_honest -> 1 <= p_n p -> forall todo tries s good b s' good', (0 < good)%R -> positive_definite (p_n p) (sym (s_C s)) ->
  tries_loop eig p maxIter todo tries s good = (b, s', good') ->
  (0 < good')%R /\ positive_definite (p_n p) (sym (s_C s')) /\ unchanged s s' /\
  (exists k, (0 <= k)%R /\ forall i j, sym (s_C s') i j = (sym (s_C s) i j + identity i j * k)%R) /\
  (b = true -> eigen_system (p_n p) (sym (s_C s')) (fun i => s_d s' i * s_d s' i)%R (s_B s') /\ (forall i, (i < p_n p)%nat -> 0 < s_d s' i)%R /\
    (forall i j, (i < p_n p)%nat -> (j < p_n p)%nat -> s_d s' i * s_d s' i <= (/ epsilon + 1) * (s_d s' j * s_d s' j))%R).
Proof.
  intros Hc Hh Hn. induction todo as [|todo IH]; intros tries s good b s' good' Hg HP E.
  - cbn in E. injection E as <- <- <-. split; [auto|]. split; [auto|]. split; [repeat split|]. split; [exists 0%R; split; [lra|]; intros; ring|]. discriminate.
  - cbn [tries_loop] in E. destruct (eig maxIter (p_n p) (sym (s_C s))) as [[needs d] B] eqn:Ee. destruct (ql_count maxIter needs 0) as [iters ok] eqn:Eq.
    destruct (Nat.ltb_spec iters maxIter) as [Hlt|Hge].
    + assert (Hok : ok = true) by (specialize (Hh _ _ _ _ _ _ Ee); rewrite Eq in Hh; apply Hh; auto). subst ok.
      pose proof (Hc _ _ _ _ _ _ (sym_symmetric (s_C s)) Ee) as Hs. rewrite Eq in Hs. specialize (Hs eq_refl).
      pose proof (eigen_positive _ _ _ _ Hs HP) as Hd. destruct (vmin_in (p_n p) d Hn) as (im & Him & Em).
      assert (Hmin : (0 < vmin (p_n p) d)%R) by (rewrite Em; auto). pose proof epsilon_range as [He0 He1].
      set (tmp := if Rlt_dec (vmin (p_n p) d) (vmax (p_n p) d * epsilon) then (vmax (p_n p) d * epsilon - vmin (p_n p) d)%R else 0%R) in *.
      assert (Ht : (0 <= tmp)%R) by (unfold tmp; destruct (Rlt_dec _ _); lra).
      assert (Hb : (vmax (p_n p) d * epsilon <= vmin (p_n p) d + tmp)%R) by (unfold tmp; destruct (Rlt_dec _ _); lra).
      assert (Hmx : (vmin (p_n p) d <= vmax (p_n p) d)%R) by (eapply Rle_trans; [apply (vmin_le _ _ 0)|apply (vmax_ge _ _ 0)]; lia).
      assert (Hts : (tmp <= vmax (p_n p) d * epsilon)%R) by (unfold tmp; destruct (Rlt_dec _ _); nra).
      injection E as <- <- <-. cbn [s_C s_d s_B s_pc s_ps s_mean s_sigma s_gen s_hist].
      assert (Hsq : forall i, i < p_n p -> (sqrt (d i + tmp) * sqrt (d i + tmp))%R = (d i + tmp)%R) by (intros i Hi; apply sqrt_sqrt; specialize (Hd i Hi); lra).
      split; [lra|]. split; [apply pd_add_diag; auto|]. split; [repeat split|]. split; [exists tmp; split; [auto|]; intros; apply sym_add_diag|]. intros _. split; [|split].
      * eapply eigen_ext; [| |apply (shifted_system _ _ _ _ tmp Hs)]; cbn beta; [intros; symmetry; apply sym_add_diag|intros i Hi; symmetry; apply Hsq; auto].
      * intros i Hi. apply sqrt_lt_R0. specialize (Hd i Hi). lra.
      * intros i j Hi Hj. rewrite !Hsq by auto. pose proof (vmax_ge _ d i Hi) as Hx. pose proof (vmin_le _ d j Hj) as Hy.
        assert (Hinv : (0 < / epsilon)%R) by (apply Rinv_0_lt_compat; auto).
        assert (A1 : (vmax (p_n p) d <= / epsilon * (d j + tmp))%R). { apply Rmult_le_reg_l with epsilon; auto. rewrite <- Rmult_assoc, Rinv_r by lra. lra. }
        assert (A2 : (tmp <= d j + tmp)%R) by (specialize (Hd j Hj); lra). lra.
    + assert (Hsum : (0 < good * exp (INR tries))%R) by (apply Rmult_lt_0_compat; auto; apply exp_pos).
      apply IH in E; auto; cbn [s_C s_d s_B s_pc s_ps s_mean s_sigma s_gen s_hist] in *.
      * destruct E as (E1 & E2 & E3 & (k & Hk & E4) & E5). split; [auto|]. split; [auto|]. split; [auto|]. split; [|auto].
        exists (k + good * exp (INR tries))%R. split; [lra|]. intros i j. rewrite E4, sym_add_diag. ring.
      * apply pd_add_diag; auto. intros; lra.
Qed.
End Eig.
