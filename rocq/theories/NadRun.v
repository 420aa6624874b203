(** Updates of the adaptive normal distribution: invariant, decomposition, termination criterion, counterexamples. *)
From Coq Require Import List Arith ZArith Bool Reals Lia Lra Psatz.
From Verif Require Import Lib Outcome BreedModel CmaModel CmaSpec CmaProofs CmaState CmaMore NadModel NadSpec NadProofs.
From Coq Require Import List.
Import ListNotations.
Open Scope nat_scope.

Definition well (d : distr) : Prop := healthy (d_n d) (d_C d) (d_B d) (d_D d) (d_sigma d) /\ d_nan d = false.
Lemma identity_diag i j : diag (fun _ => 1%R) i j = identity i j.
Proof. reflexivity. Qed.
Lemma orthogonal_identity n : orthogonal n (diag (fun _ => 1%R)).
Proof.
  split; intros i j Hi Hj; rewrite sum_over_to; rewrite (sum_to_ext n _ (fun k => identity i k * identity j k)%R).
  - rewrite (sum_to_delta n i (fun k => identity j k)) by auto. unfold identity. rewrite Nat.eqb_sym. reflexivity.
  - intros k _. unfold diag, identity. rewrite (Nat.eqb_sym k i), (Nat.eqb_sym k j). reflexivity.
  - rewrite (sum_to_delta n i (fun k => identity j k)) by auto. unfold identity. rewrite Nat.eqb_sym. reflexivity.
  - intros k _. reflexivity.
Qed.
Lemma pd_identity n : positive_definite n (diag (fun _ => 1%R)).
Proof.
  intros x (i & Hi & Hx). rewrite (quad_ext n _ (fun i j => identity i j * (fun _ => 1) i)%R) by (intros; rewrite identity_diag; ring). rewrite quad_diag.
  apply Rlt_le_trans with (1 * (x i * x i))%R; [nra|]. apply (sum_to_term n (fun i => 1 * (x i * x i))%R); auto. intros; nra.
Qed.
Lemma new_well n : well (new_distr n).
Proof.
  split; [|reflexivity]. unfold healthy, new_distr. cbn [d_n d_C d_B d_D d_sigma]. split; [|split; [apply pd_identity|split; [apply orthogonal_identity|split; [intros; lra|lra]]]].
  intros i j _ _. unfold diag. rewrite Nat.eqb_sym. destruct (Nat.eqb_spec j i); reflexivity.
Qed.
Lemma hsig_01 n c m ps : (nad_hsig n c m ps = 0 \/ nad_hsig n c m ps = 1)%R.
Proof. unfold nad_hsig. destruct (Rlt_dec _ _); auto. Qed.
Lemma short_false n pop : Forall (fun x => length x = n) pop -> existsb (fun x : list R => length x <? n) pop = false.
Proof. intros H. apply Bool.not_true_is_false. intros E. apply existsb_exists in E. destruct E as (x & Hx & E). rewrite Forall_forall in H. apply H in Hx. apply Nat.ltb_lt in E. lia. Qed.

Section Run.
Variable solver : nat -> mat -> bool * vec * mat.
(** what every update that goes through does, whatever the solver *)
Lemma update_shape d c pop d' c' : nad_update solver d c pop = Ok (d', c') ->
  let m := mueff_of (nad_weights (length pop)) in let n := d_n d in let calls := S (c_calls c) in
  pop <> [] /\ (forall x, In x pop -> n <= length x) /\ d_n d' = n /\ d_mean d' = nad_mean pop /\
  (forall i, d_ps d' i = (1 - cs_of n m) * d_ps d i + sqrt (cs_of n m * (2 - cs_of n m) * m) * sum_to n (fun j => inv_sqrt n (d_B d) (d_D d) i j * (nad_mean pop j - d_mean d j)) / d_sigma d)%R /\
  (exists h, h = nad_hsig n calls m (d_ps d') /\ (forall i, d_pc d' i = (1 - cc_of n m) * d_pc d i + h * sqrt (cc_of n m * (2 - cc_of n m) * m) * (nad_mean pop i - d_mean d i) / d_sigma d)%R /\
     d_C d' = nad_covar n (d_C d) (d_pc d') (d_mean d) (d_sigma d) h m pop) /\
  d_sigma d' = (d_sigma d * exp (cs_of n m / damps_of n m * (norm n (d_ps d') / nad_chi n - 1)))%R /\
  c_calls c' = calls /\
  ((due n (length pop) (calls * length pop) (c_last c) m = true /\ c_last c' = calls * length pop /\
    exists b e B, solver n (d_C d') = (b, e, B) /\ d_B d' = B /\ (forall k, d_D d' k = sqrt (e k)) /\
      d_nan d' = (d_nan d || existsb (fun k => if Rlt_dec (e k) 0 then true else false) (seq 0 n))) \/
   (due n (length pop) (calls * length pop) (c_last c) m = false /\ c_last c' = c_last c /\ d_B d' = d_B d /\ d_D d' = d_D d /\ d_nan d' = d_nan d)).
Proof.
  intros E. cbv zeta. unfold nad_update in E. destruct pop as [|x0 r] eqn:Ep; [discriminate|]. rewrite <- Ep in *.
  destruct (Nat.eqb_spec (d_n d) (length x0)) as [Hx0|]; cbn [negb] in E; [|discriminate]. destruct (existsb _ pop) eqn:Es; [discriminate|].
  split; [rewrite Ep; discriminate|]. split.
  { intros x Hx. destruct (Nat.ltb_spec (length x) (d_n d)); [|auto]. assert (existsb (fun x => length x <? d_n d) pop = true); [|congruence].
    apply existsb_exists. exists x. split; auto. apply Nat.ltb_lt. auto. }
  cbv zeta in E.
  destruct (due (d_n d) (length pop) (S (c_calls c) * length pop) (c_last c) _) eqn:Ed.
  - destruct (solver (d_n d) _) as [[b e] B] eqn:Esol. injection E as <- <-. cbn [d_n d_mean d_ps d_pc d_C d_sigma c_calls c_last d_B d_D d_nan].
    split; [reflexivity|]. split; [reflexivity|]. split; [reflexivity|]. split; [eexists; split; [reflexivity|]; split; [|reflexivity]; intros i; reflexivity|].
    split; [reflexivity|]. split; [reflexivity|]. left. split; [reflexivity|]. split; [reflexivity|]. exists b, e, B. split; [exact Esol|]. repeat split.
  - injection E as <- <-. cbn [d_n d_mean d_ps d_pc d_C d_sigma c_calls c_last d_B d_D d_nan].
    split; [reflexivity|]. split; [reflexivity|]. split; [reflexivity|]. split; [eexists; split; [reflexivity|]; split; [|reflexivity]; intros i; reflexivity|].
    split; [reflexivity|]. split; [reflexivity|]. right. repeat split.
Qed.
Lemma update_total d c pop : pop <> [] -> Forall (fun x => length x = d_n d) pop -> exists d' c', nad_update solver d c pop = Ok (d', c').
Proof.
  intros Hp H. unfold nad_update. destruct pop as [|x0 r] eqn:Ep; [congruence|]. rewrite <- Ep in *. assert (H0 : length x0 = d_n d) by (rewrite Ep in H; inversion H; auto).
  rewrite H0, Nat.eqb_refl. cbn [negb]. rewrite short_false by auto. cbv zeta. destruct (due _ _ _ _ _); [destruct (solver _ _) as [[b e] B]|]; eauto.
Qed.
Lemma fits_rates n pop : 1 <= n -> fits n pop -> (1 <= mueff_of (nad_weights (length pop)))%R /\ (c1_of n (mueff_of (nad_weights (length pop))) + cmu_of n (mueff_of (nad_weights (length pop))) < 1)%R.
Proof.
  intros Hn (Hp & _ & Hs). assert (Hl : 1 <= length pop) by (destruct pop; [congruence|cbn; lia]). destruct (mueff_ok _ Hl) as [H1 H2]. split; [auto|].
  apply rates_small; auto. apply le_INR in Hs. rewrite !mult_INR, !plus_INR in Hs. cbn [INR] in Hs. cbn [pow]. lra.
Qed.
Lemma decomposed_well n C e B : eigen_system n C e B -> positive_definite n C -> (forall k, k < n -> (0 < sqrt (e k))%R) /\ existsb (fun k => if Rlt_dec (e k) 0 then true else false) (seq 0 n) = false /\
  eigen_system n C (fun k => sqrt (e k) * sqrt (e k))%R B.
Proof.
  intros H HP. pose proof (eigen_positive n C e B H HP) as Hpos. split; [intros k Hk; apply sqrt_lt_R0; auto|]. split.
  - apply Bool.not_true_is_false. intros E. apply existsb_exists in E. destruct E as (k & Hk & E). apply in_seq in Hk. specialize (Hpos k ltac:(lia)). destruct (Rlt_dec (e k) 0); [lra|discriminate].
  - destruct H as [Ho H]. split; auto. intros i j Hi Hj. rewrite (H i j Hi Hj), !sum_over_to. apply sum_to_ext. intros k Hk. rewrite sqrt_sqrt by (apply Rlt_le; auto). reflexivity.
Qed.
Lemma update_well d c pop d' c' : solves (d_n d) solver -> 1 <= d_n d -> fits (d_n d) pop -> well d -> nad_update solver d c pop = Ok (d', c') -> well d'.
Proof.
  intros Hsol Hn Hf ((Hsy & Hpd & Ho & HD & Hs) & Hnan) E. destruct (fits_rates _ _ Hn Hf) as [Hm Hr]. apply update_shape in E.
  destruct E as (Hp & _ & En & _ & _ & (h & Eh & _ & EC) & Es & _ & Hd).
  assert (Hh : (h = 0 \/ h = 1)%R) by (rewrite Eh; apply hsig_01).
  assert (Hsy' : symmetric_to (d_n d) (d_C d')) by (rewrite EC; apply nad_covar_sym; auto).
  assert (Hpd' : positive_definite (d_n d) (d_C d')) by (rewrite EC; apply nad_covar_pd; auto).
  assert (Hs' : (0 < d_sigma d')%R) by (rewrite Es; apply Rmult_lt_0_compat; [auto|apply exp_pos]).
  unfold well, healthy. rewrite En. destruct Hd as [(_ & _ & b & e & B & Esol & EB & ED & Ena)|(_ & _ & EB & ED & Ena)].
  - destruct (Hsol (d_C d') Hsy') as (e' & B' & E' & He). rewrite Esol in E'. injection E' as -> -> ->.
    destruct (decomposed_well _ _ _ _ He Hpd') as (H1 & H2 & _). destruct He as [Ho' _].
    split; [|rewrite Ena, H2, Hnan; reflexivity]. split; [auto|]. split; [auto|]. rewrite EB. split; [exact Ho'|]. split; [intros k Hk; rewrite ED; auto|auto].
  - rewrite EB, ED, Ena. repeat split; auto; apply Ho.
Qed.
Lemma updates_well : forall pops d c d' c', solves (d_n d) solver -> 1 <= d_n d -> Forall (fits (d_n d)) pops -> well d -> nad_updates solver d c pops = Ok (d', c') -> well d' /\ d_n d' = d_n d.
Proof.
  induction pops as [|pop r IH]; intros d c d' c' Hsol Hn Hf Hw E; cbn [nad_updates] in E; [injection E as <- <-; auto|].
  destruct (nad_update solver d c pop) as [[d1 c1]| | |] eqn:E1; try discriminate. cbn [rbind] in E. inversion Hf as [|? ? Hf1 Hf2]; subst.
  pose proof (update_well _ _ _ _ _ Hsol Hn Hf1 Hw E1) as Hw1. pose proof (update_shape _ _ _ _ _ E1) as (_ & _ & En & _).
  destruct (IH d1 c1 d' c') as [H1 H2]; auto; try (rewrite En; auto). split; [auto|]. rewrite H2. auto.
Qed.
Lemma updates_total : forall pops d c, Forall (fun pop => pop <> [] /\ Forall (fun x => length x = d_n d) pop) pops -> exists d' c', nad_updates solver d c pops = Ok (d', c').
Proof.
  induction pops as [|pop r IH]; intros d c H; cbn [nad_updates]; eauto. inversion H as [|? ? [H1 H2] H3]; subst. destruct (update_total d c pop H1 H2) as (d1 & c1 & E). rewrite E. cbn [rbind].
  pose proof (update_shape _ _ _ _ _ E) as (_ & _ & En & _). apply IH. rewrite En. auto.
Qed.
(** how often the decomposition is made *)
Lemma due_iff n lam calls last m : 1 <= n -> (1 <= m)%R -> last <= calls * lam -> (Z.of_nat (calls * lam) < 2 ^ 32)%Z ->
  (due n lam (calls * lam) last m = true <-> INR lam < 10 * INR n * (c1_of n m + cmu_of n m) * INR (calls * lam - last))%R.
Proof.
  intros Hn Hm Hl Hb. unfold due. rewrite usub_exact by auto. destruct (c1_range n m Hn Hm) as [H1 _]. destruct (cmu_range n m Hn Hm) as [H2 _]. apply INR_1 in Hn.
  set (s := (c1_of n m + cmu_of n m)%R) in *. assert (Hs : (0 < s)%R) by (unfold s; lra). set (k := INR (calls * lam - last)).
  assert (E : (INR lam / s / INR n / 10 = INR lam * / (10 * INR n * s))%R) by (field; lra). rewrite E.
  assert (Hp : (0 < 10 * INR n * s)%R) by (apply Rmult_lt_0_compat; lra).
  destruct (Rlt_dec _ _) as [H|H]; split; intros H'; auto; try discriminate.
  - apply (Rmult_lt_compat_r _ _ _ Hp) in H. rewrite Rmult_assoc, Rinv_l in H by lra. lra.
  - exfalso. apply H. apply (Rmult_lt_reg_r (10 * INR n * s)); auto. rewrite Rmult_assoc, Rinv_l by lra. lra.
Qed.
End Run.

(** ** the inverse square root *)
Lemma inv_sqrt_root n B D i j : inv_sqrt n B D i j = root n (fun k => / D k)%R B i j.
Proof. reflexivity. Qed.
Lemma whitens_ok n C B D : (forall k, k < n -> (0 < D k)%R) -> eigen_system n C (fun k => D k * D k)%R B -> whitens n (inv_sqrt n B D) C.
Proof.
  intros HD [[H1 H2] HC]. split; [intros i j _ _; apply sum_to_ext; intros; ring|]. intros i j Hi Hj.
  (* inv_sqrt C = B D B^T *)
  assert (E1 : forall l, l < n -> sum_to n (fun k => inv_sqrt n B D i k * C k l)%R = sum_to n (fun a => B i a * D a * B l a)%R).
  { intros l Hl. rewrite (sum_to_ext n _ (fun k => sum_to n (fun a => sum_to n (fun b => B i a * / D a * (D b * D b) * B l b * (B k a * B k b))))%R).
    - rewrite sum_to_swap. apply sum_to_ext. intros a Ha. rewrite sum_to_swap.
      rewrite (sum_to_ext n _ (fun b => identity a b * (B i a * / D a * (D b * D b) * B l b))%R).
      + rewrite sum_to_delta by auto. field. specialize (HD a Ha). lra.
      + intros b Hb. rewrite sum_to_scale. pose proof (H1 a b Ha Hb) as E. rewrite sum_over_to in E. rewrite E. ring.
    - intros k Hk. rewrite (HC k l Hk Hl), sum_over_to. unfold inv_sqrt. rewrite sum_to_prod. apply sum_to_ext. intros a _. apply sum_to_ext. intros b _. ring. }
  rewrite sum_over_to. rewrite (sum_to_ext n _ (fun k => sum_to n (fun l => inv_sqrt n B D i k * C k l * inv_sqrt n B D l j))%R) by (intros; apply sum_over_to).
  rewrite sum_to_swap. rewrite (sum_to_ext n _ (fun l => sum_to n (fun a => B i a * D a * B l a) * inv_sqrt n B D l j)%R).
  2: { intros l Hl. rewrite <- E1 by auto. rewrite Rmult_comm, <- sum_to_scale. apply sum_to_ext. intros; ring. }
  rewrite (sum_to_ext n _ (fun l => sum_to n (fun a => sum_to n (fun b => B i a * D a * / D b * B j b * (B l a * B l b))))%R).
  2: { intros l _. unfold inv_sqrt. rewrite sum_to_prod. apply sum_to_ext. intros a _. apply sum_to_ext. intros b _. ring. }
  rewrite sum_to_swap. rewrite <- (H2 i j Hi Hj), sum_over_to. apply sum_to_ext. intros a Ha. rewrite sum_to_swap.
  rewrite (sum_to_ext n _ (fun b => identity a b * (B i a * D a * / D b * B j b))%R).
  - rewrite sum_to_delta by auto. field. specialize (HD a Ha). lra.
  - intros b Hb. rewrite sum_to_scale. pose proof (H1 a b Ha Hb) as E. rewrite sum_over_to in E. rewrite E. ring.
Qed.

(** ** conditioning *)
Lemma vmin_smallest n e : 1 <= n -> smallest n e (vmin n e).
Proof.
  induction n as [|n IH]; intros H; [lia|]. destruct n as [|n]; [cbn; split; [exists 0; split; auto|intros k Hk; replace k with 0 by lia; lra]|].
  change (vmin (S (S n)) e) with (Rmin (vmin (S n) e) (e (S n))). destruct (IH ltac:(lia)) as [(k & Hk & Ek) Hl]. split.
  - unfold Rmin. destruct (Rle_dec _ _); [exists k; split; [lia|auto]|exists (S n); split; [lia|auto]].
  - intros j Hj. destruct (Nat.eq_dec j (S n)) as [->|]; [apply Rmin_r|]. eapply Rle_trans; [apply Rmin_l|]. apply Hl. lia.
Qed.
Lemma vmax_largest n e : 1 <= n -> largest n e (vmax n e).
Proof.
  induction n as [|n IH]; intros H; [lia|]. destruct n as [|n]; [cbn; split; [exists 0; split; auto|intros k Hk; replace k with 0 by lia; lra]|].
  change (vmax (S (S n)) e) with (Rmax (vmax (S n) e) (e (S n))). destruct (IH ltac:(lia)) as [(k & Hk & Ek) Hl]. split.
  - unfold Rmax. destruct (Rle_dec _ _); [exists (S n); split; [lia|auto]|exists k; split; [lia|auto]].
  - intros j Hj. destruct (Nat.eq_dec j (S n)) as [->|]; [apply Rmax_r|]. eapply Rle_trans; [|apply Rmax_l]. apply Hl. lia.
Qed.
Lemma largest_unique n e x y : largest n e x -> largest n e y -> x = y.
Proof. intros [(i & Hi & <-) H1] [(j & Hj & <-) H2]. apply Rle_antisym; auto. Qed.
Lemma smallest_unique n e x y : smallest n e x -> smallest n e y -> x = y.
Proof. intros [(i & Hi & <-) H1] [(j & Hj & <-) H2]. apply Rle_antisym; auto. Qed.
