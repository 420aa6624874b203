(** Properties C183-C185: the CMA evolution strategy. *)
From Coq Require Import List Arith ZArith Bool Reals Lia Lra Psatz Permutation.
From Verif Require Import Lib Outcome BreedModel CmaModel CmaSpec CmaProofs CmaState CmaMore CmaRun.
From Coq Require Import List.
Import ListNotations.
Open Scope nat_scope.

(** ** C183: the parameters *)
(** without the option mu, and with a lambda larger than the default mu: as many weights as parents, positive, not increasing, summing to 1 *)
Theorem C183_weights : forall n maxgen lambda weighting mins inits, (lambda = None \/ exists L, lambda = Some L /\ default_mu n < L) -> (Z.of_nat (default_mu n) < 2 ^ 32)%Z ->
  let p := cma_params n maxgen lambda None weighting mins inits in
  length (p_weights p) = p_mu p /\ p_mu p = default_mu n /\ Forall (fun w => 0 < w)%R (p_weights p) /\ total (p_weights p) = 1%R /\
  (forall i j x y, i < j -> nth_error (p_weights p) i = Some x -> nth_error (p_weights p) j = Some y -> (y <= x)%R).
Proof.
  intros n g lam wt mins inits H Hb p. pose proof (default_size n g lam wt mins inits H) as Em. fold p in Em. rewrite Em.
  assert (Ew : p_weights p = normalised (raw_weights wt (default_mu n) (default_mu n))) by (rewrite <- Em at 1; reflexivity).
  destruct (raw_weights_ok wt (default_mu n) Hb) as (R1 & R2 & R3). pose proof (default_mu_ge n) as Hg.
  assert (Hn : raw_weights wt (default_mu n) (default_mu n) <> []) by (intros E; rewrite E in R1; cbn [length] in R1; lia).
  destruct (normalised_average _ Hn R2) as [A1 A2]. rewrite Ew. split; [unfold normalised; rewrite map_length; auto|]. split; [reflexivity|]. split; [auto|]. split; [auto|].
  apply normalised_decreasing; auto. apply total_pos; auto.
Qed.
(** the effective number of parents, the rates and the damping *)
Theorem C183_rates : forall n maxgen lambda weighting mins inits, 1 <= n -> (lambda = None \/ exists L, lambda = Some L /\ default_mu n < L) -> (Z.of_nat (default_mu n) < 2 ^ 32)%Z ->
  let p := cma_params n maxgen lambda None weighting mins inits in
  (1 <= p_mueff p <= INR (p_mu p) /\ p_mucov p = p_mueff p /\ 0 < p_ccumsig p < 1 /\ 0 < p_ccumcov p < 1 /\ 0 < p_ccov p < 1 /\ 1 < p_damp p)%R.
Proof.
  intros n g lam wt mins inits Hn H Hb p. pose proof (default_size n g lam wt mins inits H) as Em. fold p in Em.
  assert (Ew : p_mueff p = mueff_of (raw_weights wt (default_mu n) (default_mu n))) by (rewrite <- Em at 1; reflexivity).
  destruct (raw_weights_ok wt (default_mu n) Hb) as (R1 & R2 & _). pose proof (default_mu_ge n) as Hg.
  assert (Hne : raw_weights wt (default_mu n) (default_mu n) <> []) by (intros E; rewrite E in R1; cbn [length] in R1; lia).
  pose proof (mueff_range _ Hne R2) as Hm. rewrite R1, <- Ew, <- Em in Hm.
  assert (E1 : p_ccumsig p = ccumsig_of n (p_mueff p)) by reflexivity. assert (E2 : p_ccumcov p = ccumcov_of n) by reflexivity. assert (E3 : p_ccov p = ccov_of n (p_mueff p)) by reflexivity.
  assert (E4 : p_damp p = damp_of n g (p_mueff p) (p_ccumsig p)) by reflexivity. destruct Hm as [Hm1 Hm2].
  pose proof (ccumsig_range n _ Hm1) as K1. pose proof (ccumcov_range n Hn) as K2. pose proof (ccov_range n _ Hn Hm1) as K3. rewrite E4, E1, E2, E3.
  split; [auto|]. split; [reflexivity|]. split; [auto|]. split; [auto|]. split; [auto|]. apply damp_range. lra.
Qed.
(** what the user asks for: lambda below 2 is replaced by the default, and there are always less parents than offspring *)
Theorem C183_sizes : forall n maxgen lambda mu weighting mins inits, let p := cma_params n maxgen lambda mu weighting mins inits in
  2 <= p_lambda p /\ p_mu p < p_lambda p /\ (forall L, lambda = Some L -> 2 <= L -> p_lambda p = L) /\ (forall M, mu = Some M -> M < p_lambda p -> p_mu p = M).
Proof.
  intros n g lam mu wt mins inits p. unfold p, cma_params. cbn [p_lambda p_mu]. set (l1 := match lam with Some l => l | None => default_lambda n end).
  set (l2 := if l1 <? 2 then default_lambda n else l1). assert (H2 : 2 <= l2) by (unfold l2; destruct (Nat.ltb_spec l1 2); [unfold default_lambda|]; lia).
  split; [auto|]. split; [|split].
  - destruct (Nat.leb_spec l2 (match mu with Some m => m | None => default_mu n end)); auto. apply Nat.div_lt; lia.
  - intros L E HL. unfold l2, l1. rewrite E. destruct (Nat.ltb_spec L 2); lia.
  - intros M -> HM. destruct (Nat.leb_spec l2 M); lia.
Qed.
(** standard deviations: the values given, the last one for the remaining axes *)
Theorem C183_stdevs : forall n maxgen lambda mu weighting mins inits i, i < n -> mins <> [] -> inits <> [] -> let p := cma_params n maxgen lambda mu weighting mins inits in
  p_min p i = match nth_error mins i with Some x => x | None => last mins 0%R end /\ p_init p i = match nth_error inits i with Some x => x | None => last inits 0%R end.
Proof.
  intros n g lam mu wt mins inits i Hi Hm Hin p. assert (G : forall l d, l <> [] -> stdevs n l d i = match nth_error l i with Some x => x | None => last l 0%R end).
  { intros l d Hl. unfold stdevs. destruct (firstn n l) as [|a r] eqn:E; [exfalso; destruct n; [lia|]; destruct l; [congruence|discriminate]|]. rewrite <- E. clear E a r. rewrite firstn_length.
    destruct (Nat.ltb_spec i (Nat.min n (length l))) as [Hlt|Hge].
    - rewrite (nth_error_nth' l 0%R) by lia. rewrite <- (firstn_skipn n l) at 2. rewrite app_nth1 by (rewrite firstn_length; lia). reflexivity.
    - assert (En : nth_error l i = None) by (apply nth_error_None; lia). rewrite En. rewrite firstn_all2 by lia. reflexivity. }
  split; apply G; auto.
Qed.
(** such parameters are the ones C184 asks for *)
Theorem C183_usable : forall n maxgen lambda weighting mins inits, 1 <= n -> (lambda = None \/ exists L, lambda = Some L /\ default_mu n < L) -> (Z.of_nat (default_mu n) < 2 ^ 32)%Z ->
  let p := cma_params n maxgen lambda None weighting mins inits in usable (p_n p) (p_mu p) (p_weights p) (p_mucov p) (p_ccov p) (p_ccumcov p).
Proof.
  intros n g lam wt mins inits Hn H Hb p. destruct (C183_weights n g lam wt mins inits H Hb) as (W1 & _ & W2 & W3 & _). destruct (C183_rates n g lam wt mins inits Hn H Hb) as (R1 & R2 & _ & R3 & R4 & _).
  fold p in W1, W2, W3, R1, R2, R3, R4. split; [exact Hn|]. split; [exact W1|]. split; [split; [eapply Forall_impl; [|exact W2]; cbn; intros; lra|exact W3]|]. rewrite R2. split; [apply R1|]. split; [exact R4|exact R3].
Qed.
Lemma lambda_1 : default_lambda 1 = 4.
Proof. unfold default_lambda. cbn [INR]. rewrite ln_1, Rmult_0_r. change 0%R with (INR 0). rewrite (Int_part_INR 0). reflexivity. Qed.
Lemma mu_1 : default_mu 1 = 2.
Proof. unfold default_mu. rewrite lambda_1. reflexivity. Qed.
(** one dimension: 4 offspring, 2 parents *)
Definition p1 : params := cma_params 1 1000 None None 0 [0%R] [(3 / 10)%R].
Example C183_case : p_lambda p1 = 4 /\ p_mu p1 = 2 /\ (None = @None nat \/ exists L, @None nat = Some L /\ default_mu 1 < L) /\ (Z.of_nat (default_mu 1) < 2 ^ 32)%Z /\
  p_min p1 0 = 0%R /\ p_init p1 0 = (3 / 10)%R /\ nth_error (p_weights p1) 1 = Some ((ln (INR 2 + 1) - ln (INR 1 + 1)) / vsum (raw_weights 0 2 2))%R.
Proof.
  unfold p1, cma_params. cbn [p_lambda p_mu p_weights p_min p_init]. rewrite lambda_1, mu_1. cbn [Nat.ltb Nat.leb]. split; [reflexivity|]. split; [reflexivity|]. split; [left; reflexivity|].
  split; [reflexivity|]. repeat split.
Qed.

(** ** C184: the state *)
(** each cell of the matrices has its own place in the vectors that hold them *)
Theorem C184_storage : forall n i j i' j', j <= i -> i < n -> j' <= i' -> i' < n -> tri_cell i j < tri_size n /\ (tri_cell i j = tri_cell i' j' -> i = i' /\ j = j').
Proof.
  intros n i j i' j' Hj Hi Hj' Hi'. unfold tri_cell, tri_size. split; [pose proof (tri_mono i n Hi); lia|]. intros E. destruct (lt_eq_lt_dec i i') as [[Hl|He]|Hg].
  - pose proof (tri_mono i i' Hl). lia.
  - subst. lia.
  - pose proof (tri_mono i' i Hg). lia.
Qed.
Theorem C184_square_storage : forall n i j i' j', j < n -> i < n -> j' < n -> i' < n -> square_cell n i j < square_size n /\ (square_cell n i j = square_cell n i' j' -> i = i' /\ j = j').
Proof. intros n i j i' j' Hj Hi Hj' Hi'. unfold square_cell, square_size. split; [nia|]. intros E. assert (i = i') by nia. subst. split; auto. lia. Qed.
Example C184_storage_case : tri_cell 2 1 = 4 /\ tri_size 3 = 6 /\ square_cell 3 2 1 = 7.
Proof. repeat split. Qed.
(** the first state: a positive definite diagonal covariance of trace n, its eigen system, the point and the step size given *)
Theorem C184_start : forall p point sigma s, 1 <= p_n p -> (forall i, i < p_n p -> p_init p i <> 0%R) -> start p point sigma = Ok s ->
  positive_definite (p_n p) (sym (s_C s)) /\ eigen_system (p_n p) (sym (s_C s)) (fun i => s_d s i * s_d s i)%R (s_B s) /\
  sum_over (p_n p) (fun i => s_d s i * s_d s i)%R = INR (p_n p) /\ s_sigma s = sigma /\ (forall i, i < p_n p -> nth_error point i = Some (s_mean s i)) /\ s_gen s = 0.
Proof. exact start_ok. Qed.
(** after any calls of reestimate and updateEigenSystem the step size is positive and the covariance symmetric and positive definite *)
Theorem C184_positive_definite : forall stuck eig p l point sigma s0 good s' good', eig_correct eig -> eig_honest eig ->
  usable (p_n p) (p_mu p) (p_weights p) (p_mucov p) (p_ccov p) (p_ccumcov p) -> (forall i, i < p_n p -> p_init p i <> 0%R) -> (0 < sigma)%R -> (0 < good)%R ->
  start p point sigma = Ok s0 -> history stuck eig p l s0 good = Ok (s', good') -> (0 < s_sigma s')%R /\ symmetric (sym (s_C s')) /\ positive_definite (p_n p) (sym (s_C s')).
Proof.
  intros stuck eig p l point sigma s0 good s' good' Hc Hh Hu Hi Hs Hg E0 E. assert (Hn : 1 <= p_n p) by (destruct Hu; auto). destruct (start_ok _ _ _ _ Hn Hi E0) as (H1 & _ & _ & H2 & _).
  destruct (history_ok stuck eig p Hc Hh Hu l s0 good s' good') as (_ & A & B); auto; [rewrite H2; auto|]. split; [auto|]. split; [apply sym_symmetric|auto].
Qed.
(** the new mean is between the parents, in each coordinate *)
Theorem C184_mean : forall stuck p s pop best worst s' i lo hi, usable (p_n p) (p_mu p) (p_weights p) (p_mucov p) (p_ccov p) (p_ccumcov p) -> reestimate stuck p s pop best worst = Ok s' ->
  (forall x, In x pop -> lo <= nth i x 0 <= hi)%R -> (lo <= s_mean s' i <= hi)%R.
Proof. intros stuck p s pop best worst s' i lo hi Hu E H. destruct (reestimate_mean _ _ _ _ _ _ _ E) as (Hl & _ & ->). eapply recombined_between; eauto. Qed.
(** the new mean, exactly *)
Theorem C184_weighted_mean : forall stuck p s pop best worst s' i, usable (p_n p) (p_mu p) (p_weights p) (p_mucov p) (p_ccov p) (p_ccumcov p) -> reestimate stuck p s pop best worst = Ok s' ->
  s_mean s' i = total (map (fun wx => fst wx * nth i (snd wx) 0)%R (combine (p_weights p) pop)) /\ s_gen s' = S (s_gen s).
Proof.
  intros stuck p s pop best worst s' i (_ & Hw & _) E. destruct (reestimate_mean _ _ _ _ _ _ _ E) as (Hl & _ & ->). split; [|unfold reestimate in E; destruct (negb _); [discriminate|]; destruct (_ || _); [discriminate|]; injection E as <-; reflexivity].
  unfold recombined. rewrite <- vsum_total. unfold vsum. rewrite map_length, combine_length, Hw, <- Hl, Nat.min_id. apply sum_to_ext. intros j Hj.
  rewrite (nth_indep (map (fun wx : R * list R => fst wx * nth i (snd wx) 0)%R (combine (p_weights p) pop)) 0%R ((fun wx : R * list R => fst wx * nth i (snd wx) 0)%R (0%R, []))) by (rewrite map_length, combine_length; lia).
  rewrite (map_nth (fun wx : R * list R => fst wx * nth i (snd wx) 0)%R (combine (p_weights p) pop) (0%R, []) j). rewrite combine_nth by lia. reflexivity.
Qed.
(** a successful updateEigenSystem: the eigen system of the (shifted) covariance, positive, of bounded condition; nothing else changes *)
Theorem C184_eigen_system : forall eig p t m s good b s' good', eig_correct eig -> eig_honest eig -> 1 <= p_n p -> (0 < good)%R -> positive_definite (p_n p) (sym (s_C s)) ->
  update_eigen eig p t m s good = (b, s', good') ->
  s_pc s' = s_pc s /\ s_ps s' = s_ps s /\ s_mean s' = s_mean s /\ s_sigma s' = s_sigma s /\ s_gen s' = s_gen s /\ s_hist s' = s_hist s /\
  (exists k, (0 <= k)%R /\ forall i j, sym (s_C s') i j = (sym (s_C s) i j + (if i =? j then k else 0))%R) /\
  (b = true -> eigen_system (p_n p) (sym (s_C s')) (fun i => s_d s' i * s_d s' i)%R (s_B s') /\ (forall i, i < p_n p -> (0 < s_d s' i)%R) /\
    forall i j, i < p_n p -> j < p_n p -> (s_d s' i * s_d s' i <= (2 ^ 52 + 1) * (s_d s' j * s_d s' j))%R).
Proof.
  intros eig p t m s good b s' good' Hc Hh Hn Hg HP E. destruct (update_ok _ _ _ _ _ _ _ _ _ Hc Hh Hn Hg HP E) as (_ & _ & (U1 & U2 & U3 & U4 & U5 & U6) & (k & Hk & Hs) & Hb).
  do 6 (split; [assumption|]). split.
  - exists k. split; auto. intros i j. rewrite Hs. unfold identity. destruct (i =? j); ring.
  - intros Eb. destruct (Hb Eb) as (B1 & B2 & B3). split; [auto|]. split; [auto|]. unfold epsilon in B3. rewrite Rinv_inv in B3. exact B3.
Qed.
(** the iterations: less than the limit in all, and the algorithm is through and reports their number *)
Theorem C184_iterations : forall maxIter needs, list_sum needs < maxIter -> ql_count maxIter needs 0 = (list_sum needs, true).
Proof. intros maxIter needs H. apply (ql_complete maxIter needs 0). exact H. Qed.
(** a sample is the mean plus sigma A z with A A^T = C and z the normal draws; exactly n draws are used *)
Theorem C184_sample : forall p s zs v zs', eigen_system (p_n p) (sym (s_C s)) (fun i => s_d s i * s_d s i)%R (s_B s) -> sample p s zs = Ok (v, zs') ->
  exists A : mat, (forall i j, i < p_n p -> j < p_n p -> sum_over (p_n p) (fun k => A i k * A j k)%R = sym (s_C s) i j) /\ length v = p_n p /\
    (forall i, i < p_n p -> nth i v 0%R = (s_mean s i + s_sigma s * sum_over (p_n p) (fun j => A i j * nth j zs 0))%R) /\ length zs = p_n p + length zs' /\ zs = firstn (p_n p) zs ++ zs'.
Proof.
  intros p s zs v zs' He E. destruct (sample_ok _ _ _ _ _ E) as (Hz & Hl & Hlv & Hv). exists (fun i k => s_B s i k * s_d s k)%R. split; [intros; apply factor_ok; auto|].
  split; [auto|]. split; [auto|]. split; [rewrite Hz at 1; rewrite app_length, firstn_length; lia|auto].
Qed.
(** the path of the step size: the square root Q of the covariance takes the new direction w to the move of the mean *)
Theorem C184_path : forall stuck p s pop best worst s', 1 <= p_n p -> eigen_system (p_n p) (sym (s_C s)) (fun i => s_d s i * s_d s i)%R (s_B s) ->
  (forall k, k < p_n p -> s_d s k <> 0%R) -> reestimate stuck p s pop best worst = Ok s' ->
  exists (Q : mat) (w : vec) (f : R), symmetric Q /\ (forall i j, i < p_n p -> j < p_n p -> sum_over (p_n p) (fun k => Q i k * Q k j)%R = sym (s_C s) i j) /\
    (forall i, i < p_n p -> sum_over (p_n p) (fun j => Q i j * w j)%R = (sqrt (p_mueff p) * (s_mean s' i - s_mean s i) / s_sigma s)%R) /\
    (forall i, s_ps s' i = (f * ((1 - p_ccumsig p) * s_ps s i + sqrt (p_ccumsig p * (2 - p_ccumsig p)) * w i))%R) /\ (0 < f <= 1)%R /\ (s_gen s < 3 -> f = 1%R).
Proof. exact path_ok. Qed.
(** without numerical issue the step size grows exactly when the path is longer than the expected length of a normal vector *)
Theorem C184_step_size : forall p s pop best worst s', 1 <= p_n p -> (0 < p_damp p)%R -> (0 < s_sigma s)%R -> best <> worst -> (forall i, i < p_n p -> p_min p i = 0%R) ->
  reestimate (fun _ _ => false) p s pop best worst = Ok s' ->
  let len := sqrt (sum_over (p_n p) (fun i => s_ps s' i * s_ps s' i)%R) in
  let expected := (sqrt (INR (p_n p)) * (1 - 1 / (4 * INR (p_n p)) + 1 / (21 * INR (p_n p) * INR (p_n p))))%R in
  ((s_sigma s < s_sigma s' <-> expected < len) /\ (s_sigma s' < s_sigma s <-> len < expected))%R.
Proof.
  intros p s pop best worst s' Hn Hd Hs Hb Hm E len expected. pose proof (step_ok _ _ _ _ _ _ Hn Hd Hs Hb Hm E) as Es. fold len in Es. change (chi (p_n p)) with expected in Es. rewrite Es.
  apply step_sign; auto. apply (chi_pos _ Hn).
Qed.
(** moving the mean and the parents moves the new mean and changes nothing else *)
Theorem C184_translation : forall p t s s' pop pop' best worst s1, usable (p_n p) (p_mu p) (p_weights p) (p_mucov p) (p_ccov p) (p_ccumcov p) ->
  moved (p_n p) t s s' -> Forall2 (moved_parent (p_n p) t) pop pop' -> reestimate (fun _ _ => false) p s pop best worst = Ok s1 ->
  exists s1', reestimate (fun _ _ => false) p s' pop' best worst = Ok s1' /\ moved (p_n p) t s1 s1'.
Proof. exact translation_ok. Qed.
(** only the order of the fitnesses counts: any strictly monotone change of the fitnesses, of either direction, gives the same distribution *)
Theorem C184_fitness_order : forall stuck p g s pop best worst s1, strictly_monotone g -> length (s_hist s) = 3 -> reestimate stuck p s pop best worst = Ok s1 ->
  exists s1', reestimate stuck p (State (s_C s) (s_B s) (s_d s) (s_pc s) (s_ps s) (s_mean s) (s_sigma s) (s_gen s) (map g (s_hist s))) pop (g best) (g worst) = Ok s1' /\
    s_C s1' = s_C s1 /\ s_B s1' = s_B s1 /\ s_d s1' = s_d s1 /\ s_pc s1' = s_pc s1 /\ s_ps s1' = s_ps s1 /\ s_mean s1' = s_mean s1 /\ s_sigma s1' = s_sigma s1 /\ s_gen s1' = s_gen s1 /\
    s_hist s1' = map g (s_hist s1).
Proof. intros stuck p g s pop best worst s1 Hg Hl E. exists (relabel g s1). split; [exact (relabel_ok stuck p g s pop best worst s1 Hg Hl E)|]. repeat split. Qed.
Lemma last_indep {T} (l : list T) a b : l <> [] -> last l a = last l b.
Proof. induction l as [|x l IH]; intros H; [congruence|]. destruct l as [|y l]; [reflexivity|]. apply IH. discriminate. Qed.
(** the breeder: lambda unevaluated offspring drawn from the updated distribution with n normal numbers each *)
Theorem C184_breed : forall eig stuck F (value : F -> R) sort p lambda s good parents zs l s' good' zs', (forall x, Permutation (sort x) x) ->
  cma_breed eig stuck F value sort p lambda s good parents zs = Ok (l, s', good', zs') ->
  length l = lambda /\ length zs = lambda * p_n p + length zs' /\ Forall (fun x => fit x = None /\ length (geno x) = p_n p) l /\ length parents = p_mu p /\
  (forall j x, nth_error l j = Some x -> forall i, i < p_n p -> nth i (geno x) 0%R = (s_mean s' i + s_sigma s' * sum_over (p_n p) (fun a => s_B s' i a * s_d s' a * nth (j * p_n p + a) zs 0))%R) /\
  exists b w s1 ok, fit (hd (Ind [] None) (sort parents)) = Some b /\ fit (last (sort parents) (Ind [] None)) = Some w /\
    reestimate stuck p s (map geno (sort parents)) (value b) (value w) = Ok s1 /\ update_eigen eig p 10 0 s1 good = (ok, s', good').
Proof.
  intros eig stuck F value sort p lambda s good parents zs l s' good' zs' Hsort E. unfold cma_breed in E. destruct (sort parents) as [|x r] eqn:Es; [discriminate|].
  destruct (fit x) as [b|] eqn:Eb; [|discriminate]. destruct (fit (last (x :: r) x)) as [w|] eqn:Ew; [|discriminate]. apply rbind_ok in E. destruct E as (s1 & E1 & E).
  destruct (update_eigen eig p 10 0 s1 good) as [[ok s2] g2] eqn:Eu. apply rbind_ok in E. destruct E as ([l1 z1] & E2 & E). injection E as <- <- <- <-.
  destruct (samples_ok _ _ _ _ _ _ _ E2) as (H1 & H2 & H3 & H4). split; [auto|]. split; [auto|]. split; [auto|]. split; [|split; [auto|]].
  - destruct (reestimate_mean _ _ _ _ _ _ _ E1) as (Hl & _). rewrite map_length in Hl. rewrite <- Hl, <- Es. symmetry. apply Permutation_length, Hsort.
  - exists b, w, s1, ok. split; [exact Eb|]. split; [|split; auto]. rewrite (last_indep (x :: r) _ x) by discriminate. exact Ew.
Qed.
(** an eigen solver for one dimension, that gives up in any other *)
Definition eig1 (maxIter n : nat) (M : mat) : list nat * vec * mat := (if n =? 1 then [0] else [maxIter; 1], fun i => M i i, diag (fun _ => 1%R)).
Lemma eig1_correct : eig_correct eig1.
Proof.
  intros maxIter n M needs d B _ E H. unfold eig1 in E. injection E as <- <- <-. destruct (Nat.eqb_spec n 1) as [->|Hn].
  - split; [split|]; intros i j Hi Hj; replace i with 0 by lia; replace j with 0 by lia; unfold sum_over, diag, identity; cbn; ring.
  - exfalso. cbn [ql_count] in H. destruct (Nat.ltb_spec 0 maxIter); [|discriminate]. destruct (Nat.ltb_spec maxIter (0 + maxIter)); [discriminate|]. cbn [plus] in H. rewrite Nat.ltb_irrefl in H. discriminate.
Qed.
Lemma eig1_honest : eig_honest eig1.
Proof.
  intros maxIter n M needs d B E H. unfold eig1 in E. injection E as <- <- <-. destruct (Nat.eqb_spec n 1) as [->|Hn]; cbn [ql_count] in *; destruct (Nat.ltb_spec 0 maxIter); cbn [fst snd] in *; try lia.
  - destruct (Nat.ltb_spec maxIter (0 + 0)); [lia|reflexivity].
  - destruct (Nat.ltb_spec maxIter (0 + maxIter)); [lia|]. cbn [plus] in *. rewrite Nat.ltb_irrefl in *. cbn [fst] in H. lia.
Qed.
(** one dimension: two parents, then the eigen system, then two unevaluated offspring *)
Lemma p1_usable : usable (p_n p1) (p_mu p1) (p_weights p1) (p_mucov p1) (p_ccov p1) (p_ccumcov p1).
Proof. apply C183_usable; [lia|left; reflexivity|]. rewrite mu_1. reflexivity. Qed.
Lemma p1_weights : length (p_weights p1) = 2 /\ p_mu p1 = 2.
Proof. destruct p1_usable as (_ & H & _). destruct C183_case as (_ & Hm & _). rewrite H. auto. Qed.
Example C184_case : exists s0 s' good' l, start p1 [5%R] 1%R = Ok s0 /\ history (fun _ _ => false) eig1 p1 [Learn [[1%R]; [2%R]] 7%R 3%R; Decompose 10 0] s0 1%R = Ok (s', good') /\
  (0 < s_sigma s')%R /\ positive_definite 1 (sym (s_C s')) /\ (1 <= s_mean s' 0%nat <= 2)%R /\ s_gen s' = 1 /\ samples R p1 s' 2 [1%R; (-1)%R] = Ok (l, []) /\ length l = 2.
Proof.
  assert (Hi : forall i, i < p_n p1 -> p_init p1 i <> 0%R). { intros i Hi. change (p_n p1) with 1 in Hi. replace i with 0 by lia. destruct C183_case as (_ & _ & _ & _ & _ & -> & _). lra. }
  destruct (start p1 [5%R] 1%R) as [s0| | |] eqn:E0; try discriminate. destruct p1_weights as [Hw Hm].
  assert (E1 : exists s1, reestimate (fun _ _ => false) p1 s0 [[1%R]; [2%R]] 7%R 3%R = Ok s1). { rewrite reestimate_eq, Hw, Hm. cbn [length Nat.eqb negb Nat.ltb Nat.leb orb existsb p_n p1 cma_params]. eexists. reflexivity. }
  destruct E1 as (s1 & E1). destruct (update_eigen eig1 p1 10 0 s1 1%R) as [[b s2] g2] eqn:E2.
  assert (Eh : history (fun _ _ => false) eig1 p1 [Learn [[1%R]; [2%R]] 7%R 3%R; Decompose 10 0] s0 1%R = Ok (s2, g2)) by (cbn [history]; rewrite E1; cbn [rbind]; rewrite E2; reflexivity).
  destruct (C184_positive_definite (fun _ _ => false) eig1 p1 _ _ _ _ _ _ _ eig1_correct eig1_honest p1_usable Hi Rlt_0_1 Rlt_0_1 E0 Eh) as (H1 & _ & H2).
  destruct (start_ok p1 [5%R] 1%R s0) as (P0 & _ & _ & S0 & _ & G0); auto.
  destruct (reestimate_ok _ _ _ _ _ _ _ p1_usable ltac:(rewrite S0; lra) P0 E1) as (_ & P1).
  assert (Hn1 : 1 <= p_n p1) by (change (p_n p1) with 1; lia).
  destruct (C184_eigen_system _ _ _ _ _ _ _ _ _ eig1_correct eig1_honest Hn1 Rlt_0_1 P1 E2) as (_ & _ & Em & _ & Eg & _).
  assert (Es : exists l, samples R p1 s2 2 [1%R; (-1)%R] = Ok (l, [])) by (eexists; reflexivity). destruct Es as (l & Es).
  exists s0, s2, g2, l. split; [reflexivity|]. split; [exact Eh|]. split; [auto|]. split; [auto|]. split.
  - rewrite Em. apply (C184_mean _ _ _ _ _ _ _ 0 1 2 p1_usable E1). intros x [<-|[<-|[]]]; cbn; lra.
  - split; [|split; [auto|]]; [|apply (samples_ok _ _ _ _ _ _ _ Es)]. rewrite Eg. destruct (C184_weighted_mean _ _ _ _ _ _ _ 0 p1_usable E1) as [_ ->]. rewrite G0. reflexivity.
Qed.
Example C184_iterations_case : ql_count 30 [3; 2; 0; 1] 0 = (6, true).
Proof. reflexivity. Qed.

(** ** C185: what the documentation says and the code does not do *)
(** "1 = equal, 2 = linear": it is the other way round *)
Theorem C185_weighting_names_refuted : p_weights (cma_params 1 1000 None None 1 [0%R] [1%R]) = [(2 / 3)%R; (1 / 3)%R] /\ p_weights (cma_params 1 1000 None None 2 [0%R] [1%R]) = [(1 / 2)%R; (1 / 2)%R].
Proof.
  unfold cma_params. cbn [p_weights]. rewrite lambda_1, mu_1. cbn [Nat.ltb Nat.leb raw_weights seq map]. rewrite !usub_exact by (cbn; lia). unfold normalised, vsum. cbn.
  split; f_equal; try f_equal; field.
Qed.
(** the option mu, above the default: the weights are read past their end *)
Theorem C185_more_parents_refuted : forall stuck s x y z best worst, let p := cma_params 1 1000 None (Some 3) 0 [0%R] [1%R] in
  p_mu p = 3 /\ length (p_weights p) = 2 /\ reestimate stuck p s [[x]; [y]; [z]] best worst = UB.
Proof.
  intros stuck s x y z best worst p. assert (H1 : p_mu p = 3) by (unfold p, cma_params; cbn [p_mu]; rewrite lambda_1; reflexivity).
  assert (H2 : length (p_weights p) = 2) by (unfold p, cma_params; cbn [p_weights]; rewrite mu_1; reflexivity). split; [auto|]. split; [auto|]. rewrite reestimate_eq, H1, H2. reflexivity.
Qed.
(** the option mu, below the default: the weights of the parents do not sum to 1 and the mean leaves the parents *)
Theorem C185_fewer_parents_refuted : forall stuck s x best worst, let p := cma_params 1 1000 None (Some 1) 2 [0%R] [1%R] in
  p_mu p = 1 /\ exists s', reestimate stuck p s [[x]] best worst = Ok s' /\ s_mean s' 0 = (x / 2)%R.
Proof.
  intros stuck s x best worst p. assert (H1 : p_mu p = 1) by (unfold p, cma_params; cbn [p_mu]; rewrite lambda_1; reflexivity).
  assert (H2 : p_weights p = [(1 / 2)%R; (1 / 2)%R]) by (unfold p, cma_params; cbn [p_weights]; rewrite mu_1; cbn; unfold normalised, vsum; cbn; f_equal; [field|f_equal; field]).
  split; [auto|]. rewrite reestimate_eq, H1, H2. cbn [length Nat.eqb negb Nat.ltb Nat.leb orb existsb p_n p cma_params]. eexists. split; [reflexivity|].
  unfold bump, treat, l_next. cbn [s_mean]. unfold recombined. rewrite H2. cbn. field.
Qed.
(** the eigenvalue algorithm stopped in the middle of an index reports less iterations than allowed: the call succeeds with an unfinished system *)
Theorem C185_unfinished_success_refuted : forall eig p t m s good k r d B, 1 <= p_n p -> eig (if m =? 0 then 30 * p_n p else m) (p_n p) (sym (s_C s)) = (k :: r, d, B) ->
  (if m =? 0 then 30 * p_n p else m) < k -> exists s' good', update_eigen eig p (S t) m s good = (true, s', good') /\ s_B s' = B.
Proof.
  intros eig p t m s good k r d B Hn E Hk. unfold update_eigen. set (M := if m =? 0 then 30 * p_n p else m) in *. assert (HM : 0 < M) by (unfold M; destruct (Nat.eqb_spec m 0); lia).
  cbn [tries_loop]. rewrite E. cbn [ql_count plus]. destruct (Nat.ltb_spec 0 M); [|lia]. destruct (Nat.ltb_spec M k); [|lia]. destruct (Nat.ltb_spec (M - 1) M); [|lia]. eexists _, _. split; reflexivity.
Qed.
Example C185_unfinished_case : exists s, start p1 [5%R] 1%R = Ok s /\ exists s' good', update_eigen (fun m _ _ => ([S m], fun _ => 0%R, fun _ _ => 7%R)) p1 10 0 s 1%R = (true, s', good') /\ s_B s' 0 0 = 7%R.
Proof.
  eexists. split; [reflexivity|].
  edestruct (C185_unfinished_success_refuted (fun m _ _ => ([S m], fun _ => 0%R, fun _ _ => 7%R)) p1 9 0) as (s' & g' & E & EB); [cbn; lia|reflexivity|cbn; lia|]. exists s', g'. split; [exact E|]. rewrite EB. reflexivity.
Qed.
(** a run that ends with exactly the iterations allowed is reported as a failure, and leaves the eigenvalues where their square roots are expected *)
Theorem C185_failure_spoils_refuted : exists eig, eig_correct eig /\ forall s good, exists s' good', update_eigen eig p1 1 0 s good = (false, s', good') /\
  s_d s' 0 = s_C s 0 0 /\ s_B s' 0 0 = 1%R.
Proof.
  exists (fun maxIter n M => (if n =? 1 then [maxIter] else [S maxIter], fun i => M i i, diag (fun _ => 1%R))). split.
  - intros maxIter n M needs d B _ E H. injection E as <- <- <-. destruct (Nat.eqb_spec n 1) as [->|Hn].
    + split; [split|]; intros i j Hi Hj; replace i with 0 by lia; replace j with 0 by lia; unfold sum_over, diag, identity; cbn; ring.
    + exfalso. cbn [ql_count] in H. destruct (Nat.ltb_spec 0 maxIter); [|discriminate]. destruct (Nat.ltb_spec maxIter (0 + S maxIter)); [discriminate|lia].
  - intros s good. eexists _, _. split; [reflexivity|]. split; reflexivity.
Qed.
(** "minimum stdevs": a coordinate can stay below its minimum *)
Theorem C185_minimum_refuted : forall p s best worst, 1 <= p_n p -> best <> worst -> exists m, let p' := Params (p_n p) (p_maxgen p) (p_lambda p) (p_mu p) (p_weights p) (p_mueff p) (p_mucov p) (p_damp p)
    (p_ccumsig p) (p_ccumcov p) (p_ccov p) (fun _ => m) (p_init p) in
  let s' := treat (fun _ _ => false) p' s best worst in (s_sigma s' * sqrt (s_C s' 0%nat 0%nat) < m)%R.
Proof.
  intros p s best worst Hn Hb. set (e := exp (5 / 100 + 1 / p_damp p)). exists (Rabs (s_sigma s * e * sqrt (s_C s 0%nat 0%nat)) + Rabs (s_sigma s * sqrt (s_C s 0%nat 0%nat)) + 1)%R. cbv zeta.
  unfold treat. cbn [s_sigma s_C p_n p_min p_damp]. rewrite calm_axes by exact Hn. rewrite existsb_const, andb_false_r. destruct (Req_EM_T best worst); [contradiction|].
  pose proof (Rle_abs (s_sigma s * e * sqrt (s_C s 0%nat 0%nat))) as H1. pose proof (Rle_abs (s_sigma s * sqrt (s_C s 0%nat 0%nat))) as H2. pose proof (Rabs_pos (s_sigma s * e * sqrt (s_C s 0%nat 0%nat))). pose proof (Rabs_pos (s_sigma s * sqrt (s_C s 0%nat 0%nat))).
  destruct (too_narrow _ _ _); fold e; lra.
Qed.
Print Assumptions C183_weights.
Print Assumptions C183_rates.
Print Assumptions C183_sizes.
Print Assumptions C183_stdevs.
Print Assumptions C183_usable.
Print Assumptions C184_storage.
Print Assumptions C184_square_storage.
Print Assumptions C184_start.
Print Assumptions C184_positive_definite.
Print Assumptions C184_mean.
Print Assumptions C184_weighted_mean.
Print Assumptions C184_eigen_system.
Print Assumptions C184_iterations.
Print Assumptions C184_sample.
Print Assumptions C184_path.
Print Assumptions C184_step_size.
Print Assumptions C184_translation.
Print Assumptions C184_fitness_order.
Print Assumptions C184_breed.
Print Assumptions C185_weighting_names_refuted.
Print Assumptions C185_more_parents_refuted.
Print Assumptions C185_fewer_parents_refuted.
Print Assumptions C185_unfinished_success_refuted.
Print Assumptions C185_failure_spoils_refuted.
Print Assumptions C185_minimum_refuted.
(** the path of the covariance: the move of the mean is added to it, except in the first generation and when the path of the step size is long *)
Theorem C184_covariance_path : forall stuck p s pop best worst s', reestimate stuck p s pop best worst = Ok s' ->
  exists h : bool, (forall i, s_pc s' i = (1 - p_ccumcov p) * s_pc s i + (if h then sqrt (p_ccumcov p * (2 - p_ccumcov p)) * (sqrt (p_mueff p) * (s_mean s' i - s_mean s i) / s_sigma s) else 0))%R /\
    (s_gen s = 0 -> h = false) /\
    (0 < s_gen s < 3 -> (h = true <->
      sqrt (sum_over (p_n p) (fun i => s_ps s' i * s_ps s' i)%R) / sqrt (1 - (1 - p_ccumsig p) ^ (2 * s_gen s)) /
        (sqrt (INR (p_n p)) * (1 - 1 / (4 * INR (p_n p)) + 1 / (21 * INR (p_n p) * INR (p_n p)))) < 15 / 10 + 1 / (INR (p_n p) - 5 / 10))%R).
Proof.
  intros stuck p s pop best worst s' E. unfold reestimate in E. destruct (negb _); [discriminate|]. destruct (_ || _); [discriminate|].
  cbv zeta in E. match type of E with context [hsig_of p (s_gen s) ?x] => exists (hsig_of p (s_gen s) x) end.
  destruct (Nat.leb_spec 3 (s_gen s)) as [G3|G3]; cbn [andb] in E; injection E as <-; cbn [s_pc s_mean s_ps treat]; (split; [|split]).
  - intros i. match goal with |- context [hsig_of ?a ?b ?c] => destruct (hsig_of a b c) end; ring.
  - intros G. lia.
  - intros G. lia.
  - intros i. match goal with |- context [hsig_of ?a ?b ?c] => destruct (hsig_of a b c) end; ring.
  - intros G. unfold hsig_of. rewrite G. reflexivity.
  - intros G. rewrite sum_over_to. unfold hsig_of. destruct (Nat.eqb_spec (s_gen s) 0); [lia|].
    fold (chi (p_n p)). destruct (Rlt_dec _ _) as [L|L]; (split; [intros Ht|intros K]).
    + exact L.
    + reflexivity.
    + discriminate.
    + exfalso. apply L. exact K.
Qed.
Print Assumptions C184_covariance_path.
