(** Properties C188 and C189: the adaptive normal distribution of the EDO module, as in CMA-ES. *)
From Coq Require Import List Arith ZArith Bool Reals Lia Lra Psatz.
From Verif Require Import Lib Outcome BreedModel CmaModel CmaSpec CmaProofs CmaState CmaMore NadModel NadSpec NadProofs NadRun NadMore NadTwo.
From Coq Require Import List.
Import ListNotations.
Open Scope nat_scope.

(** an eigen solver for the examples: exact in dimension 1 *)
Definition solver1 (n : nat) (M : mat) : bool * vec * mat := (true, fun k => M k k, diag (fun _ => 1%R)).
Lemma solver1_solves : solves 1 solver1.
Proof.
  intros M _. exists (fun k => M k k), (diag (fun _ => 1%R)). split; [reflexivity|]. split; [apply orthogonal_identity|]. intros i j Hi Hj.
  replace i with 0 by lia. replace j with 0 by lia. unfold sum_over. cbn. lra.
Qed.

(** the weights of the ranked population: positive, strictly decreasing with the rank, of sum 1, in proportion of ln(lambda+1/2) - ln(rank);
    the effective size lies between 1 and the size of the population *)
Theorem C188_weights (lambda : nat) : 1 <= lambda ->
  let w := nad_weights lambda in
  length w = lambda /\ Forall (fun x => 0 < x)%R w /\ total w = 1%R /\ (forall i j x y, i < j -> nth_error w i = Some x -> nth_error w j = Some y -> (y < x)%R) /\
  (exists s, 0 < s /\ forall i, (i < lambda)%nat -> nth_error w i = Some ((ln (INR lambda + 1 / 2) - ln (INR (S i))) / s))%R /\
  (1 <= mueff_of w <= INR lambda)%R /\ (mueff_of w * total (map (fun x => x * x) w) = 1)%R.
Proof.
  intros H w. destruct (weights_ok lambda H) as (H1 & H2 & H3 & H4). split; [exact H1|]. split; [exact H2|]. split; [exact H3|]. split; [exact H4|]. split; [|split; [apply mueff_ok; auto|]].
  - exists (total (raw lambda)). split; [apply total_pos; [apply raw_nonempty; auto|apply raw_pos]|]. intros i Hi. unfold w, nad_weights, normalised. fold (raw lambda). rewrite vsum_total.
    rewrite nth_error_map. unfold raw at 2. rewrite nth_error_map, nth_error_seq' by auto. cbn [option_map plus]. f_equal. f_equal. replace (5 / 10)%R with (1 / 2)%R by lra. replace (i + 1) with (S i) by lia. reflexivity.
  - unfold mueff_of. rewrite !vsum_total. fold w in H3. rewrite H3. field. intros E. destruct (mueff_ok lambda H) as [Hm _]. fold w in Hm. unfold mueff_of in Hm. rewrite !vsum_total, E, H3 in Hm. unfold Rdiv in Hm. rewrite Rinv_0 in Hm. lra.
Qed.
Example C188_weights_ex : 1 <= 6.
Proof. lia. Qed.

(** the constants are those of the published algorithm (but for the expected length of a normal vector, see C189), and in their range *)
Theorem C188_constants (n : nat) (m : R) : 1 <= n -> (1 <= m)%R ->
  let N := INR n in
  (cc_of n m * (N * N + 4 * N + 2 * m) = 4 * N + m /\ cs_of n m * (N + m + 5) = m + 2 /\ c1_of n m * ((N + 13 / 10) * (N + 13 / 10) + m) = 2 /\
   cmu_of n m * m * ((N + 2) * (N + 2) + m) = 2 * (m - 1) * (m - 1) /\ damps_of n m = 1 + 2 * Rmax 0 (sqrt ((m - 1) / (N + 1)) - 1) + cs_of n m /\
   0 < cc_of n m < 1 /\ 0 < cs_of n m < 1 /\ 0 < c1_of n m < 1 / 3 /\ 0 <= cmu_of n m < 2 /\ 1 < damps_of n m /\ 0 < nad_chi n)%R.
Proof.
  intros Hn Hm N. pose proof (cc_range n m Hn Hm) as R1. pose proof (cs_range n m Hm) as R2. pose proof (c1_range n m Hn Hm) as R3. pose proof (cmu_range n m Hn Hm) as R4. pose proof (damps_ok n m Hm) as R5. pose proof (nad_chi_pos n Hn) as R6.
  pose proof (sqrt_pos (INR n)). apply INR_1 in Hn. fold N in Hn.
  split; [unfold cc_of; fold N; field; repeat split; nra|]. split; [unfold cs_of; fold N; field; lra|]. split; [unfold c1_of; fold N; field; nra|]. split; [unfold cmu_of; fold N; field; repeat split; nra|].
  split; [reflexivity|]. repeat split; try apply R1; try apply R2; try apply R3; try apply R4; auto; lra.
Qed.
Example C188_constants_ex : 1 <= 3 /\ (1 <= 2)%R.
Proof. split; [lia|lra]. Qed.

(** an update goes through on any population of points of the right dimension; one on no point, or on points of another dimension, does not *)
Theorem C188_accepts (solver : nat -> mat -> bool * vec * mat) (d : distr) (c : counters) (pop : list (list R)) :
  (pop <> [] -> Forall (fun x => length x = d_n d) pop -> exists d' c', nad_update solver d c pop = Ok (d', c') /\ d_n d' = d_n d /\ c_calls c' = S (c_calls c)) /\
  (pop = [] -> nad_update solver d c pop = UB) /\ (forall x r, pop = x :: r -> length x <> d_n d -> nad_update solver d c pop = Throw).
Proof.
  split; [|split].
  - intros H1 H2. destruct (update_total solver d c pop H1 H2) as (d' & c' & E). exists d', c'. split; [exact E|]. apply update_shape in E. destruct E as (_ & _ & En & _ & _ & _ & _ & Ec & _). auto.
  - intros ->. reflexivity.
  - intros x r -> H. unfold nad_update. destruct (Nat.eqb_spec (d_n d) (length x)); [congruence|]. reflexivity.
Qed.
Example C188_accepts_ex : [[1%R; 2%R]; [3%R; 4%R]] <> [] /\ Forall (fun x => length x = d_n (new_distr 2)) [[1%R; 2%R]; [3%R; 4%R]].
Proof. split; [discriminate|]. repeat constructor. Qed.

(** the new mean is the weighted average of the population: in each coordinate it stays between the bounds of the points *)
Theorem C188_mean (solver : nat -> mat -> bool * vec * mat) (d d' : distr) (c c' : counters) (pop : list (list R)) (i : nat) (lo hi : R) :
  nad_update solver d c pop = Ok (d', c') -> i < d_n d ->
  d_mean d' i = sum_over (length pop) (fun j => nth j (nad_weights (length pop)) 0 * nth i (nth j pop []) 0)%R /\
  ((forall x, In x pop -> lo <= nth i x 0 <= hi)%R -> (lo <= d_mean d' i <= hi)%R).
Proof.
  intros E _. apply update_shape in E. destruct E as (Hp & _ & _ & Em & _). rewrite Em. split.
  - rewrite sum_over_to. apply sum_to_ext. intros j _. unfold at_. ring.
  - intros H. apply nad_mean_between; auto.
Qed.

(** what the update learns: the two paths, the rank-one and rank-mu terms of the covariance, the step size; [h] is 0 when the step-size path is
    too long and 1 otherwise *)
Theorem C188_learning (solver : nat -> mat -> bool * vec * mat) (d d' : distr) (c c' : counters) (pop : list (list R)) :
  nad_update solver d c pop = Ok (d', c') ->
  let n := d_n d in let w := nad_weights (length pop) in let m := mueff_of w in
  let cs := cs_of n m in let cc := cc_of n m in let c1 := c1_of n m in let cmu := cmu_of n m in
  let y := fun i => ((d_mean d' i - d_mean d i) / d_sigma d)%R in
  let len := sqrt (sum_over n (fun i => d_ps d' i * d_ps d' i)%R) in
  exists h, (h = 0 \/ h = 1)%R /\ (h = 1%R <-> len / sqrt (1 - (1 - cs) ^ (2 * c_calls c')) / nad_chi n < 14 / 10 + 2 / (INR n + 1))%R /\
  (forall i, d_ps d' i = (1 - cs) * d_ps d i + sqrt (cs * (2 - cs) * m) * sum_over n (fun j => sum_over n (fun k => d_B d i k * / d_D d k * d_B d j k) * y j))%R /\
  (forall i, d_pc d' i = (1 - cc) * d_pc d i + h * sqrt (cc * (2 - cc) * m) * y i)%R /\
  (forall i j, d_C d' i j = (1 - c1 - cmu + c1 * (1 - h) * cc * (2 - cc)) * d_C d i j + c1 * d_pc d' i * d_pc d' j
     + cmu * sum_over (length pop) (fun k => nth k w 0 * ((nth i (nth k pop []) 0 - d_mean d i) / d_sigma d) * ((nth j (nth k pop []) 0 - d_mean d j) / d_sigma d)))%R /\
  d_sigma d' = (d_sigma d * exp (cs / damps_of n m * (len / nad_chi n - 1)))%R.
Proof.
  intros E. cbv zeta. apply update_shape in E. destruct E as (_ & _ & _ & Em & Eps & (h & Eh & Epc & EC) & Es & Ec & _). exists h. rewrite Ec.
  split; [rewrite Eh; apply hsig_01|]. split.
  { rewrite Eh. unfold nad_hsig, norm. rewrite sum_over_to. destruct (Rlt_dec _ _); split; intros; auto; lra. }
  split; [|split; [|split]].
  - intros i. rewrite Eps. f_equal. unfold Rdiv at 1. rewrite Rmult_assoc. f_equal. rewrite sum_over_to. rewrite Rmult_comm, <- sum_to_scale. apply sum_to_ext. intros j _.
    rewrite sum_over_to, Em. unfold inv_sqrt, Rdiv. ring.
  - intros i. rewrite Epc, Em. unfold Rdiv. ring.
  - intros i j. rewrite EC. unfold nad_covar. rewrite sum_over_to. f_equal; [ring|]. f_equal. apply sum_to_ext. intros k _. unfold at_, Rdiv. ring.
  - rewrite Es. unfold norm. rewrite sum_over_to. reflexivity.
Qed.

(** with at most (n+2)^2/2 points per generation, any number of updates of a new distribution keeps the covariance symmetric and positive
    definite, the coordinate system orthogonal with positive scalings and the step size positive, and never takes the square root of a negative
    number; the same from any distribution in such a state *)
Theorem C188_healthy (solver : nat -> mat -> bool * vec * mat) (n : nat) (pops : list (list (list R))) (d d' : distr) (c c' : counters) :
  solves n solver -> 1 <= n -> d_n d = n -> Forall (fits n) pops ->
  (d = new_distr n \/ (healthy n (d_C d) (d_B d) (d_D d) (d_sigma d) /\ d_nan d = false)) ->
  nad_updates solver d c pops = Ok (d', c') -> d_n d' = n /\ healthy n (d_C d') (d_B d') (d_D d') (d_sigma d') /\ d_nan d' = false.
Proof.
  intros Hs Hn En Hf Hd E. subst n. assert (Hw : well d) by (destruct Hd as [->|Hd]; [apply new_well|exact Hd]).
  destruct (updates_well solver pops d c d' c' Hs Hn Hf Hw E) as [H1 H2]. unfold well in H1. rewrite H2 in H1. tauto.
Qed.
(** such a run never stops on the way *)
Theorem C188_runs (solver : nat -> mat -> bool * vec * mat) (n : nat) (pops : list (list (list R))) (c : counters) :
  Forall (fits n) pops -> exists d' c', nad_updates solver (new_distr n) c pops = Ok (d', c').
Proof. intros H. apply updates_total. eapply Forall_impl; [|exact H]. cbn. intros pop (H1 & H2 & _). auto. Qed.
Example C188_healthy_ex : solves 2 solver2 /\ Forall (fits 2) [[[1%R; 0%R]; [2%R; 7%R]; [5%R; 1%R]]; [[0%R; 0%R]; [1%R; 3%R]]] /\ solves 1 solver1.
Proof. split; [apply solver2_solves|]. split; [repeat constructor; cbn; try discriminate; try lia|apply solver1_solves]. Qed.
(** an update of a new distribution in dimension 2 that decomposes its covariance: the hypotheses of the theorems on single updates *)
Example C188_update_ex : exists d' c', nad_update solver2 (new_distr 2) (Counters 0 0) [[1%R; 0%R]; [2%R; 7%R]; [5%R; 1%R]] = Ok (d', c') /\ c_last c' <> 0 /\
  solves 2 solver2 /\ healthy 2 (d_C (new_distr 2)) (d_B (new_distr 2)) (d_D (new_distr 2)) (d_sigma (new_distr 2)).
Proof.
  destruct (update_total solver2 (new_distr 2) (Counters 0 0) [[1%R; 0%R]; [2%R; 7%R]; [5%R; 1%R]]) as (d' & c' & E); [discriminate|repeat constructor|].
  exists d', c'. split; [exact E|]. split; [|split; [apply solver2_solves|apply (new_well 2)]]. apply update_shape in E. destruct E as (_ & _ & _ & _ & _ & _ & _ & _ & Hd).
  cbn [new_distr d_n length c_calls c_last] in Hd. destruct Hd as [(_ & El & _)|(Ed & _)]; [rewrite El; cbn; lia|]. exfalso.
  destruct (mueff_ok 3 ltac:(lia)) as [Hm Hm3]. set (m := mueff_of (nad_weights 3)) in *. assert (Ht : due 2 3 (1 * 3) 0 m = true); [|congruence].
  apply due_iff; auto; try lia. destruct (cmu_range 2 m ltac:(lia) Hm) as [Hc _].
  assert (H1 : (1 / 10 <= c1_of 2 m)%R). { unfold c1_of. cbn [INR pow] in *. apply frac_ge; nra. }
  replace (INR (1 * 3 - 0)) with 3%R by (cbn; lra). replace (INR 3) with 3%R by (cbn; lra). replace (INR 2) with 2%R by (cbn; lra). lra.
Qed.

(** when the update decomposes the covariance, the sampler's linear map A = B diag(D) has A A^T = C, and the matrix used by the next step-size
    path undoes C *)
Theorem C188_decomposition (solver : nat -> mat -> bool * vec * mat) (d d' : distr) (c c' : counters) (pop : list (list R)) :
  solves (d_n d) solver -> 1 <= d_n d -> fits (d_n d) pop -> healthy (d_n d) (d_C d) (d_B d) (d_D d) (d_sigma d) -> d_nan d = false ->
  nad_update solver d c pop = Ok (d', c') -> c_last c' <> c_last c ->
  let n := d_n d in c_last c' = c_calls c' * length pop /\
  (forall i j, i < n -> j < n -> sum_over n (fun k => (d_B d' i k * d_D d' k) * (d_B d' j k * d_D d' k))%R = d_C d' i j) /\
  whitens n (fun i j => sum_over n (fun k => d_B d' i k * / d_D d' k * d_B d' j k)%R) (d_C d').
Proof.
  intros Hs Hn Hf Hh Hnan E Hl. cbv zeta. pose proof (update_well solver d c pop d' c' Hs Hn Hf (conj Hh Hnan) E) as [(Hsy & Hpd & _) _].
  apply update_shape in E. destruct E as (_ & _ & En & _ & _ & _ & _ & Ec & Hd). rewrite En in *. destruct Hd as [(_ & El & b & e & B & Esol & EB & ED & _)|(_ & El & _)]; [|congruence].
  destruct (Hs _ Hsy) as (e' & B' & E' & He). rewrite Esol in E'. injection E' as -> -> ->. destruct (decomposed_well _ _ _ _ He Hpd) as (HD & _ & Hsq). subst B'.
  assert (HsD : eigen_system (d_n d) (d_C d') (fun k => d_D d' k * d_D d' k)%R (d_B d')).
  { destruct Hsq as [Ho H]. split; auto. intros i j Hi Hj. rewrite (H i j Hi Hj), !sum_over_to. apply sum_to_ext. intros k _. rewrite !ED. reflexivity. }
  split; [rewrite El, Ec; reflexivity|]. split; [intros i j Hi Hj; apply (factor_ok (d_n d) _ (d_D d')); auto|].
  assert (Hw : whitens (d_n d) (inv_sqrt (d_n d) (d_B d') (d_D d')) (d_C d')) by (apply whitens_ok; auto; intros k Hk; rewrite ED; auto).
  assert (Ei : forall i j, sum_over (d_n d) (fun k => d_B d' i k * / d_D d' k * d_B d' j k)%R = inv_sqrt (d_n d) (d_B d') (d_D d') i j) by (intros; apply sum_over_to).
  destruct Hw as [W1 W2]. split; [intros i j Hi Hj; rewrite !Ei; auto|]. intros i j Hi Hj. rewrite <- (W2 i j Hi Hj), !sum_over_to. apply sum_to_ext. intros k _. rewrite !sum_over_to. apply sum_to_ext. intros l _.
  rewrite <- !Ei, !sum_over_to. reflexivity.
Qed.

(** the decomposition is made as soon as the evaluations since the last one exceed lambda / (10 n (c1 + cmu)), and not before *)
Theorem C188_period (solver : nat -> mat -> bool * vec * mat) (d d' : distr) (c c' : counters) (pop : list (list R)) :
  nad_update solver d c pop = Ok (d', c') -> 1 <= d_n d -> c_last c <= c_calls c * length pop -> (Z.of_nat (S (c_calls c) * length pop) < 2 ^ 32)%Z ->
  let m := mueff_of (nad_weights (length pop)) in let since := S (c_calls c) * length pop - c_last c in
  (c_last c' = (S (c_calls c) * length pop)%nat <-> INR (length pop) < 10 * INR (d_n d) * (c1_of (d_n d) m + cmu_of (d_n d) m) * INR since)%R /\
  (c_last c' <> S (c_calls c) * length pop -> c_last c' = c_last c /\ d_B d' = d_B d /\ d_D d' = d_D d).
Proof.
  intros E Hn Hl Hb. cbv zeta. apply update_shape in E. destruct E as (Hp & _ & _ & _ & _ & _ & _ & _ & Hd). assert (H1 : 1 <= length pop) by (destruct pop; [congruence|cbn; lia]).
  destruct (mueff_ok _ H1) as [Hm _]. pose proof (due_iff (d_n d) (length pop) (S (c_calls c)) (c_last c) _ Hn Hm ltac:(lia) Hb) as Hiff.
  destruct Hd as [(Ed & El & _)|(Ed & El & EB & ED & _)].
  - split; [|congruence]. rewrite El. split; intros _; [apply Hiff; exact Ed|reflexivity].
  - split; [|auto]. rewrite El. split; intros H; [lia|]. apply Hiff in H. congruence.
Qed.
Example C188_period_ex : exists d' c', nad_update solver1 (new_distr 1) (Counters 0 0) [[1%R]; [2%R]] = Ok (d', c') /\ c_last (Counters 0 0) <= c_calls (Counters 0 0) * 2.
Proof. destruct (update_total solver1 (new_distr 1) (Counters 0 0) [[1%R]; [2%R]]) as (d' & c' & E); [discriminate|repeat constructor|]. exists d', c'. split; [exact E|cbn; lia]. Qed.

(** the step size grows exactly when the path is longer than the reference length, and shrinks when it is shorter *)
Theorem C188_step (solver : nat -> mat -> bool * vec * mat) (d d' : distr) (c c' : counters) (pop : list (list R)) :
  nad_update solver d c pop = Ok (d', c') -> 1 <= d_n d -> (0 < d_sigma d)%R ->
  let len := sqrt (sum_over (d_n d) (fun i => d_ps d' i * d_ps d' i)%R) in
  (0 < d_sigma d' /\ (d_sigma d < d_sigma d' <-> nad_chi (d_n d) < len) /\ (d_sigma d' < d_sigma d <-> len < nad_chi (d_n d)))%R.
Proof.
  intros E Hn Hs. cbv zeta. apply update_shape in E. destruct E as (Hp & _ & _ & _ & _ & _ & Es & _). assert (H1 : 1 <= length pop) by (destruct pop; [congruence|cbn; lia]).
  destruct (mueff_ok _ H1) as [Hm _]. set (m := mueff_of _) in *. pose proof (cs_range (d_n d) m Hm) as Hc. pose proof (damps_ok (d_n d) m Hm) as Hd.
  assert (Hx : (0 < nad_chi (d_n d))%R) by (pose proof (nad_chi_pos _ Hn); pose proof (sqrt_pos (INR (d_n d))); lra).
  rewrite sum_over_to. fold (norm (d_n d) (d_ps d')). set (x := norm (d_n d) (d_ps d')) in *. rewrite Es. split; [apply Rmult_lt_0_compat; [auto|apply exp_pos]|].
  set (k := (cs_of (d_n d) m / damps_of (d_n d) m)%R). assert (Hk : (0 < k)%R) by (apply Rdiv_lt_0_compat; lra).
  assert (Hq : ((0 < k * (x / nad_chi (d_n d) - 1) <-> nad_chi (d_n d) < x) /\ (k * (x / nad_chi (d_n d) - 1) < 0 <-> x < nad_chi (d_n d)))%R).
  { assert (Ex : (x = x / nad_chi (d_n d) * nad_chi (d_n d))%R) by (field; lra). set (r := (x / nad_chi (d_n d))%R) in *. split; split; intros H; nra. }
  destruct Hq as [Q1 Q2]. set (z := (k * (x / nad_chi (d_n d) - 1))%R) in *. split; (etransitivity; [|eassumption]); split; intros H.
  - destruct (Rlt_dec 0 z); [auto|]. exfalso. assert (exp z <= 1)%R. { rewrite <- exp_0. destruct (Req_dec z 0) as [->|]; [lra|]. apply Rlt_le, exp_increasing. lra. } nra.
  - apply exp_increasing in H. rewrite exp_0 in H. nra.
  - destruct (Rlt_dec z 0); [auto|]. exfalso. assert (1 <= exp z)%R. { rewrite <- exp_0. destruct (Req_dec z 0) as [->|]; [lra|]. apply Rlt_le, exp_increasing. lra. } nra.
  - apply exp_increasing in H. rewrite exp_0 in H. nra.
Qed.

(** a sample consumes one normal number per dimension and is the mean plus sigma B diag(D) z *)
Theorem C188_sample (d : distr) (zs rest v : list R) : nad_sample d zs = Ok (v, rest) ->
  zs = firstn (d_n d) zs ++ rest /\ length (firstn (d_n d) zs) = d_n d /\ length v = d_n d /\
  forall i, i < d_n d -> nth i v 0%R = (d_mean d i + d_sigma d * sum_over (d_n d) (fun j => d_B d i j * d_D d j * nth j zs 0))%R.
Proof.
  intros E. unfold nad_sample in E. destruct (Nat.ltb_spec (length zs) (d_n d)) as [|Hl]; [discriminate|]. injection E as <- <-.
  split; [symmetry; apply firstn_skipn|]. split; [rewrite firstn_length; lia|]. split; [rewrite map_length, seq_length; reflexivity|]. intros i Hi. set (f := fun i => (d_mean d i + d_sigma d * sum_to (d_n d) (fun j => d_B d i j * (d_D d j * nth j zs 0)))%R).
  rewrite (nth_indep _ 0%R (f 0)) by (rewrite map_length, seq_length; auto). rewrite (map_nth f (seq 0 (d_n d)) 0 i). rewrite seq_nth by auto. unfold f. cbn [plus]. rewrite sum_over_to.
  f_equal. f_equal. apply sum_to_ext. intros j _. ring.
Qed.
Example C188_sample_ex : exists v, nad_sample (new_distr 2) [1%R; 2%R; 3%R] = Ok (v, [3%R]).
Proof. eexists. reflexivity. Qed.

(** a reset gives back a distribution as just instantiated, whatever happened before; without a dimension it keeps the one it had; an edited mean
    is the given point and nothing else changes *)
Theorem C188_reset (d : distr) (dim : option nat) (m : list R) :
  distrib_reset dim d = new_distr (match dim with Some (S k) => S k | _ => d_n d end) /\
  (length m = d_n d -> exists d', edit_mean (Ok m) d = Ok d' /\ (forall i, d_mean d' i = nth i m 0%R) /\ d_n d' = d_n d /\ d_C d' = d_C d /\ d_B d' = d_B d /\ d_D d' = d_D d /\
     d_sigma d' = d_sigma d /\ d_pc d' = d_pc d /\ d_ps d' = d_ps d) /\
  (length m <> d_n d -> edit_mean (Ok m) d = Throw).
Proof.
  split; [destruct dim as [[|k]|]; reflexivity|]. unfold edit_mean, set_mean. cbn [rbind]. split; intros H.
  - rewrite H, Nat.eqb_refl. cbn [negb]. eexists. split; [reflexivity|]. repeat split.
  - destruct (Nat.eqb_spec (length m) (d_n d)); [contradiction|]. reflexivity.
Qed.
Example C188_reset_ex : length [1%R; 2%R] = d_n (new_distr 2).
Proof. reflexivity. Qed.

(** on a symmetric positive definite covariance the criterion lets the search go on exactly while the ratio of the extreme eigenvalues is below
    the threshold *)
Theorem C188_conditioning (solver : nat -> mat -> bool * vec * mat) (threshold : R) (d : distr) (e : vec) (B : mat) (lo hi : R) :
  1 <= d_n d -> solver (d_n d) (d_C d) = (true, e, B) -> eigen_system (d_n d) (d_C d) e B -> positive_definite (d_n d) (d_C d) -> smallest (d_n d) e lo -> largest (d_n d) e hi ->
  (0 < lo)%R /\ (ill_covar solver threshold d = true <-> hi < threshold * lo)%R.
Proof.
  intros Hn Es He HP Hlo Hhi. unfold ill_covar. rewrite Es. cbn [negb]. rewrite (smallest_unique _ _ _ _ (vmin_smallest (d_n d) e Hn) Hlo), (largest_unique _ _ _ _ (vmax_largest (d_n d) e Hn) Hhi).
  assert (Hp : (0 < lo)%R) by (destruct Hlo as [(k & Hk & <-) _]; eapply eigen_positive; eauto). split; [exact Hp|]. destruct (Req_EM_T lo 0); [lra|].
  assert (Eh : (hi = hi / lo * lo)%R) by (field; lra). set (r := (hi / lo)%R) in *. destruct (Rle_dec threshold r); split; intros H; try discriminate; auto; nra.
Qed.
(** a solver that fails, or a null eigenvalue at the bottom, stops the search *)
Theorem C188_conditioning_stop (solver : nat -> mat -> bool * vec * mat) (threshold : R) (d : distr) (b : bool) (e : vec) (B : mat) :
  1 <= d_n d -> solver (d_n d) (d_C d) = (b, e, B) -> b = false \/ smallest (d_n d) e 0 -> ill_covar solver threshold d = false.
Proof.
  intros Hn Es H. unfold ill_covar. rewrite Es. destruct b; cbn [negb]; [|reflexivity]. destruct H as [H|H]; [discriminate|]. rewrite (smallest_unique _ _ _ _ (vmin_smallest (d_n d) e Hn) H). destruct (Req_EM_T 0 0); [reflexivity|lra].
Qed.
Example C188_conditioning_ex : solver1 1 (d_C (new_distr 1)) = (true, fun k => d_C (new_distr 1) k k, diag (fun _ => 1%R)) /\ smallest 1 (fun k => d_C (new_distr 1) k k) 1 /\ largest 1 (fun k => d_C (new_distr 1) k k) 1.
Proof. split; [reflexivity|]. split; (split; [exists 0; split; [lia|reflexivity]|]); intros k Hk; replace k with 0 by lia; cbn; lra. Qed.

(** ** C189: what does not hold *)
(** the "expectation of ||N(0,I)||" is never the published approximation: the quotient 1/(4*N) of integers is 0, so that the reference length is
    too large by 1/(4 sqrt N), and above sqrt N, for every dimension *)
Theorem C189_length_refuted (n : nat) : 1 <= n -> (nad_chi n = expected_length n + 1 / (4 * sqrt (INR n)) /\ expected_length n < nad_chi n /\ sqrt (INR n) < nad_chi n)%R.
Proof.
  intros H. pose proof (nad_chi_eq n H) as E. pose proof (nad_chi_pos n H) as P. split; [exact E|]. split; [|exact P]. rewrite E. apply INR_1 in H.
  assert (0 < 1 / (4 * sqrt (INR n)))%R; [|lra]. apply Rdiv_lt_0_compat; [lra|]. apply Rmult_lt_0_compat; [lra|apply sqrt_lt_R0; lra].
Qed.
(** the learning rate of the rank-mu update has no upper bound: in every dimension, a large enough population that stands at the mean of a new
    distribution makes all the variances negative, and the scaling not a number, in one update *)
Theorem C189_variance_refuted (solver : nat -> mat -> bool * vec * mat) (n lambda : nat) :
  solves n solver -> 1 <= n -> 81 * (((n + 2) * (n + 2) + 4) * ((n + 2) * (n + 2) + 4)) <= lambda -> (Z.of_nat lambda < 2 ^ 32)%Z ->
  exists d c, nad_update solver (new_distr n) (Counters 0 0) (repeat (repeat 0%R n) lambda) = Ok (d, c) /\ (forall i, (i < n)%nat -> d_C d i i < 0)%R /\ d_nan d = true.
Proof. intros Hs Hn Hl Hb. apply collapse; auto. Qed.
Example C189_variance_ex : solves 1 solver1 /\ (81 * (((1 + 2) * (1 + 2) + 4) * ((1 + 2) * (1 + 2) + 4)) < 2 ^ 32)%Z.
Proof. split; [apply solver1_solves|]. vm_compute. reflexivity. Qed.
(** "if the condition number is strictly greater than the threshold, it will ask for a stop": it also asks for one at the threshold; and it lets a
    covariance with a negative eigenvalue go on *)
Theorem C189_conditioning_refuted :
  (exists solver d, solves 1 solver /\ positive_definite 1 (d_C d) /\ largest 1 (fun k => d_C d k k) 1 /\ smallest 1 (fun k => d_C d k k) 1 /\ ill_covar solver 1 d = false) /\
  (forall threshold, (0 <= threshold)%R -> exists solver d, d_n d = 2 /\ d_C d 1 1 = (-1)%R /\ eigen_system 2 (d_C d) (fun k => d_C d k k) (diag (fun _ => 1%R)) /\
     solver 2 (d_C d) = (true, (fun k => d_C d k k), diag (fun _ => 1%R)) /\ ill_covar solver threshold d = true).
Proof.
  split.
  - exists solver1, (new_distr 1). split; [apply solver1_solves|]. split; [apply pd_identity|]. split; [|split].
    + split; [exists 0; split; [lia|reflexivity]|]. intros k Hk; replace k with 0 by lia; cbn; lra.
    + split; [exists 0; split; [lia|reflexivity]|]. intros k Hk; replace k with 0 by lia; cbn; lra.
    + unfold ill_covar, solver1. cbn. destruct (Req_EM_T 1 0); [lra|]. destruct (Rle_dec 1 (1 / 1)) as [|Hn]; [reflexivity|]. exfalso. apply Hn. lra.
  - intros th Hth. exists solver1. set (v := fun k => if k =? 0 then 1%R else (-1)%R). exists (Distr 2 (fun _ => 0%R) (diag v) (diag (fun _ => 1%R)) (fun _ => 1%R) 1%R (fun _ => 0%R) (fun _ => 0%R) false).
    cbn [d_n d_C]. split; [reflexivity|]. split; [reflexivity|]. split; [|split; [reflexivity|]].
    + split; [apply orthogonal_identity|]. intros i j Hi Hj. unfold sum_over. cbn [seq map fold_right]. unfold diag, v. destruct i as [|[|i]]; [| |lia]; (destruct j as [|[|j]]; [| |lia]); cbn; ring.
    + unfold ill_covar, solver1. cbn [d_n d_C negb]. change (vmin 2 (fun k => diag v k k)) with (Rmin 1 (-1)). change (vmax 2 (fun k => diag v k k)) with (Rmax 1 (-1)).
      rewrite Rmin_right by lra. rewrite Rmax_left by lra. destruct (Req_EM_T (-1) 0); [lra|]. destruct (Rle_dec th (1 / -1)) as [Hc|]; [|reflexivity]. lra.
Qed.
(** the constructor that takes all the members does not set the dimension: the size of the distribution is whatever the memory held *)
Theorem C189_dimension_refuted (dim : nat) (mean : vec) (C B : mat) (D : vec) (sigma : R) (pc ps : vec) (k : nat) :
  exists junk, d_n (full_distr junk dim mean C B D sigma pc ps) = k.
Proof. exists k. reflexivity. Qed.
Print Assumptions C188_weights.
Print Assumptions C188_constants.
Print Assumptions C188_accepts.
Print Assumptions C188_mean.
Print Assumptions C188_learning.
Print Assumptions C188_healthy.
Print Assumptions C188_runs.
Print Assumptions C188_decomposition.
Print Assumptions C188_period.
Print Assumptions C188_step.
Print Assumptions C188_sample.
Print Assumptions C188_reset.
Print Assumptions C188_conditioning.
Print Assumptions C188_conditioning_stop.
Print Assumptions C189_length_refuted.
Print Assumptions C189_variance_refuted.
Print Assumptions C189_conditioning_refuted.
Print Assumptions C189_dimension_refuted.
