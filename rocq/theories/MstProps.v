(** C202-C205: the multi-start job and the timers. *)
From Coq Require Import Arith ZArith QArith String Bool Permutation Lia.
From Verif Require Import Lib Outcome MstModel MstSpec MstProofs.
From Coq Require Import List.
Import ListNotations.
Close Scope Q_scope.
Open Scope nat_scope.

(** ** C202: the multi-start job *)

(** whatever the schedule, when the job ends exactly the runs asked for have been done, and the store holds their bests after what it held; the
    bests of a worker come in the order of its runs and are those of as many runs made one after the other, from its seed, by one process alone *)
Theorem C202_all_runs {St X} (reset algo : St -> St) (best : St -> X) (workers : list nat) (n : Z) (old : list X) (seeded : nat -> St)
  (ms : list move) (j : job) :
  NoDup workers -> (0 <= n)%Z ->
  ms_run reset algo best workers (ms_start n old seeded) ms = Some j -> ended workers j ->
  exists l : list (nat * X), j_bests j = old ++ map snd l /\ Z.of_nat (length l) = n /\ (forall w x, In (w, x) l -> In w workers) /\
    forall w, map snd (filter (fun p => fst p =? w) l) = in_a_row (fun s => let s' := algo (reset s) in (s', best s')) (sent w ms) (seeded w).
Proof.
  intros N P H [F W]. destruct (inv_run reset algo best workers n old seeded ms j N P H) as (l & I). exists l.
  destruct I as [I1 I2 I3 I4 I5 I6 I7 I8]. split; auto. unfold finished in F. apply Z.leb_le in F.
  rewrite (weigh_ended workers busy) in I8 by auto. split; [lia|]. split; [intros; eapply I3; eauto|].
  intros w. specialize (I4 w). destruct (in_dec Nat.eq_dec w workers) as [Iw|Iw].
  - rewrite (W w Iw) in I4. destruct I4 as (I4 & _). exact I4.
  - destruct (j_phase j w) eqn:E; [exact (proj1 I4)| |]; exfalso; apply Iw, I2; rewrite E; discriminate.
Qed.
Example C202_all_runs_ex : exists j, ms_run (fun s => s) (fun s => s + 1) (fun s => s) [1; 2] (ms_start 3 [] (fun w => 10 * w))
    [Assign 1; Assign 2; Work 2; Work 1; Handle 2; Assign 2; Handle 1; Work 2; Handle 2] = Some j /\ ended [1; 2] j /\ j_bests j = [21; 11; 22].
Proof. eexists. split; [vm_compute; reflexivity|]. split; [|reflexivity]. split; [reflexivity|]. intros w [<-|[<-|[]]]; reflexivity. Qed.

(** until then something can always happen, and never more than three steps for each run *)
Theorem C202_no_deadlock {St X} (reset algo : St -> St) (best : St -> X) (workers : list nat) (n : Z) (old : list X) (seeded : nat -> St)
  (ms : list move) (j : job) :
  NoDup workers -> workers <> [] -> (0 <= n)%Z ->
  ms_run reset algo best workers (ms_start n old seeded) ms = Some j ->
  (Z.of_nat (length ms) <= 3 * n)%Z /\ (ended workers j \/ exists m j', ms_step reset algo best workers j m = Some j').
Proof.
  intros N E P H. destruct (inv_run reset algo best workers n old seeded ms j N P H) as (l & I). split.
  - destruct I as [I1 I2 I3 I4 I5 I6 I7 I8].
    assert (Z : (0 <= weigh workers load (j_phase j))%Z). { unfold weigh. clear. induction workers as [|w ws IH]; cbn [fold_right]; [lia|]. unfold load at 1. destruct (j_phase j w); lia. }
    lia.
  - destruct (finished j && forallb (fun w => match j_phase j w with Waiting => true | _ => false end) workers) eqn:Q.
    + left. apply andb_true_iff in Q as (F & Q). split; auto. intros w Iw. rewrite forallb_forall in Q. specialize (Q w Iw). destruct (j_phase j w); auto; discriminate.
    + right. apply not_ended; auto. intros (F & W). apply andb_false_iff in Q as [Q|Q]; [congruence|].
      assert (T : forallb (fun w => match j_phase j w with Waiting => true | _ => false end) workers = true) by (apply forallb_forall; intros w Iw; rewrite W; auto). congruence.
Qed.
Example C202_no_deadlock_ex : NoDup [1; 2] /\ [1; 2] <> [].
Proof. split; [repeat constructor; cbn; intuition lia|discriminate]. Qed.

(** two executions that send as many tasks to each worker find the same bests, in another order perhaps *)
Lemma by_worker {X} (l : list (nat * X)) : forall workers, NoDup workers -> (forall w x, In (w, x) l -> In w workers) ->
  Permutation (map snd l) (flat_map (fun w => map snd (filter (fun p => fst p =? w) l)) workers).
Proof.
  induction l as [|[v x] l IH]; intros ws N H.
  - cbn. replace (flat_map _ ws) with (@nil X); [constructor|]. clear. induction ws; cbn; auto.
  - cbn [map snd]. assert (Iv : In v ws) by (apply (H v x); left; auto). destruct (in_split _ _ Iv) as (a & b & ->).
    rewrite (IH (a ++ v :: b)) by (auto; intros; eapply H; right; eauto).
    assert (Na : ~ In v a /\ ~ In v b) by (apply NoDup_remove_2 in N; split; intros K; apply N, in_or_app; auto).
    assert (Sk : forall c, ~ In v c -> flat_map (fun w => map snd (filter (fun p : nat * X => fst p =? w) ((v, x) :: l))) c = flat_map (fun w => map snd (filter (fun p : nat * X => fst p =? w) l)) c).
    { induction c as [|w c IHc]; intros K; auto. cbn [flat_map]. rewrite IHc by (cbn in K; tauto). cbn [filter fst]. destruct (Nat.eqb_spec v w); [cbn in K; subst; tauto|auto]. }
    rewrite !flat_map_app. cbn [flat_map]. rewrite !Sk by tauto. cbn [filter fst]. rewrite Nat.eqb_refl. cbn [map snd app]. apply Permutation_middle.
Qed.
Theorem C202_same_tasks {St X} (reset algo : St -> St) (best : St -> X) (workers : list nat) (n : Z) (seeded : nat -> St) (ms ms' : list move) (j j' : job) :
  NoDup workers -> (0 <= n)%Z ->
  ms_run reset algo best workers (ms_start n [] seeded) ms = Some j -> ended workers j ->
  ms_run reset algo best workers (ms_start n [] seeded) ms' = Some j' -> ended workers j' ->
  (forall w, In w workers -> sent w ms = sent w ms') -> Permutation (j_bests j) (j_bests j').
Proof.
  intros N P H1 E1 H2 E2 S. destruct (C202_all_runs reset algo best workers n [] seeded ms j N P H1 E1) as (l & -> & _ & A & B).
  destruct (C202_all_runs reset algo best workers n [] seeded ms' j' N P H2 E2) as (l' & -> & _ & A' & B'). cbn [app].
  rewrite (by_worker l workers), (by_worker l' workers) by auto.
  replace (flat_map (fun w => map snd (filter (fun p => fst p =? w) l')) workers) with (flat_map (fun w => map snd (filter (fun p => fst p =? w) l)) workers); [reflexivity|].
  clear A A' H1 H2 E1 E2 N. induction workers as [|w ws IH]; auto. cbn [flat_map]. rewrite IH by (intros; apply S; right; auto). rewrite B, B', (S w) by (left; auto). reflexivity.
Qed.
Example C202_same_tasks_ex : exists j, ms_run (fun s => s) (fun s => s + 1) (fun s => s) [1; 2] (ms_start 3 [] (fun w => 10 * w))
    [Assign 2; Work 2; Handle 2; Assign 2; Assign 1; Work 2; Handle 2; Work 1; Handle 1] = Some j /\ j_bests j = [21; 22; 11].
Proof. eexists. split; [vm_compute; reflexivity|reflexivity]. Qed.

(** each worker gets its seed: the one given for its position, or a drawn one when there are not enough *)
Theorem C202_seeds (workers : list nat) (given ds : list Z) (l : list (nat * Z)) (ds' : list Z) :
  init_seeds workers given ds = Ok (l, ds') ->
  map fst l = workers /\ exists drawn, ds = drawn ++ ds' /\ length drawn = length workers - length given /\
  forall k w, nth_error workers k = Some w -> exists s, nth_error l k = Some (w, s) /\ nth_error (given ++ drawn) k = Some s.
Proof.
  unfold init_seeds. intros H. apply rbind_ok in H as ((seeds & ds1) & E & H). apply rbind_ok in H as (l1 & E2 & H). injection H as <- <-.
  destruct (send_ok _ _ _ _ E2) as (A & B). split; auto. destruct (Nat.ltb_spec (length given) (length workers)).
  - apply rbind_ok in E as ((dr & ds2) & E & E3). injection E3 as <- <-. apply rands_ok in E as (-> & L). exists dr. split; auto. split; auto.
    intros k w Hk. destruct (B k w Hk) as (s & S1 & S2). exists s. auto.
  - injection E as <- <-. exists []. split; auto. split; [cbn; lia|]. intros k w Hk. destruct (B k w Hk) as (s & S1 & S2). exists s. rewrite app_nil_r. auto.
Qed.
Theorem C202_seeds_total (workers : list nat) (given ds : list Z) : length workers - length given <= length ds -> exists r, init_seeds workers given ds = Ok r.
Proof.
  intros H. assert (R : forall n ds, n <= length ds -> exists l r, rands n ds = Ok (l, r)).
  { induction n as [|n IH]; intros d Hd; cbn [rands]; eauto. destruct d as [|x d]; cbn [length] in Hd; [lia|]. destruct (IH d ltac:(lia)) as (l & r & ->). cbn. eauto. }
  unfold init_seeds. destruct (Nat.ltb_spec (length given) (length workers)).
  - destruct (R _ _ H) as (l & r & E). rewrite E. cbn [rbind]. apply rands_ok in E as (_ & L).
    destruct (send_total workers (given ++ l) 0) as (x & ->); [rewrite app_length; lia|]. cbn. eauto.
  - cbn [rbind]. destruct (send_total workers given 0) as (x & ->); [lia|]. cbn. eauto.
Qed.
Example C202_seeds_ex : init_seeds [3; 5; 7] [100]%Z [8; 9; 10]%Z = Ok ([(3, 100%Z); (5, 8%Z); (7, 9%Z)], [10%Z]).
Proof. reflexivity. Qed.

(** the multiples of an odd number: each seed is the next multiple, and they all differ, over all the jobs of a store, as long as there are not more than
    2^32 *)
Theorem C202_multiples (seed : Z) (n : nat) (i : Z) (k : nat) : k < n ->
  nth_error (fst (multiples seed n i)) k = Some (((i + Z.of_nat k + 1) * seed) mod 2 ^ 32)%Z /\ length (fst (multiples seed n i)) = n.
Proof. intros H. split; [apply multiples_nth; auto|apply multiples_len]. Qed.
Theorem C202_distinct_seeds (seed : Z) (ns : list nat) (i : Z) :
  Z.odd seed = true -> (Z.of_nat (fold_right Nat.add 0%nat ns) <= 2 ^ 32)%Z -> NoDup (concat (multiples_jobs seed ns i)) /\ map (@length Z) (multiples_jobs seed ns i) = ns.
Proof.
  intros O B. split; [rewrite jobs_concat; apply multiples_nodup; auto|]. clear. revert i. induction ns as [|n ns IH]; intros i; cbn [multiples_jobs]; auto.
  pose proof (multiples_len seed n i) as L. destruct (multiples seed n i). cbn in *. rewrite IH. congruence.
Qed.
Example C202_distinct_seeds_ex : multiples_jobs 5 [2; 3] 0 = [[5; 10]; [15; 20; 25]]%Z.
Proof. reflexivity. Qed.
Theorem C202_number (n : Z) (draws : list Z) (seed : Z) : number_of n draws = Ok seed ->
  (0 < seed < 2 ^ 32)%Z /\ ((n mod 2 ^ 32 <> 0)%Z -> seed = (n mod 2 ^ 32)%Z).
Proof.
  revert n. induction draws as [|d r IH]; intros n; cbn [number_of]; unfold u32; destruct (Z.eqb_spec (n mod 2 ^ 32) 0) as [E|E]; try discriminate.
  - intros H. injection H as <-. pose proof (Z.mod_pos_bound n (2 ^ 32) ltac:(lia)). split; auto; lia.
  - intros H. apply IH in H as (A & _). split; auto. contradiction.
  - intros H. injection H as <-. pose proof (Z.mod_pos_bound n (2 ^ 32) ltac:(lia)). split; auto; lia.
Qed.
Example C202_number_ex : number_of 0 [0; 7]%Z = Ok 7%Z.
Proof. reflexivity. Qed.

(** ** C203: what is documented and does not hold *)

(** "even if the same store is used with different jobs, the seeds will be different": with an even number they come again, with a power of two soon *)
Theorem C203_seeds_differ_refuted : forall seed i, Z.odd seed = false -> (((i + 2 ^ 31) * seed) mod 2 ^ 32 = (i * seed) mod 2 ^ 32)%Z.
Proof.
  intros seed i E. assert (Ev : Z.even seed = true) by (rewrite <- Z.negb_odd, E; reflexivity). apply Z.even_spec in Ev as (m & ->).
  replace ((i + 2 ^ 31) * (2 * m))%Z with (i * (2 * m) + m * 2 ^ 32)%Z by ring. apply Z.mod_add. lia.
Qed.
Example C203_seeds_differ_ex : number_of (- 2 ^ 31) [] = Ok (2 ^ 31)%Z /\ multiples_jobs (2 ^ 31) [2; 2] 0 = [[2 ^ 31; 0]; [2 ^ 31; 0]]%Z.
Proof. split; reflexivity. Qed.

(** "if we want the run to be re-runnable with the same results, we need to be sure that the seeds are the same": the same seeds are not enough *)
Theorem C203_rerunnable_refuted : exists (seeded : nat -> nat) ms ms' j j',
  ms_run (fun s => s) (fun s => s + 1) (fun s => s) [1; 2] (ms_start 2 [] seeded) ms = Some j /\ ended [1; 2] j /\
  ms_run (fun s => s) (fun s => s + 1) (fun s => s) [1; 2] (ms_start 2 [] seeded) ms' = Some j' /\ ended [1; 2] j' /\
  ~ Permutation (j_bests j) (j_bests j').
Proof.
  exists (fun w => 10 * w), [Assign 1; Work 1; Handle 1; Assign 1; Work 1; Handle 1], [Assign 1; Work 1; Handle 1; Assign 2; Work 2; Handle 2].
  do 2 eexists. split; [vm_compute; reflexivity|]. split; [split; [reflexivity|intros w [<-|[<-|[]]]; reflexivity]|]. split; [vm_compute; reflexivity|]. split; [split; [reflexivity|intros w [<-|[<-|[]]]; reflexivity]|].
  cbn. intros P. assert (I : In 21 [11; 12]) by (eapply Permutation_in; [symmetry; exact P|cbn; auto]). cbn in I. intuition lia.
Qed.

(** "Population of best individuals retrieved by the master": a store used again still holds those of the jobs before *)
Theorem C203_bests_of_the_job_refuted {St X} (reset algo : St -> St) (best : St -> X) (workers : list nat) (n : Z) (old : list X) (seeded : nat -> St) (ms : list move) (j : job) :
  NoDup workers -> (0 <= n)%Z -> old <> [] ->
  ms_run reset algo best workers (ms_start n old seeded) ms = Some j -> ended workers j -> (n < Z.of_nat (length (j_bests j)))%Z.
Proof.
  intros N P O H E. destruct (C202_all_runs reset algo best workers n old seeded ms j N P H E) as (l & -> & L & _). rewrite app_length, map_length.
  destruct old; [contradiction|]. cbn [length]. lia.
Qed.

(** ** C204: the timers *)

(** when measuring: each key has one measure of each kind for each of its stops since the last clear, and nothing else; when not measuring, none *)
Theorem C204_counts (k : string) (cs : list call) :
  let n := length (filter (stops_of k) (since_clear cs)) in
  (forall st, stats_ (ts_run true no_stat cs) k = Some st -> length (s_user st) = n /\ length (s_sys st) = n /\ length (s_wall st) = n) /\
  (stats_ (ts_run true no_stat cs) k = None -> n = 0) /\
  stats_ (ts_run false no_stat cs) k = None.
Proof.
  cbv zeta. assert (A : length (walls (ts_run true no_stat cs) k) = length (filter (stops_of k) (since_clear cs)) /\
     length (users (ts_run true no_stat cs) k) = length (filter (stops_of k) (since_clear cs)) /\ length (syss (ts_run true no_stat cs) k) = length (filter (stops_of k) (since_clear cs))).
  { destruct (since_split cs) as (pre & E & F & G). rewrite E at 1 3 5. rewrite !ts_run_app.
    destruct (ts_counts k (since_clear cs) (ts_run true no_stat pre) F) as (lw & lu & ls & A & B & C & D1 & D2 & D3). rewrite A, B, C.
    destruct G as [->|(p & ->)]; [cbn; auto|]. destruct (walls_clear true no_stat p k) as (-> & -> & ->). auto. }
  destruct A as (A1 & A2 & A3). unfold walls, users, syss in *. split; [|split].
  - intros st E. rewrite E in *. auto.
  - intros E. rewrite E in *. auto.
  - assert (Z : forall cs s, stats_ s k = None -> stats_ (ts_run false s cs) k = None); [|apply Z; reflexivity].
    clear. induction cs as [|c cs IH]; intros s H; auto. change (ts_run false s (c :: cs)) with (ts_run false (ts_step false s c) cs). apply IH. destruct c; auto.
Qed.
(** and each wall clock measure, once made, is the time since the timer of the key was last started *)
Theorem C204_wallclock (k : string) (pre : list call) (created now : reading) (post : list call) (r : reading) :
  existsb is_clear post = false ->
  started k (pre ++ [Stop k created now]) None = Some r ->
  exists st m, stats_ (ts_run true no_stat (pre ++ [Stop k created now] ++ post)) k = Some st /\
    nth_error (s_wall st) (length (filter (stops_of k) (since_clear pre))) = Some m /\
    (m * 1000000 == inject_Z (elapsed (wall_t r) (wall_t now)))%Q.
Proof.
  intros Hp Hr. rewrite ts_run_app. set (s := ts_run true no_stat pre). rewrite ts_run_app.
  assert (L : length (walls s k) = length (filter (stops_of k) (since_clear pre))).
  { destruct (C204_counts k pre) as (A & B & _). unfold walls, s. destruct (stats_ (ts_run true no_stat pre) k) as [st|] eqn:E; [apply A; auto|rewrite B; auto]. }
  pose proof (ts_start_inv k (pre ++ [Stop k created now]) no_stat None eq_refl) as T. rewrite Hr, ts_run_app in T. fold s in T.
  change (ts_run true s [Stop k created now]) with (ts_step true s (Stop k created now)) in *. cbn [ts_step] in *.
  unfold usertime, systime in *. destruct (cpu_time _ _ _) as [u m1]. cbn [t_start t_srem t_urem] in *. destruct (cpu_time _ _ _) as [y m2].
  cbn [timers_] in T. unfold put in T. rewrite String.eqb_refl in T. cbn [option_map t_start] in T. injection T as T.
  match goal with |- context [ts_run true ?x post] => set (s1 := x) end.
  destruct (ts_counts k post s1 Hp) as (lw & lu & ls & A & _).
  assert (W : walls s1 k = walls s k ++ [wallclock (Timer (t_start (match timers_ s k with Some t => t | None => new_timer created end)) m1 m2) now]).
  { unfold walls, s1. cbn [stats_]. unfold put. rewrite String.eqb_refl. cbn [s_wall]. destruct (stats_ s k); reflexivity. }
  rewrite W in A. unfold walls at 1 in A. destruct (stats_ (ts_run true s1 post) k) as [st|] eqn:E; [|destruct (walls s k); discriminate].
  exists st. eexists. split; [reflexivity|]. split.
  - rewrite A, <- app_assoc, nth_error_app2 by lia. rewrite L, Nat.sub_diag. reflexivity.
  - unfold wallclock. cbn [t_start]. rewrite T. unfold elapsed, micros.
    replace (fst (wall_t now) * 1000000 + snd (wall_t now) - (fst (wall_t r) * 1000000 + snd (wall_t r)))%Z
      with ((fst (wall_t now) - fst (wall_t r)) * 1000000 + (snd (wall_t now) - snd (wall_t r)))%Z by ring.
    rewrite inject_Z_plus, inject_Z_mult. field.
Qed.
Definition clk (s u : Z) : reading := Reading (s, u) (s, u) (s, u).
Example C204_ex : stats_ (ts_run true no_stat [Start "a" (clk 1 0); Start "b" (clk 1 5); Stop "b" (clk 9 9) (clk 2 5); Stop "a" (clk 9 9) (clk 4 500000)]) "a"
  = Some (Stat [3%Z] [3%Z] [(inject_Z 3 + inject_Z 500000 / 1000000)%Q]).
Proof. reflexivity. Qed.

(** user and system times: measures whose microseconds do not wrap around add up to the whole seconds of the time spent *)
Theorem C205_cpu_times_partial (ps : list (reading * reading)) (t : timer) :
  (forall a b, In (a, b) ps -> proper (user_t a) /\ proper (user_t b) /\ (snd (user_t a) <= snd (user_t b))%Z) ->
  (forall a b, In (a, b) ps -> proper (sys_t a) /\ proper (sys_t b) /\ (snd (sys_t a) <= snd (sys_t b))%Z) ->
  t_urem t = 0%Z -> t_srem t = 0%Z ->
  added (fst (measured usertime ps t)) = (spent user_t ps / 1000000)%Z /\ added (fst (measured systime ps t)) = (spent sys_t ps / 1000000)%Z.
Proof.
  intros Hu Hs Ru Rs. split.
  - assert (A : forall ps t, (forall a b, In (a, b) ps -> proper (user_t a) /\ proper (user_t b) /\ (snd (user_t a) <= snd (user_t b))%Z) -> (0 <= t_urem t < 1000000)%Z ->
      (added (fst (measured usertime ps t)) * 1000000 + t_urem (snd (measured usertime ps t)) = t_urem t + spent user_t ps)%Z /\ (0 <= t_urem (snd (measured usertime ps t)) < 1000000)%Z).
    { clear. induction ps as [|[a b] ps IH]; intros t H R; [cbn; split; [lia|auto]|]. cbn [measured].
      destruct (cpu_time (user_t a) (user_t b) (t_urem t)) as [x m] eqn:E.
      replace (usertime (restart t a) b) with (x, Timer a m (t_srem t)) by (unfold usertime; cbn [restart t_start t_urem t_srem]; rewrite E; reflexivity). destruct (H a b (or_introl eq_refl)) as (P1 & P2 & L).
      pose proof (cpu_time_ok _ _ _ _ _ E) as K. destruct (Z.ltb_spec (snd (user_t b)) (snd (user_t a))); [lia|].
      pose proof (cpu_time_rem _ _ _ _ _ P1 P2 R L E) as M.
      destruct (IH (Timer a m (t_srem t)) ltac:(intros; apply H; right; auto) M) as (IH1 & IH2).
      destruct (measured usertime ps (Timer a m (t_srem t))) as [l t2]. cbn [fst snd added fold_right spent t_urem] in *. unfold added, spent in *. cbn [fold_right fst snd] in *. lia. }
    destruct (A ps t Hu ltac:(lia)) as (A1 & A2). apply (Z.div_unique_pos _ _ _ (t_urem (snd (measured usertime ps t)))); lia.
  - assert (A : forall ps t, (forall a b, In (a, b) ps -> proper (sys_t a) /\ proper (sys_t b) /\ (snd (sys_t a) <= snd (sys_t b))%Z) -> (0 <= t_srem t < 1000000)%Z ->
      (added (fst (measured systime ps t)) * 1000000 + t_srem (snd (measured systime ps t)) = t_srem t + spent sys_t ps)%Z /\ (0 <= t_srem (snd (measured systime ps t)) < 1000000)%Z).
    { clear. induction ps as [|[a b] ps IH]; intros t H R; [cbn; split; [lia|auto]|]. cbn [measured].
      destruct (cpu_time (sys_t a) (sys_t b) (t_srem t)) as [x m] eqn:E.
      replace (systime (restart t a) b) with (x, Timer a (t_urem t) m) by (unfold systime; cbn [restart t_start t_urem t_srem]; rewrite E; reflexivity). destruct (H a b (or_introl eq_refl)) as (P1 & P2 & L).
      pose proof (cpu_time_ok _ _ _ _ _ E) as K. destruct (Z.ltb_spec (snd (sys_t b)) (snd (sys_t a))); [lia|].
      pose proof (cpu_time_rem _ _ _ _ _ P1 P2 R L E) as M.
      destruct (IH (Timer a (t_urem t) m) ltac:(intros; apply H; right; auto) M) as (IH1 & IH2).
      destruct (measured systime ps (Timer a (t_urem t) m)) as [l t2]. cbn [fst snd added fold_right spent t_srem] in *. unfold added, spent in *. cbn [fold_right fst snd] in *. lia. }
    destruct (A ps t Hs ltac:(lia)) as (A1 & A2). apply (Z.div_unique_pos _ _ _ (t_srem (snd (measured systime ps t)))); lia.
Qed.
Example C205_cpu_times_ex : measured usertime [(clk 0 100000, clk 0 700000); (clk 1 0, clk 1 600000)] (new_timer (clk 0 0)) = ([0; 1]%Z, Timer (clk 1 0) 200000 0).
Proof. reflexivity. Qed.

(** and the measures kept for a key are those of one timer on the intervals of that key, whatever is done with the other keys *)
Theorem C205_stats (k : string) (cs : list call) (t : timer) :
  existsb is_clear cs = false -> t_urem t = 0%Z -> t_srem t = 0%Z ->
  let ps := intervals k cs None in
  match stats_ (ts_run true no_stat cs) k with
  | Some st => s_user st = fst (measured usertime ps t) /\ s_sys st = fst (measured systime ps t)
  | None => ps = []
  end.
Proof. apply stats_of_intervals. Qed.
Example C205_stats_ex : intervals "a" [Start "a" (clk 1 0); Start "b" (clk 1 5); Stop "a" (clk 9 9) (clk 2 5); Stop "b" (clk 9 9) (clk 3 0); Stop "a" (clk 9 9) (clk 4 500000)] None
  = [(clk 1 0, clk 2 5); (clk 1 0, clk 4 500000)].
Proof. reflexivity. Qed.

(** ** C205: but when they wrap around, a measure counts too much *)
Theorem C205_microsecond_refuted (k : nat) (t : timer) : (0 <= t_urem t)%Z ->
  spent user_t (repeat (clk 0 999999, clk 1 0) k) = Z.of_nat k /\ fst (measured usertime (repeat (clk 0 999999, clk 1 0) k) t) = repeat 1%Z k.
Proof.
  revert t. induction k as [|k IH]; intros t H; [split; reflexivity|]. split.
  - cbn [repeat]. unfold spent. cbn [fold_right]. destruct (IH t H) as (A & _). unfold spent in A. rewrite A.
    change (1 + Z.of_nat k = Z.of_nat (S k))%Z. lia.
  - cbn [repeat measured]. unfold usertime at 1. unfold cpu_time. cbn [restart t_start t_urem t_srem clk user_t fst snd]. change (0 - 999999)%Z with (-999999)%Z. cbn [Z.leb Z.compare].
    destruct (Z.leb_spec 1000000 (t_urem t + (1000000 - -999999))); [|lia].
    match goal with |- context [measured usertime (repeat _ k) ?x] => destruct (IH x ltac:(cbn; lia)) as (_ & B); destruct (measured usertime (repeat (clk 0 999999, clk 1 0) k) x) end.
    cbn [fst] in *. rewrite B. reflexivity.
Qed.
(** by twice what the microseconds went back *)
Theorem C205_overcount_refuted (a b : timeval) (rem r rem' : Z) : (snd b < snd a)%Z -> cpu_time a b rem = (r, rem') ->
  (r * 1000000 + rem' = rem + elapsed a b + 2 * (snd a - snd b))%Z.
Proof. intros H E. apply cpu_time_ok in E. destruct (Z.ltb_spec (snd b) (snd a)); lia. Qed.
Example C205_overcount_ex : cpu_time (0, 999999)%Z (1, 0)%Z 0 = (1, 999999)%Z.
Proof. reflexivity. Qed.
(** a stop without a start measures from the stop itself *)
Example C205_stop_alone : stats_ (ts_run true no_stat [Stop "a" (clk 5 0) (clk 5 0)]) "a" = Some (Stat [0%Z] [0%Z] [(inject_Z 0 + inject_Z 0 / 1000000)%Q]).
Proof. reflexivity. Qed.
Print Assumptions C202_all_runs.
Print Assumptions C202_no_deadlock.
Print Assumptions C202_same_tasks.
Print Assumptions C202_seeds.
Print Assumptions C202_seeds_total.
Print Assumptions C202_multiples.
Print Assumptions C202_distinct_seeds.
Print Assumptions C202_number.
Print Assumptions C203_seeds_differ_refuted.
Print Assumptions C203_rerunnable_refuted.
Print Assumptions C203_bests_of_the_job_refuted.
Print Assumptions C204_counts.
Print Assumptions C204_wallclock.
Print Assumptions C205_cpu_times_partial.
Print Assumptions C205_microsecond_refuted.
Print Assumptions C205_overcount_refuted.
Print Assumptions C205_stats.
