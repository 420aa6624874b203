(** Proofs for the multi-start job and the timers. *)
From Coq Require Import Arith ZArith Znumtheory Zpow_facts QArith String Bool Lia.
From Verif Require Import Lib Outcome MstModel MstSpec.
From Coq Require Import List.
Import ListNotations.
Close Scope Q_scope.
Open Scope nat_scope.

(** ** the seeds *)
Lemma multiples_app seed a : forall b i,
  multiples seed (a + b) i = let (l, j) := multiples seed a i in let (l', j') := multiples seed b j in (l ++ l', j').
Proof.
  induction a as [|a IH]; intros b i; cbn [Nat.add multiples app].
  - destruct (multiples seed b i); auto.
  - rewrite IH. destruct (multiples seed a (u32 (i + 1))) as [l j]. destruct (multiples seed b j). reflexivity.
Qed.
Lemma jobs_concat seed ns : forall i, concat (multiples_jobs seed ns i) = fst (multiples seed (fold_right Nat.add 0 ns) i).
Proof.
  induction ns as [|n ns IH]; intros i; cbn [multiples_jobs concat fold_right]; auto.
  rewrite multiples_app. destruct (multiples seed n i) as [l j]. cbn [concat]. rewrite IH. destruct (multiples seed _ j). reflexivity.
Qed.
Lemma u32_add a b : u32 (u32 a + b) = u32 (a + b).
Proof. unfold u32. apply Zplus_mod_idemp_l. Qed.
Lemma multiples_nth seed n : forall i k, k < n -> nth_error (fst (multiples seed n i)) k = Some (u32 ((i + Z.of_nat k + 1) * seed)).
Proof.
  induction n as [|n IH]; intros i k H; [lia|]. cbn [multiples]. specialize (IH (u32 (i + 1))). destruct (multiples seed n (u32 (i + 1))) as [l j]. cbn [fst] in *.
  destruct k as [|k]; cbn [nth_error].
  - f_equal. unfold u32. rewrite Zmult_mod_idemp_l. do 2 f_equal. lia.
  - rewrite IH by lia. f_equal. unfold u32.
    rewrite <- (Zmult_mod_idemp_l ((i + 1) mod 2 ^ 32 + Z.of_nat k + 1)).
    replace (((i + 1) mod 2 ^ 32 + Z.of_nat k + 1))%Z with ((i + 1) mod 2 ^ 32 + (Z.of_nat k + 1))%Z by lia.
    rewrite Zplus_mod_idemp_l, Zmult_mod_idemp_l. f_equal. lia.
Qed.
Lemma multiples_len seed n : forall i, length (fst (multiples seed n i)) = n.
Proof. induction n as [|n IH]; intros i; cbn [multiples]; auto. specialize (IH (u32 (i + 1))). destruct (multiples seed n _). cbn in *. lia. Qed.
Lemma odd_coprime seed : Z.odd seed = true -> rel_prime (2 ^ 32) seed.
Proof.
  intros H. apply rel_prime_sym, rel_prime_Zpower_r; [lia|]. apply rel_prime_sym, prime_rel_prime; [apply prime_2|].
  intros (q & E). rewrite E, Z.mul_comm, Z.odd_mul in H. discriminate.
Qed.
Lemma multiples_nodup seed n i : Z.odd seed = true -> (Z.of_nat n <= 2 ^ 32)%Z -> NoDup (fst (multiples seed n i)).
Proof.
  intros O B. apply NoDup_nth_error. rewrite multiples_len. intros a b Ha E.
  assert (Hb : b < n). { 
    destruct (le_lt_dec n b) as [L|]; auto. exfalso. rewrite multiples_nth in E by auto. symmetry in E.
    assert (K : nth_error (fst (multiples seed n i)) b = None) by (apply nth_error_None; rewrite multiples_len; auto). congruence. }
  rewrite !multiples_nth in E by auto. injection E as E. unfold u32 in E.
  assert (D : (2 ^ 32 | seed * (Z.of_nat a - Z.of_nat b))%Z).
  { apply Z.mod_divide; [lia|]. replace (seed * (Z.of_nat a - Z.of_nat b))%Z with ((i + Z.of_nat a + 1) * seed - (i + Z.of_nat b + 1) * seed)%Z by ring.
    rewrite Zminus_mod, E, Z.sub_diag. reflexivity. }
  apply Gauss in D; [|apply odd_coprime; auto]. destruct D as (q & D).
  assert (q = 0)%Z by lia. lia.
Qed.

Lemma send_ok workers seeds : forall i l, send_seeds workers seeds i = Ok l ->
  map fst l = workers /\ forall k w, nth_error workers k = Some w -> exists s, nth_error seeds (i + k) = Some s /\ nth_error l k = Some (w, s).
Proof.
  induction workers as [|w workers IH]; intros i l H; cbn [send_seeds] in H.
  - injection H as <-. split; auto. intros [|k]; discriminate.
  - apply rbind_ok in H as (s & E & H). apply rbind_ok in H as (r & E2 & H). injection H as <-. destruct (IH _ _ E2) as (A & B). split; [cbn; congruence|].
    intros [|k] v Hv; cbn [nth_error] in *.
    + injection Hv as <-. exists s. rewrite Nat.add_0_r. destruct (nth_error seeds i); [injection E as ->; auto|discriminate].
    + destruct (B k v Hv) as (t & T1 & T2). exists t. replace (i + S k) with (S i + k) by lia. auto.
Qed.
Lemma send_total workers seeds : forall i, i + length workers <= length seeds -> exists l, send_seeds workers seeds i = Ok l.
Proof.
  induction workers as [|w workers IH]; intros i H; cbn [send_seeds length] in *; eauto.
  destruct (nth_error seeds i) as [s|] eqn:E; [|apply nth_error_None in E; lia]. cbn [of_opt rbind]. destruct (IH (S i)) as (l & ->); [lia|]. cbn. eauto.
Qed.
Lemma rands_ok n : forall ds l r, rands n ds = Ok (l, r) -> ds = l ++ r /\ length l = n.
Proof.
  induction n as [|n IH]; intros ds l r H; cbn [rands] in H; [injection H as <- <-; auto|].
  destruct ds as [|d ds]; [discriminate|]. apply rbind_ok in H as ((l1 & r1) & E & H). injection H as <- <-. apply IH in E as (-> & <-). auto.
Qed.

(** ** the job *)
Section Job.
Context {St X : Type}.
Context (reset : St -> St) (algo : St -> St) (best : St -> X).
Notation process := (process_task reset algo best).
Notation step := (ms_step reset algo best).
Notation run := (ms_run reset algo best).

Fixpoint after (k : nat) (s : St) : St := match k with 0 => s | S k => after k (fst (process s)) end.
Lemma after_S k : forall s, after (S k) s = fst (process (after k s)).
Proof. induction k as [|k IH]; intros s; auto. change (after (S (S k)) s) with (after (S k) (fst (process s))). rewrite IH. reflexivity. Qed.
Lemma row_S k : forall s, in_a_row process (S k) s = in_a_row process k s ++ [snd (process (after k s))].
Proof.
  induction k as [|k IH]; intros s; [cbn; destruct (process s); auto|].
  change (in_a_row process (S (S k)) s) with (let (s', x) := process s in x :: in_a_row process (S k) s').
  change (in_a_row process (S k) s) with (let (s', x) := process s in x :: in_a_row process k s').
  cbn [after]. destruct (process s) as [s' x] eqn:E. rewrite IH. reflexivity.
Qed.
Lemma row_len k : forall s, length (in_a_row process k s) = k.
Proof. induction k as [|k IH]; intros s; cbn [in_a_row]; auto. destruct (process s). cbn. rewrite IH. auto. Qed.

Definition from (w : nat) (l : list (nat * X)) : list X := map snd (filter (fun p => fst p =? w) l).
Lemma from_app w l v x : from w (l ++ [(v, x)]) = from w l ++ (if v =? w then [x] else []).
Proof. unfold from. rewrite filter_app, map_app. cbn [filter fst]. destruct (v =? w); reflexivity. Qed.
Definition tasks (ms : list move) : nat := length (filter (fun m => match m with Assign _ => true | _ => false end) ms).

Context (workers : list nat) (n : Z) (old : list X) (seeded : nat -> St).
Definition weigh (f : @phase X -> Z) (ph : nat -> phase) : Z := fold_right (fun w a => (f (ph w) + a)%Z) 0%Z workers.
Lemma weigh_at (f : @phase X -> Z) ph w p : NoDup workers -> In w workers -> weigh f (at_w ph w p) = (weigh f ph - f (ph w) + f p)%Z.
Proof.
  unfold weigh. clear. induction workers as [|v l IH]; intros N I; [contradiction|]. cbn [fold_right]. inversion N; subst.
  assert (A : forall l, ~ In w l -> fold_right (fun v a => (f (at_w ph w p v) + a)%Z) 0%Z l = fold_right (fun v a => (f (ph v) + a)%Z) 0%Z l).
  { clear. induction l as [|v l IH]; intros N; auto. cbn [fold_right]. rewrite IH by (cbn in N; tauto). unfold at_w at 1. destruct (Nat.eqb_spec v w); [cbn in N; subst; tauto|auto]. }
  unfold at_w at 1. destruct (Nat.eqb_spec v w) as [->|D].
  - rewrite A by auto. lia.
  - destruct I; [congruence|]. rewrite IH by auto. lia.
Qed.
Definition load (p : @phase X) : Z := match p with Waiting => 0 | Ordered => 2 | Answered _ => 1 end.
Definition busy (p : @phase X) : Z := match p with Waiting => 0 | _ => 1 end.

Record inv (ms : list move) (j : @job St X) (l : list (nat * X)) : Prop := Inv {
  iv_bests : j_bests j = old ++ map snd l;
  iv_in : forall w, j_phase j w <> Waiting -> In w workers;
  iv_inl : forall w x, In (w, x) l -> In w workers;
  iv_w : forall w, match j_phase j w with
    | Waiting => from w l = in_a_row process (sent w ms) (seeded w) /\ j_state j w = after (sent w ms) (seeded w)
    | Ordered => exists k, sent w ms = S k /\ from w l = in_a_row process k (seeded w) /\ j_state j w = after k (seeded w)
    | Answered x => from w l ++ [x] = in_a_row process (sent w ms) (seeded w) /\ j_state j w = after (sent w ms) (seeded w)
    end;
  iv_runs : j_runs j = (n - Z.of_nat (tasks ms))%Z;
  iv_pos : (0 <= j_runs j)%Z;
  iv_len : Z.of_nat (length ms) = (3 * Z.of_nat (tasks ms) - weigh load (j_phase j))%Z;
  iv_busy : Z.of_nat (tasks ms) = (Z.of_nat (length l) + weigh busy (j_phase j))%Z }.

Lemma sent_app w ms m : sent w (ms ++ [m]) = sent w ms + (match m with Assign v => if v =? w then 1 else 0 | _ => 0 end).
Proof. unfold sent. rewrite filter_app, app_length. cbn [filter]. destruct m as [v|v|v]; cbn; auto. destruct (v =? w); auto. Qed.
Lemma tasks_app ms m : tasks (ms ++ [m]) = tasks ms + (match m with Assign v => 1 | _ => 0 end).
Proof. unfold tasks. rewrite filter_app, app_length. cbn [filter]. destruct m as [v|v|v]; cbn; auto. Qed.

Lemma inv_start : (0 <= n)%Z -> inv [] (ms_start n old seeded) [].
Proof.
  intros H. assert (W : forall f, f (@Waiting X) = 0%Z -> weigh f (fun _ => Waiting) = 0%Z).
  { intros f E. unfold weigh. clear -E. induction workers; cbn; auto. lia. }
  split; cbn; auto; try (intros; contradiction); try lia; try (rewrite app_nil_r; auto); try (rewrite W; auto).
Qed.
Lemma inv_step ms j l m j' : NoDup workers -> inv ms j l -> step workers j m = Some j' ->
  exists l', inv (ms ++ [m]) j' l' /\ (l' = l \/ exists p, l' = l ++ [p]).
Proof.
  intros N [I1 I2 I3 I4 I5 I6 I7 I8] H. destruct m as [w|w|w]; cbn [ms_step] in H.
  - destruct (finished j) eqn:F; [discriminate|]. destruct (existsb (Nat.eqb w) workers) eqn:Ex; [|discriminate]. cbn [negb andb] in H.
    apply existsb_exists in Ex as (v & Iv & Ev). apply Nat.eqb_eq in Ev. subst v. unfold finished in F. apply Z.leb_gt in F.
    destruct (j_phase j w) eqn:P; try discriminate. injection H as <-. exists l. split; auto.
    split; cbn [j_bests j_phase j_state j_runs]; auto.
    + intros v. unfold at_w. destruct (Nat.eqb_spec v w) as [->|D]; auto.
    + intros v. specialize (I4 v). rewrite sent_app. unfold at_w. destruct (Nat.eqb_spec v w) as [->|D].
      * rewrite P in I4. rewrite Nat.eqb_refl. exists (sent w ms). split; [lia|auto].
      * destruct (Nat.eqb_spec w v); [congruence|]. rewrite Nat.add_0_r. auto.
    + rewrite tasks_app. lia.
    + lia.
    + rewrite app_length, tasks_app, weigh_at, P by auto. cbn [length load]. lia.
    + rewrite tasks_app, weigh_at, P by auto. cbn [busy]. lia.
  - destruct (j_phase j w) eqn:P; try discriminate. destruct (process (j_state j w)) as [s x] eqn:Ep. injection H as <-. exists l. split; auto.
    assert (Iw : In w workers) by (apply I2; rewrite P; discriminate).
    split; cbn [j_bests j_phase j_state j_runs]; auto.
    + intros v. unfold at_w. destruct (Nat.eqb_spec v w) as [->|D]; auto.
    + intros v. specialize (I4 v). rewrite sent_app, Nat.add_0_r. unfold at_w. destruct (Nat.eqb_spec v w) as [->|D]; auto.
      rewrite P in I4. destruct I4 as (k & K1 & K2 & K3). rewrite K1, row_S, K2, after_S, <- K3, Ep. auto.
    + rewrite tasks_app. lia.
    + rewrite app_length, tasks_app, weigh_at, P by auto. cbn [length load]. lia.
    + rewrite tasks_app, weigh_at, P by auto. cbn [busy]. lia.
  - destruct (j_phase j w) as [| |x] eqn:P; try discriminate. injection H as <-. exists (l ++ [(w, x)]). split; [|eauto].
    assert (Iw : In w workers) by (apply I2; rewrite P; discriminate).
    split; cbn [j_bests j_phase j_state j_runs]; auto.
    + rewrite I1, map_app, app_assoc. reflexivity.
    + intros v. unfold at_w. destruct (Nat.eqb_spec v w) as [->|D]; auto.
    + intros v y Hv. apply in_app_or in Hv as [Hv|[Hv|[]]]; eauto. injection Hv as <- <-. auto.
    + intros v. specialize (I4 v). rewrite sent_app, Nat.add_0_r, from_app. unfold at_w. destruct (Nat.eqb_spec v w) as [->|D].
      * rewrite P in I4. rewrite Nat.eqb_refl. auto.
      * destruct (Nat.eqb_spec w v); [congruence|]. rewrite app_nil_r. auto.
    + rewrite tasks_app. lia.
    + rewrite app_length, tasks_app, weigh_at, P by auto. cbn [length load]. lia.
    + rewrite tasks_app, weigh_at, P, app_length by auto. cbn [busy length]. lia.
Qed.
Lemma run_app ms m : forall j, run workers j (ms ++ [m]) = obind (run workers j ms) (fun j => step workers j m).
Proof. induction ms as [|a ms IH]; intros j; cbn [app ms_run]; [cbn [obind]; destruct (step workers j m); reflexivity|]. destruct (step workers j a); cbn [obind]; [apply IH|reflexivity]. Qed.
Lemma inv_run ms j : NoDup workers -> (0 <= n)%Z -> run workers (ms_start n old seeded) ms = Some j -> exists l, inv ms j l.
Proof.
  intros N P. revert j. induction ms as [|m ms IH] using rev_ind; intros j H.
  - injection H as <-. exists []. apply inv_start; auto.
  - rewrite run_app in H. destruct (run workers (ms_start n old seeded) ms) as [j0|] eqn:E; [|discriminate]. destruct (IH j0 eq_refl) as (l & I).
    destruct (inv_step _ _ _ _ _ N I H) as (l' & I' & _). eauto.
Qed.
Lemma weigh_ended f ph : f Waiting = 0%Z -> (forall w, In w workers -> ph w = Waiting) -> weigh f ph = 0%Z.
Proof. intros E. unfold weigh. clear -E. induction workers as [|w l IH]; intros H; cbn [fold_right]; auto. rewrite (H w) by (left; auto). rewrite IH by (intros; apply H; right; auto). lia. Qed.
Lemma not_ended j : workers <> [] -> ~ ended workers j -> exists m j', step workers j m = Some j'.
Proof.
  intros NE H. destruct (forallb (fun w => match j_phase j w with Waiting => true | _ => false end) workers) eqn:A.
  - assert (W : forall w, In w workers -> j_phase j w = Waiting). { intros w I. rewrite forallb_forall in A. specialize (A w I). destruct (j_phase j w); auto; discriminate. }
    destruct (finished j) eqn:F; [exfalso; apply H; split; auto|]. destruct workers as [|w l]; [contradiction|]. exists (Assign w). cbn [ms_step]. rewrite F. cbn [existsb]. rewrite Nat.eqb_refl. cbn [negb andb orb].
    rewrite (W w) by (left; auto). eauto.
  - assert (E : exists w, In w workers /\ j_phase j w <> Waiting).
    { clear -A. induction workers as [|w l IH]; [discriminate|]. cbn [forallb] in A. destruct (j_phase j w) eqn:P; [destruct (IH A) as (v & ? & ?); exists v; cbn; auto| |]; (exists w; split; [left; auto|rewrite P; discriminate]). }
    destruct E as (w & I & E). destruct (j_phase j w) as [| |x] eqn:P; [contradiction| |].
    + exists (Work w). cbn [ms_step]. rewrite P. destruct (process (j_state j w)). eauto.
    + exists (Handle w). cbn [ms_step]. rewrite P. eauto.
Qed.
End Job.

(** ** the timers *)
Lemma cpu_time_ok a b rem r rem' : cpu_time a b rem = (r, rem') ->
  (r * 1000000 + rem' = rem + elapsed a b + (if (snd b <? snd a)%Z then 2 * (snd a - snd b) else 0))%Z.
Proof.
  unfold cpu_time, elapsed, micros. destruct (Z.leb_spec 0 (snd b - snd a)) as [L|L].
  - destruct (Z.ltb_spec (snd b) (snd a)); [lia|]. destruct (1000000 <=? rem + (snd b - snd a))%Z; intros K; apply pair_equal_spec in K as (<- & <-); lia.
  - destruct (Z.ltb_spec (snd b) (snd a)); [|lia]. destruct (1000000 <=? rem + (1000000 - (snd b - snd a)))%Z; intros K; apply pair_equal_spec in K as (<- & <-); lia.
Qed.
Lemma cpu_time_rem a b rem r rem' : proper a -> proper b -> (0 <= rem < 1000000)%Z -> (snd a <= snd b)%Z -> cpu_time a b rem = (r, rem') -> (0 <= rem' < 1000000)%Z.
Proof.
  unfold cpu_time, proper. intros A B R L. destruct (Z.leb_spec 0 (snd b - snd a)); [|lia].
  destruct (Z.leb_spec 1000000 (rem + (snd b - snd a))); intros K; apply pair_equal_spec in K as (<- & <-); lia.
Qed.

(** what is kept for one key: the measures, and when its timer was started *)
Lemma ts_start_inv k cs : forall s d,
  option_map (fun t => wall_t (t_start t)) (timers_ s k) = option_map wall_t d ->
  option_map (fun t => wall_t (t_start t)) (timers_ (ts_run true s cs) k) = option_map wall_t (started k cs d).
Proof.
  induction cs as [|c cs IH]; intros s d H; [exact H|]. change (ts_run true s (c :: cs)) with (ts_run true (ts_step true s c) cs).
  destruct c as [j now|j created now|]; cbn [started].
  - apply IH. cbn [ts_step timers_]. unfold put. rewrite (String.eqb_sym j k). destruct (String.eqb_spec k j) as [->|N]; auto.
    destruct (timers_ s j); reflexivity.
  - apply IH. cbn [ts_step]. unfold usertime, systime. destruct (cpu_time _ _ _) as [u m1]. cbn [t_start t_srem t_urem]. destruct (cpu_time _ _ _) as [y m2]. cbn [timers_]. unfold put.
    rewrite (String.eqb_sym j k). destruct (String.eqb_spec k j) as [->|N]; auto. cbn [option_map t_start].
    destruct (timers_ s j) as [t|], d as [d|]; try discriminate; auto.
  - apply IH. exact H.
Qed.
Definition walls (s : timer_stat) (k : string) : list Q := match stats_ s k with Some st => s_wall st | None => [] end.
Definition users (s : timer_stat) (k : string) : list Z := match stats_ s k with Some st => s_user st | None => [] end.
Definition syss (s : timer_stat) (k : string) : list Z := match stats_ s k with Some st => s_sys st | None => [] end.
Lemma ts_run_app on a b s : ts_run on s (a ++ b) = ts_run on (ts_run on s a) b.
Proof. unfold ts_run. apply fold_left_app. Qed.
Lemma ts_counts k cs : forall s,
  existsb is_clear cs = false ->
  exists lw lu ls, walls (ts_run true s cs) k = walls s k ++ lw /\ users (ts_run true s cs) k = users s k ++ lu /\ syss (ts_run true s cs) k = syss s k ++ ls /\
    length lw = length (filter (stops_of k) cs) /\ length lu = length (filter (stops_of k) cs) /\ length ls = length (filter (stops_of k) cs).
Proof.
  induction cs as [|c cs IH]; intros s H; cbn [existsb filter] in *; [exists [], [], []; cbn; rewrite !app_nil_r; repeat split; auto|].
  apply orb_false_iff in H as (Hc & H). change (ts_run true s (c :: cs)) with (ts_run true (ts_step true s c) cs).
  destruct (IH (ts_step true s c) H) as (lw & lu & ls & A & B & C & D & E & F). rewrite A, B, C.
  destruct c as [j now|j created now|]; [| |discriminate].
  - exists lw, lu, ls. cbn [stops_of]. auto 10.
  - assert (Q : exists w u y, walls (ts_step true s (Stop j created now)) k = walls s k ++ (if String.eqb j k then [w] else []) /\
        users (ts_step true s (Stop j created now)) k = users s k ++ (if String.eqb j k then [u] else []) /\
        syss (ts_step true s (Stop j created now)) k = syss s k ++ (if String.eqb j k then [y] else [])).
    { cbn [ts_step]. destruct (usertime _ now) as [u t1]. destruct (systime t1 now) as [y t2]. exists (wallclock t2 now), u, y.
      unfold walls, users, syss. cbn [stats_]. unfold put. rewrite (String.eqb_sym j k). destruct (String.eqb_spec k j) as [->|N]; [|rewrite !app_nil_r; auto].
      cbn [s_wall s_user s_sys]. destruct (stats_ s j); auto. }
    destruct Q as (w & u & y & Q1 & Q2 & Q3). rewrite Q1, Q2, Q3. cbn [stops_of]. destruct (String.eqb j k).
    + exists (w :: lw), (u :: lu), (y :: ls). rewrite <- !app_assoc. cbn. auto 10.
    + exists lw, lu, ls. rewrite !app_nil_r. auto 10.
Qed.
Lemma since_split cs : exists pre, cs = pre ++ since_clear cs /\ existsb is_clear (since_clear cs) = false /\ (pre = [] \/ exists p, pre = p ++ [Clear]).
Proof.
  induction cs as [|c cs (pre & E & F & G)]; [exists []; auto|]. cbn [since_clear]. destruct (existsb is_clear (c :: cs)) eqn:K.
  - exists (c :: pre). split; [cbn; congruence|]. split; auto. right.
    destruct G as [->|(p & ->)]; [|exists (c :: p); auto]. cbn in E. cbn [existsb] in K. rewrite E, F, orb_false_r in K. destruct c; try discriminate. exists []. auto.
  - exists []. auto.
Qed.
Lemma walls_clear on s p k : walls (ts_run on s (p ++ [Clear])) k = [] /\ users (ts_run on s (p ++ [Clear])) k = [] /\ syss (ts_run on s (p ++ [Clear])) k = [].
Proof. rewrite ts_run_app. cbn. auto. Qed.

Lemma cons_user a b ps t x m : cpu_time (user_t a) (user_t b) (t_urem t) = (x, m) ->
  fst (measured usertime ((a, b) :: ps) t) = x :: fst (measured usertime ps (Timer a m (t_srem t))).
Proof. intros E. cbn [measured]. replace (usertime (restart t a) b) with (x, Timer a m (t_srem t)) by (unfold usertime; cbn [restart t_start t_urem t_srem]; rewrite E; reflexivity). destruct (measured usertime ps _). reflexivity. Qed.
Lemma cons_sys a b ps t x m : cpu_time (sys_t a) (sys_t b) (t_srem t) = (x, m) ->
  fst (measured systime ((a, b) :: ps) t) = x :: fst (measured systime ps (Timer a (t_urem t) m)).
Proof. intros E. cbn [measured]. replace (systime (restart t a) b) with (x, Timer a (t_urem t) m) by (unfold systime; cbn [restart t_start t_urem t_srem]; rewrite E; reflexivity). destruct (measured systime ps _). reflexivity. Qed.
Lemma measured_user ps : forall t t', t_urem t = t_urem t' -> fst (measured usertime ps t) = fst (measured usertime ps t').
Proof.
  induction ps as [|[a b] ps IH]; intros t t' H; auto. destruct (cpu_time (user_t a) (user_t b) (t_urem t)) as [x m] eqn:E.
  rewrite (cons_user a b ps t x m E). rewrite H in E. rewrite (cons_user a b ps t' x m E). f_equal. apply IH. reflexivity.
Qed.
Lemma measured_sys ps : forall t t', t_srem t = t_srem t' -> fst (measured systime ps t) = fst (measured systime ps t').
Proof.
  induction ps as [|[a b] ps IH]; intros t t' H; auto. destruct (cpu_time (sys_t a) (sys_t b) (t_srem t)) as [x m] eqn:E.
  rewrite (cons_sys a b ps t x m E). rewrite H in E. rewrite (cons_sys a b ps t' x m E). f_equal. apply IH. reflexivity.
Qed.
Lemma stop_here s k created now u m1 y m2 : let tk := match timers_ s k with Some t => t | None => new_timer created end in
  cpu_time (user_t (t_start tk)) (user_t now) (t_urem tk) = (u, m1) -> cpu_time (sys_t (t_start tk)) (sys_t now) (t_srem tk) = (y, m2) ->
  let s' := ts_step true s (Stop k created now) in
  users s' k = users s k ++ [u] /\ syss s' k = syss s k ++ [y] /\ timers_ s' k = Some (Timer (t_start tk) m1 m2).
Proof.
  intros tk E1 E2. cbn [ts_step]. fold tk. unfold usertime, systime. rewrite E1. cbn [t_start t_srem t_urem]. rewrite E2. cbv zeta. unfold users, syss. cbn [stats_ timers_]. unfold put. rewrite !String.eqb_refl.
  cbn [s_user s_sys]. destruct (stats_ s k); auto.
Qed.
Lemma stop_other s j k created now : j <> k -> let s' := ts_step true s (Stop j created now) in users s' k = users s k /\ syss s' k = syss s k /\ timers_ s' k = timers_ s k.
Proof.
  intros N. cbn [ts_step]. destruct (usertime _ now) as [u t1]. destruct (systime t1 now) as [y t2]. cbv zeta. unfold users, syss. cbn [stats_ timers_]. unfold put.
  destruct (String.eqb_spec k j); [congruence|]. auto.
Qed.
Lemma start_at s j k now : let s' := ts_step true s (Start j now) in users s' k = users s k /\ syss s' k = syss s k /\
  timers_ s' k = if String.eqb j k then Some (match timers_ s k with Some t => restart t now | None => new_timer now end) else timers_ s k.
Proof. cbv zeta. split; [reflexivity|]. split; [reflexivity|]. cbn [ts_step timers_]. unfold put. rewrite (String.eqb_sym k j). destruct (String.eqb_spec j k) as [->|]; reflexivity. Qed.
Definition rems (o : option timer) (t : timer) : timer := match o with Some t => t | None => t end.
Lemma stats_gen k t cs : t_urem t = 0%Z -> t_srem t = 0%Z -> forall s, existsb is_clear cs = false ->
  users (ts_run true s cs) k = users s k ++ fst (measured usertime (intervals k cs (option_map t_start (timers_ s k))) (rems (timers_ s k) t)) /\
  syss (ts_run true s cs) k = syss s k ++ fst (measured systime (intervals k cs (option_map t_start (timers_ s k))) (rems (timers_ s k) t)).
Proof.
  intros U Y. induction cs as [|c cs IH]; intros s H; [cbn; rewrite !app_nil_r; auto|].
  cbn [existsb] in H. apply orb_false_iff in H as (Hc & H). change (ts_run true s (c :: cs)) with (ts_run true (ts_step true s c) cs).
  destruct (IH (ts_step true s c) H) as (A & B). rewrite A, B. clear IH A B. destruct c as [j now|j created now|]; [| |discriminate]; cbn [intervals].
  - destruct (start_at s j k now) as (-> & -> & ->). destruct (String.eqb j k); [|auto].
    assert (E : option_map t_start (Some (match timers_ s k with Some t => restart t now | None => new_timer now end)) = Some now) by (destruct (timers_ s k); reflexivity). rewrite E.
    split; f_equal; [apply measured_user|apply measured_sys]; destruct (timers_ s k); cbn; auto.
  - destruct (String.eqb_spec j k) as [->|N]; [|destruct (stop_other s j k created now N) as (-> & -> & ->); auto].
    set (tk := match timers_ s k with Some t => t | None => new_timer created end).
    destruct (cpu_time (user_t (t_start tk)) (user_t now) (t_urem tk)) as [u m1] eqn:E1. destruct (cpu_time (sys_t (t_start tk)) (sys_t now) (t_srem tk)) as [y m2] eqn:E2.
    destruct (stop_here s k created now u m1 y m2 E1 E2) as (-> & -> & ->). fold tk.
    assert (Ea : match option_map t_start (timers_ s k) with None => created | Some a => a end = t_start tk) by (unfold tk; destruct (timers_ s k); reflexivity). rewrite Ea.
    assert (Eu : t_urem (rems (timers_ s k) t) = t_urem tk /\ t_srem (rems (timers_ s k) t) = t_srem tk) by (unfold rems, tk; destruct (timers_ s k); cbn; auto). destruct Eu as (Eu & Es).
    cbv zeta. cbn [option_map t_start rems]. rewrite <- Eu in E1. rewrite <- Es in E2. rewrite (cons_user _ _ _ _ u m1 E1), (cons_sys _ _ _ _ y m2 E2), <- !app_assoc. cbn [app].
    split; do 2 f_equal; [apply measured_user|apply measured_sys]; reflexivity.
Qed.
Lemma stats_of_intervals k cs t : existsb is_clear cs = false -> t_urem t = 0%Z -> t_srem t = 0%Z ->
  let ps := intervals k cs None in
  match stats_ (ts_run true no_stat cs) k with
  | Some st => s_user st = fst (measured usertime ps t) /\ s_sys st = fst (measured systime ps t)
  | None => ps = []
  end.
Proof.
  intros H U Y. destruct (stats_gen k t cs U Y no_stat H) as (A & B). cbv zeta. unfold users, syss in A, B. destruct (stats_ (ts_run true no_stat cs) k); [auto|].
  cbn in A. destruct (intervals k cs None) as [|[a b] ps]; auto. exfalso. cbn [measured] in A. destruct (usertime _ _). destruct (measured _ _ _). discriminate.
Qed.
