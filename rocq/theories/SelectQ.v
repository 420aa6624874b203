(** Proofs about fitness-proportional selection and ranking values. *)
From Coq Require Import List Arith Lia Bool ZArith QArith Qround Lqa Permutation Sorted Setoid.
From Verif Require Import Lib Outcome OrderSpec OrderLemmas PopModel SelectModel SelectSpec SelectProofs.
Import ListNotations.
Close Scope Q_scope.
Open Scope nat_scope.

Lemma qle_dec x y : (Qle_bool x y = true /\ (x <= y)%Q) \/ (Qle_bool x y = false /\ (y < x)%Q).
Proof.
  destruct (Qle_bool x y) eqn:E; [left|right]; split; auto.
  - apply Qle_bool_iff; auto.
  - apply Qnot_le_lt. intros H. apply Qle_bool_iff in H. congruence.
Qed.
Ltac qle x y := let E := fresh "E" in let L := fresh "L" in
  destruct (qle_dec x y) as [[E L]|[E L]]; try rewrite E.

Lemma inject_nat_S n : (inject_Z (Z.of_nat (S n)) == inject_Z (Z.of_nat n) + 1)%Q.
Proof. rewrite Nat2Z.inj_succ. unfold Z.succ. rewrite inject_Z_plus. reflexivity. Qed.
Lemma inject_nat_nonneg n : (0 <= inject_Z (Z.of_nat n))%Q.
Proof. unfold Qle, inject_Z; simpl; lia. Qed.
Lemma inject_nat_pos n : 0 < n -> (0 < inject_Z (Z.of_nat n))%Q.
Proof. intros; unfold Qlt, inject_Z; simpl; lia. Qed.

(** *** prefixes *)
Lemma prefix_S fs : forall i f, nth_error fs i = Some f -> (prefix fs (S i) == prefix fs i + f)%Q.
Proof.
  induction fs as [|g fs IH]; intros [|i] f H; simpl in H; try discriminate.
  - inversion H; subst. simpl. destruct fs; simpl; ring.
  - change (prefix (g :: fs) (S (S i))) with (g + prefix fs (S i))%Q.
    change (prefix (g :: fs) (S i)) with (g + prefix fs i)%Q. rewrite (IH i f H). ring.
Qed.

Lemma prefix_0 fs : prefix fs 0 = 0%Q.
Proof. destruct fs; auto. Qed.

Lemma prefix_mono fs : non_negative fs -> forall i j, i <= j -> j <= length fs -> (prefix fs i <= prefix fs j)%Q.
Proof.
  intros Hnn i j Hij. induction Hij as [|j Hij IH]; intros Hj; [lra|].
  destruct (nth_error_in_some fs j) as [f Hf]; [lia|].
  rewrite (prefix_S fs j f Hf). pose proof (Hnn f (nth_error_In _ _ Hf)).
  assert (prefix fs i <= prefix fs j)%Q by (apply IH; lia). lra.
Qed.

Lemma qsum_prefix fs : (qsum fs == total fs)%Q.
Proof.
  unfold total. induction fs as [|f fs IH]; simpl; [lra|]. unfold qsum in IH. rewrite IH. lra.
Qed.

(** *** roulette wheels *)
Lemma roulette_loop_spec l : forall i r, (0 < r)%Q -> (r <= total l)%Q ->
  exists j, roulette_loop l i r = Ok (i + j) /\ j < length l /\
    (prefix l j < r)%Q /\ (r <= prefix l (S j))%Q.
Proof.
  induction l as [|f l IH]; intros i r H0 Hr; cbn [roulette_loop].
  - unfold total in Hr. simpl in Hr. lra.
  - qle r 0%Q; [lra|]. unfold total in *. cbn [length prefix] in Hr.
    qle (r - f)%Q 0%Q.
    + exists 0. destruct l as [|g l]; cbn [roulette_loop]; rewrite E0;
        (split; [f_equal; lia|]); simpl; split; try lia; split; lra.
    + destruct (IH (S i) (r - f)%Q) as (j & Ej & Hj & H1 & H2); [lra|lra|].
      exists (S j). rewrite Ej. split; [f_equal; lia|]. split; [simpl; lia|].
      cbn [prefix] in *. split; lra.
Qed.

Lemma roulette_spec fs u ds : (0 < u <= 1)%Q -> (0 < total fs)%Q ->
  exists i, roulette_wheel fs (total fs) u ds = Ok (i, ds) /\ i < length fs /\
    (prefix fs i < u * total fs)%Q /\ (u * total fs <= prefix fs (S i))%Q.
Proof.
  intros [Hu0 Hu1] Ht. unfold roulette_wheel.
  assert (Hp : (0 < u * total fs)%Q) by (apply Qmult_lt_0_compat; auto).
  assert (Hle : (u * total fs <= total fs)%Q).
  { rewrite <- (Qmult_1_l (total fs)) at 2. apply Qmult_le_compat_r; lra. }
  assert (E : Qeq_bool (u * total fs) 0 = false).
  { destruct (Qeq_bool (u * total fs) 0) eqn:E; auto. apply Qeq_bool_iff in E. lra. }
  rewrite E. destruct (roulette_loop_spec fs 0 _ Hp Hle) as (j & Ej & Hj & H1 & H2).
  exists j. rewrite Ej. cbn [rbind Nat.add]. auto.
Qed.

Lemma roulette_zero fs tot u d ds : (u * tot == 0)%Q -> fs <> [] ->
  exists i, roulette_wheel fs tot u (d :: ds) = Ok (i, ds) /\ i < length fs /\ i = d mod length fs.
Proof.
  intros H0 Hne. unfold roulette_wheel. apply Qeq_bool_iff in H0. rewrite H0. unfold draw.
  eexists; split; eauto. split; auto. apply Nat.mod_upper_bound. destruct fs; simpl; congruence.
Qed.

Lemma rng_roulette_loop_spec l : forall i r, (0 <= r)%Q -> (r < total l)%Q ->
  exists j, rng_roulette_loop l i r = Ok (i + j) /\ j < length l /\
    (prefix l j <= r)%Q /\ (r < prefix l (S j))%Q.
Proof.
  induction l as [|f l IH]; intros i r H0 Hr; cbn [rng_roulette_loop].
  - unfold total in Hr. simpl in Hr. lra.
  - qle 0%Q r; [|lra]. unfold total in *. cbn [length prefix] in Hr.
    qle 0%Q (r - f)%Q.
    + destruct (IH (S i) (r - f)%Q) as (j & Ej & Hj & H1 & H2); [lra|lra|].
      exists (S j). rewrite Ej. split; [f_equal; lia|]. split; [simpl; lia|].
      cbn [prefix] in *. split; lra.
    + exists 0. destruct l as [|g l]; cbn [rng_roulette_loop]; rewrite E0;
        (split; [f_equal; lia|]); simpl; split; try lia; split; lra.
Qed.

Lemma rng_roulette_spec fs tot u : (0 <= u < 1)%Q -> (0 < total fs)%Q ->
  (tot == 0)%Q \/ (tot == total fs)%Q ->
  exists i, rng_roulette fs tot u = Ok i /\ i < length fs /\
    (prefix fs i <= u * total fs)%Q /\ (u * total fs < prefix fs (S i))%Q.
Proof.
  intros [Hu0 Hu1] Ht Htot. unfold rng_roulette.
  set (t := if Qeq_bool tot 0 then qsum fs else tot).
  assert (Et : (t == total fs)%Q).
  { unfold t. destruct (Qeq_bool tot 0) eqn:E; [apply qsum_prefix|].
    destruct Htot as [H|H]; auto. apply Qeq_bool_iff in H. congruence. }
  clearbody t.
  assert (Eu : (u * t == u * total fs)%Q) by (rewrite Et; reflexivity).
  assert (Hp : (0 <= u * t)%Q) by (rewrite Eu; apply Qmult_le_0_compat; lra).
  assert (Hle : (u * t < total fs)%Q).
  { rewrite Eu. rewrite <- (Qmult_1_l (total fs)) at 2. apply Qmult_lt_compat_r; lra. }
  destruct (rng_roulette_loop_spec fs 0 _ Hp Hle) as (j & Ej & Hj & H1 & H2).
  exists j. rewrite Ej. cbn [Nat.add]. split; [auto|]. split; [auto|]. split; lra.
Qed.

Lemma running_length fs : forall acc, length (running acc fs) = length fs.
Proof. induction fs; simpl; auto. Qed.
Lemma running_nth fs : forall acc i c, nth_error (running acc fs) i = Some c -> (c == acc + prefix fs (S i))%Q.
Proof.
  induction fs as [|f fs IH]; intros acc [|i] c H; simpl in H; try discriminate.
  - inversion H; subst. simpl. destruct fs; simpl; lra.
  - apply IH in H. rewrite H. change (prefix (f :: fs) (S (S i))) with (f + prefix fs (S i))%Q. lra.
Qed.
Lemma last_nth {B} (l : list B) d : l <> [] -> nth_error l (length l - 1) = Some (last l d).
Proof.
  induction l as [|a l IH]; intros H; [congruence|]. destruct l as [|b l].
  - reflexivity.
  - replace (length (a :: b :: l) - 1) with (S (length (b :: l) - 1)) by (simpl; lia).
    cbn [nth_error]. rewrite IH by congruence. reflexivity.
Qed.
Lemma last_cumulative fs : fs <> [] -> (last (cumulative fs) 0 == total fs)%Q.
Proof.
  intros H. assert (Hc : cumulative fs <> []).
  { intros E. apply (f_equal (@length _)) in E. unfold cumulative in E. rewrite running_length in E.
    destruct fs; simpl in E; congruence. }
  pose proof (last_nth (cumulative fs) 0%Q Hc) as E. apply running_nth in E. rewrite E.
  unfold cumulative. rewrite running_length. destruct fs as [|f fs]; [congruence|].
  replace (S (length (f :: fs) - 1)) with (length (f :: fs)) by (simpl; lia). unfold total. lra.
Qed.

Lemma upper_bound_spec fs x : forall acc, (acc <= x)%Q -> (x < acc + total fs)%Q ->
  let i := upper_bound (running acc fs) x in
  i < length fs /\ (acc + prefix fs i <= x)%Q /\ (x < acc + prefix fs (S i))%Q.
Proof.
  unfold total. induction fs as [|f fs IH]; intros acc Ha Hx; cbn [running upper_bound length prefix] in *.
  - simpl in Hx. lra.
  - qle (acc + f)%Q x.
    + destruct (IH (acc + f)%Q L) as (H1 & H2 & H3).
      { rewrite <- Qplus_assoc. exact Hx. }
      set (i := upper_bound _ _) in *. clearbody i. cbn [prefix]. repeat split; [lia|lra|].
      destruct fs; cbn [prefix] in *; lra.
    + repeat split; [lia|simpl; lra|]. destruct fs; simpl; lra.
Qed.

Lemma proportional_spec fs u : (0 <= u < 1)%Q -> (0 < total fs)%Q ->
  exists i, proportional_pick fs u = Ok i /\ i < length fs /\
    (prefix fs i <= u * total fs)%Q /\ (u * total fs < prefix fs (S i))%Q.
Proof.
  intros [Hu0 Hu1] Ht.
  assert (Hne : fs <> []) by (intros ->; unfold total in Ht; simpl in Ht; lra).
  pose proof (last_cumulative fs Hne) as Hl.
  set (x := (u * last (cumulative fs) 0)%Q).
  assert (Ex : (x == u * total fs)%Q) by (unfold x; rewrite Hl; reflexivity).
  assert (Hp : (0 <= x)%Q) by (rewrite Ex; apply Qmult_le_0_compat; lra).
  assert (Hle : (x < 0 + total fs)%Q).
  { rewrite Ex, Qplus_0_l. rewrite <- (Qmult_1_l (total fs)) at 2. apply Qmult_lt_compat_r; lra. }
  destruct (upper_bound_spec fs x 0%Q Hp Hle) as (H1 & H2 & H3).
  exists (upper_bound (cumulative fs) x). unfold cumulative in *. split.
  - assert (E : proportional_pick fs u = Ok (if (length fs <=? upper_bound (running 0 fs) x)%nat
                                              then length fs - 1 else upper_bound (running 0 fs) x)).
    { unfold x. destruct fs; [congruence|reflexivity]. }
    rewrite E. destruct (Nat.leb_spec (length fs) (upper_bound (running 0 fs) x)); [lia|]. auto.
  - clearbody x. set (i := upper_bound (running 0 fs) x) in *. clearbody i.
    split; [auto|]. split; lra.
Qed.

(** a slot of zero width is never hit *)
Lemma hit_positive fs i f x : nth_error fs i = Some f ->
  (prefix fs i < x)%Q -> (x <= prefix fs (S i))%Q -> (0 < f)%Q.
Proof. intros H H1 H2. rewrite (prefix_S _ _ _ H) in H2. lra. Qed.

Lemma sum_fitness_spec fs : 
  (non_negative fs -> exists t, sum_fitness fs = Ok t /\ (t == total fs)%Q) /\
  (~ non_negative fs -> sum_fitness fs = Throw).
Proof.
  unfold sum_fitness. assert (G : forall acc,
    (non_negative fs -> exists t, sum_fitness_from acc fs = Ok t /\ (t == acc + total fs)%Q) /\
    (~ non_negative fs -> sum_fitness_from acc fs = Throw)).
  { unfold total. induction fs as [|f fs IH]; intros acc; cbn [sum_fitness_from length prefix]; split; intros H.
    - exists acc. split; auto. simpl. lra.
    - exfalso. apply H. intros x [].
    - assert (Hf : (0 <= f)%Q) by (apply H; left; auto). qle 0%Q f; [|lra].
      destruct (IH (acc + f)%Q) as [H1 _]. destruct H1 as (t & Et & Ht); [intros x Hx; apply H; right; auto|].
      exists t. split; auto. lra.
    - qle 0%Q f; auto. apply IH. intros Hn. apply H. intros x [<-|Hx]; auto. }
  split; intros H.
  - destruct (proj1 (G 0%Q) H) as (t & Et & Ht). exists t. split; auto. lra.
  - apply G; auto.
Qed.

(** *** stochastic universal sampling *)
Section SUS.
Variable fs : list Q.
Hypothesis Hnn : non_negative fs.
Let T := total fs.
Let n := length fs.
Hypothesis HT : (0 < T)%Q.
Variable u : Q.
Hypothesis Hu : (0 <= u < 1)%Q.
Hypothesis Hgen : generic_position fs u.
Let p0 := (u * T)%Q.
Let s := (T / inject_Z (Z.of_nat n))%Q.
Let F (k : nat) := (p0 + inject_Z (Z.of_nat k) * s)%Q.
Let P (k : nat) := if Qle_bool T (F k) then (F k - T)%Q else F k.

Lemma fs_ne : fs <> [].
Proof. intros E. unfold T, total in HT. rewrite E in HT. simpl in HT. lra. Qed.
Lemma n_pos : 0 < n.
Proof. unfold n. pose proof fs_ne. destruct fs; simpl; [congruence|lia]. Qed.
Lemma s_pos : (0 < s)%Q.
Proof. unfold s. apply Qlt_shift_div_l; [apply inject_nat_pos, n_pos|]. lra. Qed.
Lemma n_s : (inject_Z (Z.of_nat n) * s == T)%Q.
Proof. unfold s. field. pose proof (inject_nat_pos n n_pos). lra. Qed.
Lemma F_S k : (F (S k) == F k + s)%Q.
Proof. unfold F. rewrite inject_nat_S. ring. Qed.
Lemma p0_range : (0 <= p0 < T)%Q.
Proof.
  unfold p0. split; [apply Qmult_le_0_compat; lra|].
  rewrite <- (Qmult_1_l T) at 2. apply Qmult_lt_compat_r; lra.
Qed.
Lemma F_mono k m : k <= m -> (F k <= F m)%Q.
Proof. induction 1; [lra|]. rewrite F_S. pose proof s_pos. lra. Qed.
Lemma F_n k : (F (k + n) == F k + T)%Q.
Proof. unfold F. rewrite Nat2Z.inj_add, inject_Z_plus. rewrite <- n_s. ring. Qed.
Lemma F_range k : k < n -> (p0 <= F k)%Q /\ (F k < p0 + T)%Q.
Proof.
  intros Hk. assert (E : (F 0 == p0)%Q) by (unfold F; simpl; ring).
  pose proof (F_mono 0 k ltac:(lia)). pose proof (F_mono (S k) (0 + n) ltac:(lia)).
  rewrite F_S, F_n in H0. pose proof s_pos. lra.
Qed.

Lemma P_spec k : k < n -> (0 < P k)%Q /\ (P k < T)%Q /\ (forall i, i <= n -> ~ (P k == prefix fs i)%Q).
Proof.
  intros Hk. destruct (F_range k Hk) as [H1 H2]. pose proof p0_range as [Hp1 Hp2].
  assert (Hne : forall i, i <= n -> ~ (P k == prefix fs i)%Q).
  { intros i Hi. destruct (Hgen k i Hk Hi) as [G1 G2]. fold T n in G1, G2. fold s p0 in G1, G2. fold (F k) in G1, G2.
    unfold P. qle T (F k); auto. intros E1. apply G2. rewrite <- E1. ring. }
  split; [|split; auto].
  - assert (0 <= P k)%Q by (unfold P; qle T (F k); lra).
    pose proof (Hne 0 ltac:(lia)) as H0. rewrite prefix_0 in H0.
    destruct (Qlt_le_dec 0 (P k)); auto. exfalso; apply H0. lra.
  - unfold P. qle T (F k); lra.
Qed.

Definition hits (i k : nat) : Prop := (prefix fs i < P k)%Q /\ (P k < prefix fs (S i))%Q.

Lemma hits_unique i j k : i < n -> j < n -> hits i k -> hits j k -> i = j.
Proof.
  intros Hi Hj [A1 A2] [B1 B2].
  destruct (Nat.lt_trichotomy i j) as [H|[H|H]]; auto; exfalso.
  - pose proof (prefix_mono fs Hnn (S i) j H ltac:(unfold n in *; lia)). lra.
  - pose proof (prefix_mono fs Hnn (S j) i H ltac:(unfold n in *; lia)). lra.
Qed.

Lemma sus_advance_spec l : forall cum' i fortune,
  (forall j c, nth_error cum' j = Some c -> (c == prefix fs (S (i + j)))%Q) ->
  l = length cum' -> i + l = n -> (prefix fs i < fortune)%Q -> (fortune < T)%Q ->
  exists i1, sus_advance cum' i fortune = Some i1 /\ i1 < n /\
    (prefix fs i1 < fortune)%Q /\ (fortune <= prefix fs (S i1))%Q.
Proof.
  induction l as [|l IH]; intros cum' i fortune Hc Hl Hn H1 H2; destruct cum' as [|c cum']; try discriminate.
  - exfalso. assert (i = n) by lia. subst i. unfold T, total in H2. fold n in H2. lra.
  - cbn [sus_advance]. pose proof (Hc 0 c eq_refl) as E0. rewrite Nat.add_0_r in E0.
    qle fortune c.
    + exists i. repeat split; auto; [lia|]. rewrite <- E0. auto.
    + apply (IH cum' (S i)); auto.
      * intros j d Hd. replace (S i + j) with (i + S j) by lia. apply Hc. auto.
      * lia.
      * rewrite <- E0. auto.
Qed.

Lemma sus_loop_spec step tot : (step == s)%Q -> (tot == T)%Q ->
  forall k m i fortune, k + m = n -> i <= n -> (fortune == P k)%Q -> (prefix fs i < fortune)%Q ->
  exists picks, sus_loop m (cumulative fs) tot step i fortune = Ok picks /\ length picks = m /\
    forall j x, nth_error picks j = Some x -> x < n /\ hits x (k + j).
Proof.
  intros Es Et k m. revert k. induction m as [|m IH]; intros k i fortune Hk Hi Hf Hpre; cbn [sus_loop].
  - exists []. repeat split; auto; destruct j; discriminate.
  - destruct (P_spec k ltac:(lia)) as (Q1 & Q2 & Q3).
    destruct (sus_advance_spec (length (skipn i (cumulative fs))) (skipn i (cumulative fs)) i fortune)
      as (i1 & E1 & Hi1 & A1 & A2); auto.
    { intros j c Hc. rewrite skipn_nth_error in Hc. apply running_nth in Hc. rewrite Hc. lra. }
    { rewrite skipn_length. unfold cumulative. rewrite running_length. fold n. lia. }
    { rewrite Hf. auto. }
    rewrite E1. cbn [of_opt rbind].
    assert (Hhit : hits i1 k).
    { split; [rewrite <- Hf; auto|]. rewrite Hf in A2.
      assert (N : ~ (P k == prefix fs (S i1))%Q) by (apply Q3; lia).
      destruct (Qlt_le_dec (P k) (prefix fs (S i1))); auto. exfalso; apply N; lra. }
    assert (Hcase : m = 0 \/ 0 < m) by lia. destruct Hcase as [->|Hm].
    { exists [i1]. cbn [sus_loop]. split; [destruct (Qle_bool tot (fortune + step)); reflexivity|].
      split; [auto|]. intros [|[|j]] x H; simpl in H; try discriminate.
      assert (x = i1) by congruence. subst x. rewrite Nat.add_0_r. auto. }
    assert (HS : S k < n) by lia.
    destruct (P_spec (S k) HS) as (R1 & R2 & R3). pose proof s_pos as Hs.
    destruct (F_range k ltac:(lia)) as [F1 F2]. destruct (F_range (S k) HS) as [F3 F4].
    pose proof (F_S k) as FS. pose proof p0_range as [Hp1 Hp2].
    assert (Hrec : exists picks,
      (if Qle_bool tot (fortune + step) then sus_loop m (cumulative fs) tot step 0 (fortune + step - tot)
       else sus_loop m (cumulative fs) tot step i1 (fortune + step)) = Ok picks /\ length picks = m /\
      forall j x, nth_error picks j = Some x -> x < n /\ hits x (S k + j)).
    { qle tot (fortune + step)%Q.
      - apply IH; [lia|lia| |].
        + rewrite Hf, Es, Et. unfold P. rewrite Hf, Es, Et in L. unfold P in L.
          qle T (F k); rewrite E0 in L; qle T (F (S k)); lra.
        + rewrite prefix_0. rewrite Hf, Es, Et. unfold P at 1. rewrite Hf, Es, Et in L. unfold P in L.
          revert R1. unfold P. qle T (F k); rewrite E0 in L; qle T (F (S k)); intros; lra.
      - apply IH; [lia|lia| |].
        + rewrite Hf, Es. unfold P. rewrite Hf, Es, Et in L. unfold P in L.
          qle T (F k); rewrite E0 in L; qle T (F (S k)); lra.
        + rewrite Es. lra. }
    destruct Hrec as (picks & Er & Hlen & Hp). rewrite Er. cbn [rbind].
    exists (i1 :: picks). split; [auto|]. split; [simpl; lia|].
    intros [|j] x H; simpl in H.
    + assert (x = i1) by congruence. subst x. rewrite Nat.add_0_r. auto.
    + replace (k + S j) with (S k + j) by lia. apply (Hp j x H).
Qed.

Lemma sus_points_spec : exists picks, sus_points fs u = Ok picks /\ length picks = n /\
  forall k x, nth_error picks k = Some x -> x < n /\ hits x k.
Proof.
  unfold sus_points. pose proof (last_cumulative fs fs_ne) as HL. fold T in HL.
  destruct (P_spec 0 n_pos) as (Q1 & Q2 & Q3). pose proof p0_range as [Hp1 Hp2].
  assert (E0 : (P 0 == p0)%Q).
  { assert (EF : (F 0 == p0)%Q) by (unfold F; simpl; ring). unfold P. qle T (F 0); lra. }
  assert (Ef : (u * last (cumulative fs) 0 == p0)%Q) by (rewrite HL; reflexivity).
  destruct (upper_bound_spec fs (u * last (cumulative fs) 0)%Q 0%Q) as (U1 & U2 & U3).
  { lra. } { fold T. lra. }
  fold (cumulative fs) in U1, U2, U3.
  apply (sus_loop_spec _ _) with (k := 0); auto.
  - unfold s, n. rewrite HL. reflexivity.
  - fold n in U1. lia.
  - lra.
  - assert (N : ~ (P 0 == prefix fs (upper_bound (cumulative fs) (u * last (cumulative fs) 0)))%Q).
    { apply Q3. fold n in U1. lia. }
    destruct (Qlt_le_dec (prefix fs (upper_bound (cumulative fs) (u * last (cumulative fs) 0)%Q))
                         (u * last (cumulative fs) 0)%Q); auto.
    exfalso. apply N. lra.
Qed.

(** number of F k (k < m) strictly below z *)
Definition qlt_bool (x y : Q) : bool := negb (Qle_bool y x).
Lemma qlt_bool_iff x y : qlt_bool x y = true <-> (x < y)%Q.
Proof. unfold qlt_bool. qle y x; simpl; split; intros; try lra; auto; discriminate. Qed.
Lemma qlt_bool_false x y : qlt_bool x y = false <-> (y <= x)%Q.
Proof. unfold qlt_bool. qle y x; simpl; split; intros; try lra; auto; discriminate. Qed.

Definition below (m : nat) (z : Q) : nat := length (filter (fun k => qlt_bool (F k) z) (seq 0 m)).

Lemma below_S m z : below (S m) z = below m z + (if qlt_bool (F m) z then 1 else 0).
Proof.
  unfold below. rewrite seq_S, filter_app, app_length. simpl. destruct (qlt_bool (F m) z); auto.
Qed.
Lemma below_all m z : (F m < z)%Q -> below (S m) z = S m.
Proof.
  induction m as [|m IH]; intros H; rewrite below_S.
  - apply qlt_bool_iff in H. rewrite H. auto.
  - apply qlt_bool_iff in H as Hb. rewrite Hb. rewrite IH; [lia|].
    pose proof (F_S m). pose proof s_pos. lra.
Qed.
Lemma below_bounds z : (p0 < z)%Q -> forall m, (z <= F m)%Q ->
  (inject_Z (Z.of_nat (below m z) - 1) * s < z - p0)%Q /\ (z - p0 <= inject_Z (Z.of_nat (below m z)) * s)%Q.
Proof.
  intros H0. pose proof s_pos as Hs. induction m as [|m IH]; intros Hm.
  - assert (EF : (F 0 == p0)%Q) by (unfold F; simpl; ring). exfalso; lra.
  - rewrite below_S. destruct (qlt_bool (F m) z) eqn:E.
    + apply qlt_bool_iff in E. destruct m as [|m].
      * assert (EF : (F 0 == p0)%Q) by (unfold F; simpl; ring). pose proof (F_S 0) as EF1.
        unfold below. cbn [seq filter length Nat.add].
        change (inject_Z (Z.of_nat 1 - 1)) with 0%Q. change (inject_Z (Z.of_nat 1)) with 1%Q. lra.
      * rewrite below_all by (pose proof (F_S m); lra).
        replace (Z.of_nat (S m + 1) - 1)%Z with (Z.of_nat (S m)) by lia.
        replace (S m + 1) with (S (S m)) by lia. unfold F in E, Hm. lra.
    + apply qlt_bool_false in E. rewrite Nat.add_0_r. auto.
Qed.

Lemma filter_count_split (f g h : nat -> bool) l :
  (forall k, In k l -> (if f k then 1 else 0) = (if g k then 1 else 0) + (if h k then 1 else 0)) ->
  length (filter f l) = length (filter g l) + length (filter h l).
Proof.
  induction l as [|a l IH]; intros H; simpl; auto.
  pose proof (H a (or_introl eq_refl)).
  assert (IH' : length (filter f l) = length (filter g l) + length (filter h l)) by (apply IH; intros; apply H; right; auto).
  destruct (f a), (g a), (h a); simpl in *; lia.
Qed.

Definition hitb (i k : nat) : bool := qlt_bool (prefix fs i) (P k) && qlt_bool (P k) (prefix fs (S i)).
Lemma hitb_iff i k : hitb i k = true <-> hits i k.
Proof. unfold hitb, hits. rewrite andb_true_iff, !qlt_bool_iff. tauto. Qed.

Lemma below_add a m z : below (m + a) z = below a z + length (filter (fun k => qlt_bool (F (k + a)) z) (seq 0 m)).
Proof.
  induction m as [|m IH].
  - cbn [Nat.add seq filter length]. lia.
  - change (S m + a) with (S (m + a)). rewrite below_S, IH, seq_S, filter_app, app_length. simpl. destruct (qlt_bool (F (m + a)) z); simpl; lia.
Qed.

Lemma hits_count i : i < n ->
  length (filter (hitb i) (seq 0 n)) + below (n + n) (prefix fs i + T)%Q = below (n + n) (prefix fs (S i) + T)%Q.
Proof.
  intros Hi. rewrite !below_add. unfold below.
  set (a := prefix fs i). set (b := prefix fs (S i)).
  assert (Hab : (a <= b)%Q) by (apply prefix_mono; auto; unfold n in Hi; lia).
  assert (Ha0 : (0 <= a)%Q).
  { unfold a. rewrite <- (prefix_0 fs). apply prefix_mono; auto; unfold n in Hi; lia. }
  assert (Hb1 : (b <= T)%Q) by (unfold b, T, total; apply prefix_mono; auto; unfold n in Hi; lia).
  assert (G : forall l, (forall k, In k l -> k < n) ->
    length (filter (hitb i) l) + (length (filter (fun k => qlt_bool (F k) (a + T)) l)
       + length (filter (fun k => qlt_bool (F (k + n)) (a + T)) l)) =
    length (filter (fun k => qlt_bool (F k) (b + T)) l)
       + length (filter (fun k => qlt_bool (F (k + n)) (b + T)) l)).
  { induction l as [|k l IH]; intros Hl; [auto|].
    specialize (IH (fun k' H => Hl k' (or_intror H))).
    assert (Hk : k < n) by (apply Hl; left; auto).
    destruct (F_range k Hk) as [F1 F2]. pose proof p0_range as [Hp1 Hp2]. pose proof (F_n k) as FN.
    destruct (P_spec k Hk) as (Q1 & Q2 & Q3).
    assert (NA : ~ (P k == a)%Q) by (apply Q3; lia).
    assert (Hb : (if hitb i k then 1 else 0) + ((if qlt_bool (F k) (a + T) then 1 else 0)
         + (if qlt_bool (F (k + n)) (a + T) then 1 else 0)) =
       (if qlt_bool (F k) (b + T) then 1 else 0) + (if qlt_bool (F (k + n)) (b + T) then 1 else 0)).
    { unfold hitb. fold a b.
      destruct (qlt_bool (F k) (a + T)) eqn:E1; destruct (qlt_bool (F (k + n)) (a + T)) eqn:E2;
      destruct (qlt_bool (F k) (b + T)) eqn:E3; destruct (qlt_bool (F (k + n)) (b + T)) eqn:E4;
      destruct (qlt_bool a (P k)) eqn:E5; destruct (qlt_bool (P k) b) eqn:E6; cbn [andb Nat.add]; try reflexivity;
      exfalso;
      repeat match goal with
      | H : qlt_bool _ _ = true |- _ => apply qlt_bool_iff in H
      | H : qlt_bool _ _ = false |- _ => apply qlt_bool_false in H
      end; revert E5 E6 NA; unfold P; destruct (qle_dec T (F k)) as [[E L]|[E L]]; rewrite E; intros;
      try lra; apply NA; lra. }
    cbn [filter].
    destruct (hitb i k), (qlt_bool (F k) (a + T)), (qlt_bool (F (k + n)) (a + T)),
      (qlt_bool (F k) (b + T)), (qlt_bool (F (k + n)) (b + T)); cbn [length]; lia. }
  apply G. intros k Hk. apply in_seq in Hk. lia.
Qed.

Lemma share_bounds i f : nth_error fs i = Some f ->
  rounded_share f T n (length (filter (hitb i) (seq 0 n))).
Proof.
  intros Hf. assert (Hi : i < n) by (eapply nth_error_lt; eauto).
  pose proof (hits_count i Hi) as HC. set (c := length (filter (hitb i) (seq 0 n))) in *. clearbody c.
  pose proof p0_range as [Hp1 Hp2]. pose proof s_pos as Hs.
  assert (Hp0 : (0 < p0)%Q).
  { destruct (P_spec 0 n_pos) as (Q1 & _).
    assert (EF : (F 0 == p0)%Q) by (unfold F; simpl; ring). revert Q1. unfold P. qle T (F 0); lra. }
  assert (E2n : (F (n + n) == p0 + T + T)%Q).
  { rewrite F_n. replace n with (0 + n) at 1 by lia. rewrite F_n. unfold F; simpl; ring. }
  assert (Hpre : forall j, j <= n -> (0 <= prefix fs j)%Q /\ (prefix fs j <= T)%Q).
  { intros j Hj. split.
    - rewrite <- (prefix_0 fs). apply prefix_mono; auto; lia.
    - unfold T, total. apply prefix_mono; auto. }
  assert (Strict : forall j, j <= n -> let z := (prefix fs j + T)%Q in
     (inject_Z (Z.of_nat (below (n + n) z) - 1) * s < z - p0)%Q /\
     (z - p0 < inject_Z (Z.of_nat (below (n + n) z)) * s)%Q).
  { intros j Hj z. destruct (Hpre j Hj) as [Z1 Z2].
    destruct (below_bounds z ltac:(unfold z; lra) (n + n) ltac:(unfold z; lra)) as [B1 B2].
    split; auto. set (N := below (n + n) z) in *.
    destruct (Qlt_le_dec (z - p0) (inject_Z (Z.of_nat N) * s)) as [G|G]; auto. exfalso.
    assert (EN : (F N == z)%Q) by (unfold F; lra).
    assert (HN : N < n + n).
    { destruct (Nat.lt_ge_cases N (n + n)); auto. pose proof (F_mono _ _ H). unfold z in EN. lra. }
    destruct (Nat.lt_ge_cases N n) as [HNn|HNn].
    - destruct (Hgen N j HNn Hj) as [_ G2]. apply G2. fold T n. fold s p0. fold (F N). rewrite EN. unfold z. ring.
    - destruct (Hgen (N - n) j ltac:(fold n; lia) Hj) as [G1 _]. apply G1. fold T n. fold s p0. fold (F (N - n)).
      pose proof (F_n (N - n)) as FN. replace (N - n + n) with N in FN by lia. unfold z in EN. lra. }
  destruct (Strict i ltac:(lia)) as [A1 A2]. destruct (Strict (S i) ltac:(lia)) as [B1 B2].
  pose proof (prefix_S fs i f Hf) as EP. pose proof n_s as NS.
  set (Na := below (n + n) (prefix fs i + T)) in *. set (Nb := below (n + n) (prefix fs (S i) + T)) in *.
  clearbody Na Nb.
  assert (EB : Nb = c + Na) by lia. subst Nb.
  unfold Z.sub in *. rewrite ?Nat2Z.inj_add, ?inject_Z_plus in *.
  change (inject_Z (- (1))) with (-(1))%Q in *. 
  unfold rounded_share. unfold Z.sub. rewrite ?inject_Z_plus. change (inject_Z (- (1))) with (-(1))%Q.
  change (inject_Z 1) with 1%Q.
  set (qc := inject_Z (Z.of_nat c)) in *. set (qa := inject_Z (Z.of_nat Na)) in *.
  assert (G1 : ((qc - 1) * s < f)%Q) by lra. assert (G2 : (f < (qc + 1) * s)%Q) by lra.
  pose proof (inject_nat_pos n n_pos) as Hn. set (qq := inject_Z (Z.of_nat n)) in *.
  split.
  - apply (Qmult_lt_compat_r _ _ qq Hn) in G1. rewrite <- NS. lra.
  - apply (Qmult_lt_compat_r _ _ qq Hn) in G2. rewrite <- NS. lra.
Qed.

Lemma count_filter (picks : list nat) i : i < n -> forall k,
  (forall j x, nth_error picks j = Some x -> x < n /\ hits x (k + j)) ->
  count_occ Nat.eq_dec picks i = length (filter (hitb i) (seq k (length picks))).
Proof.
  intros Hi. induction picks as [|x picks IH]; intros k H; auto.
  cbn [count_occ length seq filter].
  destruct (H 0 x eq_refl) as [Hx Hh]. rewrite Nat.add_0_r in Hh.
  assert (IH' : count_occ Nat.eq_dec picks i = length (filter (hitb i) (seq (S k) (length picks)))).
  { apply IH. intros j y Hy. replace (S k + j) with (k + S j) by lia. apply H. auto. }
  destruct (Nat.eq_dec x i) as [->|Ne].
  - apply hitb_iff in Hh. rewrite Hh. cbn [length]. congruence.
  - destruct (hitb i k) eqn:E; auto. apply hitb_iff in E. exfalso. apply Ne. eapply hits_unique; eauto.
Qed.

Lemma sus_points_share : exists picks, sus_points fs u = Ok picks /\ length picks = n /\
  (forall x, In x picks -> x < n) /\
  forall i f, nth_error fs i = Some f -> rounded_share f T n (count_occ Nat.eq_dec picks i).
Proof.
  destruct sus_points_spec as (picks & E & Hl & Hp). exists picks. repeat split; auto.
  - intros x Hx. apply In_nth_error in Hx as [k Hk]. apply (Hp k x Hk).
  - rewrite (count_filter picks i) with (k := 0); [rewrite Hl; apply share_bounds; auto|eapply nth_error_lt; eauto|exact Hp].
  - rewrite (count_filter picks i) with (k := 0); [rewrite Hl; apply share_bounds; auto|eapply nth_error_lt; eauto|exact Hp].
Qed.
End SUS.

Lemma fy_shuffle_perm i : forall l ds l' ds', fy_shuffle i l ds = Ok (l', ds') -> Permutation l l'.
Proof.
  induction i as [|i IH]; intros l ds l' ds' H; cbn [fy_shuffle] in H.
  - inversion H; subst. auto.
  - apply rbind_ok in H as ((j & ds1) & Ej & H). apply rbind_ok in H as (l1 & E1 & H).
    apply of_opt_ok in E1. apply swap_at_perm in E1. apply IH in H.
    eapply Permutation_trans; [exact E1 || (apply Permutation_sym; exact E1)|exact H].
Qed.

Lemma fy_shuffle_ok i : forall l ds, i < length l \/ i = 0 -> i <= length ds ->
  exists l' , fy_shuffle i l ds = Ok (l', skipn i ds).
Proof.
  induction i as [|i IH]; intros l ds Hi Hd; cbn [fy_shuffle].
  - eexists; reflexivity.
  - destruct ds as [|d ds]; [simpl in Hd; lia|]. unfold draw. cbn [rbind].
    destruct (swap_at_total l (S i) (d mod S (S i))) as [l1 E1]; [lia| |].
    { pose proof (Nat.mod_upper_bound d (S (S i)) ltac:(lia)). lia. }
    rewrite E1. cbn [of_opt rbind].
    destruct (IH l1 ds) as [l' E']; [left; rewrite (swap_at_length _ _ _ _ E1); lia|simpl in Hd; lia|].
    exists l'. rewrite E'. reflexivity.
Qed.

Lemma count_occ_rev (l : list nat) x : count_occ Nat.eq_dec (rev l) x = count_occ Nat.eq_dec l x.
Proof. apply Permutation_count_occ. apply Permutation_sym, Permutation_rev. Qed.

Lemma sus_share fs u ds : non_negative fs -> (0 < total fs)%Q -> (0 <= u < 1)%Q ->
  generic_position fs u -> length fs <= S (length ds) ->
  exists indices ds', sus_setup fs u ds = Ok (indices, ds') /\
    let picks := sus_calls (length fs) indices in
    length picks = length fs /\ (forall i, In i picks -> i < length fs) /\
    forall i f, nth_error fs i = Some f ->
      rounded_share f (total fs) (length fs) (count_occ Nat.eq_dec picks i).
Proof.
  intros Hnn HT Hu Hg Hd. destruct (sus_points_share fs Hnn HT u Hu Hg) as (picks & E & Hl & Hin & Hs).
  assert (Hne : fs <> []) by (apply fs_ne; auto).
  unfold sus_setup. destruct fs as [|f0 fs0]; [congruence|]. rewrite E. cbn [rbind].
  set (fs := f0 :: fs0) in *.
  destruct (fy_shuffle_ok (length fs - 1) picks ds) as [l' E'].
  { left. rewrite Hl. unfold fs; simpl; lia. } { lia. }
  pose proof (fy_shuffle_perm _ _ _ _ _ E') as HP.
  exists l', (skipn (length fs - 1) ds). split; auto.
  unfold sus_calls. assert (Hl' : length l' = length fs) by (rewrite <- (Permutation_length HP); auto).
  rewrite firstn_all2 by (rewrite rev_length; lia). rewrite rev_length. split; auto. split.
  - intros i Hi. apply in_rev in Hi. apply Hin. eapply Permutation_in; [apply Permutation_sym; exact HP|auto].
  - intros i f Hf. rewrite count_occ_rev.
    rewrite <- (proj1 (Permutation_count_occ Nat.eq_dec picks l') HP). auto.
Qed.

(** *** ranking values *)
Lemma umul32_small n : 1 <= n -> (Z.of_nat n <= 65536)%Z -> umul32 n (n - 1) = (Z.of_nat n * (Z.of_nat n - 1))%Z.
Proof.
  intros H HZ. unfold umul32. rewrite Nat2Z.inj_sub by lia. change (Z.of_nat 1) with 1%Z.
  apply Z.mod_small. nia.
Qed.

Lemma rank_value_linear p n r : 2 <= n -> (Z.of_nat n <= 65536)%Z -> r <= n ->
  (rank_value None (rank_alpha p n) (rank_beta p n) (rank_gamma p n) n r == linear_weight p n r)%Q.
Proof.
  intros Hn HZ Hr. unfold rank_value, rank_alpha, rank_beta, linear_weight, qn.
  rewrite umul32_small by lia. rewrite Nat2Z.inj_sub by lia. reflexivity.
Qed.

Lemma linear_weight_step p n r r' : 2 <= n -> r < r' -> (1 < p)%Q ->
  (linear_weight p n r' < linear_weight p n r)%Q.
Proof.
  intros Hn Hr Hp. unfold linear_weight.
  assert (Hd : (0 < inject_Z (Z.of_nat n * (Z.of_nat n - 1)))%Q) by (unfold Qlt, inject_Z; simpl; nia).
  assert (Ha : (0 < (2 * p - 2) / inject_Z (Z.of_nat n * (Z.of_nat n - 1)))%Q).
  { apply Qlt_shift_div_l; auto. lra. }
  assert (Hlt : (inject_Z (Z.of_nat n - Z.of_nat r') < inject_Z (Z.of_nat n - Z.of_nat r))%Q).
  { rewrite <- Zlt_Qlt. lia. }
  set (al := ((2 * p - 2) / _)%Q) in *. clearbody al.
  assert (al * inject_Z (Z.of_nat n - Z.of_nat r') < al * inject_Z (Z.of_nat n - Z.of_nat r))%Q.
  { apply Qmult_lt_l; auto. }
  lra.
Qed.

Lemma linear_weight_pos p n r : 2 <= n -> r < n -> (1 < p <= 2)%Q -> (0 < linear_weight p n r)%Q.
Proof.
  intros Hn Hr Hp. unfold linear_weight.
  assert (Hd : (0 < inject_Z (Z.of_nat n * (Z.of_nat n - 1)))%Q) by (unfold Qlt, inject_Z; simpl; nia).
  assert (Ha : (0 < (2 * p - 2) / inject_Z (Z.of_nat n * (Z.of_nat n - 1)))%Q).
  { apply Qlt_shift_div_l; auto. lra. }
  assert (Hb : (0 <= (2 - p) / inject_Z (Z.of_nat n))%Q).
  { apply Qle_shift_div_l; [apply inject_nat_pos; lia|]. lra. }
  assert (Hlt : (0 < inject_Z (Z.of_nat n - Z.of_nat r))%Q) by (unfold Qlt, inject_Z; simpl; lia).
  pose proof (Qmult_lt_0_compat _ _ Ha Hlt). lra.
Qed.

Lemma linear_weight_best p n : 2 <= n -> (1 < p)%Q ->
  (p / inject_Z (Z.of_nat n) < linear_weight p n 0)%Q.
Proof.
  intros Hn Hp. unfold linear_weight.
  assert (Hn0 : (0 < inject_Z (Z.of_nat n))%Q) by (apply inject_nat_pos; lia).
  assert (Hn1 : (0 < inject_Z (Z.of_nat n) - 1)%Q).
  { assert (1 < inject_Z (Z.of_nat n))%Q by (unfold Qlt, inject_Z; simpl; lia). lra. }
  rewrite inject_Z_mult. unfold Z.sub. rewrite !inject_Z_plus.
  change (inject_Z (- (1))) with (-(1))%Q. change (inject_Z (- Z.of_nat 0)) with 0%Q.
  set (q := inject_Z (Z.of_nat n)) in *. clearbody q.
  assert (E : ((2 * p - 2) / (q * (q + - (1))) * (q + 0) + (2 - p) / q - p / q
               == (2 * p - 2) / (q * (q - 1)))%Q).
  { field. lra. }
  assert (0 < (2 * p - 2) / (q * (q - 1)))%Q.
  { apply Qlt_shift_div_l; [apply Qmult_lt_0_compat; lra|lra]. }
  lra.
Qed.

Lemma qsum_map_perm (f : nat -> Q) l l' : Permutation l l' -> (qsum (map f l) == qsum (map f l'))%Q.
Proof.
  induction 1; simpl; try (unfold qsum in *; lra).
Qed.
Lemma qsum_app l l' : (qsum (l ++ l') == qsum l + qsum l')%Q.
Proof. induction l as [|a l IH]; simpl; [lra|]. unfold qsum in *. lra. Qed.

Lemma sum_affine (a b : Q) m : (qsum (map (fun r => a * inject_Z (Z.of_nat r) + b) (seq 0 m))
   == a * (inject_Z (Z.of_nat m) * (inject_Z (Z.of_nat m) - 1) / 2) + inject_Z (Z.of_nat m) * b)%Q.
Proof.
  induction m as [|m IH].
  - simpl. field.
  - rewrite seq_S, map_app, qsum_app, IH, inject_nat_S. simpl. set (q := inject_Z (Z.of_nat m)). field.
Qed.

Lemma qsum_ext (f g : nat -> Q) l : (forall x, In x l -> (f x == g x)%Q) ->
  (qsum (map f l) == qsum (map g l))%Q.
Proof.
  induction l as [|a l IH]; intros H; simpl; [reflexivity|].
  rewrite (H a (or_introl eq_refl)). unfold qsum in *. rewrite IH; [reflexivity|]. intros; apply H; right; auto.
Qed.

Lemma linear_weight_sum p n ranks : 2 <= n -> Permutation ranks (seq 0 n) ->
  (qsum (map (linear_weight p n) ranks) == 1 + 2 * (p - 1) / (inject_Z (Z.of_nat n) - 1))%Q.
Proof.
  intros Hn HP. rewrite (qsum_map_perm _ _ _ HP).
  assert (Hn0 : (0 < inject_Z (Z.of_nat n))%Q) by (apply inject_nat_pos; lia).
  assert (Hn1 : (0 < inject_Z (Z.of_nat n) - 1)%Q).
  { assert (1 < inject_Z (Z.of_nat n))%Q by (unfold Qlt, inject_Z; simpl; lia). lra. }
  set (al := ((2 * p - 2) / inject_Z (Z.of_nat n * (Z.of_nat n - 1)))%Q).
  set (q := inject_Z (Z.of_nat n)) in *.
  rewrite (qsum_ext _ (fun r => - al * inject_Z (Z.of_nat r) + (al * q + (2 - p) / q))%Q).
  - rewrite sum_affine. unfold al. rewrite inject_Z_mult. unfold Z.sub. rewrite inject_Z_plus.
    change (inject_Z (- (1))) with (-(1))%Q. fold q. clearbody q. field. lra.
  - intros r Hr. unfold linear_weight. fold al q. unfold Z.sub. rewrite inject_Z_plus, inject_Z_opp. fold q. ring.
Qed.

Section RankingProofs.
Variable A : Type.
Variable ltb : A -> A -> bool.
Variable sort : forall T : Type, (T -> T -> bool) -> list T -> list T.
Hypothesis Hord : strict_weak_order ltb.
Hypothesis Hsort : std_sort_ok sort.

Lemma ranking_linear_spec p (pop : list A) : 2 <= length pop -> (Z.of_nat (length pop) <= 65536)%Z ->
  exists ranks w, ranking A ltb sort p None pop = Ok w /\ ranking_of ltb pop ranks /\
    Forall2 (fun v r => v == linear_weight p (length pop) r)%Q w ranks.
Proof.
  intros Hn HZ. unfold ranking. destruct (Nat.leb_spec (length pop) 1); [lia|].
  destruct (ranking_gen A ltb sort Hord Hsort
     (rank_value None (rank_alpha p (length pop)) (rank_beta p (length pop)) (rank_gamma p (length pop)) (length pop)) pop)
    as (ranks & w & Hr & E & Ew).
  exists ranks, w. rewrite E. split; auto. split; auto. subst w.
  assert (Hlt : forall r, In r ranks -> r < length pop).
  { intros r Hr'. apply (Permutation_in _ (proj1 Hr)) in Hr'. apply in_seq in Hr'. lia. }
  clear Hr E. induction ranks as [|r ranks IH]; simpl; constructor.
  - apply rank_value_linear; auto. specialize (Hlt r (or_introl eq_refl)). lia.
  - apply IH. intros; apply Hlt; right; auto.
Qed.

Lemma ranking_pow_spec p (pw : Q -> Q) (pop : list A) : 2 <= length pop ->
  exists ranks w, ranking A ltb sort p (Some pw) pop = Ok w /\ ranking_of ltb pop ranks /\
    w = map (fun r => (2 * p - 2) / inject_Z (Z.of_nat (length pop))
                        * pw (inject_Z (Z.of_nat (length pop - r)) / inject_Z (Z.of_nat (length pop)))
                      + (2 - p) / inject_Z (Z.of_nat (length pop)))%Q ranks.
Proof.
  intros Hn. unfold ranking. destruct (Nat.leb_spec (length pop) 1); [lia|].
  destruct (ranking_gen A ltb sort Hord Hsort
     (rank_value (Some pw) (rank_alpha p (length pop)) (rank_beta p (length pop)) (rank_gamma p (length pop)) (length pop)) pop)
    as (ranks & w & Hr & E & Ew).
  exists ranks, w. rewrite E. split; auto.
Qed.

Lemma rank_cache_ok p pw (c : rank_cache) (pop : list A) :
  (rc_size c <= 1 \/ c = RankCache (rc_size c) (rank_alpha p (rc_size c)) (rank_beta p (rc_size c)) (rank_gamma p (rc_size c))) ->
  (forall w c', ranking_cached A ltb sort p pw c pop = Ok (w, c') ->
     c' = RankCache (rc_size c') (rank_alpha p (rc_size c')) (rank_beta p (rc_size c')) (rank_gamma p (rc_size c'))) /\
  (let! (w, _) := ranking_cached A ltb sort p pw c pop in Ok w) = ranking A ltb sort p pw pop.
Proof.
  intros Hc. unfold ranking_cached, ranking. destruct (Nat.leb_spec (length pop) 1).
  - split; auto. discriminate.
  - set (c' := if length pop =? rc_size c then c else _).
    assert (Ec : c' = RankCache (length pop) (rank_alpha p (length pop)) (rank_beta p (length pop)) (rank_gamma p (length pop))).
    { unfold c'. destruct (Nat.eqb_spec (length pop) (rc_size c)) as [E|E]; auto.
      destruct Hc as [Hc|Hc]; [lia|]. rewrite E. auto. }
    rewrite Ec. cbn [rc_alpha rc_beta rc_gamma]. split.
    + intros w c2 Hw. apply rbind_ok in Hw as (w0 & _ & Hw). inversion Hw; subst. reflexivity.
    + destruct (of_opt _); reflexivity.
Qed.

Lemma ranking_cached_history p pw (pops : list (list A)) : forall c,
  (rc_size c <= 1 \/ c = RankCache (rc_size c) (rank_alpha p (rc_size c)) (rank_beta p (rc_size c)) (rank_gamma p (rc_size c))) ->
  ranking_cached_calls A ltb sort p pw c pops = map (ranking A ltb sort p pw) pops.
Proof.
  induction pops as [|pop pops IH]; intros c Hc; cbn [ranking_cached_calls map]; auto.
  destruct (rank_cache_ok p pw c pop Hc) as [H1 H2].
  destruct (ranking_cached A ltb sort p pw c pop) as [[w c']| | |] eqn:E; cbn [rbind] in H2; rewrite <- H2;
    f_equal; apply IH; auto. right. eapply H1; eauto.
Qed.
End RankingProofs.

(** the slot is unique, so the outcome is characterised by the draw *)
Lemma slot_unique fs x i j : non_negative fs -> i < length fs -> j < length fs ->
  (prefix fs i < x)%Q -> (x <= prefix fs (S i))%Q -> (prefix fs j < x)%Q -> (x <= prefix fs (S j))%Q -> i = j.
Proof.
  intros Hnn Hi Hj A1 A2 B1 B2. destruct (Nat.lt_trichotomy i j) as [H|[H|H]]; auto; exfalso.
  - pose proof (prefix_mono fs Hnn (S i) j H ltac:(lia)). lra.
  - pose proof (prefix_mono fs Hnn (S j) i H ltac:(lia)). lra.
Qed.
Lemma slot_unique' fs x i j : non_negative fs -> i < length fs -> j < length fs ->
  (prefix fs i <= x)%Q -> (x < prefix fs (S i))%Q -> (prefix fs j <= x)%Q -> (x < prefix fs (S j))%Q -> i = j.
Proof.
  intros Hnn Hi Hj A1 A2 B1 B2. destruct (Nat.lt_trichotomy i j) as [H|[H|H]]; auto; exfalso.
  - pose proof (prefix_mono fs Hnn (S i) j H ltac:(lia)). lra.
  - pose proof (prefix_mono fs Hnn (S j) i H ltac:(lia)). lra.
Qed.

Lemma roulette_iff fs u ds : non_negative fs -> (0 < u <= 1)%Q -> (0 < total fs)%Q ->
  forall i, roulette_wheel fs (total fs) u ds = Ok (i, ds) <->
    (i < length fs /\ (prefix fs i < u * total fs <= prefix fs (S i))%Q).
Proof.
  intros Hnn Hu Ht i. destruct (roulette_spec fs u ds Hu Ht) as (j & E & Hj & H1 & H2). rewrite E. split.
  - intros H. assert (j = i) by congruence. subst; auto.
  - intros (Hi & A1 & A2). rewrite (slot_unique fs _ i j Hnn Hi Hj A1 A2 H1 H2). auto.
Qed.
Lemma rng_roulette_iff fs tot u : non_negative fs -> (0 <= u < 1)%Q -> (0 < total fs)%Q ->
  (tot == 0)%Q \/ (tot == total fs)%Q ->
  forall i, rng_roulette fs tot u = Ok i <->
    (i < length fs /\ (prefix fs i <= u * total fs < prefix fs (S i))%Q).
Proof.
  intros Hnn Hu Ht Htot i. destruct (rng_roulette_spec fs tot u Hu Ht Htot) as (j & E & Hj & H1 & H2). rewrite E. split.
  - intros H. assert (j = i) by congruence. subst; auto.
  - intros (Hi & A1 & A2). rewrite (slot_unique' fs _ i j Hnn Hi Hj A1 A2 H1 H2). auto.
Qed.
Lemma proportional_iff fs u : non_negative fs -> (0 <= u < 1)%Q -> (0 < total fs)%Q ->
  forall i, proportional_pick fs u = Ok i <->
    (i < length fs /\ (prefix fs i <= u * total fs < prefix fs (S i))%Q).
Proof.
  intros Hnn Hu Ht i. destruct (proportional_spec fs u Hu Ht) as (j & E & Hj & H1 & H2). rewrite E. split.
  - intros H. assert (j = i) by congruence. subst; auto.
  - intros (Hi & A1 & A2). rewrite (slot_unique' fs _ i j Hnn Hi Hj A1 A2 H1 H2). auto.
Qed.

Lemma ranking_monotone {A} (ltb : A -> A -> bool) sort p (pop : list A) :
  strict_weak_order ltb -> std_sort_ok sort -> (1 < p <= 2)%Q ->
  2 <= length pop -> (Z.of_nat (length pop) <= 65536)%Z ->
  exists w, ranking A ltb sort p None pop = Ok w /\ length w = length pop /\
    (forall v, In v w -> (0 < v)%Q) /\
    (forall i j a b va vb, nth_error pop i = Some a -> nth_error pop j = Some b ->
       nth_error w i = Some va -> nth_error w j = Some vb -> ltb a b = true -> (va < vb)%Q).
Proof.
  intros Hord Hsort Hp Hn HZ.
  destruct (ranking_linear_spec A ltb sort Hord Hsort p pop Hn HZ) as (ranks & w & E & [HP Hr] & HF).
  exists w. split; auto.
  assert (Hlen : length w = length pop).
  { assert (E1 : length w = length ranks) by (clear - HF; induction HF; simpl; auto).
    rewrite E1, (Permutation_length HP), seq_length. auto. }
  assert (Hnth : forall i v, nth_error w i = Some v -> exists r, nth_error ranks i = Some r /\ r < length pop /\
      (v == linear_weight p (length pop) r)%Q).
  { intros i v Hv. assert (Hi : i < length ranks).
    { rewrite (Permutation_length HP), seq_length. apply nth_error_lt in Hv. lia. }
    destruct (nth_error_in_some ranks i Hi) as [r Er]. exists r. split; auto. split.
    - apply nth_error_In in Er. apply (Permutation_in _ HP) in Er. apply in_seq in Er. lia.
    - clear - HF Hv Er. revert i Hv Er. induction HF; intros [|i] Hv Er; simpl in *; try discriminate.
      + inversion Hv; inversion Er; subst; auto.
      + eauto. }
  split; auto. split.
  - intros v Hv. apply In_nth_error in Hv as [i Hi]. destruct (Hnth i v Hi) as (r & Er & Hlt & Ev).
    rewrite Ev. apply linear_weight_pos; auto.
  - intros i j a b va vb Ha Hb Hva Hvb Hlt.
    destruct (Hnth i va Hva) as (ri & Eri & _ & Ea). destruct (Hnth j vb Hvb) as (rj & Erj & _ & Eb).
    rewrite Ea, Eb. apply linear_weight_step; [lia| |lra]. exact (Hr i j a b ri rj Ha Hb Eri Erj Hlt).
Qed.

Lemma ranking_sum {A} (ltb : A -> A -> bool) sort p (pop : list A) :
  strict_weak_order ltb -> std_sort_ok sort ->
  2 <= length pop -> (Z.of_nat (length pop) <= 65536)%Z ->
  exists w, ranking A ltb sort p None pop = Ok w /\
    (total w == 1 + 2 * (p - 1) / (inject_Z (Z.of_nat (length pop)) - 1))%Q.
Proof.
  intros Hord Hsort Hn HZ.
  destruct (ranking_linear_spec A ltb sort Hord Hsort p pop Hn HZ) as (ranks & w & E & [HP Hr] & HF).
  exists w. split; auto. rewrite <- qsum_prefix. rewrite <- (linear_weight_sum p (length pop) ranks Hn HP).
  clear - HF. induction HF; simpl; [reflexivity|]. unfold qsum in *. rewrite H, IHHF. reflexivity.
Qed.

Lemma ranking_best_worth {A} (ltb : A -> A -> bool) sort p (pop : list A) :
  strict_weak_order ltb -> std_sort_ok sort -> (1 < p)%Q ->
  2 <= length pop -> (Z.of_nat (length pop) <= 65536)%Z ->
  exists w v, ranking A ltb sort p None pop = Ok w /\ In v w /\
    (p / inject_Z (Z.of_nat (length pop)) < v)%Q.
Proof.
  intros Hord Hsort Hp Hn HZ.
  destruct (ranking_linear_spec A ltb sort Hord Hsort p pop Hn HZ) as (ranks & w & E & [HP Hr] & HF).
  assert (H0 : In 0 ranks).
  { apply (Permutation_in _ (Permutation_sym HP)). apply in_seq. lia. }
  assert (G : exists v, In v w /\ (v == linear_weight p (length pop) 0)%Q).
  { clear - HF H0. induction HF; [destruct H0|]. destruct H0 as [->|H0].
    - exists x. split; [left; auto|auto].
    - destruct IHHF as (v & Hv & Ev); auto. exists v. split; [right; auto|auto]. }
  destruct G as (v & Hv & Ev). exists w, v. split; auto. split; auto. rewrite Ev. apply linear_weight_best; auto.
Qed.

Lemma roulette_full fs u ds : non_negative fs -> (0 < u <= 1)%Q -> (0 < total fs)%Q ->
  (exists i, roulette_wheel fs (total fs) u ds = Ok (i, ds)) /\
  forall i, roulette_wheel fs (total fs) u ds = Ok (i, ds) <->
    (i < length fs /\ (prefix fs i < u * total fs <= prefix fs (S i))%Q).
Proof.
  intros Hnn Hu Ht. split; [|apply roulette_iff; auto].
  destruct (roulette_spec fs u ds Hu Ht) as (j & E & _). eauto.
Qed.
Lemma rng_roulette_full fs tot u : non_negative fs -> (0 <= u < 1)%Q -> (0 < total fs)%Q ->
  (tot == 0)%Q \/ (tot == total fs)%Q ->
  (exists i, rng_roulette fs tot u = Ok i) /\
  forall i, rng_roulette fs tot u = Ok i <->
    (i < length fs /\ (prefix fs i <= u * total fs < prefix fs (S i))%Q).
Proof.
  intros Hnn Hu Ht Htot. split; [|apply rng_roulette_iff; auto].
  destruct (rng_roulette_spec fs tot u Hu Ht Htot) as (j & E & _). eauto.
Qed.
Lemma proportional_full fs u : non_negative fs -> (0 <= u < 1)%Q -> (0 < total fs)%Q ->
  (exists i, proportional_pick fs u = Ok i) /\
  forall i, proportional_pick fs u = Ok i <->
    (i < length fs /\ (prefix fs i <= u * total fs < prefix fs (S i))%Q).
Proof.
  intros Hnn Hu Ht. split; [|apply proportional_iff; auto].
  destruct (proportional_spec fs u Hu Ht) as (j & E & _). eauto.
Qed.

Lemma running_zero n : forall acc, (acc == 0)%Q ->
  Forall (fun c => (c == 0)%Q) (running acc (repeat 0%Q n)).
Proof.
  induction n as [|n IH]; intros acc H; simpl; constructor; [lra|]. apply IH. lra.
Qed.
Lemma upper_bound_zero l x : Forall (fun c => (c == 0)%Q) l -> (x == 0)%Q -> upper_bound l x = length l.
Proof.
  induction 1 as [|c l Hc HF IH]; intros Hx; simpl; auto. qle c x; [|lra]. auto.
Qed.
Lemma sus_zero_ub n u ds : 0 < n -> sus_setup (repeat 0%Q n) u ds = UB.
Proof.
  intros Hn. unfold sus_setup. destruct n as [|n]; [lia|]. set (fs := repeat 0%Q (S n)).
  assert (Efs : fs = 0%Q :: repeat 0%Q n) by reflexivity.
  assert (E : sus_points fs u = UB).
  { unfold sus_points. pose proof (running_zero (S n) 0%Q (Qeq_refl 0)) as HF. fold fs in HF. fold (cumulative fs) in HF.
    assert (Hl : length (cumulative fs) = length fs) by apply running_length.
    assert (Hlast : (last (cumulative fs) 0 == 0)%Q).
    { clear - HF. induction HF as [|c l Hc HF IH]; simpl; [reflexivity|]. destruct l; auto. }
    rewrite upper_bound_zero; auto.
    - replace (length fs) with (S n) at 1 by (rewrite Efs; simpl; rewrite repeat_length; auto).
      cbn [sus_loop]. rewrite skipn_all. reflexivity.
    - rewrite Hlast. ring. }
  rewrite Efs. rewrite <- Efs. rewrite E. reflexivity.
Qed.

Lemma ranking_cached_fresh A (ltb : A -> A -> bool) sort p pw (pops : list (list A)) a b c :
  ranking_cached_calls A ltb sort p pw (RankCache 0 a b c) pops = map (ranking A ltb sort p pw) pops.
Proof. apply ranking_cached_history. left. simpl. lia. Qed.

Lemma elite_select_first A (ltb : A -> A -> bool) sort shufp s x r ds :
  exists s', sel_call (elite_select A ltb sort shufp) s (x :: r) ds = Ok (x, s', ds).
Proof. eexists. reflexivity. Qed.

Lemma inv_det_tournament_contestants A (ltb : A -> A -> bool) : strict_weak_order ltb ->
  forall pop t ds i ds', pop <> [] ->
  inv_det_tournament A ltb pop t ds = Ok (i, ds') ->
  exists used x, ds = used ++ ds' /\ t <= length used /\ nth_error pop i = Some x /\
    In i (contestants pop (length used) used) /\
    forall c y, In c (contestants pop (length used) used) -> nth_error pop c = Some y -> ltb y x = false.
Proof.
  intros Hord pop t ds i ds' Hne H.
  destruct (inv_det_tournament_spec A ltb Hord pop t ds i ds' Hne H) as (used & x & H1 & H2 & H3 & H4 & H5).
  exists used, x. unfold contestants. rewrite firstn_all. repeat split; auto.
  intros c y Hc Hy. apply in_map_iff in Hc as (d & <- & Hd). eauto.
Qed.

Lemma sequential_after_setup A (ltb : A -> A -> bool) sort shufp :
  strict_weak_order ltb -> std_sort_ok sort -> (forall ds l, Permutation l (fst (shufp ds l))) ->
  forall ordered pop, pop <> [] -> forall k s ds, k <= length pop ->
  exists s1 ds1 xs s' rest,
    sel_setup (sequential_select A ltb sort shufp ordered) s pop ds = Ok (s1, ds1) /\
    select_n (sequential_select A ltb sort shufp ordered) k s1 pop ds1 = Ok (xs, s', ds1) /\
    length xs = k /\ Permutation pop (xs ++ rest) /\ (ordered = true -> best_to_worst ltb (xs ++ rest)).
Proof.
  intros Hord Hsort Hshuf o pop Hne k s ds Hk.
  destruct (seq_setup_any A ltb sort shufp Hord Hsort Hshuf o pop ds) as (ptrs & ds' & xs & Es & Hl & Em & HP & HPx).
  exists (SeqSt (Some 0) ptrs), ds', (firstn k xs), (SeqSt (Some k) ptrs), (skipn k xs).
  split; [exact Es|]. split.
  { pose proof (seq_pass A (seq_setup A ltb sort shufp o) pop ptrs xs Em Hl k 0 ds' ltac:(lia)) as H.
    rewrite skipn_O in H. exact H. }
  rewrite firstn_skipn. repeat split; auto.
  rewrite firstn_length, <- (Permutation_length HP). lia.
Qed.
