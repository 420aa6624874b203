(** The autocorrelations and the partial autocorrelations. *)
From Coq Require Import Bool QArith Arith Lia Lqa Permutation Sorted Setoid Morphisms.
From Verif Require Import Lib Outcome BoundsModel BoundsProofs EvalModel EvalProofs StatModel StatSpec StatProofs.
From Coq Require Import List.
Import ListNotations.
Close Scope Q_scope.
Open Scope nat_scope.

(** ** vectors and matrices as functions *)
Definition vec (n : nat) (f : nat -> Q) : list Q := map f (seq 0 n).
Definition mat (n : nat) (f : nat -> nat -> Q) : list (list Q) := map (fun i => vec n (f i)) (seq 0 n).
Lemma vec_nth n f i : i < n -> nth_error (vec n f) i = Some (f i).
Proof. intros H. unfold vec. rewrite nth_error_map', nth_error_seq' by auto. auto. Qed.
Lemma vec_ext n f g : (forall i, i < n -> f i = g i) -> vec n f = vec n g.
Proof. intros H. apply map_ext_in. intros i J. apply in_seq in J. apply H. lia. Qed.
Lemma vec_upd n f i x : i < n -> upd (vec n f) i x = Some (vec n (fun a => if a =? i then x else f a)).
Proof.
  intros H. rewrite upd_set by (unfold vec; rewrite map_length, seq_length; auto). f_equal. apply nth_error_ext. intros a.
  assert (L : forall g, length (vec n g) = n) by (intros; unfold vec; rewrite map_length, seq_length; auto).
  destruct (Nat.lt_ge_cases a n) as [Ha|Ha].
  - rewrite (vec_nth n (fun a => if a =? i then x else f a)) by auto. destruct (Nat.eqb_spec a i) as [->|Hn].
    + rewrite nth_error_set_eq; [auto|]. rewrite L. auto.
    + rewrite nth_error_set_neq by auto. apply vec_nth. auto.
  - transitivity (@None Q); [|symmetry]; apply nth_error_None; rewrite ?set_length, L; auto.
Qed.
Lemma repeat_vec n : repeat 0%Q n = vec n (fun _ => 0%Q).
Proof. unfold vec. generalize 0. induction n as [|n IH]; intros k; cbn; auto. f_equal. apply IH. Qed.
Lemma repeat_mat n : repeat (repeat 0%Q n) n = mat n (fun _ _ => 0%Q).
Proof. unfold mat. rewrite repeat_vec. generalize (vec n (fun _ => 0%Q)). intros v. generalize 0. induction n as [|n IH]; intros k; cbn; auto. f_equal. apply IH. Qed.
Lemma mat_at n f i j : i < n -> j < n -> at_ (mat n f) i j = Ok (f i j).
Proof. intros Hi Hj. unfold at_, mat. rewrite nth_error_map', nth_error_seq' by auto. cbn [option_map of_opt rbind]. rewrite vec_nth by auto. auto. Qed.
Lemma mat_put n f i j x : i < n -> j < n -> put (mat n f) i j x = Ok (mat n (fun a b => if (a =? i) && (b =? j) then x else f a b)).
Proof.
  intros Hi Hj. unfold put. unfold mat at 1. rewrite nth_error_map', nth_error_seq' by auto. cbn [option_map of_opt rbind]. rewrite vec_upd by auto. cbn [of_opt rbind].
  assert (L : forall g, length (mat n g) = n) by (intros; unfold mat; rewrite map_length, seq_length; auto).
  rewrite upd_set by (rewrite L; auto). cbn [of_opt]. f_equal. apply nth_error_ext. intros a. destruct (Nat.lt_ge_cases a n) as [Ha|Ha].
  - unfold mat at 2. rewrite nth_error_map', nth_error_seq' by auto. cbn [option_map Nat.add]. destruct (Nat.eqb_spec a i) as [->|Hn].
    + rewrite nth_error_set_eq by (rewrite L; auto). f_equal. 
    + rewrite nth_error_set_neq by auto. unfold mat. rewrite nth_error_map', nth_error_seq' by auto. cbn. auto.
  - transitivity (@None (list Q)); [|symmetry]; apply nth_error_None; rewrite ?set_length, L; auto.
Qed.
Lemma mat_ext n f g : (forall i j, i < n -> j < n -> f i j = g i j) -> mat n f = mat n g.
Proof. intros H. apply map_ext_in. intros i J. apply in_seq in J. apply vec_ext. intros. apply H; lia. Qed.

(** ** sums *)
Lemma sum1_ext f g k : (forall j, (1 <= j <= k)%nat -> f j == g j)%Q -> (sum1 f k == sum1 g k)%Q.
Proof. induction k as [|k IH]; intros H; cbn [sum1]; [reflexivity|]. rewrite IH, H; [reflexivity|lia|intros; apply H; lia]. Qed.
Lemma sum1_lin f g k : (sum1 (fun j => f j + g j) k == sum1 f k + sum1 g k)%Q.
Proof. induction k as [|k IH]; cbn [sum1]; [ring|]. rewrite IH. ring. Qed.
Lemma sum1_scale c f k : (sum1 (fun j => c * f j) k == c * sum1 f k)%Q.
Proof. induction k as [|k IH]; cbn [sum1]; [ring|]. rewrite IH. ring. Qed.
Lemma sum1_head f k : (sum1 f (S k) == f 1%nat + sum1 (fun j => f (S j)) k)%Q.
Proof. induction k as [|k IH]; [cbn [sum1]; ring|]. cbn [sum1] in *. rewrite IH. ring. Qed.
Lemma sum1_rev f k : (sum1 f k == sum1 (fun j => f (S k - j)%nat) k)%Q.
Proof.
  induction k as [|k IH]; [reflexivity|]. rewrite (sum1_head (fun j => f (S (S k) - j)%nat)). cbn [sum1]. rewrite IH.
  replace (S (S k) - 1) with (S k) by lia. rewrite Qplus_comm. apply Qplus_comp; [reflexivity|]. apply sum1_ext. intros j _. reflexivity.
Qed.

(** ** Durbin-Levinson *)
Lemma levinson rho k (a b : nat -> Q) : (rho 0%nat == 1)%Q -> yule_walker rho k a -> ~ (unexplained rho a k == 0)%Q ->
  (b (S k) == (rho (S k) - sum1 (fun j => a j * rho (S k - j)%nat) k) / unexplained rho a k)%Q ->
  (forall j, (1 <= j <= k)%nat -> b j == a j - b (S k) * a (S k - j)%nat)%Q -> yule_walker rho (S k) b.
Proof.
  intros R0 Y U Bk Bj i Hi. cbn [sum1]. set (p := b (S k)) in *.
  assert (E : (sum1 (fun j => b j * rho (gap i j)) k == sum1 (fun j => a j * rho (gap i j)) k - p * sum1 (fun j => a (S k - j)%nat * rho (gap i j)) k)%Q).
  { rewrite (sum1_ext _ (fun j => a j * rho (gap i j) + (- p) * (a (S k - j)%nat * rho (gap i j)))%Q) by (intros j Hj; rewrite (Bj j Hj); ring).
    rewrite sum1_lin, sum1_scale. ring. }
  rewrite E. assert (V : (sum1 (fun j => a (S k - j)%nat * rho (gap i j)) k == sum1 (fun j => a j * rho (gap i (S k - j)%nat)) k)%Q).
  { rewrite sum1_rev. apply sum1_ext. intros j Hj. replace (S k - (S k - j)) with j by lia. reflexivity. }
  rewrite V. destruct (Nat.eq_dec i (S k)) as [->|Hn].
  - rewrite (sum1_ext (fun j => a j * rho (gap (S k) j))%Q (fun j => a j * rho (S k - j)%nat)%Q) by (intros j Hj; unfold gap; replace (S k - j + (j - S k)) with (S k - j) by lia; reflexivity).
    rewrite (sum1_ext (fun j => a j * rho (gap (S k) (S k - j)%nat))%Q (fun j => a j * rho j)%Q) by (intros j Hj; unfold gap; replace (S k - (S k - j) + (S k - j - S k)) with j by lia; reflexivity).
    replace (gap (S k) (S k)) with 0 by (unfold gap; lia). rewrite R0. unfold unexplained in *.
    set (t1 := sum1 _ k) in Bk |- *. set (t2 := sum1 (fun j => (a j * rho j)%Q) k) in *. rewrite Bk. field. exact U.
  - assert (Hk : 1 <= i <= k) by lia. rewrite (Y i Hk). rewrite (sum1_ext (fun j => a j * rho (gap i (S k - j)%nat))%Q (fun j => a j * rho (gap (S k - i)%nat j))%Q).
    2:{ intros j Hj. unfold gap. replace (i - (S k - j) + (S k - j - i)) with (S k - i - j + (j - (S k - i))) by lia. reflexivity. }
    rewrite (Y (S k - i)) by lia. unfold gap. replace (i - S k + (S k - i)) with (S k - i) by lia. ring.
Qed.

Section Partial.
Variable N : nat.
Variable rho : nat -> Q.
Notation rv := (vec (S N) rho).
(** one turn *)
Lemma partial_ok k f : 2 <= k <= N -> exists f', partial rv k (mat (S N) f) = Ok (mat (S N) f') /\
  (forall i j, i <> k -> f' i j = f i j) /\
  (f' k k == (rho k - sum1 (fun j => f (k - 1)%nat j * rho (k - j)%nat) (k - 1)%nat) / (1 - sum1 (fun j => f (k - 1)%nat j * rho j) (k - 1)%nat))%Q /\
  (forall j, (1 <= j < k)%nat -> f' k j = f (k - 1)%nat j - f' k k * f (k - 1)%nat (k - j)%nat)%Q.
Proof.
  intros Hk. unfold partial.
  match goal with |- context [for_in (seq 1 (k - 1)) ?b (0, 0)%Q] => destruct (for_in_seq (fun j t =>
    fst t == sum1 (fun j => f (k - 1)%nat j * rho (k - j)%nat) (j - 1)%nat /\ snd t == sum1 (fun j => f (k - 1)%nat j * rho j) (j - 1)%nat)%Q b (k - 1) 1 (0, 0)%Q) as ([t1 t2] & E & H1 & H2) end.
  - cbn. split; reflexivity.
  - intros j [t1 t2] Hj [H1 H2]. rewrite mat_at by lia. cbn [rbind]. rewrite !vec_nth by lia. cbn [of_opt rbind]. eexists. split; [reflexivity|].
    replace (S j - 1) with (S (j - 1)) by lia. cbn [fst snd sum1] in *. rewrite H1, H2. replace (S (j - 1)) with j by lia. split; reflexivity.
  - rewrite E. cbn [rbind]. cbn [fst snd] in H1, H2. replace (1 + (k - 1) - 1) with (k - 1) in * by lia. rewrite vec_nth by lia. cbn [of_opt rbind]. rewrite mat_put by lia. cbn [rbind].
    set (f1 := fun a b => if (a =? k) && (b =? k) then _ else f a b).
    assert (F0 : forall i j, i <> k -> f1 i j = f i j) by (intros i j Hi; unfold f1; destruct (Nat.eqb_spec i k); [congruence|auto]).
    assert (Fk : f1 k k = ((rho k - t1) / (1 - t2))%Q) by (unfold f1; rewrite !Nat.eqb_refl; auto). clearbody f1.
    match goal with |- context [for_in (seq 1 (k - 1)) ?b (mat (S N) f1)] => destruct (for_in_seq (fun j mt => exists g, mt = mat (S N) g /\ (forall i j, i <> k -> g i j = f i j) /\ g k k = f1 k k /\
      forall j', 1 <= j' < j -> g k j' = (f (k - 1)%nat j' - g k k * f (k - 1)%nat (k - j')%nat)%Q) b (k - 1) 1 (mat (S N) f1)) as (m & E2 & g & -> & G1 & G2 & G3) end.
    + exists f1. split; [auto|]. split; [auto|]. split; [auto|]. intros; lia.
    + intros j m Hj (g & -> & G1 & G2 & G3). rewrite !mat_at by lia. cbn [rbind]. rewrite mat_put by lia. eexists. split; [reflexivity|]. eexists. split; [reflexivity|]. cbv beta.
      split; [intros i j' Hi; destruct (Nat.eqb_spec i k); [congruence|apply G1; auto]|]. rewrite !Nat.eqb_refl. cbn [andb]. destruct (Nat.eqb_spec k j); [lia|]. split; [auto|].
      intros j' Hj'. destruct (Nat.eqb_spec j' j) as [->|]; [|apply G3; lia]. rewrite (G1 (k - 1) j), (G1 (k - 1) (k - j)) by lia. auto.
    + exists g. split; [exact E2|]. split; [auto|]. split; [|intros j Hj; apply G3; lia]. rewrite G2, Fk, H1, H2. reflexivity.
Qed.
Hypothesis rho0 : (rho 0%nat == 1)%Q.
(** the coefficients of order [k] solve the equations of order [k], as long as the prediction errors
    are not zero *)
Lemma partials_ok : 1 <= N -> exists f, partials rv N = Ok (mat (S N) f) /\
  forall k, 1 <= k <= N -> (forall j phi, j < k -> yule_walker rho j phi -> ~ (unexplained rho phi j == 0)%Q) -> yule_walker rho k (f k).
Proof.
  intros HN. unfold partials. rewrite vec_nth by lia. cbn [of_opt rbind]. rewrite repeat_mat, mat_put by lia. cbn [rbind].
  set (f0 := fun a b => if (a =? 1) && (b =? 1) then _ else _).
  destruct (for_in_seq (fun k mt => exists g, mt = mat (S N) g /\ forall i, 1 <= i < k -> (forall j phi, j < i -> yule_walker rho j phi -> ~ (unexplained rho phi j == 0)%Q) -> yule_walker rho i (g i))
     (partial rv) (N - 1) 2 (mat (S N) f0)) as (m & E & g & -> & H).
  - exists f0. split; [auto|]. intros i Hi _. assert (i = 1) by lia. subst i. intros i Hi'. assert (i = 1) by lia. subst i. cbn [sum1]. unfold f0, gap. cbn. rewrite rho0. ring.
  - intros k m Hk (g & -> & H). destruct (partial_ok k g) as (g' & E & G1 & G2 & G3); [lia|]. exists (mat (S N) g'). split; [exact E|]. exists g'. split; [auto|].
    intros i Hi U. destruct (Nat.eq_dec i k) as [->|Hn].
    + assert (Y : yule_walker rho (k - 1) (g (k - 1))). { apply H; [lia|]. intros j phi Hj. apply U. lia. }
      destruct k as [|k]; [lia|]. replace (S k - 1) with k in * by lia. apply (levinson rho k (g k) (g' (S k)) rho0 Y).
      * apply U; [lia|exact Y].
      * exact G2.
      * intros j Hj. rewrite G3 by lia. reflexivity.
    + intros i' Hi'. rewrite (sum1_ext _ (fun j => g i j * rho (gap i' j))%Q) by (intros; rewrite G1 by auto; reflexivity). apply H; auto. lia.
  - exists g. split; [exact E|]. intros k Hk. apply H. lia.
Qed.
End Partial.

(** ** the correlations *)
Section Lags.
Variable data : list Q.
Notation n := (length data).
Definition d (i : nat) : Q := nth i data 0%Q.
Lemma d_nth i : i < n -> nth_error data i = Some (d i).
Proof. intros H. unfold d. apply nth_error_nth'. auto. Qed.
(** sum of [f k'] for k' < k *)
Fixpoint below (f : nat -> Q) (k : nat) : Q := match k with 0 => 0%Q | S k' => (below f k' + f k')%Q end.
Lemma below_total f k : (below f k == total (map f (seq 0 k)))%Q.
Proof. induction k as [|k IH]; [reflexivity|]. rewrite seq_S, map_app, total_app. cbn [below total map]. rewrite IH. cbn. ring. Qed.
Definition summed (N s k : nat) (a : sums) : Prop := exists m g c, a = Sums (vec (S N) m) (vec (S N) g) (vec (S N) c) /\
  forall j, j <= s -> (m j == below (fun i => d (i + j)%nat) k /\ g j == below (fun i => d (i + j)%nat * d (i + j)%nat) k /\ c j == below (fun i => d i * d (i + j)%nat) k)%Q.
Lemma gather_ok N s k a : s <= N -> k + s < n -> summed N s k a -> exists a', gather data k s a = Ok a' /\ summed N s (S k) a'.
Proof.
  intros Hs Hk (m & g & c & -> & H). unfold gather.
  match goal with |- context [for_in (seq 0 (S s)) ?b ?x] => destruct (for_in_seq (fun t a => exists m g c, a = Sums (vec (S N) m) (vec (S N) g) (vec (S N) c) /\
     (forall j, (j < t)%nat -> m j == below (fun i => d (i + j)%nat) (S k) /\ g j == below (fun i => d (i + j)%nat * d (i + j)%nat) (S k) /\ c j == below (fun i => d i * d (i + j)%nat) (S k)) /\
     (forall j, (t <= j <= s)%nat -> m j == below (fun i => d (i + j)%nat) k /\ g j == below (fun i => d (i + j)%nat * d (i + j)%nat) k /\ c j == below (fun i => d i * d (i + j)%nat) k))%Q b (S s) 0 x)
     as (a' & E & m' & g' & c' & -> & H1 & _) end.
  - exists m, g, c. split; [auto|]. split; [intros; lia|intros; apply H; lia].
  - intros t a Ht (m1 & g1 & c1 & -> & H1 & H2). rewrite !d_nth by lia. cbn [of_opt rbind c_m c_sig c_cov]. unfold addto. rewrite !vec_nth by lia. cbn [of_opt rbind].
    rewrite !vec_upd by lia. cbn [of_opt rbind]. eexists. split; [reflexivity|]. do 3 eexists. split; [reflexivity|]. cbv beta. split.
    + intros j Hj. destruct (Nat.eqb_spec j t) as [->|]; [|apply H1; lia]. cbn [below]. destruct (H2 t) as (-> & -> & ->); [lia|]. split; [|split]; reflexivity.
    + intros j Hj. destruct (Nat.eqb_spec j t); [lia|]. apply H2. lia.
  - exists (Sums (vec (S N) m') (vec (S N) g') (vec (S N) c')). split; [exact E|]. exists m', g', c'. split; [auto|]. intros j Hj. apply H1. lia.
Qed.
Lemma shifted f k s : k + s <= n -> (forall i, i < k -> f i = d (i + s)) -> map f (seq 0 k) = firstn k (skipn s data).
Proof.
  intros H Hf. apply nth_error_ext. intros i. rewrite nth_error_map'. destruct (Nat.lt_ge_cases i k) as [Hi|Hi].
  - rewrite nth_error_seq' by auto. rewrite firstn_nth_error by auto. rewrite skipn_nth_error, d_nth by lia. cbn. rewrite Hf by auto. f_equal. f_equal. lia.
  - transitivity (@None Q); [|symmetry].
    + replace (nth_error (seq 0 k) i) with (@None nat); auto. symmetry. apply nth_error_None. rewrite seq_length. auto.
    + apply nth_error_None. rewrite firstn_length. lia.
Qed.
Variable sqrt : Q -> Q.
Hypothesis sqrt_eq : forall x y, (x == y -> sqrt x == sqrt y)%Q.
(** the part of the data without its [s] last values, and without its [s] first ones *)
Notation early s := (firstn (n - s) data).
Notation late s := (skipn s data).
Definition corr (s : nat) (r : Q) : Prop :=
  (0 < variance (early s) -> 0 < variance (late s) -> r == covariance (early s) (late s) / (sqrt (variance (late s)) * sqrt (variance (early s))))%Q.
Lemma lag_ok N s k a rho : 1 <= s <= N -> N < n -> k <= n - s -> summed N s k a ->
  exists a' r, lag sqrt data s k a (vec (S N) rho) = Ok (n - s, a', vec (S N) (fun i => if i =? s then r else rho i)) /\ summed N (s - 1) (n - s) a' /\ corr s r.
Proof.
  intros Hs HN Hk Ha. unfold lag.
  destruct (for_in_seq (fun k a => summed N s k a) (fun k a => gather data k s a) (n - s - k) k a Ha) as (a1 & E & H1).
  { intros i a1 Hi H. apply gather_ok; auto; lia. }
  rewrite E. cbn [rbind]. replace (k + (n - s - k)) with (n - s) in H1 by lia. destruct H1 as (m & g & c & -> & H). cbn [c_m c_sig c_cov].
  rewrite !vec_nth by lia. cbn [of_opt rbind]. rewrite !vec_upd by lia. cbn [of_opt rbind]. replace (Nat.max k (n - s)) with (n - s) by lia.
  do 2 eexists. split; [reflexivity|]. split.
  - do 3 eexists. split; [reflexivity|]. cbv beta. intros j Hj. destruct (Nat.eqb_spec j s); [lia|]. apply H. lia.
  - intros V0 Vs. destruct (H s ltac:(lia)) as (Ms & Gs & Cs). destruct (H 0 ltac:(lia)) as (M0 & G0 & _). rewrite below_total in *.
    assert (L1 : length (early s) = n - s) by (rewrite firstn_length; lia). assert (L2 : length (late s) = n - s) by (rewrite skipn_length; lia).
    assert (D1 : qnat (n - s) = size (early s)) by (unfold qnat, size; rewrite L1; auto). assert (D2 : qnat (n - s) = size (late s)) by (unfold qnat, size; rewrite L2; auto).
    assert (Ne : early s <> []) by (intros Z; rewrite Z in L1; cbn in L1; lia). assert (Nl : late s <> []) by (intros Z; rewrite Z in L2; cbn in L2; lia).
    assert (Q1 : (m s / qnat (n - s) == average (late s))%Q).
    { rewrite D2. unfold average. rewrite Ms. rewrite (shifted _ (n - s) s); [|lia|auto]. rewrite firstn_all2 by lia. reflexivity. }
    assert (Q2 : (m 0%nat / qnat (n - s) == average (early s))%Q).
    { rewrite D1. unfold average. rewrite M0. rewrite (shifted _ (n - s) 0); [|lia|auto]. reflexivity. }
    assert (Q3 : (g s / qnat (n - s) - m s / qnat (n - s) * (m s / qnat (n - s)) == variance (late s))%Q).
    { rewrite variance_alt by auto. rewrite Q1. rewrite D2, Gs. rewrite <- (map_map (fun i => d (i + s)%nat) (fun x => x * x)%Q), (shifted _ (n - s) s); [|lia|auto]. rewrite firstn_all2 by lia. reflexivity. }
    assert (Q4 : (g 0%nat / qnat (n - s) - m 0%nat / qnat (n - s) * (m 0%nat / qnat (n - s)) == variance (early s))%Q).
    { rewrite variance_alt by auto. rewrite Q2. rewrite D1, G0. rewrite <- (map_map (fun i => d (i + 0)) (fun x => x * x)%Q), (shifted _ (n - s) 0); [|lia|auto]. reflexivity. }
    assert (Q5 : (c s / qnat (n - s) - m 0%nat / qnat (n - s) * (m s / qnat (n - s)) == covariance (early s) (late s))%Q).
    { rewrite covariance_alt by (auto; lia). rewrite Q1, Q2. rewrite D1, Cs.
      assert (X : map (fun p => fst p * snd p)%Q (combine (early s) (late s)) = map (fun i => d i * d (i + s)%nat)%Q (seq 0 (n - s))); [|rewrite X; reflexivity].
      pose proof (shifted (fun i => d (i + 0)) (n - s) 0 ltac:(lia) ltac:(auto)) as X0. cbn [skipn] in X0. rewrite <- X0.
      pose proof (shifted (fun i => d (i + s)%nat) (n - s) s ltac:(lia) ltac:(auto)) as Xs. rewrite firstn_all2 in Xs by lia. rewrite <- Xs. clear. generalize (seq 0 (n - s)). intros l. induction l as [|i l IH]; cbn; auto. rewrite IH, Nat.add_0_r. auto. }
    assert (B : Qle_bool (g s / qnat (n - s) - m s / qnat (n - s) * (m s / qnat (n - s))) 0 = false).
    { destruct (Qle_bool _ _) eqn:B; auto. apply Qle_bool_iff in B. rewrite Q3 in B. lra. }
    rewrite B. rewrite Q5, (sqrt_eq _ _ Q3), (sqrt_eq _ _ Q4). reflexivity.
Qed.
Lemma lags_ok N : N < n -> forall s k a rho, s <= N -> k <= n - s -> summed N s k a ->
  exists rho', lags sqrt data s k a (vec (S N) rho) = Ok (vec (S N) rho') /\ (forall i, i = 0 \/ s < i -> rho' i = rho i) /\ forall i, 1 <= i <= s -> corr i (rho' i).
Proof.
  intros HN. induction s as [|s IH]; intros k a rho Hs Hk Ha; cbn [lags].
  - exists rho. split; [auto|]. split; [auto|]. intros; lia.
  - destruct (lag_ok N (S s) k a rho) as (a' & r & -> & Ha' & C); auto; [lia|]. cbn [rbind]. replace (S s - 1) with s in Ha' by lia.
    destruct (IH (n - S s) a' (fun i => if i =? S s then r else rho i)) as (rho' & E & H1 & H2); auto; [lia|lia|]. exists rho'. split; [exact E|]. split.
    + intros i Hi. rewrite H1 by lia. destruct (Nat.eqb_spec i (S s)); auto. lia.
    + intros i Hi. destruct (Nat.eq_dec i (S s)) as [->|]; [|apply H2; lia]. rewrite H1 by lia. rewrite Nat.eqb_refl. auto.
Qed.
Lemma correlations_ok N : N < n -> exists rho, correlations sqrt data N = Ok (vec (S N) rho) /\ rho 0 = 1%Q /\ forall s, 1 <= s <= N -> corr s (rho s).
Proof.
  intros HN. unfold correlations. rewrite repeat_vec, vec_upd by lia. cbn [of_opt rbind].
  destruct (lags_ok N HN N 0 (Sums (vec (S N) (fun _ => 0%Q)) (vec (S N) (fun _ => 0%Q)) (vec (S N) (fun _ => 0%Q))) (fun a => if a =? 0 then 1%Q else 0%Q)) as (rho & E & H1 & H2); auto; [lia| |].
  - do 3 eexists. split; [reflexivity|]. intros j _. cbn. split; [|split]; reflexivity.
  - exists rho. split; [exact E|]. split; [rewrite H1 by auto; auto|auto].
Qed.
End Lags.
