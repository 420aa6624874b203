From Coq Require Import Reals List Arith Lia Lra Bool.
From Verif Require Import Outcome ChoModel ChoSpec.
Import ListNotations.
Open Scope R_scope.

(** ** sums *)
Lemma sum_ext n f g : (forall k, (k < n)%nat -> f k = g k) -> sum n f = sum n g.
Proof. induction n; cbn; intros H; [reflexivity|]. rewrite IHn by (intros; apply H; lia). rewrite H by lia. reflexivity. Qed.
Lemma sum_zero n f : (forall k, (k < n)%nat -> f k = 0) -> sum n f = 0.
Proof. induction n; cbn; intros H; [reflexivity|]. rewrite IHn by (intros; apply H; lia). rewrite H by lia. ring. Qed.
Lemma sum_plus n f g : sum n (fun k => f k + g k) = sum n f + sum n g.
Proof. induction n; cbn; [ring|]. rewrite IHn. ring. Qed.
Lemma sum_scal n c f : sum n (fun k => c * f k) = c * sum n f.
Proof. induction n; cbn; [ring|]. rewrite IHn. ring. Qed.
Lemma sum_swap n m f : sum n (fun i => sum m (fun j => f i j)) = sum m (fun j => sum n (fun i => f i j)).
Proof. induction n; cbn; [symmetry; apply sum_zero; auto|]. rewrite IHn, <- sum_plus. reflexivity. Qed.
Lemma sum_trunc m n f : (m <= n)%nat -> (forall k, (m <= k < n)%nat -> f k = 0) -> sum n f = sum m f.
Proof.
  induction n; intros L H; [replace m with 0%nat by lia; reflexivity|].
  destruct (Nat.eq_dec m (S n)) as [->|]; [reflexivity|]. cbn. rewrite IHn, (H n) by (intros; try apply H; lia). ring.
Qed.

(** ** loops *)
Lemma loop_nil {A} a b (f : nat -> A -> A) s : (b <= a)%nat -> loop a b f s = s.
Proof. intros H. unfold loop. replace (b - a)%nat with 0%nat by lia. reflexivity. Qed.
Lemma loop_last {A} a b (f : nat -> A -> A) s : (a <= b)%nat -> loop a (S b) f s = f b (loop a b f s).
Proof.
  intros H. unfold loop. replace (S b - a)%nat with (S (b - a)) by lia. rewrite seq_S, fold_left_app. cbn.
  replace (a + (b - a))%nat with b by lia. reflexivity.
Qed.
Lemma loop_inv {A} (P : nat -> A -> Prop) a b f s : (a <= b)%nat -> P a s ->
  (forall i x, (a <= i < b)%nat -> P i x -> P (S i) (f i x)) -> P b (loop a b f s).
Proof.
  intros L P0 step. induction b as [|b IH].
  - assert (a = 0)%nat by lia. subst. rewrite loop_nil by lia. exact P0.
  - destruct (Nat.eq_dec a (S b)) as [<-|n]; [rewrite loop_nil by lia; exact P0|].
    rewrite loop_last by lia. apply step; [lia|]. apply IH; [lia|]. intros; apply step; auto; lia.
Qed.
Lemma accumulate_sum n f : accumulate n f = sum n f.
Proof. unfold accumulate. induction n; [reflexivity|]. rewrite loop_last by lia. rewrite IHn. reflexivity. Qed.
Lemma put_same M i j v : put M i j v i j = v.
Proof. unfold put. rewrite !Nat.eqb_refl. reflexivity. Qed.
Lemma put_other M i j v a b : (a <> i \/ b <> j)%nat -> put M i j v a b = M a b.
Proof.
  intros H. unfold put. destruct (Nat.eqb_spec a i), (Nat.eqb_spec b j); cbn; try reflexivity. exfalso; lia.
Qed.

(** ** triangular systems *)
Lemma tri_solve : forall m (U : nat -> nat -> R), (forall k, (k < m)%nat -> U k k <> 0) -> (forall k a, (a < k)%nat -> U k a = 0) ->
  forall b, exists y, forall k, (k < m)%nat -> sum m (fun a => U k a * y a) = b k.
Proof.
  induction m as [|m IH]; intros U D T b; [exists (fun _ => 0); lia|].
  pose (v := b m / U m m). destruct (IH U (fun k H => D k ltac:(lia)) T (fun k => b k - U k m * v)) as [y Hy].
  exists (fun a => if (a =? m)%nat then v else y a). intros k Hk. cbn. rewrite Nat.eqb_refl.
  rewrite (sum_ext m _ (fun a => U k a * y a)) by (intros a Ha; destruct (Nat.eqb_spec a m); [lia|reflexivity]).
  destruct (Nat.eq_dec k m) as [->|n].
  - rewrite sum_zero by (intros a Ha; rewrite T by lia; ring). unfold v. field. apply D. lia.
  - rewrite Hy by lia. ring.
Qed.

(** x^T (L L^T) x is a sum of squares *)
Lemma quad n m x (L : nat -> nat -> R) :
  sum n (fun a => sum n (fun b => x a * sum m (fun k => L a k * L b k) * x b)) =
  sum m (fun k => sum n (fun a => x a * L a k) * sum n (fun a => x a * L a k)).
Proof.
  transitivity (sum n (fun a => sum n (fun b => sum m (fun k => (x a * L a k) * (x b * L b k))))).
  { apply sum_ext; intros a _. apply sum_ext; intros b _. rewrite Rmult_comm, <- Rmult_assoc, <- sum_scal.
    apply sum_ext; intros k _. ring. }
  transitivity (sum n (fun a => sum m (fun k => sum n (fun b => (x a * L a k) * (x b * L b k))))).
  { apply sum_ext; intros a _. apply sum_swap. }
  rewrite sum_swap. apply sum_ext; intros k _.
  rewrite (sum_ext n (fun a => sum n (fun b => x a * L a k * (x b * L b k))) (fun a => sum n (fun b => x b * L b k) * (x a * L a k)))
    by (intros a _; rewrite sum_scal; ring).
  apply sum_scal.
Qed.

(** ** the factor column by column *)
Section Fac.
Variables (N : nat) (V : nat -> nat -> R).
Hypothesis Vsym : symmetric N V.
Hypothesis Vpos : positive_definite N V.

(** the first [c] columns are those of the factor, the others are null *)
Definition upto (c : nat) (L : nat -> nat -> R) : Prop :=
  (forall i j, (c <= j)%nat -> L i j = 0) /\ (forall i j, (i < j)%nat -> L i j = 0) /\ (forall i, (i < c)%nat -> 0 < L i i) /\
  (forall i j, (j < c)%nat -> (j <= i < N)%nat -> sum (S j) (fun k => L i k * L j k) = V i j).

Lemma upto_full c L i j : upto c L -> (j < c)%nat -> (j <= i < N)%nat -> sum c (fun k => L i k * L j k) = V i j.
Proof.
  intros (_ & T & _ & P) Hj Hi. rewrite (sum_trunc (S j)), <- (P i j) by (try lia; intros k Hk; rewrite (T j k) by lia; ring).
  reflexivity.
Qed.

Lemma pivot_pos c L : (c < N)%nat -> upto c L -> 0 < V c c - sum c (fun k => L c k * L c k).
Proof.
  intros Hc U. pose proof U as (_ & T & D & _).
  destruct (tri_solve c (fun k a => L a k)) with (b := fun k => - L c k) as [y Hy].
  { intros k Hk. specialize (D k Hk). lra. }
  { intros k a H. apply T. exact H. }
  set (p := V c c - sum c (fun k => L c k * L c k)).
  pose (x := fun a => if (a <? c)%nat then y a else if (a =? c)%nat then 1 else 0).
  assert (X1 : x c = 1) by (unfold x; rewrite Nat.ltb_irrefl, Nat.eqb_refl; reflexivity).
  assert (X2 : forall a, (a < c)%nat -> x a = y a).
  { intros a H. unfold x. destruct (Nat.ltb_spec a c); [reflexivity|lia]. }
  assert (X3 : forall a, (c < a)%nat -> x a = 0).
  { intros a H. unfold x. destruct (Nat.ltb_spec a c); [lia|]. destruct (Nat.eqb_spec a c); [lia|reflexivity]. }
  pose (e := fun a b => if ((a =? c) && (b =? c))%bool then p else 0).
  assert (VE : forall a b, (a < S c)%nat -> (b < S c)%nat -> V a b = sum c (fun k => L a k * L b k) + e a b).
  { intros a b Ha Hb. unfold e. destruct (Nat.eqb_spec a c) as [->|na], (Nat.eqb_spec b c) as [->|nb]; cbn [andb].
    - unfold p. ring.
    - rewrite (upto_full c L c b U) by lia. ring.
    - rewrite Vsym by lia. rewrite <- (upto_full c L c a U) by lia. rewrite Rplus_0_r. apply sum_ext. intros; ring.
    - destruct (le_lt_dec b a).
      + rewrite (upto_full c L a b U) by lia. ring.
      + rewrite Vsym by lia. rewrite <- (upto_full c L b a U) by lia. rewrite Rplus_0_r. apply sum_ext. intros; ring. }
  specialize (Vpos x). assert (0 < sum N (fun i => sum N (fun j => x i * V i j * x j))) as Q.
  { apply Vpos. exists c. rewrite X1. split; [exact Hc|lra]. }
  clear Vpos. rewrite (sum_trunc (S c) N) in Q by (try lia; intros k Hk; apply sum_zero; intros; rewrite (X3 k) by lia; ring).
  rewrite (sum_ext (S c) _ (fun a => sum (S c) (fun b => x a * sum c (fun k => L a k * L b k) * x b) + sum (S c) (fun b => x a * e a b * x b))) in Q.
  2:{ intros a Ha. rewrite (sum_trunc (S c) N) by (try lia; intros k Hk; rewrite (X3 k) by lia; ring).
      rewrite <- sum_plus. apply sum_ext. intros b Hb. rewrite VE by lia. ring. }
  rewrite sum_plus, quad in Q. rewrite sum_zero in Q.
  2:{ intros k Hk. replace (sum (S c) (fun a => x a * L a k)) with 0; [ring|].
      cbn [sum]. rewrite (sum_ext c _ (fun a => L a k * y a)) by (intros a Ha; rewrite X2 by lia; ring). rewrite Hy by lia.
      rewrite X1. ring. }
  cbn [sum] in Q. rewrite (sum_zero c (fun a => _ + _)) in Q.
  2:{ intros a Ha. rewrite sum_zero.
      - unfold e. destruct (Nat.eqb_spec a c); [lia|]. cbn. ring.
      - intros b Hb. unfold e. destruct (Nat.eqb_spec a c); [lia|]. cbn. ring. }
  rewrite (sum_zero c (fun b => x c * e c b * x b)) in Q.
  2:{ intros b Hb. unfold e. destruct (Nat.eqb_spec b c); [lia|]. rewrite andb_false_r. ring. }
  unfold e in Q. rewrite Nat.eqb_refl in Q. cbn in Q. rewrite X1 in Q. lra.
Qed.

(** one more column *)
Lemma upto_step c L L' : (c < N)%nat -> upto c L ->
  (forall a b, b <> c \/ (a < c)%nat -> L' a b = L a b) -> 0 < L' c c ->
  L' c c * L' c c = V c c - sum c (fun k => L c k * L c k) ->
  (forall j, (c < j < N)%nat -> L' j c * L' c c = V j c - sum c (fun k => L j k * L c k)) ->
  upto (S c) L'.
Proof.
  intros Hc (Z & T & D & P) O Dc Cc Cj. split; [|split; [|split]].
  - intros i j H. rewrite O by lia. apply Z. lia.
  - intros i j H. rewrite O by lia. apply T. lia.
  - intros i H. destruct (Nat.eq_dec i c) as [->|]; [exact Dc|]. rewrite O by lia. apply D. lia.
  - intros i j Hj Hi. destruct (Nat.eq_dec j c) as [->|n].
    + cbn [sum]. rewrite (sum_ext c _ (fun k => L i k * L c k)) by (intros k Hk; rewrite !O by lia; reflexivity).
      destruct (Nat.eq_dec i c) as [->|m]; [rewrite Cc; ring|]. rewrite Cj by lia. ring.
    + rewrite (sum_ext (S j) _ (fun k => L i k * L j k)) by (intros k Hk; rewrite !O by lia; reflexivity). apply P; lia.
Qed.

Lemma upto_done L : upto N L -> cholesky_factor N V L.
Proof.
  intros U. pose proof U as (Z & T & D & P). split; [|split]; [intros; apply T; lia|exact D|].
  intros i j Hi Hj. destruct (le_lt_dec j i).
  - apply upto_full; auto; lia.
  - rewrite Vsym by lia. rewrite <- (upto_full N L j i U) by lia. apply sum_ext. intros; ring.
Qed.

(** ** LLT *)
Section Piv.
Variable pivot : R -> R.
Hypothesis pivot_ok : forall d, 0 < d -> 0 < pivot d /\ pivot d * pivot d = d.

Lemma rows_inv c L : (c < N)%nat -> L c c <> 0 ->
  let L' := llt_rows V N c L in
  (forall a b, b <> c \/ (a <= c)%nat -> L' a b = L a b) /\
  (forall j, (c < j < N)%nat -> L' j c = (V j c - sum c (fun k => L j k * L c k)) / L c c).
Proof.
  intros Hc nz. cbn. unfold llt_rows.
  pose (P := fun n (M : matrix) => (forall a b, b <> c \/ (a <= c)%nat -> M a b = L a b) /\
     (forall j, (c < j < n)%nat -> M j c = (V j c - sum c (fun k => L j k * L c k)) / L c c)).
  assert (H : P N (loop (S c) N (fun j M => put M j c ((V j c - accumulate c (fun k => M j k * M c k)) / M c c)) L)).
  { apply loop_inv; [lia| |].
    - split; [reflexivity|lia].
    - intros i M Hi (O & F). split.
      + intros a b H. rewrite put_other by lia. apply O. exact H.
      + intros j Hj. destruct (Nat.eq_dec j i) as [->|n].
        * rewrite put_same, accumulate_sum, O by lia. f_equal. f_equal.
          apply sum_ext. intros k Hk. rewrite !O by lia. reflexivity.
        * rewrite put_other by lia. apply F. lia. }
  exact H.
Qed.

Lemma column_ok c L : (c < N)%nat -> upto c L -> upto (S c) (llt_column pivot V N c L).
Proof.
  intros Hc U. unfold llt_column. rewrite accumulate_sum. set (d := V c c - sum c (fun k => L c k * L c k)).
  pose proof (pivot_pos c L Hc U) as Dp. fold d in Dp. destruct (pivot_ok d Dp) as [P1 P2].
  set (M := put L c c (pivot d)).
  assert (Mc : M c c = pivot d) by apply put_same.
  destruct (rows_inv c M Hc) as [O F]; [lra|].
  apply (upto_step c L); auto.
  - intros a b H. rewrite O by lia. unfold M. rewrite put_other by lia. reflexivity.
  - rewrite O by lia. lra.
  - rewrite O by lia. rewrite Mc. exact P2.
  - intros j Hj. rewrite F, (O c c) by lia. rewrite Mc. unfold Rdiv. rewrite Rmult_assoc, Rinv_l by lra.
    rewrite Rmult_1_r. f_equal. apply sum_ext. intros k Hk. unfold M. rewrite !put_other by lia. reflexivity.
Qed.

Lemma llt_ok : (0 < N)%nat -> exists L, llt pivot V N = Ok L /\ cholesky_factor N V L.
Proof.
  intros HN. unfold llt. destruct N as [|m] eqn:EN; [lia|]. rewrite <- EN in *. clear EN m.
  eexists. split; [reflexivity|]. apply upto_done. apply loop_inv; [lia| |].
  2:{ intros i x Hi U. apply column_ok; [lia|exact U]. }
  assert (U0 : upto 0 zero) by (split; [|split; [|split]]; try reflexivity; lia).
  pose proof (pivot_pos 0 zero HN U0) as Dp. cbn [sum] in Dp. rewrite Rminus_0_r in Dp.
  assert (Sq : 0 < sqrt (V 0%nat 0%nat)) by (apply sqrt_lt_R0; exact Dp).
  set (M := put zero 0 0 (sqrt (V 0%nat 0%nat))).
  assert (Mc : M 0%nat 0%nat = sqrt (V 0%nat 0%nat)) by apply put_same.
  pose (P := fun n (K : matrix) => (forall a b, b <> 0%nat \/ (a <= 0)%nat -> K a b = M a b) /\
     (forall j, (0 < j < n)%nat -> K j 0%nat = V 0%nat j / M 0%nat 0%nat)).
  assert (H : P N (loop 1 N (fun j K => put K j 0 (V 0%nat j / K 0%nat 0%nat)) M)).
  { apply loop_inv; [lia| |].
    - split; [reflexivity|lia].
    - intros i K Hi (O & F). split.
      + intros a b H. rewrite put_other by lia. apply O. exact H.
      + intros j Hj. destruct (Nat.eq_dec j i) as [->|n].
        * rewrite put_same, O by lia. reflexivity.
        * rewrite put_other by lia. apply F. lia. }
  destruct H as [O F]. apply (upto_step 0 zero); auto.
  - intros a b H. rewrite O by lia. unfold M. rewrite put_other by lia. reflexivity.
  - rewrite O by lia. lra.
  - rewrite O by lia. rewrite Mc. cbn [sum]. rewrite sqrt_sqrt by lra. ring.
  - intros j Hj. rewrite F, (O 0%nat 0%nat) by lia. rewrite Mc. cbn [sum]. rewrite Vsym by lia. field. lra.
Qed.
End Piv.

(** ** LDLT *)
Definition ldupto (c : nat) (s : matrix * matrix) : Prop :=
  let '(L, D) := s in
  (forall i, (i < c)%nat -> L i i = 1) /\ (forall i j, i <> j -> D i j = 0) /\ (forall i, (i < c)%nat -> 0 < D i i) /\
  (forall i j, (c <= j)%nat -> L i j = 0) /\
  upto c (fun i j => if (j <? c)%nat then L i j * sqrt (D j j) else 0).

Lemma diagonal_ok j L D : let D' := ldlt_diagonal j V L D in
  D' j j = V j j - sum j (fun k => L j k * L j k * D k k) /\ (forall a b, (a <> j \/ b <> j) -> D' a b = D a b).
Proof.
  cbn. unfold ldlt_diagonal.
  pose (P := fun n (M : matrix) => M j j = V j j - sum n (fun k => L j k * L j k * D k k) /\ (forall a b, (a <> j \/ b <> j) -> M a b = D a b)).
  assert (H : P j (loop 0 j (fun k D0 => put D0 j j (D0 j j - L j k * L j k * D0 k k)) (put D j j (V j j)))).
  { apply loop_inv; [lia| |].
    - split; [rewrite put_same; cbn; ring|]. intros. apply put_other. lia.
    - intros i M Hi (A & B). split.
      + rewrite put_same, A, (B i i) by lia. cbn. ring.
      + intros a b H. rewrite put_other by lia. apply B. exact H. }
  exact H.
Qed.
Lemma row_ok j i D L : (i <> j)%nat -> let L' := ldlt_row j i V D L in
  L' i j = (V i j - sum j (fun k => L i k * L j k * D k k)) / D j j /\ (forall a b, (a <> i \/ b <> j) -> L' a b = L a b).
Proof.
  intros ne. cbn. unfold ldlt_row.
  pose (P := fun n (M : matrix) => M i j = V i j - sum n (fun k => L i k * L j k * D k k) /\ (forall a b, (a <> i \/ b <> j) -> M a b = L a b)).
  assert (H : P j (loop 0 j (fun k L0 => put L0 i j (L0 i j - L0 i k * L0 j k * D k k)) (put L i j (V i j)))).
  { apply loop_inv; [lia| |].
    - split; [rewrite put_same; cbn; ring|]. intros. apply put_other. lia.
    - intros k M Hi (A & B). split.
      + rewrite put_same, A, (B i k), (B j k) by lia. cbn. ring.
      + intros a b H. rewrite put_other by lia. apply B. exact H. }
  destruct H as [A B]. split; [rewrite put_same, A; reflexivity|].
  intros a b H. rewrite put_other by lia. apply B. exact H.
Qed.

Lemma ldlt_column_ok c s : (c < N)%nat -> ldupto c s -> ldupto (S c) (ldlt_column V N c s).
Proof.
  destruct s as [L D]. intros Hc (L1 & Doff & Dp & Lz & U). unfold ldlt_column.
  set (L' := put L c c 1). destruct (diagonal_ok c L' D) as [Dc Do]. set (D' := ldlt_diagonal c V L' D) in *.
  assert (L'o : forall a b, a <> c \/ b <> c -> L' a b = L a b) by (intros; apply put_other; lia).
  pose (P := fun n (M : matrix) => (forall a b, b <> c \/ (a <= c)%nat -> M a b = L' a b) /\
     (forall j, (c < j < n)%nat -> M j c = (V j c - sum c (fun k => L j k * L c k * D k k)) / D' c c)).
  assert (H : P N (loop (S c) N (fun i L0 => ldlt_row c i V D' L0) L')).
  { apply loop_inv; [lia| |].
    - split; [reflexivity|lia].
    - intros i M Hi (O & F). destruct (row_ok c i D' M) as [R1 R2]; [lia|]. split.
      + intros a b H. rewrite R2 by lia. apply O. exact H.
      + intros j Hj. destruct (Nat.eq_dec j i) as [->|n].
        * rewrite R1. f_equal. f_equal. apply sum_ext. intros k Hk. rewrite !O, !L'o, Do by lia. reflexivity.
        * rewrite R2 by lia. apply F. lia. }
  set (M := loop (S c) N (fun i L0 => ldlt_row c i V D' L0) L') in *. clearbody M. destruct H as [O F].
  set (K := fun i j => if (j <? c)%nat then L i j * sqrt (D j j) else 0) in *.
  assert (KK : forall i j, sum c (fun k => L i k * L j k * D k k) = sum c (fun k => K i k * K j k)).
  { intros i j. apply sum_ext. intros k Hk. unfold K. destruct (Nat.ltb_spec k c); [|lia].
    rewrite <- (sqrt_sqrt (D k k)) at 1 by (apply Rlt_le, Dp; lia). ring. }
  assert (Dc' : D' c c = V c c - sum c (fun k => K c k * K c k)).
  { rewrite Dc, <- KK. f_equal. apply sum_ext. intros k Hk. rewrite !L'o by lia. reflexivity. }
  assert (Dpos : 0 < D' c c) by (rewrite Dc'; apply pivot_pos; auto).
  assert (D1 : forall i, (i < c)%nat -> D' i i = D i i) by (intros; apply Do; lia).
  assert (Mcc : M c c = 1) by (rewrite O by lia; apply put_same).
  assert (Sq : 0 < sqrt (D' c c)) by (apply sqrt_lt_R0; exact Dpos).
  split; [|split; [|split; [|split]]].
  - intros i Hi. destruct (Nat.eq_dec i c) as [->|]; [exact Mcc|]. rewrite O, L'o by lia. apply L1. lia.
  - intros i j H. rewrite Do by lia. apply Doff. exact H.
  - intros i Hi. destruct (Nat.eq_dec i c) as [->|]; [exact Dpos|]. rewrite D1 by lia. apply Dp. lia.
  - intros i j H. rewrite O, L'o by lia. apply Lz. lia.
  - apply (upto_step c K); auto.
    + intros a b H. unfold K. destruct (Nat.ltb_spec b (S c)), (Nat.ltb_spec b c); try lia; try reflexivity.
      * rewrite O, L'o, D1 by lia. reflexivity.
      * assert (b = c) by lia. subst b. rewrite O, L'o, Lz by lia. ring.
    + destruct (Nat.ltb_spec c (S c)); [|lia]. rewrite Mcc, Rmult_1_l. exact Sq.
    + destruct (Nat.ltb_spec c (S c)); [|lia]. rewrite Mcc, !Rmult_1_l, sqrt_sqrt by lra. exact Dc'.
    + intros j Hj. destruct (Nat.ltb_spec c (S c)); [|lia]. rewrite Mcc, F, KK by lia.
      set (q := sum c (fun k => K j k * K c k)). rewrite Rmult_1_l, Rmult_assoc, sqrt_sqrt by lra. field. lra.
Qed.

Lemma root_ok L D : (forall i j, i <> j -> D i j = 0) -> forall i j, (j < N)%nat -> root N L D i j = L i j * sqrt (D j j).
Proof.
  intros Doff i j Hj. unfold root. rewrite accumulate_sum.
  pose (P := fun n (M : matrix) => (forall a, (a < n)%nat -> M a a = sqrt (D a a)) /\ (forall a b, a <> b -> M a b = 0)).
  assert (H : P N (loop 0 N (fun i M => put M i i (sqrt (D i i))) D)).
  { apply loop_inv; [lia| |].
    - split; [lia|exact Doff].
    - intros k M Hk (A & B). split.
      + intros a Ha. destruct (Nat.eq_dec a k) as [->|]; [apply put_same|]. rewrite put_other by lia. apply A. lia.
      + intros a b H. rewrite put_other by lia. apply B. exact H. }
  destruct H as [A B]. set (M := loop _ _ _ _) in *. clearbody M.
  rewrite (sum_trunc (S j)) by (try lia; intros k Hk; rewrite B by lia; ring). cbn [sum].
  rewrite sum_zero by (intros k Hk; rewrite B by lia; ring). rewrite A by lia. ring.
Qed.

Lemma ldlt_ok : (0 < N)%nat -> exists L, ldlt V N = Ok L /\ cholesky_factor N V L.
Proof.
  intros HN. unfold ldlt. destruct N as [|m] eqn:EN; [lia|]. rewrite <- EN in *. clear EN m.
  assert (H : ldupto N (loop 0 N (ldlt_column V N) (zero, put zero 0 0 (V 0%nat 0%nat)))).
  { apply loop_inv; [lia| |].
    - split; [lia|split; [|split; [lia|split; [reflexivity|]]]].
      + intros i j H. rewrite put_other by lia. reflexivity.
      + split; [|split; [|split]]; try lia; reflexivity.
    - intros i x Hi U. apply ldlt_column_ok; [lia|exact U]. }
  destruct (loop 0 N _ _) as [L D]. destruct H as (L1 & Doff & Dp & Lz & U). eexists. split; [reflexivity|].
  apply upto_done in U. destruct U as (A & B & C).
  assert (R1 : forall i j, (j < N)%nat -> root N L D i j = if (j <? N)%nat then L i j * sqrt (D j j) else 0).
  { intros i j H. rewrite root_ok by auto. destruct (Nat.ltb_spec j N); [reflexivity|lia]. }
  split; [|split].
  - intros i j H. rewrite R1 by lia. apply A. lia.
  - intros i H. rewrite R1 by lia. apply B. lia.
  - intros i j Hi Hj. rewrite <- (C i j Hi Hj). apply sum_ext. intros k Hk. rewrite !R1 by lia. reflexivity.
Qed.
End Fac.

(** the factor is unique *)
Lemma factor_unique N V L M : cholesky_factor N V L -> cholesky_factor N V M -> forall i j, (i < N)%nat -> (j < N)%nat -> L i j = M i j.
Proof.
  intros (TL & DL & FL) (TM & DM & FM) i j Hi Hj. revert i Hi Hj. induction j as [j IH] using lt_wf_ind. intros i Hi Hj.
  assert (E : forall K, (forall i j, (i < j < N)%nat -> K i j = 0) -> (forall i j, (i < N)%nat -> (j < N)%nat -> sum N (fun k => K i k * K j k) = V i j) ->
              forall i, (i < N)%nat -> sum j (fun k => K i k * K j k) + K i j * K j j = V i j).
  { intros K T F a Ha. rewrite <- (F a j Ha Hj). rewrite (sum_trunc (S j) N) by (try lia; intros k Hk; rewrite (T j k) by lia; ring). reflexivity. }
  assert (S0 : forall a, (a < N)%nat -> sum j (fun k => L a k * L j k) = sum j (fun k => M a k * M j k)).
  { intros a Ha. apply sum_ext. intros k Hk. rewrite (IH k Hk a), (IH k Hk j) by lia. reflexivity. }
  pose proof (E L TL FL) as EL. pose proof (E M TM FM) as EM.
  assert (Dj : L j j = M j j).
  { specialize (EL j Hj). specialize (EM j Hj). rewrite S0 in EL by lia. pose proof (DL j Hj). pose proof (DM j Hj).
    assert (Q : L j j * L j j = M j j * M j j) by lra.
    apply Rsqr_inj; [lra|lra|exact Q]. }
  specialize (EL i Hi). specialize (EM i Hi). rewrite S0 in EL by lia. pose proof (DL j Hj). pose proof (DM j Hj).
  rewrite Dj in EL. apply Rmult_eq_reg_r with (M j j); [lra|lra].
Qed.

(** only a positive definite matrix has a factor *)
Lemma factor_posdef N V L : cholesky_factor N V L -> symmetric N V /\ positive_definite N V.
Proof.
  intros (T & D & F). split.
  - intros i j Hi Hj. rewrite <- !F by lia. apply sum_ext. intros; ring.
  - intros x (i & Hi & ni).
    rewrite (sum_ext N _ (fun a => sum N (fun b => x a * sum N (fun k => L a k * L b k) * x b)))
      by (intros a Ha; apply sum_ext; intros b Hb; rewrite F by lia; reflexivity).
    rewrite quad. set (u := fun k => sum N (fun a => x a * L a k)). change (0 < sum N (fun k => u k * u k)).
    assert (NN : forall n, 0 <= sum n (fun k => u k * u k)).
    { induction n; cbn; [lra|]. pose proof (Rle_0_sqr (u n)) as Q. unfold Rsqr in Q. lra. }
    destruct (Rle_lt_or_eq_dec _ _ (NN N)) as [Q|Q]; [exact Q|exfalso].
    assert (Z : forall k, (k < N)%nat -> u k = 0).
    { intros k Hk. assert (G : forall n, (k < n)%nat -> sum n (fun k => u k * u k) = 0 -> u k * u k = 0).
      { induction n; intros H E; [lia|]. cbn in E. pose proof (Rle_0_sqr (u n)) as Q1. unfold Rsqr in Q1. pose proof (NN n).
        destruct (Nat.eq_dec k n) as [->|]; [lra|]. apply IHn; [lia|lra]. }
      destruct (Rmult_integral _ _ (G N Hk (eq_sym Q))); assumption. }
    (* the last non-null component *)
    assert (X : forall n, (n <= N)%nat -> forall a, (N - n <= a < N)%nat -> x a = 0).
    { induction n as [|n IHn]; intros Hn a Ha; [lia|]. destruct (Nat.eq_dec a (N - S n)) as [->|]; [|apply IHn; lia].
      set (k := (N - S n)%nat) in *. specialize (Z k ltac:(lia)). unfold u in Z.
      rewrite (sum_trunc (S k) N) in Z by (try lia; intros b Hb; rewrite (IHn ltac:(lia) b) by lia; ring).
      cbn in Z. rewrite sum_zero in Z by (intros b Hb; rewrite T by lia; ring). pose proof (D k ltac:(lia)).
      assert (x k * L k k = 0) as Q1 by lra. destruct (Rmult_integral _ _ Q1); [assumption|lra]. }
    apply ni. apply (X N); lia.
Qed.

(** ** sampling *)
Lemma E_sum {T} (E : (T -> R) -> R) : expectation E -> forall n f, E (fun t => sum n (fun k => f k t)) = sum n (fun k => E (f k)).
Proof.
  intros (X & A & S & O) n f. induction n; cbn.
  - rewrite (X (fun _ => 0) (fun t => 0 * 1)) by (intros; ring). rewrite S. ring.
  - rewrite A, IHn. reflexivity.
Qed.
Lemma delta N k f : (k < N)%nat -> sum N (fun l => f l * (if (k =? l)%nat then 1 else 0)) = f k.
Proof.
  intros H. rewrite (sum_trunc (S k)); [|lia|intros l Hl; destruct (Nat.eqb_spec k l); [lia|ring]]. cbn [sum]. rewrite Nat.eqb_refl.
  rewrite sum_zero; [ring|]. intros l Hl. destruct (Nat.eqb_spec k l); [lia|ring].
Qed.
Lemma sample_ok N (mean : nat -> R) V (E : ((nat -> R) -> R) -> R) :
  (0 < N)%nat -> symmetric N V -> positive_definite N V -> expectation E -> standard N E ->
  exists f, (forall t, sample_multi mean V N t = Ok (f t)) /\
    (forall i, (i < N)%nat -> E (fun t => f t i) = mean i) /\
    (forall i j, (i < N)%nat -> (j < N)%nat -> E (fun t => (f t i - mean i) * (f t j - mean j)) = V i j).
Proof.
  intros HN Sy Pd EE (Z & C). destruct (llt_ok N V Sy Pd pivot_plain) with (1 := fun d (H : 0 < d) => conj (sqrt_lt_R0 d H) (sqrt_sqrt d (Rlt_le _ _ H))) as (L & EL & T & D & F); [exact HN|].
  exists (fun t i => mean i + accumulate N (fun k => L i k * t k)). pose proof EE as (X & A & Sc & O).
  split; [intros t; unfold sample_multi; rewrite EL; reflexivity|]. split.
  - intros i Hi. rewrite (X _ (fun t => mean i * 1 + sum N (fun k => L i k * t k))) by (intros; rewrite accumulate_sum; ring).
    rewrite A, Sc, O, (E_sum E EE N (fun k t => L i k * t k)). rewrite sum_zero; [ring|]. intros k Hk. rewrite Sc, Z by lia. ring.
  - intros i j Hi Hj. rewrite <- (F i j Hi Hj).
    rewrite (X _ (fun t => sum N (fun k => L i k * sum N (fun l => L j l * (t k * t l))))).
    + rewrite (E_sum E EE N (fun k t => L i k * sum N (fun l => L j l * (t k * t l)))). apply sum_ext. intros k Hk.
      rewrite Sc. f_equal. rewrite (E_sum E EE N (fun l t => L j l * (t k * t l))).
      rewrite <- (delta N k (fun l => L j l)) by lia. apply sum_ext. intros l Hl. rewrite Sc, C by lia. reflexivity.
    + intros t. rewrite !accumulate_sum.
      replace ((mean i + sum N (fun k => L i k * t k) - mean i) * (mean j + sum N (fun k => L j k * t k) - mean j))
        with (sum N (fun k => L j k * t k) * sum N (fun k => L i k * t k)) by ring.
      rewrite <- sum_scal. apply sum_ext. intros k Hk.
      rewrite (sum_ext N (fun l => L j l * (t k * t l)) (fun l => t k * (L j l * t l))) by (intros; ring). rewrite sum_scal. ring.
Qed.
