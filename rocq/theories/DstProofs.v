From Coq Require Import Bool Arith QArith Qabs Qminmax Lia Lqa.
From Verif Require Import Lib Outcome WgtModel DstModel DstSpec.
From Coq Require Import List.
Import ListNotations.
Local Open Scope Q_scope.

Definition l1 (ds : list Q) : Q := total (map Qabs ds).
Definition l2 (ds : list Q) : Q := total (map (fun d => d * d) ds).

Lemma scaled_map : forall v sc, length sc = length v -> scaled sc v = Ok (map (fun p => (snd p - snd (fst p)) * fst (fst p)) (combine sc v)).
Proof.
  induction v as [|x v IH]; intros [|[c m] sc] L; try discriminate; [reflexivity|]. cbn [scaled combine map fst snd]. rewrite IH by (cbn in L; congruence). reflexivity.
Qed.
Lemma manhattan_loop_ok : forall a b r, length a = length b -> exists d, manhattan_loop a b r = Ok d /\ d == r + l1 (differences a b).
Proof.
  induction a as [|x a IH]; intros [|y b] r L; try discriminate.
  - exists r. split; [reflexivity|]. unfold l1; cbn. ring.
  - cbn [manhattan_loop]. destruct (IH b (r + Qabs (x - y)) ltac:(cbn in L; congruence)) as (d & E & H). exists d. split; [exact E|]. rewrite H.
    unfold l1, differences. cbn [combine map total fold_right fst snd]. unfold total. ring.
Qed.
Lemma euclidean_loop_ok : forall a b r, length a = length b -> exists d, euclidean_loop a b r = Ok d /\ d == r + l2 (differences a b).
Proof.
  induction a as [|x a IH]; intros [|y b] r L; try discriminate.
  - exists r. split; [reflexivity|]. unfold l2; cbn. ring.
  - cbn [euclidean_loop]. destruct (IH b (r + (x - y) * (x - y)) ltac:(cbn in L; congruence)) as (d & E & H). exists d. split; [exact E|]. rewrite H.
    unfold l2, differences. cbn [combine map total fold_right fst snd]. unfold total. ring.
Qed.
Lemma scaled_length : forall sc (v : list Q), length sc = length v -> length (map (fun p : Q * Q * Q => (snd p - snd (fst p)) * fst (fst p)) (combine sc v)) = length v.
Proof. intros. rewrite map_length, combine_length. lia. Qed.
(** scaling then subtracting multiplies the differences *)
Lemma scaled_diff : forall sc a b, length sc = length a -> length sc = length b ->
  Forall2 Qeq (differences (map (fun p : Q * Q * Q => (snd p - snd (fst p)) * fst (fst p)) (combine sc a)) (map (fun p : Q * Q * Q => (snd p - snd (fst p)) * fst (fst p)) (combine sc b)))
    (scaled_differences sc a b).
Proof.
  unfold scaled_differences, differences. induction sc as [|[c m] sc IH]; intros [|x a] [|y b] La Lb; try discriminate; [constructor|].
  cbn [combine map fst snd]. constructor; [ring|]. apply IH; cbn in *; congruence.
Qed.
Lemma l1_eq : forall a b, Forall2 Qeq a b -> l1 a == l1 b.
Proof. unfold l1. induction 1; cbn; [reflexivity|]. rewrite H. unfold total in IHForall2. rewrite IHForall2. reflexivity. Qed.
Lemma l2_eq : forall a b, Forall2 Qeq a b -> l2 a == l2 b.
Proof. unfold l2. induction 1; cbn; [reflexivity|]. rewrite H. unfold total in IHForall2. rewrite IHForall2. reflexivity. Qed.
Lemma manhattan_ok : forall sc a b, length sc = length a -> length sc = length b -> exists d, manhattan sc a b = Ok d /\ d == l1 (scaled_differences sc a b).
Proof.
  intros sc a b La Lb. unfold manhattan. rewrite !scaled_map by assumption. cbn [rbind].
  edestruct manhattan_loop_ok as (d & E & H); [|exists d; split; [exact E|]].
  - rewrite !scaled_length; congruence.
  - rewrite H, (l1_eq _ _ (scaled_diff sc a b La Lb)). ring.
Qed.
Lemma euclidean_ok : forall sc a b, length sc = length a -> length sc = length b -> exists d, euclidean (DefaultMember sc) a b = Ok d /\ d == l2 (scaled_differences sc a b).
Proof.
  intros sc a b La Lb. unfold euclidean. rewrite !scaled_map by assumption. cbn [rbind].
  edestruct euclidean_loop_ok as (d & E & H); [|exists d; split; [exact E|]].
  - rewrite !scaled_length; congruence.
  - rewrite H, (l2_eq _ _ (scaled_diff sc a b La Lb)). ring.
Qed.
Lemma l1_nonneg : forall l, 0 <= l1 l.
Proof. unfold l1. induction l as [|x l IH]; cbn; [lra|]. unfold total in IH. pose proof (Qabs_nonneg x). lra. Qed.
Lemma sq_nonneg : forall x : Q, 0 <= x * x.
Proof. intros x. destruct (Qlt_le_dec x 0); [setoid_replace (x * x) with ((- x) * (- x)) by ring|]; apply Qmult_le_0_compat; lra. Qed.
Lemma l2_nonneg : forall l, 0 <= l2 l.
Proof. unfold l2. induction l as [|x l IH]; cbn; [lra|]. unfold total in IH. pose proof (sq_nonneg x). lra. Qed.
Lemma l1_zero : forall l, l1 l == 0 <-> Forall (fun x => x == 0) l.
Proof.
  induction l as [|x l IH].
  - split; [constructor|reflexivity].
  - unfold l1 in *. cbn [map total fold_right]. fold (total (map Qabs l)). pose proof (Qabs_nonneg x) as P. pose proof (l1_nonneg l) as N. unfold l1 in N. split.
    + intros H. constructor; [|apply IH; lra]. pose proof (Qle_Qabs x). pose proof (Qle_Qabs (- x)) as G. rewrite Qabs_opp in G. lra.
    + intros H. inversion H as [|? ? H1 H2]. subst. apply IH in H2. rewrite H2, H1. reflexivity.
Qed.
Lemma sq_zero : forall x : Q, x * x == 0 -> x == 0.
Proof. intros x H. apply Qmult_integral in H. tauto. Qed.
Lemma l2_zero : forall l, l2 l == 0 <-> Forall (fun x => x == 0) l.
Proof.
  induction l as [|x l IH].
  - split; [constructor|reflexivity].
  - unfold l2 in *. cbn [map total fold_right]. fold (total (map (fun d => d * d) l)). pose proof (sq_nonneg x) as P. pose proof (l2_nonneg l) as N. unfold l2 in N. split.
    + intros H. constructor; [|apply IH; lra]. apply sq_zero. lra.
    + intros H. inversion H as [|? ? H1 H2]. subst. apply IH in H2. rewrite H2, H1. reflexivity.
Qed.
(** all the coefficients different from 0 *)
Lemma scaled_zero : forall sc a b, length sc = length a -> length sc = length b -> (forall c, In c sc -> ~ fst c == 0) ->
  (Forall (fun x => x == 0) (scaled_differences sc a b) <-> same a b).
Proof.
  unfold scaled_differences, differences, same. induction sc as [|[c m] sc IH]; intros [|x a] [|y b] La Lb Nz; try discriminate.
  - split; constructor.
  - cbn [combine map fst snd]. assert (I : forall c, In c sc -> ~ fst c == 0) by (intros; apply Nz; right; assumption). specialize (IH a b ltac:(cbn in *; congruence) ltac:(cbn in *; congruence) I).
    specialize (Nz (c, m) (or_introl eq_refl)). cbn in Nz. split; intros H; inversion H; subst.
    + constructor; [|apply IH; assumption]. assert (Z : c * (x - y) == 0) by assumption. apply Qmult_integral in Z. destruct Z; [contradiction|lra].
    + constructor; [|apply IH; assumption]. assert (Z : x == y) by assumption. rewrite Z. ring.
Qed.
Lemma scaled_same_zero : forall sc a b, length sc = length a -> length sc = length b -> same a b -> Forall (fun x => x == 0) (scaled_differences sc a b).
Proof.
  unfold scaled_differences, differences, same. induction sc as [|[c m] sc IH]; intros [|x a] [|y b] La Lb H; try discriminate; [constructor|].
  cbn [combine map fst snd]. inversion H; subst. constructor; [|apply IH; cbn in *; congruence]. assert (Z : x == y) by assumption. rewrite Z. ring.
Qed.
(** sums of two lists of differences *)
Fixpoint sums (u v : list Q) : list Q := match u, v with x :: u, y :: v => (x + y) :: sums u v | _, _ => [] end.
Fixpoint dot (u v : list Q) : Q := match u, v with x :: u, y :: v => x * y + dot u v | _, _ => 0 end.
Lemma chain : forall sc a b c, length sc = length a -> length sc = length b -> length sc = length c ->
  Forall2 Qeq (scaled_differences sc a c) (sums (scaled_differences sc a b) (scaled_differences sc b c)).
Proof.
  unfold scaled_differences, differences. induction sc as [|[k m] sc IH]; intros [|x a] [|y b] [|z c] La Lb Lc; try discriminate; [constructor|].
  cbn [combine map fst snd sums]. constructor; [ring|]. apply IH; cbn in *; congruence.
Qed.
Lemma back : forall sc a b, length sc = length a -> length sc = length b -> Forall2 Qeq (scaled_differences sc b a) (map Qopp (scaled_differences sc a b)).
Proof.
  unfold scaled_differences, differences. induction sc as [|[k m] sc IH]; intros [|x a] [|y b] La Lb; try discriminate; [constructor|].
  cbn [combine map fst snd]. constructor; [ring|]. apply IH; cbn in *; congruence.
Qed.
Lemma l1_opp : forall l, l1 (map Qopp l) == l1 l.
Proof. unfold l1, total. induction l as [|x l IH]; cbn [map fold_right]; [reflexivity|]. rewrite IH, Qabs_opp. reflexivity. Qed.
Lemma l2_opp : forall l, l2 (map Qopp l) == l2 l.
Proof. unfold l2, total. induction l as [|x l IH]; cbn [map fold_right]; [reflexivity|]. rewrite IH. ring. Qed.
Lemma l1_sums : forall u v, length u = length v -> l1 (sums u v) <= l1 u + l1 v.
Proof.
  unfold l1. induction u as [|x u IH]; intros [|y v] L; try discriminate; cbn [sums map total fold_right].
  specialize (IH v ltac:(cbn in L; congruence)). unfold total in IH. pose proof (Qabs_triangle x y). lra.
Qed.
Lemma l2_sums : forall u v, length u = length v -> l2 (sums u v) == l2 u + l2 v + 2 * dot u v.
Proof.
  unfold l2. induction u as [|x u IH]; intros [|y v] L; try discriminate; cbn [sums map total fold_right dot]; [ring|].
  specialize (IH v ltac:(cbn in L; congruence)). unfold total in IH. rewrite IH. ring.
Qed.
(** Cauchy and Schwarz *)
Lemma pencil : forall u v t s, length u = length v -> 0 <= t * t * l2 u + 2 * (t * s) * dot u v + s * s * l2 v.
Proof.
  unfold l2. induction u as [|x u IH]; intros [|y v] t s L; try discriminate L; cbn [map total fold_right dot]; [lra|].
  specialize (IH v t s ltac:(cbn in L; congruence)). unfold total in IH. pose proof (sq_nonneg (t * x + s * y)) as P.
  setoid_replace ((t * x + s * y) * (t * x + s * y)) with (t * t * (x * x) + 2 * (t * s) * (x * y) + s * s * (y * y)) in P by ring.
  rewrite !Qmult_plus_distr_r. lra.
Qed.
Lemma dot_zero : forall u v, length u = length v -> l2 u == 0 -> dot u v == 0.
Proof.
  intros u v L Z. apply l2_zero in Z. revert v L. induction Z as [|x u Hx Z IH]; intros [|y v] L; try discriminate; [reflexivity|]. cbn [dot].
  rewrite Hx, IH by (cbn in L; congruence). ring.
Qed.
Lemma cauchy : forall u v, length u = length v -> dot u v * dot u v <= l2 u * l2 v.
Proof.
  intros u v L. destruct (Qlt_le_dec 0 (l2 u)) as [P|P].
  - pose proof (pencil u v (dot u v) (- l2 u) L) as H. set (A := l2 u) in *. set (B := l2 v) in *. set (D := dot u v) in *.
    assert (K : 0 <= A * (A * B - D * D)) by (setoid_replace (A * (A * B - D * D)) with (D * D * A + 2 * (D * - A) * D + - A * - A * B) by ring; exact H).
    destruct (Qlt_le_dec (A * B) (D * D)) as [C|C]; [|exact C]. assert (0 < A * (D * D - A * B)) by (apply Qmult_lt_0_compat; lra).
    setoid_replace (A * (D * D - A * B)) with (- (A * (A * B - D * D))) in H0 by ring. lra.
  - pose proof (l2_nonneg u). assert (Z : l2 u == 0) by lra. rewrite (dot_zero u v L Z), Z. lra.
Qed.
Lemma sd_length : forall sc a b, length sc = length a -> length sc = length b -> length (scaled_differences sc a b) = length sc.
Proof. intros. unfold scaled_differences, differences. rewrite map_length, combine_length, map_length, combine_length. lia. Qed.
