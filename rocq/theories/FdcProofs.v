(** Proofs about distances and the fitness distance correlation. *)
From Coq Require Import List Arith Bool Lia Reals Lra.
From Verif Require Import Lib Outcome PopModel FitModel FdcModel FdcSpec.
From Coq Require Import List.
Import ListNotations.
Open Scope nat_scope.

(** ** sums *)
Lemma total_app a b : total (a ++ b) = (total a + total b)%R.
Proof. unfold total. induction a as [|x a IH]; cbn [app fold_right]; [ring|]. rewrite IH. ring. Qed.
Lemma total_plus {T} (f g : T -> R) l : total (map (fun x => f x + g x)%R l) = (total (map f l) + total (map g l))%R.
Proof. unfold total. induction l as [|x l IH]; cbn [map fold_right]; [ring|]. rewrite IH. ring. Qed.
Lemma total_scale {T} k (f : T -> R) l : total (map (fun x => k * f x)%R l) = (k * total (map f l))%R.
Proof. unfold total. induction l as [|x l IH]; cbn [map fold_right]; [ring|]. rewrite IH. ring. Qed.
Lemma total_ext {T} (f g : T -> R) l : (forall x, In x l -> f x = g x) -> total (map f l) = total (map g l).
Proof. intros H. rewrite (map_ext_in f g l H). reflexivity. Qed.
Lemma total_nonneg {T} (f : T -> R) l : (forall x, In x l -> 0 <= f x)%R -> (0 <= total (map f l))%R.
Proof. induction l as [|x l IH]; intros H; cbn; [lra|]. fold (total (map f l)). assert (0 <= f x)%R by (apply H; cbn; auto). assert (0 <= total (map f l))%R by (apply IH; intros; apply H; cbn; auto). lra. Qed.
Lemma total_zero {T} (f : T -> R) l : (forall x, In x l -> 0 <= f x)%R -> total (map f l) = 0%R -> forall x, In x l -> f x = 0%R.
Proof.
  induction l as [|y l IH]; intros H E x Hx; [destruct Hx|]. cbn in E. fold (total (map f l)) in E. assert (0 <= f y)%R by (apply H; cbn; auto). assert (0 <= total (map f l))%R by (apply total_nonneg; intros; apply H; cbn; auto).
  destruct Hx as [<-|Hx]; [lra|]. apply IH; auto; [intros; apply H; cbn; auto|lra].
Qed.
Lemma total_le {T} (f g : T -> R) l : (forall x, In x l -> f x <= g x)%R -> (total (map f l) <= total (map g l))%R.
Proof. induction l as [|y l IH]; intros H; cbn; [lra|]. fold (total (map f l)) (total (map g l)). assert (f y <= g y)%R by (apply H; cbn; auto). assert (total (map f l) <= total (map g l))%R by (apply IH; intros; apply H; cbn; auto). lra. Qed.

(** ** Cauchy-Schwarz on a list of pairs *)
Definition sxx (l : list (R * R)) : R := total (map (fun p => fst p * fst p)%R l).
Definition sxy (l : list (R * R)) : R := total (map (fun p => fst p * snd p)%R l).
Definition syy (l : list (R * R)) : R := total (map (fun p => snd p * snd p)%R l).
Lemma square_of_sum a b l : total (map (fun p => (a * fst p + b * snd p) * (a * fst p + b * snd p))%R l) = (a * a * sxx l + 2 * a * b * sxy l + b * b * syy l)%R.
Proof. unfold sxx, sxy, syy, total. induction l as [|p l IH]; cbn [map fold_right]; [ring|]. rewrite IH. ring. Qed.
Lemma sxx_nonneg l : (0 <= sxx l)%R.
Proof. apply total_nonneg. intros p _. apply Rle_0_sqr. Qed.
Lemma syy_nonneg l : (0 <= syy l)%R.
Proof. apply total_nonneg. intros p _. apply Rle_0_sqr. Qed.
Lemma sxx_zero l : sxx l = 0%R -> forall p, In p l -> fst p = 0%R.
Proof. intros H p Hp. pose proof (total_zero (fun p => fst p * fst p)%R l (fun q _ => Rle_0_sqr (fst q)) H p Hp) as E. cbn in E. apply Rmult_integral in E. tauto. Qed.
Lemma syy_zero l : syy l = 0%R -> forall p, In p l -> snd p = 0%R.
Proof. intros H p Hp. pose proof (total_zero (fun p => snd p * snd p)%R l (fun q _ => Rle_0_sqr (snd q)) H p Hp) as E. cbn in E. apply Rmult_integral in E. tauto. Qed.
Lemma all_zero {T} (f : T -> R) l : (forall x, In x l -> f x = 0%R) -> total (map f l) = 0%R.
Proof. induction l as [|y l IH]; intros H; cbn; auto. fold (total (map f l)). rewrite (H y), IH; [ring|intros; apply H; cbn; auto|cbn; auto]. Qed.
Lemma cauchy l : (sxy l * sxy l <= sxx l * syy l)%R.
Proof.
  destruct (Req_EM_T (sxx l) 0) as [E|E].
  - pose proof (sxx_zero l E) as Z. assert (sxy l = 0%R) as -> by (apply all_zero; intros p Hp; rewrite (Z p Hp); ring). rewrite E. lra.
  - assert (0 < sxx l)%R by (pose proof (sxx_nonneg l); lra).
    assert (0 <= sxx l * (sxx l * syy l - sxy l * sxy l))%R.
    { replace (sxx l * (sxx l * syy l - sxy l * sxy l))%R with ((- sxy l) * (- sxy l) * sxx l + 2 * (- sxy l) * (sxx l) * sxy l + sxx l * sxx l * syy l)%R by ring. rewrite <- square_of_sum. apply total_nonneg. intros p _. apply Rle_0_sqr. }
    apply Rmult_le_reg_l with (r := sxx l); auto. lra.
Qed.
Lemma cauchy_eq l : (sxy l * sxy l = sxx l * syy l)%R -> forall p, In p l -> (sxx l * snd p = sxy l * fst p)%R.
Proof.
  intros E p Hp. assert (T : total (map (fun p => ((- sxy l) * fst p + sxx l * snd p) * ((- sxy l) * fst p + sxx l * snd p))%R l) = 0%R).
  { rewrite square_of_sum. replace (- sxy l * - sxy l * sxx l + 2 * - sxy l * sxx l * sxy l + sxx l * sxx l * syy l)%R with (sxx l * (sxx l * syy l - sxy l * sxy l))%R by ring. rewrite E. ring. }
  pose proof (total_zero _ l (fun q _ => Rle_0_sqr _) T p Hp) as Z. cbn in Z. apply Rmult_integral in Z. destruct Z; lra.
Qed.
Lemma cauchy_sqrt l : (Rabs (sxy l) <= sqrt (sxx l) * sqrt (syy l))%R.
Proof. rewrite <- sqrt_mult by (apply sxx_nonneg || apply syy_nonneg). rewrite <- sqrt_Rsqr_abs. apply sqrt_le_1_alt. apply cauchy. Qed.

(** ** the loops of the distances *)
Section Dist.
Variable T : Type.
Variable term : T -> T -> R.
Definition dsum (a b : list T) : R := total (map (fun p => term (fst p) (snd p)) (combine a b)).
Lemma dist_loop_shift x y a b : forall is acc, dist_loop term (x :: a) (y :: b) (map S is) acc = dist_loop term a b is acc.
Proof. induction is as [|i is IH]; intros acc; cbn [map dist_loop nth_error]; auto. destruct (nth_error a i); cbn; auto. destruct (nth_error b i); cbn; auto. Qed.
Lemma dist_loop_ok : forall a b acc, length a <= length b -> dist_loop term a b (seq 0 (length a)) acc = Ok (acc + dsum a b)%R.
Proof.
  induction a as [|x a IH]; intros [|y b] acc H; cbn in H; try lia; [cbn; f_equal; unfold dsum, total; cbn; ring|cbn; f_equal; unfold dsum, total; cbn; ring|].
  cbn [length seq]. rewrite <- seq_shift. cbn [dist_loop nth_error of_opt rbind]. rewrite dist_loop_shift, IH by lia. f_equal. unfold dsum, total. cbn [combine map fold_right fst snd]. ring.
Qed.
Lemma dist_loop_short : forall a b acc, length b < length a -> dist_loop term a b (seq 0 (length a)) acc = UB.
Proof.
  induction a as [|x a IH]; intros [|y b] acc H; cbn in H; try lia; [reflexivity|].
  cbn [length seq]. rewrite <- seq_shift. cbn [dist_loop nth_error of_opt rbind]. rewrite dist_loop_shift. apply IH. lia.
Qed.
Lemma dsum_metric n : metric (fun _ : T => True) term -> metric (fun v : list T => length v = n) dsum.
Proof.
  intros (Pos & Id & Sym & Tri). assert (Pos' : forall a b, (0 <= dsum a b)%R) by (intros a b; apply total_nonneg; intros; apply Pos; exact Logic.I).
  split; [intros; apply Pos'|]. split; [|split].
  - intros a b Ha Hb. subst n. symmetry in Hb. revert b Hb. induction a as [|x a IH]; intros [|y b] H; try discriminate; [unfold dsum, total; cbn; tauto|].
    injection H as H. unfold dsum. cbn [combine map fst snd total fold_right]. fold (total (map (fun p => term (fst p) (snd p)) (combine a b))). fold (dsum a b). specialize (IH b H). pose proof (Pos' a b). assert (0 <= term x y)%R by (apply Pos; exact Logic.I). split.
    + intros E. f_equal; [apply (Id x y Logic.I Logic.I); lra|apply IH; lra].
    + intros E. injection E as <- <-. rewrite (proj2 IH eq_refl). rewrite (proj2 (Id x x Logic.I Logic.I) eq_refl). ring.
  - intros a b _ _. revert b. induction a as [|x a IH]; intros [|y b]; auto. unfold dsum in *. cbn [combine map fst snd total fold_right]. fold (total (map (fun p => term (fst p) (snd p)) (combine a b))). fold (total (map (fun p => term (fst p) (snd p)) (combine b a))). rewrite IH, (Sym x y); auto.
  - intros a b c Ha Hb Hc. subst n. revert b c Hb Hc. induction a as [|x a IH]; intros [|y b] [|z c] Hb Hc; try discriminate; [unfold dsum, total; cbn; lra|]. injection Hb as Hb. injection Hc as Hc. specialize (IH b c Hb Hc).
    unfold dsum in *. cbn [combine map fst snd total fold_right]. unfold total in *. pose proof (Tri x y z Logic.I Logic.I Logic.I). lra.
Qed.
End Dist.
Lemma abs_metric : metric (fun _ : R => True) (fun a b => Rabs (a - b)).
Proof.
  split; [intros; apply Rabs_pos|]. split; [|split].
  - intros a b _ _. split; [|intros ->; rewrite Rminus_diag_eq; auto; apply Rabs_R0]. intros E. destruct (Req_dec (a - b) 0); [lra|]. apply Rabs_no_R0 in H. congruence.
  - intros. apply Rabs_minus_sym.
  - intros a b c _ _ _. replace (a - c)%R with ((a - b) + (b - c))%R by ring. apply Rabs_triang.
Qed.
Lemma eqb_metric {T} (eqb : T -> T -> bool) : (forall a b, eqb a b = true <-> a = b) -> metric (fun _ : T => True) (fun a b => if eqb a b then 0%R else 1%R).
Proof.
  intros H. assert (Rf : forall a, eqb a a = true) by (intros; apply H; auto). split; [intros a b _ _; destruct (eqb a b); lra|]. split; [|split].
  - intros a b _ _. rewrite <- H. destruct (eqb a b); split; auto; try lra.
  - intros a b _ _. destruct (eqb a b) eqn:E1, (eqb b a) eqn:E2; auto; [apply H in E1; subst; congruence|apply H in E2; subst; congruence].
  - intros a b c _ _ _. destruct (eqb a c) eqn:E1; [destruct (eqb a b), (eqb b c); lra|]. destruct (eqb a b) eqn:E2; [|destruct (eqb b c); lra]. apply H in E2. subst. rewrite E1. lra.
Qed.
Lemma hamming_count {T} (eqb : T -> T -> bool) a b : dsum T (fun a b => if eqb a b then 0%R else 1%R) a b = INR (differences eqb a b).
Proof.
  unfold dsum, differences. induction (combine a b) as [|[x y] l IH]; [reflexivity|]. cbn [map filter fst snd total fold_right]. fold (total (map (fun p : T * T => if eqb (fst p) (snd p) then 0%R else 1%R) l)). rewrite IH. destruct (eqb x y); cbn [negb length]; [ring|]. rewrite S_INR. ring.
Qed.
(** the Euclidean distance *)
Definition euclid (a b : list R) : R := sqrt (dsum R (fun a b => ((a - b) * (a - b))%R) a b).
Lemma euclid_metric n : metric (fun v : list R => length v = n) euclid.
Proof.
  assert (Sq : forall a b : list R, (0 <= dsum R (fun a b => ((a - b) * (a - b))%R) a b)%R) by (intros a b; apply total_nonneg; intros; apply Rle_0_sqr).
  split; [intros; apply sqrt_pos|]. split; [|split].
  - intros a b Ha Hb. unfold euclid. split.
    + intros E. apply sqrt_eq_0 in E; auto. subst n. symmetry in Hb. revert b Hb E. induction a as [|x a IH]; intros [|y b] H E; try discriminate; auto. injection H as H.
      unfold dsum in E. cbn [combine map fst snd total fold_right] in E. fold (total (map (fun p => ((fst p - snd p) * (fst p - snd p))%R) (combine a b))) in E. fold (dsum R (fun a b => ((a - b) * (a - b))%R) a b) in E. pose proof (Sq a b). pose proof (Rle_0_sqr (x - y)) as P. unfold Rsqr in P.
      assert (E1 : ((x - y) * (x - y) = 0)%R) by lra. apply Rmult_integral in E1. f_equal; [destruct E1; lra|]. apply IH; auto. lra.
    + intros ->. replace (dsum R _ b b) with 0%R; [apply sqrt_0|]. symmetry. apply all_zero. intros [x y] Hp. cbn. assert (x = y) as ->; [|ring]. clear -Hp. induction b as [|z b IH]; [destruct Hp|]. destruct Hp as [E|Hp]; [injection E as <- <-; auto|auto].
  - intros a b _ _. unfold euclid. f_equal. unfold dsum. revert b. induction a as [|x a IH]; intros [|y b]; auto. cbn [combine map fst snd total fold_right]. unfold total in *. rewrite IH. ring.
  - intros a b c Ha Hb Hc. unfold euclid. subst n.
    set (l := combine (map (fun p => fst p - snd p)%R (combine a b)) (map (fun p => fst p - snd p)%R (combine b c))).
    assert (E : dsum R (fun a b => ((a - b) * (a - b))%R) a b = sxx l /\ dsum R (fun a b => ((a - b) * (a - b))%R) b c = syy l /\ dsum R (fun a b => ((a - b) * (a - b))%R) a c = (sxx l + 2 * sxy l + syy l)%R).
    { subst l. clear Sq. revert b c Hb Hc. induction a as [|x a IH]; intros [|y b] [|z c] Hb Hc; try discriminate; [unfold dsum, sxx, sxy, syy, total; cbn; repeat split; ring|]. injection Hb as Hb. injection Hc as Hc. destruct (IH b c Hb Hc) as (E1 & E2 & E3).
      unfold dsum, sxx, sxy, syy, total in *. cbn [combine map fst snd fold_right]. rewrite E1, E2, E3. repeat split; ring. }
    destruct E as (-> & -> & ->). pose proof (sxx_nonneg l) as X1. pose proof (syy_nonneg l) as Y1. pose proof (sqrt_pos (sxx l)) as X2. pose proof (sqrt_pos (syy l)) as Y2. pose proof (cauchy_sqrt l) as C. pose proof (Rle_abs (sxy l)) as A1.
    rewrite <- (sqrt_Rsqr (sqrt (sxx l) + sqrt (syy l))) by lra. apply sqrt_le_1_alt. unfold Rsqr. pose proof (sqrt_sqrt (sxx l) X1) as X3. pose proof (sqrt_sqrt (syy l) Y1) as Y3.
    replace ((sqrt (sxx l) + sqrt (syy l)) * (sqrt (sxx l) + sqrt (syy l)))%R with (sqrt (sxx l) * sqrt (sxx l) + 2 * (sqrt (sxx l) * sqrt (syy l)) + sqrt (syy l) * sqrt (syy l))%R by ring. lra.
Qed.

(** ** the correlation *)
Lemma scalar_pairs a b : length a = length b -> scalar a b = sxy (combine a b) /\ scalar a a = sxx (combine a b) /\ scalar b b = syy (combine a b).
Proof.
  revert b. induction a as [|x a IH]; intros [|y b] H; try discriminate; [auto|]. injection H as H. destruct (IH b H) as (E1 & E2 & E3). unfold scalar, sxy, sxx, syy, total in *. cbn [combine map fst snd fold_right]. rewrite E2, E3. auto.
Qed.
Lemma centred_length a : length (centred a) = length a.
Proof. apply map_length. Qed.
Lemma mean_in_constant a x : constant a -> In x a -> mean a = x.
Proof.
  intros C Hx. unfold mean. assert (T : total a = (INR (length a) * x)%R).
  { assert (forall y, In y a -> y = x) as K by (intros; apply C; auto). clear -K. induction a as [|y a IH]; [cbn; ring|]. cbn [total fold_right]. fold (total a). rewrite IH by (intros; apply K; cbn; auto). rewrite (K y) by (cbn; auto). cbn [length]. rewrite S_INR. ring. }
  rewrite T. field. apply not_0_INR. destruct a; [destruct Hx|discriminate].
Qed.
Lemma spread_positive a : scalar (centred a) (centred a) = 0%R <-> constant a.
Proof.
  destruct (scalar_pairs (centred a) (centred a) eq_refl) as (_ & E & _). rewrite E. split.
  - intros Z. assert (K : forall x, In x a -> x = mean a).
    { intros x Hx. assert (Hp : In ((x - mean a)%R, (x - mean a)%R) (combine (centred a) (centred a))). { unfold centred. clear -Hx. generalize (mean a) as k. intros k. induction a as [|y a IH]; [destruct Hx|]. cbn. destruct Hx as [<-|Hx]; auto. }
      pose proof (sxx_zero _ Z _ Hp). cbn in *. lra. }
    intros x y Hx Hy. rewrite (K x Hx), (K y Hy). reflexivity.
  - intros C. apply all_zero. intros [u v] Hp. apply in_combine_l in Hp. unfold centred in Hp. apply in_map_iff in Hp as (x & Ex & Hx). cbn. rewrite (mean_in_constant a x C Hx) in Ex. replace (x - x)%R with 0%R in Ex by ring. rewrite <- Ex. ring.
Qed.
Lemma spread_nonneg a : (0 <= scalar (centred a) (centred a))%R.
Proof. destruct (scalar_pairs (centred a) (centred a) eq_refl) as (_ & -> & _). apply sxx_nonneg. Qed.
Lemma spread_pos a : ~ constant a -> (0 < scalar (centred a) (centred a))%R.
Proof. intros N. pose proof (spread_nonneg a). destruct (Req_dec (scalar (centred a) (centred a)) 0) as [E|E]; [apply spread_positive in E; contradiction|lra]. Qed.
Lemma pearson_range a b : length a = length b -> ~ constant a -> ~ constant b -> (-1 <= pearson a b <= 1)%R.
Proof.
  intros L Na Nb. unfold pearson. apply spread_pos in Na. apply spread_pos in Nb. destruct (scalar_pairs (centred a) (centred b)) as (E1 & E2 & E3); [rewrite !centred_length; auto|]. rewrite E1. rewrite E2 in *. rewrite E3 in *. set (l := combine (centred a) (centred b)) in *.
  pose proof (cauchy_sqrt l) as C. assert (0 < sqrt (sxx l) * sqrt (syy l))%R as P by (apply Rmult_lt_0_compat; apply sqrt_lt_R0; auto).
  assert (Rabs (sxy l / (sqrt (sxx l) * sqrt (syy l))) <= 1)%R. { unfold Rdiv. rewrite Rabs_mult, (Rabs_right (/ _)) by (apply Rle_ge, Rlt_le, Rinv_0_lt_compat; auto). apply Rmult_le_reg_r with (r := (sqrt (sxx l) * sqrt (syy l))%R); auto. rewrite Rmult_assoc, Rinv_l by lra. lra. }
  apply Rabs_def2 in H || (unfold Rabs in H; destruct (Rcase_abs _) in H; lra).
Qed.
(** affine change of the second variable *)
Lemma mean_affine k c b : b <> [] -> mean (map (fun y => k * y + c)%R b) = (k * mean b + c)%R.
Proof.
  intros Hb. unfold mean. rewrite map_length. assert (T : total (map (fun y => k * y + c)%R b) = (k * total b + INR (length b) * c)%R). { clear Hb. induction b as [|y b IH]; [cbn; ring|]. cbn [map total fold_right]. unfold total in IH. rewrite IH. cbn [length]. rewrite S_INR. unfold total. ring. }
  rewrite T. field. apply not_0_INR. destruct b; [congruence|discriminate].
Qed.
Lemma centred_affine k c b : centred (map (fun y => k * y + c)%R b) = map (Rmult k) (centred b).
Proof. destruct b as [|y0 b0]; [reflexivity|]. unfold centred. rewrite mean_affine by discriminate. rewrite !map_map. apply map_ext. intros y. ring. Qed.
Lemma scalar_scale k a b : scalar a (map (Rmult k) b) = (k * scalar a b)%R.
Proof. unfold scalar. revert b. induction a as [|x a IH]; intros [|y b]; cbn [map combine]; try (cbn; ring). cbn [total fold_right fst snd]. unfold total in IH. rewrite IH. unfold total. ring. Qed.
Lemma scalar_scale2 k a : scalar (map (Rmult k) a) (map (Rmult k) a) = (k * k * scalar a a)%R.
Proof. unfold scalar. induction a as [|x a IH]; cbn [map combine]; [cbn; ring|]. cbn [total fold_right fst snd]. unfold total in IH. rewrite IH. unfold total. ring. Qed.
Lemma sqrt_scale2 k v : (0 <= v)%R -> sqrt (k * k * v) = (Rabs k * sqrt v)%R.
Proof. intros H. rewrite sqrt_mult; [|apply Rle_0_sqr|auto]. f_equal. apply sqrt_Rsqr_abs. Qed.
Lemma pearson_affine k c a b : k <> 0%R -> ~ constant a -> ~ constant b -> pearson a (map (fun y => k * y + c)%R b) = (k / Rabs k * pearson a b)%R.
Proof.
  intros Hk Na Nb. unfold pearson. rewrite centred_affine, scalar_scale, scalar_scale2, sqrt_scale2 by apply spread_nonneg. apply spread_pos in Na. apply spread_pos in Nb. apply sqrt_lt_R0 in Na. apply sqrt_lt_R0 in Nb. field. repeat split; try lra. apply Rabs_no_R0. auto.
Qed.
(** the extreme values are exactly the affine relations *)
Lemma pearson_one a b : length a = length b -> ~ constant a -> ~ constant b -> pearson a b = 1%R <-> exists k c, (0 < k)%R /\ b = map (fun x => k * x + c)%R a.
Proof.
  intros L Na Nb. split.
  - intros E. pose proof (spread_pos a Na) as Pa. pose proof (spread_pos b Nb) as Pb. unfold pearson in E. destruct (scalar_pairs (centred a) (centred b)) as (E1 & E2 & E3); [rewrite !centred_length; auto|].
    rewrite E1, E2, E3 in E. rewrite E2 in Pa. rewrite E3 in Pb. set (l := combine (centred a) (centred b)) in *. pose proof (sqrt_lt_R0 _ Pa) as Qa. pose proof (sqrt_lt_R0 _ Pb) as Qb.
    assert (C : sxy l = (sqrt (sxx l) * sqrt (syy l))%R). { apply Rmult_eq_reg_r with (r := (/ (sqrt (sxx l) * sqrt (syy l)))%R). - fold (sxy l / (sqrt (sxx l) * sqrt (syy l)))%R. rewrite E. field. split; lra. - apply Rinv_neq_0_compat. apply Rmult_integral_contrapositive. split; lra. }
    assert (C2 : (sxy l * sxy l = sxx l * syy l)%R). { rewrite C. pose proof (sqrt_sqrt (sxx l)) as U1. pose proof (sqrt_sqrt (syy l)) as U2. replace (sqrt (sxx l) * sqrt (syy l) * (sqrt (sxx l) * sqrt (syy l)))%R with ((sqrt (sxx l) * sqrt (sxx l)) * (sqrt (syy l) * sqrt (syy l)))%R by ring. rewrite U1, U2 by lra. reflexivity. }
    pose proof (cauchy_eq l C2) as K. exists (sxy l / sxx l)%R, (mean b - sxy l / sxx l * mean a)%R. split; [apply Rdiv_lt_0_compat; auto; rewrite C; apply Rmult_lt_0_compat; auto|].
    assert (K' : forall x y, In (x, y) (combine a b) -> y = (sxy l / sxx l * x + (mean b - sxy l / sxx l * mean a))%R).
    { intros x y Hp. assert (Hl : In ((x - mean a)%R, (y - mean b)%R) l). { subst l. unfold centred. generalize (mean a) (mean b). intros u v. clear -Hp. revert b Hp. induction a as [|z a IH]; intros [|w b] Hp; try destruct Hp. - injection H as <- <-. cbn. auto. - cbn. auto. }
      specialize (K _ Hl). cbn in K. apply Rmult_eq_reg_l with (r := sxx l); [|lra]. replace (sxx l * (sxy l / sxx l * x + (mean b - sxy l / sxx l * mean a)))%R with (sxy l * (x - mean a) + sxx l * mean b)%R by (field; lra). lra. }
    revert K'. generalize (mean a) (mean b) (sxy l / sxx l)%R. intros u v k. clear -L. revert b L. induction a as [|x a IH]; intros [|y b] L K'; try discriminate; auto. cbn [map]. f_equal; [apply K'; cbn; auto|]. apply IH; auto. intros x' y' Hp. apply K'. cbn. auto.
  - intros (k & c & Hk & ->). rewrite pearson_affine; auto; [|lra].
    rewrite Rabs_right by lra. unfold pearson. pose proof (spread_pos a Na) as Pa. rewrite sqrt_sqrt by lra. field. split; lra.
Qed.

(** ** the loops of the correlation *)
Section Fdc.
Variable X : Type.
Variable fitness : X -> R.
Variable dist : X -> X -> res R.
Lemma first_loop_ok best (d : X -> R) : forall pop ds fs sd sf, (forall x, In x pop -> dist x best = Ok (d x)) ->
  first_loop X fitness dist best pop ds fs sd sf = Ok (ds ++ map d pop, fs ++ map fitness pop, (sd + total (map d pop))%R, (sf + total (map fitness pop))%R).
Proof.
  induction pop as [|x pop IH]; intros ds fs sd sf H; cbn [first_loop map].
  - rewrite !app_nil_r. cbn. rewrite !Rplus_0_r. reflexivity.
  - rewrite H by (cbn; auto). cbn [rbind]. rewrite IH by (intros; apply H; cbn; auto). rewrite <- !app_assoc. cbn [app total fold_right]. unfold total. rewrite !Rplus_assoc. reflexivity.
Qed.
Lemma second_loop_ok u v : forall l sd sf num, second_loop u v l sd sf num =
  ((sd + sxx (map (fun p => (fst p - u, snd p - v)%R) l))%R, (sf + syy (map (fun p => (fst p - u, snd p - v)%R) l))%R, (num + sxy (map (fun p => (fst p - u, snd p - v)%R) l))%R).
Proof.
  induction l as [|[d f] l IH]; intros sd sf num; cbn [second_loop map]; [unfold sxx, syy, sxy; cbn; rewrite !Rplus_0_r; reflexivity|].
  rewrite IH. unfold sxx, syy, sxy, total. cbn [map fold_right fst snd]. rewrite !Rplus_assoc. reflexivity.
Qed.
Lemma combine_centred a b : map (fun p => (fst p - mean a, snd p - mean b)%R) (combine a b) = combine (centred a) (centred b).
Proof. unfold centred. generalize (mean a) (mean b). intros u v. revert b. induction a as [|x a IH]; intros [|y b]; cbn; auto. f_equal. apply IH. Qed.
End Fdc.
