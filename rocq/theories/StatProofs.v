(** Proofs about the statistics: sums, basic, the partial autocorrelations. *)
From Coq Require Import Bool QArith Arith Lia Lqa Permutation Sorted.
From Verif Require Import Lib Outcome OrderSpec OrderLemmas BoundsModel BoundsProofs EvalModel EvalProofs DivProofs NeighModel LsModel StatModel StatSpec.
From Coq Require Import List.
Import ListNotations.
Close Scope Q_scope.
Open Scope nat_scope.

Lemma total_app a b : (total (a ++ b) == total a + total b)%Q.
Proof. induction a as [|x a IH]; cbn [total app]; [ring|]. rewrite IH. ring. Qed.
Lemma total_perm a b : Permutation a b -> (total a == total b)%Q.
Proof. induction 1; cbn [total]; try lra. Qed.
Lemma total_ext {A} (f g : A -> Q) l : (forall x, In x l -> f x == g x)%Q -> (total (map f l) == total (map g l))%Q.
Proof. induction l as [|x l IH]; intros H; cbn [total map]; [reflexivity|]. rewrite (H x), IH; [reflexivity|intros; apply H; right; auto|left; auto]. Qed.
Lemma total_lin {A} (f g : A -> Q) l : (total (map (fun x => f x + g x) l) == total (map f l) + total (map g l))%Q.
Proof. induction l as [|x l IH]; cbn [total map]; [ring|]. rewrite IH. ring. Qed.
Lemma total_scale {A} c (f : A -> Q) l : (total (map (fun x => c * f x) l) == c * total (map f l))%Q.
Proof. induction l as [|x l IH]; cbn [total map]; [ring|]. rewrite IH. ring. Qed.
Lemma total_const {A} c (l : list A) : (total (map (fun _ => c) l) == c * inject_Z (Z.of_nat (length l)))%Q.
Proof.
  induction l as [|x l IH]; cbn [total map length]; [ring|]. rewrite IH, Nat2Z.inj_succ, <- Z.add_1_r, inject_Z_plus. ring.
Qed.
Lemma total_nonneg l : Forall (Qle 0) l -> (0 <= total l)%Q.
Proof. induction 1; cbn [total]; [lra|]. lra. Qed.

Lemma size_pos l : l <> [] -> (0 < size l)%Q.
Proof. intros H. unfold size. destruct l; [congruence|]. change 0%Q with (inject_Z 0). rewrite <- Zlt_Qlt. cbn [length]. lia. Qed.

(** the usual formula of the covariance *)
Lemma covariance_alt l r : l <> [] -> length l = length r ->
  (covariance l r == total (map (fun p => fst p * snd p) (combine l r)) / size l - average l * average r)%Q.
Proof.
  intros Hl L. pose proof (size_pos l Hl) as P. unfold covariance.
  assert (E : (total (map (fun p => (fst p - average l) * (snd p - average r))%Q (combine l r)) ==
    total (map (fun p => fst p * snd p)%Q (combine l r)) - average l * average r * size l)%Q).
  { rewrite (total_ext _ (fun p => (fst p * snd p + (- average l * snd p)) + (- average r * fst p + average l * average r))%Q) by (intros; ring).
    rewrite !total_lin. rewrite (total_scale (- average l)%Q (@snd Q Q)), (total_scale (- average r)%Q (@fst Q Q)), total_const.
    assert (F1 : map fst (combine l r) = l) by (clear -L; revert r L; induction l as [|x l IH]; intros [|y r] L; cbn in *; try discriminate; auto; f_equal; auto).
    assert (F2 : map snd (combine l r) = r) by (clear -L; revert r L; induction l as [|x l IH]; intros [|y r] L; cbn in *; try discriminate; auto; f_equal; auto).
    rewrite F1, F2. rewrite combine_length, <- L, Nat.min_id. change (inject_Z (Z.of_nat (length l))) with (size l).
    assert (A1 : (total l == average l * size l)%Q) by (unfold average; field; lra).
    assert (A2 : (total r == average r * size l)%Q) by (unfold average, size; rewrite <- L; fold (size l); field; lra).
    rewrite A1, A2. ring. }
  rewrite E. field. lra.
Qed.
Lemma combine_self {A} (l : list A) : combine l l = map (fun x => (x, x)) l.
Proof. induction l; cbn; f_equal; auto. Qed.
Lemma variance_alt l : l <> [] -> (variance l == total (map (fun x => x * x) l) / size l - average l * average l)%Q.
Proof.
  intros H. pose proof (covariance_alt l l H eq_refl) as E. unfold covariance in E. rewrite combine_self, !map_map in E. cbn [fst snd] in E. exact E.
Qed.
Lemma variance_nonneg l : (0 <= variance l)%Q.
Proof.
  destruct l as [|x l]; [vm_compute; discriminate|]. pose proof (size_pos (x :: l) ltac:(discriminate)) as P. unfold variance.
  apply Qle_shift_div_l; [exact P|]. rewrite Qmult_0_l. apply total_nonneg, Forall_map, Forall_forall. intros y _. generalize (y - average (x :: l))%Q. intros q. unfold Qle. cbn. rewrite Z.mul_1_r. apply Z.square_nonneg.
Qed.
Lemma average_ext l r : length l = length r -> (total l == total r)%Q -> (average l == average r)%Q.
Proof. intros L E. unfold average, size. rewrite L, E. reflexivity. Qed.

(** ** basic *)
Definition basic_step (acc : Q * Q * Q * Q) (d : Q) : Q * Q * Q * Q :=
  let '(mn, mx, avg, std) := acc in (if qltb d mn then d else mn, if qltb mx d then d else mx, avg + d, std + d * d)%Q.
Lemma basic_fold : forall l seen mn mx a v, In mn seen -> In mx seen -> (forall x, In x seen -> mn <= x /\ x <= mx)%Q -> (a == total seen)%Q ->
  (v == total (map (fun x => x * x) seen))%Q ->
  exists mn' mx' a' v', fold_left basic_step l (mn, mx, a, v) = (mn', mx', a', v') /\ In mn' (seen ++ l) /\ In mx' (seen ++ l) /\
  (forall x, In x (seen ++ l) -> mn' <= x /\ x <= mx')%Q /\ (a' == total (seen ++ l))%Q /\ (v' == total (map (fun x => x * x) (seen ++ l)))%Q.
Proof.
  induction l as [|d l IH]; intros seen mn mx a v H1 H2 H3 H4 H5; cbn [fold_left].
  - do 4 eexists. rewrite app_nil_r. split; [reflexivity|]. auto.
  - replace (seen ++ d :: l) with ((seen ++ [d]) ++ l) by (rewrite <- app_assoc; auto). unfold basic_step at 2. apply IH.
    + destruct (qltb d mn); apply in_or_app; cbn; auto.
    + destruct (qltb mx d); apply in_or_app; cbn; auto.
    + intros x J. destruct (qltb d mn) eqn:E1; [apply qltb_lt in E1|apply qltb_ge in E1]; (destruct (qltb mx d) eqn:E2; [apply qltb_lt in E2|apply qltb_ge in E2]);
        apply in_app_or in J as [J|[<-|[]]]; pose proof (H3 mn H1); try (specialize (H3 x J)); lra.
    + rewrite total_app. cbn [total]. rewrite H4. ring.
    + rewrite map_app, total_app. cbn [total map]. rewrite H5. ring.
Qed.
Lemma basic_ok sqrt (data : list Q) : (forall x y, x == y -> sqrt x == sqrt y)%Q -> data <> [] ->
  exists mn mx avg sd, basic sqrt data = (mn, mx, avg, sd) /\ In mn data /\ In mx data /\ (forall x, In x data -> mn <= x /\ x <= mx)%Q /\
  (avg == average data)%Q /\ (sd == if qltb 0 (variance data) then sqrt (variance data) else 0)%Q.
Proof.
  intros Hs H. destruct data as [|d0 l]; [congruence|]. unfold basic.
  change (fold_left _ (d0 :: l) _) with (fold_left basic_step (d0 :: l) (d0, d0, 0%Q, 0%Q)).
  assert (B : exists mn mx a v, fold_left basic_step (d0 :: l) (d0, d0, 0%Q, 0%Q) = (mn, mx, a, v) /\ In mn (d0 :: l) /\ In mx (d0 :: l) /\
    (forall x, In x (d0 :: l) -> mn <= x /\ x <= mx)%Q /\ (a == total (d0 :: l))%Q /\ (v == total (map (fun x => x * x) (d0 :: l)))%Q).
  { cbn [fold_left]. unfold basic_step at 2. assert (E : qltb d0 d0 = false) by (apply qltb_ge; lra). rewrite E.
    apply (basic_fold l [d0] d0 d0); cbn; auto; try (intros x [<-|[]]; lra); try ring. }
  destruct B as (mn & mx & a & v & -> & H1 & H2 & H3 & H4 & H5). do 4 eexists. split; [reflexivity|]. split; [auto|]. split; [auto|]. split; [auto|].
  change (qnat (length (d0 :: l))) with (size (d0 :: l)). split; [unfold average; rewrite H4; reflexivity|].
  assert (E : (v / size (d0 :: l) - a / size (d0 :: l) * (a / size (d0 :: l)) == variance (d0 :: l))%Q).
  { rewrite variance_alt by discriminate. unfold average. rewrite H4, H5. reflexivity. }
  pose proof (variance_nonneg (d0 :: l)) as P. set (w := (_ - _)%Q) in *. destruct (qltb 0 w) eqn:E1, (qltb 0 (variance (d0 :: l))) eqn:E2; rewrite ?qltb_lt, ?qltb_ge in *.
  - apply Hs, E.
  - lra.
  - lra.
  - lra.
Qed.
