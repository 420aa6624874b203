(** The DTLZ evaluations *)
From Coq Require Import List Arith Bool Lia Reals Lra.
From Verif Require Import Lib Outcome DtlzModel DtlzSpec.
From Coq Require Import List.
Import ListNotations.
Open Scope nat_scope.

Definition prod (c : R -> R) (l : list R) : R := fold_right (fun v acc => (c v * acc)%R) 1%R l.
Lemma prod_app c l l' : prod c (l ++ l') = (prod c l * prod c l')%R.
Proof. unfold prod. induction l as [|v l IH]; cbn [app fold_right]; [ring|]. rewrite IH. ring. Qed.
Lemma some_nth {X} (l : list X) j : j < length l -> exists x, nth_error l j = Some x.
Proof. intros H. destruct (nth_error l j) eqn:E; eauto. apply nth_error_None in E. lia. Qed.
Lemma firstn_S_nth {X} (l : list X) n v : nth_error l n = Some v -> firstn (S n) l = firstn n l ++ [v].
Proof.
  revert n. induction l as [|x l IH]; intros [|n] H; try discriminate; cbn in H.
  - injection H as <-. reflexivity.
  - cbn [firstn app]. f_equal. apply IH. auto.
Qed.
Lemma reading_prod c a n : n <= length a -> forall acc, reading a (rev (seq 0 n)) (fun v acc => (acc * c v)%R) acc = Ok (acc * prod c (firstn n a))%R.
Proof.
  induction n as [|n IH]; intros L acc.
  - cbn. f_equal. ring.
  - rewrite seq_S, rev_app_distr. cbn [rev app Nat.add reading]. destruct (some_nth a n) as (v & E); [lia|]. rewrite E. cbn [of_opt rbind].
    rewrite IH by lia. f_equal. rewrite (firstn_S_nth a n v E), prod_app. cbn. ring.
Qed.
Lemma spread_length c s a : length (spread c s a) = S (length a).
Proof. induction a as [|v a IH]; cbn [spread length]; auto. rewrite map_length, IH. auto. Qed.
Lemma spread_nth c s a : forall j, j <= length a -> nth_error (spread c s a) j = Some (prod c (firstn j a) * match nth_error a j with Some v => s v | None => 1 end)%R.
Proof.
  induction a as [|v a IH]; intros [|j] J; cbn [spread length] in *; try lia.
  - cbn. f_equal. ring.
  - cbn. f_equal. ring.
  - cbn [nth_error firstn]. rewrite nth_error_map'. rewrite IH by lia. cbn [option_map prod fold_right]. f_equal. fold (prod c (firstn j a)). ring.
Qed.
Lemma for_objectives_ok f h is : (forall i, In i is -> f i = Ok (h i)) -> for_objectives f is = Ok (map h is).
Proof.
  induction is as [|i is IH]; intros H; cbn [for_objectives map]; auto. rewrite H by (left; auto). cbn [rbind]. rewrite IH; auto. intros; apply H; right; auto.
Qed.
Lemma nth_error_rev {X} (l : list X) i : i < length l -> nth_error (rev l) i = nth_error l (length l - 1 - i).
Proof.
  intros H. destruct l as [|d l0]; [cbn in H; lia|]. set (l := d :: l0) in *.
  rewrite (nth_error_nth' (rev l) d) by (rewrite rev_length; auto). rewrite rev_nth by auto.
  rewrite (nth_error_nth' l d) by lia. f_equal. f_equal. lia.
Qed.
Lemma shape_ok c s scale m a : 1 <= m -> m - 1 <= length a ->
  shape c s scale m a = Ok (map (Rmult scale) (rev (spread c s (position m a)))).
Proof.
  intros M L. unfold shape, position. set (h := firstn (m - 1) a).
  assert (Lh : length h = m - 1) by (unfold h; rewrite firstn_length; lia).
  rewrite (for_objectives_ok _ (fun i => scale * nth (m - i) (spread c s h) 0)%R).
  - f_equal. apply nth_error_ext. intros j. rewrite !nth_error_map'.
    destruct (le_lt_dec m j) as [J|J].
    + rewrite (proj2 (nth_error_None (seq 1 m) j)) by (rewrite seq_length; auto).
      rewrite (proj2 (nth_error_None (rev (spread c s h)) j)) by (rewrite rev_length, spread_length; lia). auto.
    + rewrite nth_error_seq' by auto. cbn [option_map]. rewrite nth_error_rev by (rewrite spread_length; lia). rewrite spread_length.
      rewrite (nth_error_nth' (spread c s h) 0%R) by (rewrite spread_length; lia). cbn [option_map]. do 3 f_equal. lia.
  - intros i Hi. apply in_seq in Hi. unfold objective. rewrite reading_prod by lia. cbn [rbind].
    assert (N := spread_nth c s h (m - i) ltac:(lia)).
    rewrite (nth_error_nth _ _ 0%R N).
    replace (firstn (m - i) h) with (firstn (m - i) a) by (unfold h; rewrite firstn_firstn; f_equal; lia).
    destruct (1 <? i) eqn:E.
    + apply Nat.ltb_lt in E. destruct (some_nth a (m - i)) as (v & Ev); [lia|]. rewrite Ev. cbn [of_opt rbind].
      unfold h. rewrite firstn_nth_error by lia. rewrite Ev. f_equal. ring.
    + apply Nat.ltb_ge in E. assert (i = 1) by lia. subst i.
      rewrite (proj2 (nth_error_None h (m - 1))) by lia. f_equal. ring.
Qed.
Lemma reading_sum term x : forall n a acc, a + n <= length x ->
  reading x (seq a n) (fun v acc => (acc + term v)%R) acc = Ok (acc + rsum (map term (firstn n (skipn a x))))%R.
Proof.
  induction n as [|n IH]; intros a acc L; cbn [seq reading].
  - cbn. f_equal. ring.
  - destruct (some_nth x a) as (v & E); [lia|]. rewrite E. cbn [of_opt rbind]. rewrite IH by lia.
    assert (Sk : skipn a x = v :: skipn (S a) x).
    { clear -E. revert x E. induction a as [|a IH]; intros [|y x] E; try discriminate; cbn in *; [injection E as ->; auto|]. apply IH. auto. }
    rewrite Sk. cbn [firstn map rsum fold_right]. f_equal. fold (rsum (map term (firstn n (skipn (S a) x)))). ring.
Qed.
Lemma tail_sum_ok term m x : 1 <= m -> m <= length x + 1 -> tail_sum term m x = Ok (rsum (map term (distance m x))).
Proof.
  intros M L. unfold tail_sum, distance. rewrite reading_sum by lia. f_equal. rewrite Rplus_0_l. f_equal. f_equal.
  apply firstn_all2. rewrite skipn_length. lia.
Qed.
Lemma rsum_shift (term : R -> R) (l : list R) : (INR (length l) + rsum (map term l) = rsum (map (fun v => 1 + term v) l))%R.
Proof. induction l as [|v l IH]; cbn [length map rsum fold_right]; [cbn; ring|]. rewrite S_INR. unfold rsum in *. rewrite <- IH. ring. Qed.

(** *** sums of non-negative terms *)
Lemma rsum_nonneg l : (forall v, In v l -> 0 <= v)%R -> (0 <= rsum l)%R.
Proof. induction l as [|v l IH]; intros H; cbn [rsum fold_right]; [lra|]. fold (rsum l). assert (0 <= v)%R by (apply H; left; auto). assert (0 <= rsum l)%R by (apply IH; intros; apply H; right; auto). lra. Qed.
Lemma rsum_zero l : (forall v, In v l -> 0 <= v)%R -> rsum l = 0%R -> forall v, In v l -> v = 0%R.
Proof.
  induction l as [|v l IH]; intros H E w Hw; [destruct Hw|]. cbn [rsum fold_right] in E. fold (rsum l) in E.
  assert (0 <= v)%R by (apply H; left; auto). assert (0 <= rsum l)%R by (apply rsum_nonneg; intros; apply H; right; auto).
  destruct Hw as [<-|Hw]; [lra|]. apply IH; auto; [intros; apply H; right; auto|lra].
Qed.
Lemma rsum_scale k l : rsum (map (Rmult k) l) = (k * rsum l)%R.
Proof. induction l as [|v l IH]; cbn [map rsum fold_right]; [ring|]. unfold rsum in *. rewrite IH. ring. Qed.
Lemma rsum_app l l' : rsum (l ++ l') = (rsum l + rsum l')%R.
Proof. unfold rsum. induction l as [|v l IH]; cbn [app fold_right]; [ring|]. rewrite IH. ring. Qed.
Lemma rsum_rev l : rsum (rev l) = rsum l.
Proof. induction l as [|v l IH]; cbn [rev]; auto. rewrite rsum_app, IH. unfold rsum. cbn. ring. Qed.

(** *** the two norms *)
Section Norm.
Variable phi : R -> R.
Hypothesis phi_mult : forall a b, phi (a * b)%R = (phi a * phi b)%R.
Hypothesis phi_mono : forall a b, (0 <= a <= b)%R -> (phi a <= phi b)%R /\ (phi a = phi b -> a = b).
Hypothesis phi_1 : phi 1 = 1%R.
Hypothesis phi_0 : forall a, (phi a = 0 -> a = 0)%R.
Definition norm (l : list R) : R := rsum (map phi l).
Lemma norm_scale k l : norm (map (Rmult k) l) = (phi k * norm l)%R.
Proof. unfold norm. rewrite map_map. rewrite (map_ext _ (fun v => phi k * phi v)%R) by (intros; apply phi_mult). rewrite <- (map_map phi (Rmult (phi k))). apply rsum_scale. Qed.
Lemma norm_le w v : Forall2 Rle w v -> (forall a, In a w -> 0 <= a)%R -> (norm w <= norm v)%R /\ (norm w = norm v -> w = v).
Proof.
  unfold norm. induction 1 as [|a b w v Hab _ IH]; intros P; [split; [lra|auto]|].
  cbn [map rsum fold_right]. destruct IH as [I1 I2]; [intros; apply P; right; auto|]. unfold rsum in *.
  destruct (phi_mono a b) as [M1 M2]; [split; auto; apply P; left; auto|]. split; [lra|].
  intros E. f_equal; [apply M2|apply I2]; lra.
Qed.
Lemma spread_norm c s a : (forall v, In v a -> phi (c v) + phi (s v) = 1)%R -> norm (spread c s a) = 1%R.
Proof.
  induction a as [|v a IH]; intros H; cbn [spread].
  - unfold norm. cbn. rewrite phi_1. ring.
  - unfold norm. cbn [map rsum fold_right]. fold (rsum (map phi (map (Rmult (c v)) (spread c s a)))). fold (norm (map (Rmult (c v)) (spread c s a))).
    rewrite norm_scale, IH by (intros; apply H; right; auto). specialize (H v (or_introl eq_refl)). lra.
Qed.
Lemma norm_rev l : norm (rev l) = norm l.
Proof. unfold norm. rewrite map_rev. apply rsum_rev. Qed.
End Norm.
Lemma spread_nonneg c s a : (forall v, In v a -> 0 <= c v /\ 0 <= s v)%R -> forall p, In p (spread c s a) -> (0 <= p)%R.
Proof.
  induction a as [|v a IH]; intros H p; cbn [spread].
  - intros [<-|[]]. lra.
  - destruct (H v (or_introl eq_refl)) as [H1 H2]. intros [<-|Hp]; auto. apply in_map_iff in Hp as (q & <- & Hq).
    apply Rmult_le_pos; auto. apply IH; auto. intros; apply H; right; auto.
Qed.

(** *** optimal vectors *)
Section Optimal.
Variables (m : nat) (phi : R -> R) (value : list R -> list R -> Prop) (share : list R -> list R) (g : list R -> R) (kappa v0 : R).
Hypothesis phi_mult : forall a b, phi (a * b)%R = (phi a * phi b)%R.
Hypothesis phi_mono : forall a b, (0 <= a <= b)%R -> (phi a <= phi b)%R /\ (phi a = phi b -> a = b).
Hypothesis kappa_pos : (0 < kappa)%R.
Hypothesis value_is : forall x v, in_box x -> m <= length x -> (value x v <-> v = map (Rmult (kappa * (1 + g (distance m x)))) (share x))%R.
Hypothesis share_nonneg : forall x, in_box x -> m <= length x -> forall p, In p (share x) -> (0 <= p)%R.
Hypothesis share_norm : forall x, in_box x -> m <= length x -> norm phi (share x) = 1%R.
Hypothesis g_nonneg : forall l, in_box l -> (0 <= g l)%R.
Hypothesis g_zero : forall l, in_box l -> (g l = 0%R <-> forall v, In v l -> v = v0).
Hypothesis v0_in : (0 <= v0 <= 1)%R.
Hypothesis m_pos : 1 <= m.
Lemma distance_box x : in_box x -> in_box (distance m x).
Proof. intros B v H. apply B. unfold distance in H. rewrite <- (firstn_skipn (m - 1) x). apply in_or_app. auto. Qed.
Lemma value_norm x v : in_box x -> m <= length x -> value x v -> norm phi v = phi (kappa * (1 + g (distance m x)))%R.
Proof. intros B L H. apply value_is in H; auto. subst. rewrite norm_scale by auto. rewrite share_norm by auto. ring. Qed.
Lemma zero_optimal x : in_box x -> m <= length x -> (forall v, In v (distance m x) -> v = v0) -> optimal value x.
Proof.
  intros B L Z. assert (G := proj2 (g_zero _ (distance_box x B)) Z).
  eexists. split; [apply value_is; auto; reflexivity|]. intros y w By Ly Hy Nw.
  assert (Vx : value x (map (Rmult (kappa * (1 + g (distance m x)))) (share x))) by (apply value_is; auto).
  assert (Gy := g_nonneg _ (distance_box y By)).
  assert (Nn : forall a, In a w -> (0 <= a)%R).
  { intros a Ha. apply value_is in Hy; [|auto|lia]. subst w. apply in_map_iff in Ha as (p & <- & Hp). apply Rmult_le_pos; [apply Rmult_le_pos; lra|].
    apply (share_nonneg y); auto. lia. }
  destruct (norm_le phi phi_mono _ _ Nw Nn) as [N1 N2]. apply N2. apply Rle_antisym; auto.
  rewrite (value_norm x _ B L Vx), (value_norm y w By ltac:(lia) Hy). rewrite G.
  apply phi_mono. split; [apply Rmult_le_pos; lra|]. apply Rmult_le_compat_l; lra.
Qed.
(** the shares do not depend on the distance variables *)
Hypothesis share_position : forall x y, in_box x -> in_box y -> m <= length x -> length y = length x -> position m x = position m y -> share x = share y.
Lemma optimal_zero x : in_box x -> m <= length x -> optimal value x -> forall v, In v (distance m x) -> v = v0.
Proof.
  intros B L (vx & Vx & Op). apply value_is in Vx; auto. apply g_zero; [apply distance_box; auto|].
  set (y := position m x ++ repeat v0 (length x + 1 - m)).
  assert (Lp : length (position m x) = m - 1) by (unfold position; rewrite firstn_length; lia).
  assert (Ly : length y = length x) by (unfold y; rewrite app_length, repeat_length; lia).
  assert (By : in_box y).
  { intros v H. apply in_app_or in H as [H|H]; [apply B|apply repeat_spec in H; subst; auto].
    unfold position in H. rewrite <- (firstn_skipn (m - 1) x). apply in_or_app. auto. }
  assert (Dy : distance m y = repeat v0 (length x + 1 - m)).
  { unfold distance, y. rewrite skipn_app, Lp, Nat.sub_diag, skipn_all2 by lia. reflexivity. }
  assert (Py : position m x = position m y).
  { unfold position at 2, y. rewrite firstn_app, Lp, Nat.sub_diag, firstn_all2 by lia. cbn. rewrite app_nil_r. reflexivity. }
  assert (Gy : g (distance m y) = 0%R). { apply g_zero; [apply distance_box; auto|]. rewrite Dy. intros v H. apply repeat_spec in H. auto. }
  assert (Gx := g_nonneg _ (distance_box x B)).
  assert (Vy : value y (map (Rmult kappa) (share x))).
  { apply value_is; auto; [lia|]. rewrite Gy, (share_position x y) by auto. f_equal. f_equal. ring. }
  assert (E : map (Rmult kappa) (share x) = vx).
  { apply (Op y); auto. subst vx. unfold no_worse.
    assert (X : forall l, (forall p, In p l -> 0 <= p)%R -> Forall2 Rle (map (Rmult kappa) l) (map (Rmult (kappa * (1 + g (distance m x)))) l)).
    { induction l as [|p l IH]; intros H; cbn [map]; constructor.
      - assert (0 <= p)%R by (apply H; left; auto). rewrite Rmult_plus_distr_l, Rmult_plus_distr_r, Rmult_1_r.
        assert (0 <= kappa * g (distance m x) * p)%R by (apply Rmult_le_pos; [apply Rmult_le_pos; lra|auto]). lra.
      - apply IH. intros; apply H; right; auto. }
    apply X. apply share_nonneg; auto. }
  assert (N := f_equal (norm phi) E). subst vx. rewrite !norm_scale, !share_norm in N by auto. rewrite !Rmult_1_r in N.
  apply phi_mono in N; [|split; [lra|]].
  - assert (kappa * g (distance m x) = 0)%R by lra. apply Rmult_integral in H as [H|H]; lra.
  - rewrite Rmult_plus_distr_l, Rmult_1_r. assert (0 <= kappa * g (distance m x))%R by (apply Rmult_le_pos; lra). lra.
Qed.
End Optimal.
