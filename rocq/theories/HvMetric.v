(** Proofs about the hypervolume metrics (C47). *)
From Coq Require Import List Arith Lia Bool ZArith QArith Lqa Permutation.
From Verif Require Import Outcome Lib ReplModel ReplProofs HvModel HvSpec HvProofs.
Import ListNotations.
Close Scope Q_scope.
Open Scope nat_scope.

Definition proper (bounds : list (Q * Q)) : Prop := forall b, In b bounds -> (fst b < snd b)%Q.
Lemma shift_point_ok dirs : forall ref bounds p, length ref = length dirs -> length bounds = length dirs -> length dirs <= length p -> proper bounds ->
  exists q, shift_point dirs ref bounds p = Ok q /\ seen_from dirs ref bounds p q.
Proof.
  induction dirs as [|d dirs IH]; intros ref bounds p Hr Hb Hp Hpr; cbn [shift_point].
  - exists []. split; auto. split; auto. intros [|i]; discriminate.
  - destruct ref as [|r ref]; [discriminate|]. destruct bounds as [|[mn mx] bounds]; [discriminate|]. destruct p as [|x p]; [cbn in Hp; lia|]. cbn in Hr, Hb, Hp.
    pose proof (Hpr (mn, mx) (or_introl eq_refl)) as Hm. cbn in Hm.
    unfold shifted. destruct (Qeq_bool (mx - mn) 0) eqn:E; [apply Qeq_bool_iff in E; lra|]. cbn [rbind].
    destruct (IH ref bounds p) as (q & Eq & Lq & Sq); try lia; [intros b Hb'; apply Hpr; cbn; auto|]. rewrite Eq. cbn [rbind]. eexists. split; [reflexivity|].
    split; [cbn; lia|]. intros [|i] d' r' mn' mx' x' y' H1 H2 H3 H4 H5; cbn in H1, H2, H3, H4, H5.
    + inversion H1; inversion H2; inversion H3; inversion H4; inversion H5; subst. destruct d'; reflexivity.
    + apply (Sq i); auto.
Qed.
Lemma shift_all_ok (dirs : list bool) (ref : list Q) (bounds : list (Q * Q)) (set : list (list Q)) : length ref = length dirs -> length bounds = length dirs -> (forall p, In p set -> length dirs <= length p) -> proper bounds ->
  exists front, shift_all dirs ref bounds set = Ok front /\ Forall2 (seen_from dirs ref bounds) set front.
Proof.
  intros Hr Hb Hp Hpr. induction set as [|p set IH]; cbn [shift_all]; [exists []; auto|].
  destruct (shift_point_ok dirs ref bounds p) as (q & Eq & Sq); auto; [apply Hp; cbn; auto|]. destruct IH as (front & E & F); [intros r Hr'; apply Hp; cbn; auto|].
  rewrite Eq. cbn [rbind]. rewrite E. cbn [rbind]. exists (q :: front). auto.
Qed.
Lemma Forall2_In_r {A B} (R : A -> B -> Prop) l r : Forall2 R l r -> forall y, In y r -> exists x, In x l /\ R x y.
Proof. induction 1; intros z Hz; [destruct Hz|]. destruct Hz as [<-|Hz]; [exists x; cbn; auto|]. destruct (IHForall2 z Hz) as (w & Hw & Hr). exists w. cbn. auto. Qed.
Lemma Forall2_In_l {A B} (R : A -> B -> Prop) l r : Forall2 R l r -> forall x, In x l -> exists y, In y r /\ R x y.
Proof. induction 1; intros z Hz; [destruct Hz|]. destruct Hz as [<-|Hz]; [exists y; cbn; auto|]. destruct (IHForall2 z Hz) as (w & Hw & Hr). exists w. cbn. auto. Qed.

(** every value a point takes once seen from the reference point *)
Lemma seen_at dirs ref bounds p q i : length ref = length dirs -> length bounds = length dirs -> length dirs <= length p -> i < length dirs -> seen_from dirs ref bounds p q ->
  exists d r mn mx x y, nth_error dirs i = Some d /\ nth_error ref i = Some r /\ nth_error bounds i = Some (mn, mx) /\ nth_error p i = Some x /\ nth_error q i = Some y /\
    (y == let t := (x - mn) / (mx - mn) in if d then r - t else t - r)%Q.
Proof.
  intros Hr Hb Hp Hi [L S']. destruct (nth_error_in_some dirs i) as [d Hd]; auto. destruct (nth_error_in_some ref i) as [r Er]; [lia|].
  destruct (nth_error_in_some bounds i) as [[mn mx] Eb]; [lia|]. destruct (nth_error_in_some p i) as [x Ex]; [lia|]. destruct (nth_error_in_some q i) as [y Ey]; [lia|].
  exists d, r, mn, mx, x, y. repeat (split; [assumption|]). apply (S' i); auto.
Qed.
Lemma front_volume (dirs : list bool) (ref : list Q) (bounds : list (Q * Q)) (set : list (list Q)) : 2 <= length dirs -> length ref = length dirs -> length bounds = length dirs -> (forall p, In p set -> length dirs <= length p) -> proper bounds ->
  (forall p i d r mn mx x, In p set -> nth_error dirs i = Some d -> nth_error ref i = Some r -> nth_error bounds i = Some (mn, mx) -> nth_error p i = Some x ->
     (0 <= let t := (x - mn) / (mx - mn) in if d then r - t else t - r)%Q) ->
  exists front v F', shift_all dirs ref bounds set = Ok front /\ calc_hypervolume (length dirs) front (length front) = Ok (v, F') /\
  Forall2 (seen_from dirs ref bounds) set front /\ in_orthant (length dirs) front /\ is_hypervolume (length dirs) front v.
Proof.
  intros Hk Hr Hb Hp Hpr Pos. destruct (shift_all_ok dirs ref bounds set) as (front & E & F); auto.
  assert (O : in_orthant (length dirs) front).
  { intros q i Hq Hi. destruct (Forall2_In_r _ _ _ F q Hq) as (p & Ip & Sp). destruct (seen_at dirs ref bounds p q i) as (d & r & mn & mx & x & y & H1 & H2 & H3 & H4 & H5 & H6); auto.
    exists y. split; auto. rewrite H6. eapply Pos; eauto. }
  destruct (calc_hypervolume_correct (length dirs) front Hk O) as (v & F' & Ec & V). exists front, v, F'. auto.
Qed.
Lemma unit_proper k : proper (repeat (0, 1)%Q k).
Proof. intros b Hb. apply repeat_spec in Hb. subst. cbn. lra. Qed.
Lemma repeat_at {T} (a : T) k i x : nth_error (repeat a k) i = Some x -> x = a.
Proof. intros H. apply nth_error_In, repeat_spec in H. auto. Qed.
Lemma unit_scale x : ((x - 0) / (1 - 0) == x)%Q. Proof. field. Qed.

Theorem metric_with_reference (dirs : list bool) (ref : list Q) (set : list (list Q)) : 2 <= length dirs -> length ref = length dirs -> (forall p, In p set -> length dirs <= length p) ->
  (forall p, In p set -> no_worse dirs ref p) ->
  exists v front, hv_metric dirs false 0 ref (repeat (0, 1)%Q (length dirs)) set = Ok v /\
    Forall2 (seen_from dirs ref (repeat (0, 1)%Q (length dirs))) set front /\ in_orthant (length dirs) front /\ is_hypervolume (length dirs) front v.
Proof.
  intros Hk Hr Hp Hn. set (unit := repeat (0, 1)%Q (length dirs)). assert (Hb : length unit = length dirs) by apply repeat_length.
  destruct (front_volume dirs ref unit set) as (front & v & F' & E & Ec & F & O & V); auto; [apply unit_proper| |].
  { intros p i d r mn mx x Ip H1 H2 H3 H4. apply repeat_at in H3. inversion H3; subst. specialize (Hn p Ip i d r x H1 H2 H4). cbv zeta. destruct d; rewrite unit_scale; lra. }
  exists v, front. split; auto. unfold hv_metric. change (Qle_bool 1 0) with false. cbv iota. cbn [rbind]. fold unit. rewrite E. cbn [rbind]. rewrite Ec. auto.
Qed.

(** ** bounds *)
Lemma qmin2_le x y : (qmin2 x y <= x /\ qmin2 x y <= y /\ (qmin2 x y = x \/ qmin2 x y = y))%Q.
Proof. unfold qmin2. destruct (qlt y x) eqn:E; [apply qlt_lt in E|apply qlt_ge in E]; repeat split; try lra; auto. Qed.
Lemma qmax2_ge x y : (x <= qmax2 x y /\ y <= qmax2 x y /\ (qmax2 x y = x \/ qmax2 x y = y))%Q.
Proof. unfold qmax2. destruct (qlt x y) eqn:E; [apply qlt_lt in E|apply qlt_ge in E]; repeat split; try lra; auto. Qed.
Lemma bounds_of_ok i : forall (set : list (list Q)) mn mx, (mn <= mx)%Q -> (forall p, In p set -> i < length p) -> exists a b, bounds_of set i mn mx = Ok (a, b) /\ (a <= mn)%Q /\ (mx <= b)%Q /\
  (a = mn \/ exists p, In p set /\ nth_error p i = Some a) /\ (b = mx \/ exists p, In p set /\ nth_error p i = Some b) /\
  (forall p x, In p set -> nth_error p i = Some x -> (a <= x <= b)%Q).
Proof.
  induction set as [|p set IH]; intros mn mx Hm Hl; cbn [bounds_of].
  - exists mn, mx. repeat (split; [auto; lra|]). intros p x [].
  - destruct (nth_error_in_some p i) as [x Hx]; [apply Hl; cbn; auto|]. rewrite Hx. cbn [of_opt rbind].
    pose proof (qmin2_le mn x) as (A1 & A2 & A3). pose proof (qmax2_ge mx x) as (B1 & B2 & B3).
    destruct (IH (qmin2 mn x) (qmax2 mx x)) as (a & b & E & C1 & C2 & C3 & C4 & C5); [lra|intros r Hr; apply Hl; cbn; auto|].
    exists a, b. split; auto. split; [lra|]. split; [lra|]. split; [|split].
    + destruct C3 as [->|(r & Hr & Er)]; [destruct A3 as [->|E']; auto; right; exists p; cbn; rewrite E'; auto|right; exists r; cbn; auto].
    + destruct C4 as [->|(r & Hr & Er)]; [destruct B3 as [->|E']; auto; right; exists p; cbn; rewrite E'; auto|right; exists r; cbn; auto].
    + intros r y [<-|Hr] Hy; [assert (y = x) as -> by congruence; lra|eauto].
Qed.
Lemma setup1_ok (set : list (list Q)) i p q x y : (forall p, In p set -> i < length p) -> In p set -> In q set -> nth_error p i = Some x -> nth_error q i = Some y -> (x < y)%Q ->
  exists mn mx, setup1 set i = Ok (mn, mx) /\ spans set i mn mx.
Proof.
  intros Hl Ip Iq Hx Hy Lt. destruct set as [|p0 set]; [destruct Ip|]. unfold setup1. destruct (nth_error_in_some p0 i) as [z Hz]; [apply Hl; cbn; auto|]. rewrite Hz. cbn [of_opt rbind].
  destruct (bounds_of_ok i set z z) as (a & b & E & C1 & C2 & C3 & C4 & C5); [lra|intros r Hr; apply Hl; cbn; auto|]. exists a, b. split; auto.
  assert (All : forall r u, In r (p0 :: set) -> nth_error r i = Some u -> (a <= u <= b)%Q).
  { intros r u [<-|Hr] Hu; [assert (u = z) as -> by congruence; lra|eauto]. }
  repeat split.
  - destruct C3 as [->|(r & Hr & Er)]; [exists p0; cbn; auto|exists r; cbn; auto].
  - destruct C4 as [->|(r & Hr & Er)]; [exists p0; cbn; auto|exists r; cbn; auto].
  - eapply All; eauto.
  - eapply All; eauto.
  - pose proof (All p x Ip Hx). pose proof (All q y Iq Hy). lra.
Qed.
Lemma for_all_ok {T} (f : nat -> res T) (R : nat -> T -> Prop) l : (forall i, In i l -> exists x, f i = Ok x /\ R i x) -> exists xs, for_all_objectives f l = Ok xs /\ Forall2 R l xs.
Proof.
  induction l as [|i l IH]; intros H; cbn; [exists []; auto|]. destruct (H i) as (x & E & Hx); [cbn; auto|]. destruct IH as (xs & E' & F); [intros j Hj; apply H; cbn; auto|].
  rewrite E. cbn. rewrite E'. cbn. exists (x :: xs). auto.
Qed.
Lemma Forall2_nth {A B} (R : A -> B -> Prop) l r : Forall2 R l r -> forall i a b, nth_error l i = Some a -> nth_error r i = Some b -> R a b.
Proof. induction 1; intros [|i] a b Ha Hb; try discriminate; cbn in *; [inversion Ha; inversion Hb; subst; auto|eauto]. Qed.
Lemma Forall2_len {A B} (R : A -> B -> Prop) l r : Forall2 R l r -> length r = length l.
Proof. induction 1; cbn; auto. Qed.

Theorem metric_normalised (dirs : list bool) rho ref b0 (set : list (list Q)) : 2 <= length dirs -> (1 <= rho)%Q -> (forall p, In p set -> length dirs <= length p) ->
  (forall i, i < length dirs -> exists p q x y, In p set /\ In q set /\ nth_error p i = Some x /\ nth_error q i = Some y /\ (x < y)%Q) ->
  exists v bounds front, hv_metric dirs true rho ref b0 set = Ok v /\
    (forall i, i < length dirs -> exists mn mx, nth_error bounds i = Some (mn, mx) /\ spans set i mn mx) /\
    Forall2 (seen_from dirs (map (fun d : bool => if d then rho else 1 - rho)%Q dirs) bounds) set front /\ in_orthant (length dirs) front /\ is_hypervolume (length dirs) front v.
Proof.
  intros Hk Hrho Hp Hd.
  destruct (for_all_ok (setup1 set) (fun i b => spans set i (fst b) (snd b)) (seq 0 (length dirs))) as (bounds & Eb & Fb).
  { intros i Hi. apply in_seq in Hi. destruct (Hd i) as (p & q & x & y & Ip & Iq & Hx & Hy & Lt); [lia|].
    destruct (setup1_ok set i p q x y) as (mn & mx & E & Sp); auto; [intros r Hr; specialize (Hp r Hr); lia|]. exists (mn, mx). auto. }
  pose proof (Forall2_len _ _ _ Fb) as Lb. rewrite seq_length in Lb.
  assert (Sp : forall i mn mx, nth_error bounds i = Some (mn, mx) -> spans set i mn mx).
  { intros i mn mx Hi. assert (Hi' : i < length dirs) by (apply nth_error_lt in Hi; lia).
    pose proof (Forall2_nth _ _ _ Fb i i (mn, mx)) as S'. cbn in S'. apply S'; auto. rewrite nth_error_seq' by auto. f_equal; lia. }
  set (ref' := map (fun d : bool => if d then rho else 1 - rho)%Q dirs).
  assert (Er : map (fun db : bool * (Q * Q) => ref_of true rho (fst db) (snd db)) (combine dirs bounds) = ref').
  { unfold ref'. clear -Lb. revert bounds Lb. induction dirs as [|d dirs IH]; intros [|b bounds] L; auto; try discriminate. cbn. f_equal. apply IH. cbn in L; lia. }
  destruct (front_volume dirs ref' bounds set) as (front & v & F' & E & Ec & F & O & V); auto.
  - unfold ref'. apply map_length.
  - intros [mn mx] Hb. apply In_nth_error in Hb as [i Hi]. apply Sp in Hi. apply Hi.
  - intros p i d r mn mx x Ip H1 H2 H3 H4. destruct (Sp i mn mx H3) as (_ & _ & A & B). specialize (A p x Ip H4).
    unfold ref' in H2. rewrite nth_error_map', H1 in H2. cbn in H2.
    assert (T : (0 <= (x - mn) / (mx - mn) <= 1)%Q).
    { split; [apply Qle_shift_div_l; lra|apply Qle_shift_div_r; lra]. }
    cbv zeta. destruct d; inversion H2; subst; lra.
  - exists v, bounds, front. split.
    + unfold hv_metric. assert (Qle_bool 1 rho = true) as -> by (apply Qle_bool_iff; auto). cbv iota. rewrite Eb. cbn [rbind]. rewrite Er, E. cbn [rbind]. rewrite Ec. auto.
    + split; auto. intros i Hi. destruct (nth_error_in_some bounds i) as [[mn mx] Hi']; [lia|]. exists mn, mx. split; auto.
Qed.

(** ** the difference metric *)
Theorem difference_signs (dirs : list bool) (ref : list Q) (set1 set2 : list (list Q)) : 2 <= length dirs -> length ref = length dirs -> (forall p, In p (set1 ++ set2) -> length dirs <= length p /\ no_worse dirs ref p) ->
  (forall q, In q set2 -> exists p, In p set1 /\ at_least dirs p q) ->
  exists d, hv_difference dirs ref set1 set2 = Ok d /\ (0 <= d)%Q /\ exists d', hv_difference dirs ref set2 set1 = Ok d' /\ (d' == - d)%Q.
Proof.
  intros Hk Hr Hp Hc.
  assert (H1 : forall p, In p set1 -> length dirs <= length p /\ no_worse dirs ref p) by (intros p H; apply Hp, in_app_iff; auto).
  assert (H2 : forall p, In p set2 -> length dirs <= length p /\ no_worse dirs ref p) by (intros p H; apply Hp, in_app_iff; auto).
  destruct (metric_with_reference dirs ref set1) as (v1 & f1 & E1 & F1 & O1 & V1); auto; [intros p H; apply H1; auto|intros p H; apply H1; auto|].
  destruct (metric_with_reference dirs ref set2) as (v2 & f2 & E2 & F2 & O2 & V2); auto; [intros p H; apply H2; auto|intros p H; apply H2; auto|].
  exists (v1 - v2)%Q. unfold hv_difference. rewrite E1, E2. cbn [rbind]. split; auto. split.
  - assert (Le : (v2 <= v1)%Q); [|lra]. apply (hypervolume_mono (length dirs) f2 f1); auto.
    + intros q' Hq'. destruct (Forall2_In_r _ _ _ F2 q' Hq') as (q & Iq & Sq). destruct (Hc q Iq) as (p & Ip & Ap). destruct (Forall2_In_l _ _ _ F1 p Ip) as (p' & Ip' & Sp).
      exists p'. split; auto. intros i x y Hi Hx Hy.
      destruct (seen_at dirs ref (repeat (0, 1)%Q (length dirs)) p p' i) as (d & r & mn & mx & u & u' & A1 & A2 & A3 & A4 & A5 & A6); auto; [apply repeat_length|apply H1; auto|].
      destruct (seen_at dirs ref (repeat (0, 1)%Q (length dirs)) q q' i) as (d2 & r2 & mn2 & mx2 & w & w' & B1 & B2 & B3 & B4 & B5 & B6); auto; [apply repeat_length|apply H2; auto|].
      assert (u' = x) as -> by congruence. assert (w' = y) as -> by congruence. assert (d2 = d) as -> by congruence. assert (r2 = r) as -> by congruence.
      apply repeat_at in A3, B3. inversion A3; inversion B3; subst. specialize (Ap i d u w A1 A4 B4). rewrite A6, B6. cbv zeta. destruct d; rewrite !unit_scale; lra.
    + apply grid_exists. intros p i Hp' Hi. apply in_app_iff in Hp' as [H|H]; auto.
  - exists (v2 - v1)%Q. split; auto. ring.
Qed.
