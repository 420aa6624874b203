(** Lemmas for BoundsModel.v. *)
From Coq Require Import ZArith QArith Qround Qabs List Bool Lqa Lia.
From Verif Require Import Outcome BoundsModel BoundsSpec.
Import ListNotations.
Open Scope Q_scope.

Lemma qltb_lt x y : qltb x y = true <-> x < y.
Proof.
  unfold qltb. rewrite negb_true_iff. split; intros H.
  - apply Qnot_le_lt. intros H1. apply Qle_bool_iff in H1. congruence.
  - destruct (Qle_bool y x) eqn:E; auto. apply Qle_bool_iff in E. lra.
Qed.
Lemma qltb_ge x y : qltb x y = false <-> y <= x.
Proof.
  unfold qltb. rewrite negb_false_iff. apply Qle_bool_iff.
Qed.
Ltac qlt :=
  match goal with
  | |- context [qltb ?x ?y] =>
      let E := fresh "E" in destruct (qltb x y) eqn:E; [apply qltb_lt in E|apply qltb_ge in E]
  end.

Notation ident := (fun x : Q => x).
Lemma quotient_ok x y k : 0 <= x -> 0 < y -> quotient ident x y = Ok k ->
  inject_Z k * y <= x /\ x < (inject_Z k + 1) * y.
Proof.
  intros Hx Hy H. unfold quotient in H. destruct (Qeq_bool y 0) eqn:E0; [discriminate|].
  assert (Ht : 0 <= x / y) by (apply Qle_shift_div_l; lra).
  unfold qtrunc in H. destruct (Qle_bool 0 (x / y)) eqn:El; [|apply Qle_bool_iff in Ht; congruence].
  destruct (_ && _)%bool; [|discriminate]. assert (k = Qfloor (x / y)) as -> by congruence.
  assert (Ex : x == x / y * y) by (field; lra).
  pose proof (Qfloor_le (x / y)) as H1. pose proof (Qlt_floor (x / y)) as H2. rewrite inject_Z_plus in H2.
  change (inject_Z 1) with 1 in H2.
  set (t := x / y) in *. set (f := inject_Z (Qfloor t)) in *. clearbody t f. split; rewrite Ex.
  - apply Qmult_le_compat_r; lra.
  - apply Qmult_lt_compat_r; lra.
Qed.
Lemma quotient_nonneg x y k : 0 <= x -> 0 < y -> quotient ident x y = Ok k -> (0 <= k)%Z.
Proof.
  intros Hx Hy H. unfold quotient in H. destruct (Qeq_bool y 0) eqn:E0; [discriminate|].
  assert (Ht : 0 <= x / y) by (apply Qle_shift_div_l; lra).
  unfold qtrunc in H. destruct (Qle_bool 0 (x / y)) eqn:El; [|apply Qle_bool_iff in Ht; congruence].
  destruct (_ && _)%bool; [|discriminate]. assert (k = Qfloor (x / y)) as -> by congruence.
  apply Qfloor_resp_le in Ht. exact Ht.
Qed.
Lemma quotient_total x y : 0 <= x -> 0 < y -> x / y < inject_Z long_max + 1 -> exists k, quotient ident x y = Ok k.
Proof.
  intros Hx Hy Hb. unfold quotient. destruct (Qeq_bool y 0) eqn:E0; [apply Qeq_bool_iff in E0; lra|].
  assert (Ht : 0 <= x / y) by (apply Qle_shift_div_l; lra).
  unfold qtrunc. destruct (Qle_bool 0 (x / y)) eqn:El; [|apply Qle_bool_iff in Ht; congruence].
  pose proof (Qfloor_le (x / y)) as H1. apply Qfloor_resp_le in Ht. change (Qfloor 0) with 0%Z in Ht.
  assert (Hk : inject_Z (Qfloor (x / y)) < inject_Z (long_max + 1)).
  { rewrite inject_Z_plus. change (inject_Z 1) with 1. lra. }
  rewrite <- Zlt_Qlt in Hk. destruct (Z.leb_spec (Qfloor (x / y)) long_max); [|lia].
  destruct (Z.leb_spec (- long_max - 1) (Qfloor (x / y))); [|unfold long_max in *; lia]. cbn [andb]. eauto.
Qed.

(** exact folding *)
Lemma fold_high mn mx r r1 : mn < mx -> mx < r ->
  (let! iloc := quotient ident (r - mn) (2 * (mx - mn)) in
   let r' := r - 2 * (mx - mn) * inject_Z iloc in Ok (if qltb mx r' then 2 * mx - r' else r')) = Ok r1 ->
  mn <= r1 <= mx /\ mirror_image mn mx r r1.
Proof.
  intros Hm Hr H. apply rbind_ok in H as (k & Ek & H). cbv zeta in H.
  destruct (quotient_ok (r - mn) (2 * (mx - mn)) k) as [Q1 Q2]; [lra|lra|exact Ek|].
  set (m := inject_Z k * (2 * (mx - mn))) in *.
  assert (Em : (2 * (mx - mn)) * inject_Z k == m) by (unfold m; ring).
  assert (E2 : (inject_Z k + 1) * (2 * (mx - mn)) == m + 2 * (mx - mn)) by (unfold m; ring). rewrite E2 in Q2. clear E2.
  revert H. qlt; intros H; assert (r1 = _) as -> by (symmetry; injection H; intros X; exact X); clear H.
  - split; [lra|]. exists (k + 1)%Z. right. rewrite inject_Z_plus. change (inject_Z 1) with 1.
    unfold m in *. ring.
  - split; [lra|]. exists (- k)%Z. left. rewrite inject_Z_opp. ring.
Qed.
Lemma fold_low mn mx r r1 : mn < mx -> r < mn ->
  (let! iloc := quotient ident (mx - r) (2 * (mx - mn)) in
   let r' := r + 2 * (mx - mn) * inject_Z iloc in Ok (if qltb r' mn then 2 * mn - r' else r')) = Ok r1 ->
  mn <= r1 <= mx /\ mirror_image mn mx r r1.
Proof.
  intros Hm Hr H. apply rbind_ok in H as (k & Ek & H). cbv zeta in H.
  destruct (quotient_ok (mx - r) (2 * (mx - mn)) k) as [Q1 Q2]; [lra|lra|exact Ek|].
  set (m := inject_Z k * (2 * (mx - mn))) in *.
  assert (Em : (2 * (mx - mn)) * inject_Z k == m) by (unfold m; ring).
  assert (E2 : (inject_Z k + 1) * (2 * (mx - mn)) == m + 2 * (mx - mn)) by (unfold m; ring). rewrite E2 in Q2. clear E2.
  revert H. qlt; intros H; assert (r1 = _) as -> by (symmetry; injection H; intros X; exact X); clear H.
  - split; [lra|]. exists (- k)%Z. right. rewrite inject_Z_opp. unfold m in *. ring.
  - split; [lra|]. exists k. left. ring.
Qed.
Lemma guard_false r : Qabs r <= 1000000000 -> qltb 1000000000 r || qltb 1000000000 (- r) = false.
Proof. intros Hr. apply Qabs_Qle_condition in Hr as [H1 H2]. apply orb_false_iff. split; apply qltb_ge; lra. Qed.
Lemma mirror_refl mn mx r : mirror_image mn mx r r.
Proof. exists 0%Z. left. change (inject_Z 0) with 0. ring. Qed.
Lemma fold_exact mn mx r u y : mn < mx -> Qabs r <= 1000000000 -> fold ident (Interval mn mx) r u = Ok y ->
  mn <= y <= mx /\ mirror_image mn mx r y /\ (mn <= r <= mx -> y = r).
Proof.
  intros Hm Hr H. cbn [fold] in H. unfold fold_interval in H. rewrite guard_false in H by auto. cbv zeta beta in H.
  destruct (qltb mx r) eqn:E1.
  - apply qltb_lt in E1. apply rbind_ok in H as (r1 & H1 & H).
    destruct (fold_high mn mx r r1 Hm E1 H1) as [Hb Hi].
    destruct (qltb r1 mn) eqn:E2; [apply qltb_lt in E2; lra|]. assert (r1 = y) as -> by congruence.
    split; auto. split; auto. intros; lra.
  - apply qltb_ge in E1. cbn [rbind] in H. destruct (qltb r mn) eqn:E2.
    + apply qltb_lt in E2. destruct (fold_low mn mx r y Hm E2 H) as [Hb Hi]. split; auto. split; auto. intros; lra.
    + apply qltb_ge in E2. assert (r = y) as -> by congruence. split; [lra|]. split; [apply mirror_refl|auto].
Qed.
(** when the code answers *)
Lemma fold_total mn mx r u : mn < mx -> Qabs r <= 1000000000 ->
  (Qabs r + Qabs mn + Qabs mx) / (2 * (mx - mn)) < inject_Z long_max + 1 ->
  exists y, fold ident (Interval mn mx) r u = Ok y.
Proof.
  intros Hm Hr Hb. cbn [fold]. unfold fold_interval. rewrite guard_false by auto. cbv zeta beta.
  assert (HD : 0 < 2 * (mx - mn)) by lra.
  pose proof (Qle_Qabs r) as A1. pose proof (Qle_Qabs (- r)) as A2. rewrite Qabs_opp in A2.
  pose proof (Qle_Qabs mn) as B1. pose proof (Qle_Qabs (- mn)) as B2. rewrite Qabs_opp in B2.
  pose proof (Qle_Qabs mx) as C1. pose proof (Qle_Qabs (- mx)) as C2. rewrite Qabs_opp in C2.
  assert (Hmono : forall a, a <= Qabs r + Qabs mn + Qabs mx -> a / (2 * (mx - mn)) < inject_Z long_max + 1).
  { intros a Ha. eapply Qle_lt_trans; [|exact Hb]. unfold Qdiv. apply Qmult_le_compat_r; auto.
    apply Qlt_le_weak, Qinv_lt_0_compat; auto. }
  pose proof (Qabs_nonneg mn) as N1. pose proof (Qabs_nonneg mx) as N2.
  destruct (qltb mx r) eqn:E1.
  - apply qltb_lt in E1.
    destruct (quotient_total (r - mn) (2 * (mx - mn))) as [k Ek]; [lra|lra|apply Hmono; lra|].
    rewrite Ek. cbn [rbind].
    set (r1 := if qltb mx (r - 2 * (mx - mn) * inject_Z k) then 2 * mx - (r - 2 * (mx - mn) * inject_Z k) else r - 2 * (mx - mn) * inject_Z k).
    destruct (fold_high mn mx r r1 Hm E1) as [Hb1 _]; [rewrite Ek; reflexivity|].
    destruct (qltb r1 mn) eqn:E2; [apply qltb_lt in E2; lra|]. eauto.
  - cbn [rbind]. destruct (qltb r mn) eqn:E2; [|eauto]. apply qltb_lt in E2.
    destruct (quotient_total (mx - r) (2 * (mx - mn))) as [k Ek]; [lra|lra|apply Hmono; lra|]. rewrite Ek. cbn [rbind]. eauto.
Qed.
(** beyond 1e9: a uniform value *)
Lemma fold_far mn mx r u y : mn < mx -> 1000000000 < Qabs r -> 0 <= u -> u < mx - mn ->
  fold ident (Interval mn mx) r u = Ok y -> mn <= y <= mx.
Proof.
  intros Hm Hr H0 Hu H. cbn [fold] in H. unfold fold_interval in H.
  assert (Hg : qltb 1000000000 r || qltb 1000000000 (- r) = true).
  { apply orb_true_iff. rewrite !qltb_lt. destruct (Qlt_le_dec 1000000000 r); auto. right.
    destruct (Qlt_le_dec 1000000000 (- r)); auto. exfalso. apply (Qlt_not_le _ _ Hr). apply Qabs_Qle_condition. lra. }
  rewrite Hg in H. cbv zeta beta in H. assert (y = mn + u) as -> by congruence. lra.
Qed.

(** the images of a value meet the interval in one point *)
Lemma mult_cases (k : Z) D : 0 < D -> (inject_Z k * D <= - D) \/ inject_Z k * D == 0 \/ inject_Z k * D == D \/ 2 * D <= inject_Z k * D.
Proof.
  intros HD. destruct (Z_lt_le_dec k 0) as [H|H].
  - left. assert (H1 : inject_Z k <= inject_Z (-1)) by (rewrite <- Zle_Qle; lia). change (inject_Z (-1)) with (-1) in H1.
    setoid_replace (- D) with (-1 * D) by ring. apply Qmult_le_compat_r; lra.
  - right. destruct (Z.eq_dec k 0) as [->|H0]; [left; change (inject_Z 0) with 0; ring|]. right.
    destruct (Z.eq_dec k 1) as [->|H1]; [left; change (inject_Z 1) with 1; ring|]. right.
    assert (H2 : inject_Z 2 <= inject_Z k) by (rewrite <- Zle_Qle; lia). change (inject_Z 2) with 2 in H2.
    apply Qmult_le_compat_r; lra.
Qed.
Lemma mirror_unique mn mx r y z : mn < mx -> mn <= y <= mx -> mn <= z <= mx ->
  mirror_image mn mx r y -> mirror_image mn mx r z -> y == z.
Proof.
  intros Hm Hy Hz (k & Hk) (j & Hj). set (D := 2 * (mx - mn)) in *.
  assert (HD : 0 < D) by (unfold D; lra).
  destruct Hk as [Hk|Hk], Hj as [Hj|Hj].
  - assert (E : y - z == inject_Z (k - j) * D).
    { unfold Z.sub. rewrite inject_Z_plus, inject_Z_opp, Hk, Hj. ring. }
    destruct (mult_cases (k - j) D HD) as [H|[H|[H|H]]]; unfold D in *; lra.
  - assert (E : y + z == 2 * mn + inject_Z (k + j) * D).
    { rewrite inject_Z_plus, Hk, Hj. ring. }
    destruct (mult_cases (k + j) D HD) as [H|[H|[H|H]]]; unfold D in *; lra.
  - assert (E : y + z == 2 * mn + inject_Z (k + j) * D).
    { rewrite inject_Z_plus, Hk, Hj. ring. }
    destruct (mult_cases (k + j) D HD) as [H|[H|[H|H]]]; unfold D in *; lra.
  - assert (E : y - z == inject_Z (k - j) * D).
    { unfold Z.sub. rewrite inject_Z_plus, inject_Z_opp, Hk, Hj. ring. }
    destruct (mult_cases (k - j) D HD) as [H|[H|[H|H]]]; unfold D in *; lra.
Qed.
Lemma mirror_trans mn mx r s y : mirror_image mn mx r s -> mirror_image mn mx s y -> mirror_image mn mx r y.
Proof.
  intros (k & Hk) (j & Hj). destruct Hk as [Hk|Hk], Hj as [Hj|Hj].
  - exists (k + j)%Z. left. rewrite inject_Z_plus, Hj, Hk. ring.
  - exists (j - k)%Z. right. unfold Z.sub. rewrite inject_Z_plus, inject_Z_opp, Hj, Hk. ring.
  - exists (k + j)%Z. right. rewrite inject_Z_plus, Hj, Hk. ring.
  - exists (j - k)%Z. left. unfold Z.sub. rewrite inject_Z_plus, inject_Z_opp, Hj, Hk. ring.
Qed.
(** values that mirror each other fold to the same point *)
Lemma fold_periodic mn mx r s u v y z : mn < mx -> Qabs r <= 1000000000 -> Qabs s <= 1000000000 ->
  mirror_image mn mx r s -> fold ident (Interval mn mx) r u = Ok y -> fold ident (Interval mn mx) s v = Ok z -> y == z.
Proof.
  intros Hm Hr Hs Hi Hy Hz. apply fold_exact in Hy as (B1 & I1 & _); auto. apply fold_exact in Hz as (B2 & I2 & _); auto.
  apply (mirror_unique mn mx r); auto. exact (mirror_trans mn mx r s z Hi I2).
Qed.

(** membership and truncation: no arithmetic *)
Lemma in_bounds_ok b r : in_bounds b r = true <-> inside b r.
Proof.
  destruct b as [|mn mx|mn|mx]; cbn [in_bounds inside]; [tauto|..]; repeat qlt; split; intros; try discriminate; auto; lra.
Qed.
Lemma truncate_ok b r : not_empty b -> nearest (inside b) r (truncate b r) /\ (inside b r -> truncate b r = r).
Proof.
  intros Hn. unfold nearest. destruct b as [|mn mx|mn|mx]; cbn [truncate inside not_empty] in *.
  - split; auto. split; auto. intros z _. setoid_replace (r - r) with 0 by ring. apply Qabs_nonneg.
  - repeat qlt; (split; [split; [lra|]|intros; auto; lra]); intros z Hz.
    + rewrite !Qabs_pos by lra. lra.
    + rewrite !Qabs_neg by lra. lra.
    + setoid_replace (r - r) with 0 by ring. apply Qabs_nonneg.
  - repeat qlt; (split; [split; [lra|]|intros; auto; lra]); intros z Hz.
    + rewrite !Qabs_pos by lra. lra.
    + setoid_replace (r - r) with 0 by ring. apply Qabs_nonneg.
  - repeat qlt; (split; [split; [lra|]|intros; auto; lra]); intros z Hz.
    + rewrite !Qabs_neg by lra. lra.
    + setoid_replace (r - r) with 0 by ring. apply Qabs_nonneg.
Qed.
(** half-bounded folding, with any rounding *)
Lemma fold_half rnd b r u y : monotone rnd -> (forall mn, b = Below mn -> exact_on rnd mn /\ exact_on rnd (2 * mn)) ->
  (forall mx, b = Above mx -> exact_on rnd mx /\ exact_on rnd (2 * mx)) -> (forall mn mx, b <> Interval mn mx) ->
  fold rnd b r u = Ok y -> inside b y /\ (inside b r -> y = r).
Proof.
  intros Hm Hb Ha Hi H. destruct b as [|mn mx|mn|mx]; cbn [fold inside] in *.
  - split; auto. congruence.
  - destruct (Hi mn mx eq_refl).
  - destruct (Hb mn eq_refl) as [E1 E2]. unfold exact_on in *. revert H. qlt; intros H.
    + assert (y = rnd (rnd (2 * mn) - r)) as -> by congruence. split; [|intros; lra].
      apply Qle_trans with (rnd mn); [lra|apply Hm; lra].
    + assert (y = r) as -> by congruence. auto.
  - destruct (Ha mx eq_refl) as [E1 E2]. unfold exact_on in *. revert H. qlt; intros H.
    + assert (y = rnd (rnd (2 * mx) - r)) as -> by congruence. split; [|intros; lra].
      apply Qle_trans with (rnd mx); [apply Hm; lra|lra].
    + assert (y = r) as -> by congruence. auto.
Qed.
(** vectors *)
Lemma truncate_vector_ok bs : forall v v', Forall not_empty bs -> truncate_vector bs v = Ok v' ->
  length v' = length v /\
  forall i r, nth_error v i = Some r ->
    match nth_error bs i with
    | Some b => exists y, nth_error v' i = Some y /\ nearest (inside b) r y /\ (inside b r -> y = r)
    | None => nth_error v' i = Some r
    end.
Proof.
  induction bs as [|b bs IH]; intros v v' Hn H; cbn [truncate_vector] in H.
  - assert (v = v') as -> by congruence. split; auto. intros [|i] r Hr; auto.
  - destruct v as [|r v]; [discriminate|]. apply rbind_ok in H as (v2 & H2 & H).
    assert (v' = truncate b r :: v2) as -> by congruence. inversion Hn; subst.
    apply IH in H2 as [L H2]; auto. split; [simpl; auto|]. intros [|i] q Hq; cbn [nth_error] in *.
    + assert (r = q) as -> by congruence. eexists. split; eauto. apply truncate_ok; auto.
    + exact (H2 i q Hq).
Qed.
Lemma fold_vector_ok bs : forall v us v', fold_vector ident bs v us = Ok v' ->
  length v' = length v /\
  forall i r, nth_error v i = Some r ->
    match nth_error bs i with
    | Some b => exists u y, nth_error us i = Some u /\ nth_error v' i = Some y /\ fold ident b r u = Ok y
    | None => nth_error v' i = Some r
    end.
Proof.
  induction bs as [|b bs IH]; intros v us v' H; cbn [fold_vector] in H.
  - assert (v = v') as -> by congruence. split; auto. intros [|i] r Hr; auto.
  - destruct v as [|r v]; [discriminate|]. destruct us as [|u us]; [discriminate|].
    apply rbind_ok in H as (r' & Hr & H). apply rbind_ok in H as (v2 & H2 & H).
    assert (v' = r' :: v2) as -> by congruence.
    apply IH in H2 as [L H2]. split; [simpl; auto|]. intros [|i] q Hq; cbn [nth_error] in *.
    + assert (r = q) as -> by congruence. eauto 6.
    + exact (H2 i q Hq).
Qed.
Lemma in_bounds_vector_ok bs : forall v b, in_bounds_vector bs v = Ok b ->
  (b = true <-> forall i bd r, nth_error bs i = Some bd -> nth_error v i = Some r -> inside bd r) .
Proof.
  induction bs as [|bd bs IH]; intros v b H; cbn [in_bounds_vector] in H.
  - assert (b = true) as -> by congruence. split; auto. intros _ [|i] ? ? Hb; discriminate.
  - destruct v as [|r v]; [discriminate|]. destruct (in_bounds bd r) eqn:E.
    + apply in_bounds_ok in E. apply IH in H. rewrite H. split.
      * intros Ha [|i] bd' r' Hb Hr; cbn [nth_error] in *; [congruence|eauto].
      * intros Ha i bd' r' Hb Hr. apply (Ha (S i) bd' r'); auto.
    + assert (b = false) as -> by congruence. split; [discriminate|]. intros Ha.
      exfalso. assert (inside bd r) by (apply (Ha 0%nat); auto). apply in_bounds_ok in H0. congruence.
Qed.
