(** Proofs about comparators and the additive epsilon indicator (C42, C48, C67). *)
From Coq Require Import List Bool QArith Qabs Lqa Lia Arith.
From Verif Require Import Outcome BoundsModel BoundsProofs ParetoModel ParetoSpec.
Import ListNotations.
Local Open Scope Q_scope.

Lemma objective_0 d dirs a v b w d' x y : objective (d :: dirs) (a :: v) (b :: w) 0 d' x y <-> d' = d /\ x = a /\ y = b.
Proof. unfold objective. cbn. split; [intros (A & B & C); inversion A; inversion B; inversion C; auto|intros (-> & -> & ->); auto]. Qed.
Lemma objective_S d dirs a v b w i d' x y : objective (d :: dirs) (a :: v) (b :: w) (S i) d' x y <-> objective dirs v w i d' x y.
Proof. unfold objective. cbn. tauto. Qed.
Lemma all_objectives d dirs a v b w (P : bool -> Q -> Q -> Prop) :
  (forall i d' x y, objective (d :: dirs) (a :: v) (b :: w) i d' x y -> P d' x y) <->
  P d a b /\ (forall i d' x y, objective dirs v w i d' x y -> P d' x y).
Proof.
  split.
  - intros H. split; [apply (H 0%nat), objective_0; auto|]. intros i d' x y Ho. apply (H (S i)), objective_S; auto.
  - intros [H0 H] [|i] d' x y Ho; [apply objective_0 in Ho as (-> & -> & ->); auto|]. apply objective_S in Ho. eauto.
Qed.
Lemma some_objective d dirs a v b w (P : bool -> Q -> Q -> Prop) :
  (exists i d' x y, objective (d :: dirs) (a :: v) (b :: w) i d' x y /\ P d' x y) <->
  P d a b \/ (exists i d' x y, objective dirs v w i d' x y /\ P d' x y).
Proof.
  split.
  - intros (i & d' & x & y & Ho & Hp). destruct i as [|i]; [apply objective_0 in Ho as (-> & -> & ->); auto|].
    apply objective_S in Ho. right. eauto 8.
  - intros [H|(i & d' & x & y & Ho & Hp)].
    + exists 0%nat, d, a, b. split; auto; apply objective_0; auto.
    + exists (S i), d', x, y. split; auto; apply objective_S; auto.
Qed.
Lemma objective_nil v w i d x y : ~ objective [] v w i d x y.
Proof. unfold objective. destruct i; intros (H & _); discriminate. Qed.
Lemma objective_swap dirs v w i d x y : objective dirs v w i d x y <-> objective dirs w v i d y x.
Proof. unfold objective. tauto. Qed.
Lemma objective_total dirs v w i d : length v = length dirs -> length w = length dirs -> nth_error dirs i = Some d ->
  exists x y, objective dirs v w i d x y.
Proof.
  intros L1 L2 H. assert (i < length dirs)%nat by (apply nth_error_Some; congruence).
  destruct (nth_error v i) as [x|] eqn:Ex; [|apply nth_error_None in Ex; lia].
  destruct (nth_error w i) as [y|] eqn:Ey; [|apply nth_error_None in Ey; lia]. exists x, y. repeat split; auto.
Qed.

Lemma differ_true tol a b : differ tol a b = true <-> (b - a > tol \/ a - b > tol).
Proof.
  unfold differ. rewrite qltb_lt. destruct (Qlt_le_dec (a - b) 0).
  - rewrite Qabs_neg by lra. split; [left; lra|intros [|]; lra].
  - rewrite Qabs_pos by lra. split; [right; lra|intros [|]; lra].
Qed.
Lemma differ_false tol a b : differ tol a b = false <-> (b - a <= tol /\ a - b <= tol).
Proof.
  split.
  - intros H. assert (~ (b - a > tol \/ a - b > tol)) as N by (rewrite <- differ_true; congruence). split; apply Qnot_lt_le; tauto.
  - intros H. apply not_true_iff_false. rewrite differ_true. lra.
Qed.

Lemma pareto_loop_spec tol : 0 <= tol -> forall dirs v w dom, length v = length dirs -> length w = length dirs ->
  (pareto_loop tol dirs v w dom = true <->
   (forall i d x y, objective dirs w v i d x y -> ~ better_by tol d y x) /\
   (dom = true \/ exists i d x y, objective dirs w v i d x y /\ better_by tol d x y)).
Proof.
  intros Ht. induction dirs as [|d dirs IH]; intros [|a v] [|b w] dom L1 L2; try discriminate; cbn [pareto_loop].
  - split.
    + intros ->. split; [intros i d x y H; destruct (objective_nil _ _ _ _ _ _ H)|auto].
    + intros [_ [H|(i & d & x & y & H & _)]]; auto. destruct (objective_nil _ _ _ _ _ _ H).
  - cbn [length] in *. rewrite (all_objectives d dirs b w a v (fun d x y => ~ better_by tol d y x)), (some_objective d dirs b w a v (fun d x y => better_by tol d x y)).
    destruct (differ tol a b) eqn:E.
    + apply differ_true in E. destruct d; unfold better_by at 1 3; cbn.
      * destruct (qltb b a) eqn:Q; [apply qltb_lt in Q|apply qltb_ge in Q].
        -- rewrite IH by lia. intuition; lra.
        -- split; [discriminate|]. intros ((H & _) & _). exfalso. apply H. lra.
      * destruct (qltb a b) eqn:Q; [apply qltb_lt in Q|apply qltb_ge in Q].
        -- rewrite IH by lia. intuition; lra.
        -- split; [discriminate|]. intros ((H & _) & _). exfalso. apply H. lra.
    + apply differ_false in E. rewrite IH by lia.
      assert (~ better_by tol d a b) by (destruct d; cbn; lra). assert (~ better_by tol d b a) by (destruct d; cbn; lra). tauto.
Qed.
Lemma pareto_tol tol dirs v w : 0 <= tol -> length v = length dirs -> length w = length dirs ->
  (pareto tol dirs v w = true <-> dominates_tol tol dirs w v).
Proof.
  intros Ht L1 L2. unfold pareto, dominates_tol. rewrite pareto_loop_spec by auto. intuition discriminate.
Qed.
Lemma pareto_exact dirs v w : length v = length dirs -> length w = length dirs ->
  (pareto 0 dirs v w = true <-> dominates dirs w v).
Proof. intros L1 L2. rewrite pareto_tol by (auto; lra). reflexivity. Qed.

Lemma pareto_irrefl tol dirs v : 0 <= tol -> length v = length dirs -> pareto tol dirs v v = false.
Proof.
  intros Ht L. apply not_true_iff_false. rewrite pareto_tol by auto. intros [_ (i & d & x & y & (A & B & C) & H)].
  assert (x = y) as -> by congruence. destruct d; cbn in H; lra.
Qed.
Lemma pareto_asym tol dirs v w : 0 <= tol -> length v = length dirs -> length w = length dirs ->
  pareto tol dirs v w = true -> pareto tol dirs w v = false.
Proof.
  intros Ht L1 L2 H. apply not_true_iff_false. rewrite pareto_tol in * by auto. intros [_ (i & d & x & y & Ho & Hb)].
  destruct H as [H _]. apply (H i d y x); auto. apply objective_swap. auto.
Qed.
Lemma pareto_trans dirs u v w : length u = length dirs -> length v = length dirs -> length w = length dirs ->
  pareto 0 dirs u v = true -> pareto 0 dirs v w = true -> pareto 0 dirs u w = true.
Proof.
  intros L1 L2 L3 H1 H2. rewrite pareto_exact in * by auto. destruct H1 as [N1 E1]. destruct H2 as [N2 E2]. split.
  - intros i d x z Ho. destruct (objective_total dirs v v i d) as (y & y' & Hv); auto; [apply Ho|].
    assert (O1 : objective dirs v u i d y z) by (destruct Ho as (A & B & C), Hv as (_ & D & _); repeat split; auto).
    assert (O2 : objective dirs w v i d x y) by (destruct Ho as (A & B & C), Hv as (_ & D & _); repeat split; auto).
    specialize (N1 _ _ _ _ O1). specialize (N2 _ _ _ _ O2). unfold better in *. destruct d; cbn in *; lra.
  - destruct E1 as (i & d & y & z & O1 & B1). destruct (objective_total dirs w w i d) as (x & x' & Hw); auto; [apply O1|].
    assert (O2 : objective dirs w v i d x y) by (destruct O1 as (A & B & C), Hw as (_ & D & _); repeat split; auto).
    exists i, d, x, z. split; [destruct O1 as (A & B & C), Hw as (_ & D & _); repeat split; auto|].
    specialize (N2 _ _ _ _ O2). unfold better in *. destruct d; cbn in *; lra.
Qed.
(** ignoring differences up to any positive tolerance loses transitivity, and allows cycles *)
Lemma pareto_tol_not_trans t : 0 < t -> exists u v w : list Q,
  pareto t [true; true] u v = true /\ pareto t [true; true] v w = true /\ pareto t [true; true] u w = false.
Proof.
  intros Ht. exists [4 * t; 0], [2 * t; t], [0; 2 * t].
  assert (N : forall x, x == 0 -> ~ x > t) by (intros; lra).
  repeat split; [..|apply not_true_iff_false]; rewrite pareto_tol by (auto; lra).
  - split.
    + intros [|[|[|i]]] d x y (A & B & C); cbn in A, B, C; try discriminate; inversion A; inversion B; inversion C; subst; cbn; lra.
    + exists 0%nat, true, (2 * t), (4 * t). split; [repeat split|cbn; lra].
  - split.
    + intros [|[|[|i]]] d x y (A & B & C); cbn in A, B, C; try discriminate; inversion A; inversion B; inversion C; subst; cbn; lra.
    + exists 0%nat, true, 0, (2 * t). split; [repeat split|cbn; lra].
  - intros [H _]. apply (H 1%nat true (2 * t) 0); [repeat split|cbn; lra].
Qed.
Lemma pareto_tol_cycle t : 0 < t -> exists u v w : list Q,
  pareto t [true; true; true] u v = true /\ pareto t [true; true; true] v w = true /\ pareto t [true; true; true] w u = true.
Proof.
  intros Ht. exists [0; 0; 0], [- (2) * t; t; t], [- t; - t; 2 * t].
  repeat split; rewrite pareto_tol by (auto; lra); split.
  - intros [|[|[|[|i]]]] d x y (A & B & C); cbn in A, B, C; try discriminate; inversion A; inversion B; inversion C; subst; cbn; lra.
  - exists 0%nat, true, (- (2) * t), 0. split; [repeat split|cbn; lra].
  - intros [|[|[|[|i]]]] d x y (A & B & C); cbn in A, B, C; try discriminate; inversion A; inversion B; inversion C; subst; cbn; lra.
  - exists 1%nat, true, (- t), t. split; [repeat split|cbn; lra].
  - intros [|[|[|[|i]]]] d x y (A & B & C); cbn in A, B, C; try discriminate; inversion A; inversion B; inversion C; subst; cbn; lra.
  - exists 2%nat, true, 0, (2 * t). split; [repeat split|cbn; lra].
Qed.

(** ** equality *)
Lemma same_vector_exact v w : length v = length w -> (same_vector 0 v w = true <-> equal_vectors v w).
Proof.
  revert w. induction v as [|a v IH]; intros [|b w] L; try discriminate; cbn [same_vector].
  - split; auto. intros _. split; auto. intros [|i] x y H; discriminate.
  - cbn in L. destruct (differ 0 a b) eqn:E.
    + apply differ_true in E. split; [discriminate|]. intros [_ H]. specialize (H 0%nat a b eq_refl eq_refl). lra.
    + apply differ_false in E. rewrite IH by lia. split.
      * intros [_ H]. split; [cbn; lia|]. intros [|i] x y Hx Hy; cbn in Hx, Hy; [inversion Hx; inversion Hy; subst; lra|eauto].
      * intros [_ H]. split; [lia|]. intros i x y. apply (H (S i)).
Qed.
Lemma equal_vectors_refl v : equal_vectors v v.
Proof. split; auto. intros i x y Hx Hy. assert (x = y) as -> by congruence. reflexivity. Qed.
Lemma equal_vectors_sym v w : equal_vectors v w -> equal_vectors w v.
Proof. intros [L H]. split; auto. intros i x y Hx Hy. symmetry. eauto. Qed.
Lemma equal_vectors_trans u v w : equal_vectors u v -> equal_vectors v w -> equal_vectors u w.
Proof.
  intros [L1 H1] [L2 H2]. split; [congruence|]. intros i x z Hx Hz.
  destruct (nth_error v i) as [y|] eqn:E; [rewrite (H1 i x y); eauto|].
  apply nth_error_None in E. assert (i < length u)%nat by (apply nth_error_Some; congruence). lia.
Qed.
Lemma dominates_equal dirs v v' w w' : equal_vectors v v' -> equal_vectors w w' -> dominates dirs v w -> dominates dirs v' w'.
Proof.
  intros [L1 E1] [L2 E2] [N E].
  assert (T : forall i d x' y', objective dirs v' w' i d x' y' -> exists x y, objective dirs v w i d x y /\ x == x' /\ y == y').
  { intros i d x' y' (A & B & C).
    destruct (nth_error v i) as [x|] eqn:Ex; [|apply nth_error_None in Ex; assert (i < length v')%nat by (apply nth_error_Some; congruence); lia].
    destruct (nth_error w i) as [y|] eqn:Ey; [|apply nth_error_None in Ey; assert (i < length w')%nat by (apply nth_error_Some; congruence); lia].
    exists x, y. repeat split; eauto. }
  split.
  - intros i d x' y' Ho. destruct (T _ _ _ _ Ho) as (x & y & Ho' & Ex & Ey). specialize (N _ _ _ _ Ho').
    unfold better in *. destruct d; cbn in *; lra.
  - destruct E as (i & d & x & y & (A & B & C) & Hb).
    destruct (nth_error v' i) as [x'|] eqn:Ex; [|apply nth_error_None in Ex; assert (i < length v)%nat by (apply nth_error_Some; congruence); lia].
    destruct (nth_error w' i) as [y'|] eqn:Ey; [|apply nth_error_None in Ey; assert (i < length w)%nat by (apply nth_error_Some; congruence); lia].
    exists i, d, x', y'. split; [repeat split; auto|]. pose proof (E1 _ _ _ B Ex). pose proof (E2 _ _ _ C Ey). unfold better in *. destruct d; cbn in *; lra.
Qed.

(** ** other comparators *)
Lemma weak_exact dirs : forall v w, length v = length dirs -> length w = length dirs -> (weak 0 dirs v w = true <-> weakly_dominates dirs w v).
Proof.
  induction dirs as [|d dirs IH]; intros [|a v] [|b w] L1 L2; try discriminate; cbn [weak].
  - split; auto. intros _ i d x y H. destruct (objective_nil _ _ _ _ _ _ H).
  - cbn [length] in *. unfold weakly_dominates. rewrite (all_objectives d dirs b w a v (fun d x y => ~ better d y x)).
    unfold weakly_dominates in IH. rewrite <- (IH v w) by lia. unfold better. destruct (differ 0 a b) eqn:E.
    + apply differ_true in E. destruct d; cbn.
      * destruct (qltb a b) eqn:Q; [apply qltb_lt in Q|apply qltb_ge in Q]; split; intros H; try discriminate; try (destruct H; lra); intuition; lra.
      * destruct (qltb b a) eqn:Q; [apply qltb_lt in Q|apply qltb_ge in Q]; split; intros H; try discriminate; try (destruct H; lra); intuition; lra.
    + apply differ_false in E. destruct d; cbn; intuition; lra.
Qed.
Lemma pareto_weak dirs v w : length v = length dirs -> length w = length dirs ->
  (pareto 0 dirs v w = true <-> weak 0 dirs v w = true /\ weak 0 dirs w v = false).
Proof.
  intros L1 L2. rewrite pareto_exact, <- not_true_iff_false, !weak_exact by auto. unfold dominates. split.
  - intros [N (i & d & x & y & Ho & Hb)]. split; [exact N|]. intros W. apply (W i d y x); auto. apply objective_swap; auto.
  - intros [N W]. split; [exact N|]. clear N. revert v w L1 L2 W. induction dirs as [|d dirs IH]; intros [|a v] [|b w] L1 L2 W; try discriminate.
    + exfalso. apply W. intros i d x y H. destruct (objective_nil _ _ _ _ _ _ H).
    + cbn [length] in *. rewrite (some_objective d dirs b w a v (fun d x y => better d x y)).
      unfold weakly_dominates in W. rewrite (all_objectives d dirs a v b w (fun d x y => ~ better d y x)) in W.
      assert (D : better d b a \/ ~ better d b a).
      { unfold better. destruct d; cbn; [destruct (Qlt_le_dec 0 (a - b))|destruct (Qlt_le_dec 0 (b - a))]; [left; lra|right; lra|left; lra|right; lra]. }
      destruct D as [D|D]; [left; auto|right]. apply IH; try lia. tauto.
Qed.
Lemma strict_tol tol dirs : 0 < tol -> forall v w, length v = length dirs -> length w = length dirs ->
  (strict tol dirs v w = true <-> forall i d x y, objective dirs w v i d x y -> if d then y - x >= tol else x - y >= tol).
Proof.
  intros Ht. induction dirs as [|d dirs IH]; intros [|a v] [|b w] L1 L2; try discriminate; cbn [strict].
  - split; auto. intros _ i d x y H. destruct (objective_nil _ _ _ _ _ _ H).
  - cbn [length] in *. rewrite (all_objectives d dirs b w a v (fun d x y => if d then y - x >= tol else x - y >= tol)).
    rewrite <- (IH v w) by lia. destruct (qltb (Qabs (a - b)) tol) eqn:E.
    + apply qltb_lt in E. apply Qabs_Qlt_condition in E. split; [discriminate|]. destruct d; intros [H _]; lra.
    + apply qltb_ge in E. assert (a - b >= tol \/ b - a >= tol) as C.
      { destruct (Qlt_le_dec (a - b) 0); [rewrite Qabs_neg in E by lra; right; lra|rewrite Qabs_pos in E by lra; left; lra]. }
      destruct d.
      * destruct (qltb a b) eqn:Q; [apply qltb_lt in Q|apply qltb_ge in Q]; split; intros H; try discriminate; try (destruct H; lra); intuition; lra.
      * destruct (qltb b a) eqn:Q; [apply qltb_lt in Q|apply qltb_ge in Q]; split; intros H; try discriminate; try (destruct H; lra); intuition; lra.
Qed.
Lemma epsilon_cmp_exact eps dirs : forall v w, length v = length dirs -> length w = length dirs ->
  (epsilon_cmp 0 eps dirs v w = true <-> weakly_dominates dirs w (map (fun x => x / eps) v)).
Proof.
  induction dirs as [|d dirs IH]; intros [|a v] [|b w] L1 L2; try discriminate; cbn [epsilon_cmp map].
  - split; auto. intros _ i d x y H. destruct (objective_nil _ _ _ _ _ _ H).
  - cbn [length] in *. unfold weakly_dominates. rewrite (all_objectives d dirs b w (a / eps) (map (fun x => x / eps) v) (fun d x y => ~ better d y x)).
    unfold weakly_dominates in IH. rewrite <- (IH v w) by lia. unfold better. set (q := a / eps). destruct (differ 0 q b) eqn:E.
    + apply differ_true in E. destruct d; cbn.
      * destruct (Qle_bool q b) eqn:Q; [apply Qle_bool_iff in Q|assert (~ q <= b) by (rewrite <- Qle_bool_iff; congruence)]; split; intros H'; try discriminate; try (destruct H'; lra); intuition; lra.
      * destruct (Qle_bool b q) eqn:Q; [apply Qle_bool_iff in Q|assert (~ b <= q) by (rewrite <- Qle_bool_iff; congruence)]; split; intros H'; try discriminate; try (destruct H'; lra); intuition; lra.
    + apply differ_false in E. destruct d; cbn; intuition; lra.
Qed.
Lemma some_above_spec : forall v r, length v = length r ->
  (some_above v r = true <-> exists i x y, nth_error v i = Some x /\ nth_error r i = Some y /\ y < x).
Proof.
  induction v as [|a v IH]; intros [|b r] L; try discriminate; cbn [some_above].
  - split; [discriminate|]. intros (i & x & y & H & _). destruct i; discriminate.
  - cbn in L. rewrite orb_true_iff, qltb_lt, IH by lia. split.
    + intros [H|(i & x & y & Hx & Hy & H)]; [exists 0%nat, a, b|exists (S i), x, y]; auto.
    + intros (i & x & y & Hx & Hy & H). destruct i as [|i]; cbn in Hx, Hy; [left; inversion Hx; inversion Hy; subst; auto|right; eauto 6].
Qed.
Lemma gflag_spec ref v : length v = length ref -> (gflag ref v = true <-> comparable_to ref v).
Proof.
  intros L. unfold gflag, comparable_to.
  assert (A : some_above v ref = false <-> forall i x y, nth_error v i = Some x -> nth_error ref i = Some y -> x <= y).
  { rewrite <- not_true_iff_false, some_above_spec by auto. split.
    - intros H i x y Hx Hy. apply Qnot_lt_le. intros C. apply H. eauto 6.
    - intros H (i & x & y & Hx & Hy & C). specialize (H i x y Hx Hy). lra. }
  assert (B : some_above ref v = false <-> forall i x y, nth_error v i = Some x -> nth_error ref i = Some y -> y <= x).
  { rewrite <- not_true_iff_false, some_above_spec by auto. split.
    - intros H i x y Hx Hy. apply Qnot_lt_le. intros C. apply H. eauto 6.
    - intros H (i & x & y & Hx & Hy & C). specialize (H i y x Hy Hx). lra. }
  destruct (some_above v ref); [rewrite negb_true_iff, B|tauto]. split; [auto|]. intros [H|]; auto. exfalso. apply A in H. discriminate.
Qed.
Lemma gdominance_spec dirs ref v w : length v = length dirs -> length w = length dirs -> length ref = length dirs ->
  (gdominance 0 dirs ref v w = true <-> comparable_to ref w /\ (~ comparable_to ref v \/ dominates dirs w v)).
Proof.
  intros L1 L2 L3. unfold gdominance. rewrite <- !gflag_spec by lia.
  destruct (gflag ref w); cbn [negb]; [|intuition discriminate].
  destruct (gflag ref v); cbn [negb]; [|intuition discriminate]. rewrite pareto_exact by auto. intuition.
Qed.
Lemma gdominance_irrefl dirs ref v : length v = length dirs -> gdominance 0 dirs ref v v = false.
Proof. intros L. unfold gdominance. destruct (gflag ref v); cbn; auto. apply pareto_irrefl; auto. lra. Qed.
Lemma gdominance_trans dirs ref u v w : length u = length dirs -> length v = length dirs -> length w = length dirs ->
  gdominance 0 dirs ref u v = true -> gdominance 0 dirs ref v w = true -> gdominance 0 dirs ref u w = true.
Proof.
  intros L1 L2 L3. unfold gdominance. destruct (gflag ref u), (gflag ref v), (gflag ref w); cbn; try discriminate; auto.
  apply pareto_trans; auto.
Qed.
Lemma lexicographic_spec dirs : forall v w, length v = length dirs -> length w = length dirs ->
  (lexicographic 0 dirs v w = true <-> exists i x y, nth_error v i = Some x /\ nth_error w i = Some y /\ x < y /\
     forall j x' y', (j < i)%nat -> nth_error v j = Some x' -> nth_error w j = Some y' -> x' == y').
Proof.
  induction dirs as [|d dirs IH]; intros [|a v] [|b w] L1 L2; try discriminate; cbn [lexicographic].
  - split; [discriminate|]. intros (i & x & y & H & _). destruct i; discriminate.
  - cbn [length] in *. destruct (differ 0 a b) eqn:E.
    + apply differ_true in E. destruct (qltb a b) eqn:Q; [apply qltb_lt in Q|apply qltb_ge in Q]; split; intros H; auto; try discriminate.
      * exists 0%nat, a, b. repeat split; auto. intros; lia.
      * destruct H as (i & x & y & Hx & Hy & Hl & Hj). destruct i as [|i]; cbn in Hx, Hy; [inversion Hx; inversion Hy; subst; lra|].
        specialize (Hj 0%nat a b ltac:(lia) eq_refl eq_refl). lra.
    + apply differ_false in E. rewrite IH by lia. split.
      * intros (i & x & y & Hx & Hy & Hl & Hj). exists (S i), x, y. repeat split; auto. intros [|j] x' y' Hji Hx' Hy'; cbn in Hx', Hy'; [inversion Hx'; inversion Hy'; subst; lra|].
        apply (Hj j); auto; lia.
      * intros (i & x & y & Hx & Hy & Hl & Hj). destruct i as [|i]; cbn in Hx, Hy; [inversion Hx; inversion Hy; subst; lra|].
        exists i, x, y. repeat split; auto. intros j x' y' Hji. apply (Hj (S j)). lia.
Qed.

(** ** additive epsilon *)
Lemma std_max_l a b : a <= std_max a b.
Proof. unfold std_max. destruct (qltb a b) eqn:Q; [apply qltb_lt in Q|]; lra. Qed.
Lemma std_max_r a b : b <= std_max a b.
Proof. unfold std_max. destruct (qltb a b) eqn:Q; [|apply qltb_ge in Q]; lra. Qed.
Lemma std_max_cases a b : std_max a b = a \/ std_max a b = b.
Proof. unfold std_max. destruct (qltb a b); auto. Qed.
Lemma norm_of_normal bs i x : norm_of bs i x = normal (nth i bs (0, 1)) x.
Proof. reflexivity. Qed.
Lemma covers_cons d dirs b bs x v y w e :
  covers_with (norm_of (b :: bs)) (d :: dirs) (x :: v) (y :: w) e <->
  epsilon1 d b x y <= e /\ covers_with (norm_of bs) dirs v w e.
Proof.
  unfold covers_with. split.
  - intros H. split.
    + specialize (H 0%nat d x y (proj2 (objective_0 _ _ _ _ _ _ _ _ _) (conj eq_refl (conj eq_refl eq_refl)))). rewrite !norm_of_normal in H. cbn [nth] in H. unfold epsilon1. destruct d; lra.
    + intros i d' x' y' Ho. apply (H (S i) d' x' y'). apply objective_S. auto.
  - intros [H0 H] [|i] d' x' y' Ho.
    + apply objective_0 in Ho as (-> & -> & ->). rewrite !norm_of_normal. cbn [nth]. unfold epsilon1 in H0. destruct d; lra.
    + apply objective_S in Ho. apply (H i d' x' y' Ho).
Qed.
Lemma covers_nil bs v w e : covers_with (norm_of bs) [] v w e.
Proof. intros i d x y H. destruct (objective_nil _ _ _ _ _ _ H). Qed.
Lemma epsilon_loop_least : forall dirs bs v w r, length bs = length dirs -> length v = length dirs -> length w = length dirs ->
  least (fun e => r <= e /\ covers_with (norm_of bs) dirs v w e) (epsilon_loop dirs bs v w r).
Proof.
  induction dirs as [|d dirs IH]; intros [|b bs] [|x v] [|y w] r L0 L1 L2; try discriminate; cbn [epsilon_loop].
  - split; [split; [lra|apply covers_nil]|tauto].
  - cbn [length] in *. destruct (IH bs v w (std_max r (epsilon1 d b x y)) ltac:(lia) ltac:(lia) ltac:(lia)) as [[A B] C].
    pose proof (std_max_l r (epsilon1 d b x y)). pose proof (std_max_r r (epsilon1 d b x y)). split.
    + split; [lra|]. apply covers_cons. split; [lra|auto].
    + intros e' [H1 H2]. apply covers_cons in H2 as [H2 H3]. apply C. split; auto. destruct (std_max_cases r (epsilon1 d b x y)) as [->| ->]; auto.
Qed.
Lemma epsilon_metric_least dirs bs v w : dirs <> [] -> length bs = length dirs -> length v = length dirs -> length w = length dirs ->
  exists e, epsilon_metric dirs bs v w = Ok e /\ least (covers_with (norm_of bs) dirs v w) e.
Proof.
  intros Hd L0 L1 L2. destruct dirs as [|d dirs], bs as [|b bs], v as [|x v], w as [|y w]; try congruence; try discriminate. cbn [length] in *.
  cbn [epsilon_metric]. eexists. split; [reflexivity|].
  destruct (epsilon_loop_least dirs bs v w (epsilon1 d b x y) ltac:(lia) ltac:(lia) ltac:(lia)) as [[A B] C]. split.
  - apply covers_cons. auto.
  - intros e' H. apply covers_cons in H. auto.
Qed.
Lemma normal_mono b x y : 0 < snd b -> (normal b x <= normal b y <-> x <= y).
Proof.
  intros H. unfold normal, Qdiv. pose proof (Qinv_lt_0_compat _ H) as Hi. rewrite Qmult_le_r by auto. lra.
Qed.
Lemma epsilon_sign dirs bs v w e : dirs <> [] -> length bs = length dirs -> length v = length dirs -> length w = length dirs ->
  Forall (fun b => 0 < snd b) bs -> epsilon_metric dirs bs v w = Ok e -> (e <= 0 <-> weakly_dominates dirs v w).
Proof.
  intros Hd L0 L1 L2 Hb He. destruct (epsilon_metric_least dirs bs v w Hd L0 L1 L2) as (e' & He' & [Hc Hl]). assert (e' = e) as -> by congruence.
  assert (P : forall i d, nth_error dirs i = Some d -> 0 < snd (nth i bs (0, 1))).
  { intros i d Hi. assert (i < length dirs)%nat by (apply nth_error_Some; congruence). rewrite Forall_forall in Hb. apply Hb, nth_In. lia. }
  split.
  - intros H i d x y Ho. specialize (Hc i d x y Ho). destruct Ho as (Hi & _). specialize (P i d Hi). rewrite !norm_of_normal in Hc. unfold better. destruct d; cbn.
    + assert (normal (nth i bs (0, 1)) x <= normal (nth i bs (0, 1)) y) as X by lra. apply normal_mono in X; auto. lra.
    + assert (normal (nth i bs (0, 1)) y <= normal (nth i bs (0, 1)) x) as X by lra. apply normal_mono in X; auto. lra.
  - intros H. apply Hl. intros i d x y Ho. specialize (H i d x y Ho). destruct Ho as (Hi & _). specialize (P i d Hi). rewrite !norm_of_normal. unfold better in *. destruct d; cbn in H.
    + assert (normal (nth i bs (0, 1)) x <= normal (nth i bs (0, 1)) y) by (apply normal_mono; auto; lra). lra.
    + assert (normal (nth i bs (0, 1)) y <= normal (nth i bs (0, 1)) x) by (apply normal_mono; auto; lra). lra.
Qed.
Lemma epsilon_triangle dirs bs u v w e1 e2 e3 : dirs <> [] -> length bs = length dirs -> length u = length dirs -> length v = length dirs -> length w = length dirs ->
  epsilon_metric dirs bs u v = Ok e1 -> epsilon_metric dirs bs v w = Ok e2 -> epsilon_metric dirs bs u w = Ok e3 -> e3 <= e1 + e2.
Proof.
  intros Hd L0 L1 L2 L3 H1 H2 H3.
  destruct (epsilon_metric_least dirs bs u v Hd L0 L1 L2) as (a & Ha & [Ca _]). destruct (epsilon_metric_least dirs bs v w Hd L0 L2 L3) as (b & Hb & [Cb _]).
  destruct (epsilon_metric_least dirs bs u w Hd L0 L1 L3) as (c & Hc & [_ Lc]).
  assert (a = e1) as -> by congruence. assert (b = e2) as -> by congruence. assert (c = e3) as -> by congruence.
  apply Lc. intros i d x z Ho. destruct (objective_total dirs v v i d) as (y & y' & Hv); auto; [apply Ho|].
  assert (O1 : objective dirs u v i d x y) by (destruct Ho as (A & B & C), Hv as (_ & D & _); repeat split; auto).
  assert (O2 : objective dirs v w i d y z) by (destruct Ho as (A & B & C), Hv as (_ & D & _); repeat split; auto).
  specialize (Ca _ _ _ _ O1). specialize (Cb _ _ _ _ O2). destruct d; lra.
Qed.

Lemma dual_pareto_spec dirs a b : length (snd a) = length dirs -> length (snd b) = length dirs ->
  (dual_pareto 0 dirs a b = true <->
   (fst a = false /\ fst b = true) \/ (fst a = fst b /\ dominates dirs (snd b) (snd a))).
Proof.
  intros L1 L2. unfold dual_pareto. rewrite <- pareto_exact by auto. destruct (fst a), (fst b); cbn; intuition discriminate.
Qed.
Lemma dual_pareto_irrefl dirs a : length (snd a) = length dirs -> dual_pareto 0 dirs a a = false.
Proof. intros L. unfold dual_pareto. destruct (fst a); cbn; apply pareto_irrefl; auto; lra. Qed.
Lemma dual_pareto_trans dirs a b c : length (snd a) = length dirs -> length (snd b) = length dirs -> length (snd c) = length dirs ->
  dual_pareto 0 dirs a b = true -> dual_pareto 0 dirs b c = true -> dual_pareto 0 dirs a c = true.
Proof.
  intros L1 L2 L3. unfold dual_pareto. destruct (fst a), (fst b), (fst c); cbn; try discriminate; auto; apply pareto_trans; auto.
Qed.
