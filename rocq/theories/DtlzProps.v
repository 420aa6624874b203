(** * Properties of the DTLZ problems and of their operators *)
From Coq Require Import List Arith Bool Lia Reals Lra.
From Verif Require Import Lib Outcome DtlzModel DtlzSpec DtlzProofs DtlzMore DtlzOps DtlzExact.
From Coq Require Import List.
Import ListNotations.
Open Scope R_scope.

(** ** C168: the DTLZ problems *)
(** a problem with m objectives and at least m variables between 0 and 1: the objectives of DTLZ1 are m non-negative
    shares of (1 + g) / 2 *)
Theorem C168_dtlz1_values : forall m x, (1 <= m <= length x)%nat -> in_box x ->
  exists f, dtlz1 m x = Ok f /\ length f = m /\ (forall v, In v f -> 0 <= v) /\
    rsum f = / 2 * (1 + rastrigin (distance m x)) /\
    f = map (Rmult (/ 2 * (1 + rastrigin (distance m x)))) (rev (spread (fun v => v) (fun v => 1 - v) (position m x))).
Proof.
  intros m x M B. eexists. split; [apply dtlz1_ok; lia|]. destruct (sum1 m x _ ltac:(lia) (dtlz1_ok m x ltac:(lia))) as [L Sm]. split; [exact L|]. split; [|split; [exact Sm|reflexivity]].
  apply scaled_nonneg; [assert (G := proj1 (rastrigin_zero (distance m x))); lra|]. apply rev_in. apply spread_nonneg. intros v Hv. apply position_in, B in Hv. lra.
Qed.
(** the vectors whose distance variables are all 1/2, and only they, are Pareto optimal *)
Theorem C168_dtlz1_front : forall m x, (1 <= m <= length x)%nat -> in_box x ->
  (optimal (fun x v => dtlz1 m x = Ok v) x <-> forall v, In v (distance m x) -> v = / 2).
Proof. exact optimal1. Qed.

(** DTLZ2, DTLZ3 and DTLZ4: the objectives are the coordinates of a point of the sphere of radius 1 + g *)
Theorem C168_dtlz2_values : forall m x, (1 <= m <= length x)%nat -> in_box x ->
  exists f, dtlz2 m x = Ok f /\ length f = m /\ (forall v, In v f -> 0 <= v) /\
    sum_of_squares f = (1 + sphere (distance m x)) * (1 + sphere (distance m x)) /\
    f = map (Rmult (1 + sphere (distance m x))) (rev (spread (fun v => cos (v * PI / 2)) (fun v => sin (v * PI / 2)) (position m x))).
Proof.
  intros m x M B. eexists. split; [apply dtlz2_ok; lia|].
  destruct (sum_round m (1 + sphere (distance m x)) quarter_cos quarter_sin (position m x) _ (position_length m x ltac:(lia)) ltac:(lia) (fun v _ => circle _) eq_refl) as [L Sm].
  split; [exact L|]. split; [|split; [exact Sm|reflexivity]].
  apply scaled_nonneg; [assert (G := proj1 (sphere_zero (distance m x))); lra|]. apply rev_in. apply spread_nonneg. intros v Hv. apply position_in, B in Hv. apply quarter. auto.
Qed.
Theorem C168_dtlz2_front : forall m x, (1 <= m <= length x)%nat -> in_box x ->
  (optimal (fun x v => dtlz2 m x = Ok v) x <-> forall v, In v (distance m x) -> v = / 2).
Proof. exact optimal2. Qed.
Theorem C168_dtlz3_values : forall m x, (1 <= m <= length x)%nat -> in_box x ->
  exists f, dtlz3 m x = Ok f /\ length f = m /\ (forall v, In v f -> 0 <= v) /\
    sum_of_squares f = (1 + rastrigin (distance m x)) * (1 + rastrigin (distance m x)) /\
    f = map (Rmult (1 + rastrigin (distance m x))) (rev (spread (fun v => cos (v * PI / 2)) (fun v => sin (v * PI / 2)) (position m x))).
Proof.
  intros m x M B. eexists. split; [apply dtlz3_ok; lia|].
  destruct (sum_round m (1 + rastrigin (distance m x)) quarter_cos quarter_sin (position m x) _ (position_length m x ltac:(lia)) ltac:(lia) (fun v _ => circle _) eq_refl) as [L Sm].
  split; [exact L|]. split; [|split; [exact Sm|reflexivity]].
  apply scaled_nonneg; [assert (G := proj1 (rastrigin_zero (distance m x))); lra|]. apply rev_in. apply spread_nonneg. intros v Hv. apply position_in, B in Hv. apply quarter. auto.
Qed.
Theorem C168_dtlz3_front : forall m x, (1 <= m <= length x)%nat -> in_box x ->
  (optimal (fun x v => dtlz3 m x = Ok v) x <-> forall v, In v (distance m x) -> v = / 2).
Proof. exact optimal3. Qed.
(** DTLZ4 raises the position variables to the power alpha *)
Theorem C168_dtlz4_values : forall alpha m x, 0 < alpha -> (1 <= m <= length x)%nat -> in_box x ->
  exists f p, dtlz4 alpha m x = Ok f /\ length f = m /\ (forall v, In v f -> 0 <= v) /\
    sum_of_squares f = (1 + sphere (distance m x)) * (1 + sphere (distance m x)) /\
    Forall2 (fun v w => (v = 0 -> w = 0) /\ (0 < v -> w = Rpower v alpha)) (position m x) p /\
    f = map (Rmult (1 + sphere (distance m x))) (rev (spread (fun v => cos (v * PI / 2)) (fun v => sin (v * PI / 2)) p)).
Proof.
  intros al m x Al M B. eexists. exists (map (fun v => c_pow v al) (position m x)). split; [apply dtlz4_ok; lia|].
  destruct (sum_round m (1 + sphere (distance m x)) (fun v => quarter_cos (c_pow v al)) (fun v => quarter_sin (c_pow v al)) (position m x) _ (position_length m x ltac:(lia)) ltac:(lia) (fun v _ => circle _) eq_refl) as [L Sm].
  split; [exact L|]. split; [|split; [exact Sm|split]].
  - apply scaled_nonneg; [assert (G := proj1 (sphere_zero (distance m x))); lra|]. apply rev_in. apply spread_nonneg. intros v Hv. apply position_in, B in Hv. apply quarter. apply c_pow_01; auto.
  - clear. induction (position m x) as [|v p IH]; cbn; constructor; auto. unfold c_pow. destruct (Req_EM_T v 0); split; intros; auto; lra.
  - f_equal. f_equal. clear. induction (position m x) as [|v p IH]; [reflexivity|]. cbn [spread map]. rewrite IH. reflexivity.
Qed.
Theorem C168_dtlz4_front : forall alpha m x, 0 < alpha -> (1 <= m <= length x)%nat -> in_box x ->
  (optimal (fun x v => dtlz4 alpha m x = Ok v) x <-> forall v, In v (distance m x) -> v = / 2).
Proof. exact optimal4. Qed.

(** DTLZ5 and DTLZ6: the same with the angles bent towards a curve *)
Theorem C168_dtlz5_values : forall m x, (2 <= m <= length x)%nat -> in_box x ->
  exists f, dtlz5 m x = Ok f /\ length f = m /\ (forall v, In v f -> 0 <= v) /\
    sum_of_squares f = (1 + sphere (distance m x)) * (1 + sphere (distance m x)) /\
    f = map (Rmult (1 + sphere (distance m x))) (rev (spread cos sin (theta (sphere (distance m x)) (position m x)))).
Proof.
  intros m x M B. assert (G := proj1 (sphere_zero (distance m x))). eexists. split; [apply dtlz5_ok; lia|].
  destruct (sum_round m (1 + sphere (distance m x)) cos sin (theta (sphere (distance m x)) (position m x)) _ ltac:(rewrite theta_length; apply position_length; lia) ltac:(lia) (fun v _ => circle _) eq_refl) as [L Sm].
  split; [exact L|]. split; [|split; [exact Sm|reflexivity]].
  apply scaled_nonneg; [lra|]. apply rev_in. apply spread_nonneg. intros v Hv. apply theta_quarter in Hv; auto using box_position. assert (P := PI_RGT_0). split; [apply cos_ge_0|apply sin_ge_0]; lra.
Qed.
Theorem C168_dtlz5_front : forall m x, (2 <= m <= length x)%nat -> in_box x ->
  (forall v, In v (distance m x) -> v = / 2) -> optimal (fun x v => dtlz5 m x = Ok v) x.
Proof. intros m x M B H. apply (optimal56 m x _ sphere (/ 2)); auto. - intros; apply dtlz5_ok; auto. - intros; apply sphere_zero. Qed.
Theorem C168_dtlz6_values : forall m x, (2 <= m <= length x)%nat -> in_box x ->
  exists f rs, Forall2 tenth_root (distance m x) rs /\ dtlz6 m x = Ok f /\ length f = m /\ (forall v, In v f -> 0 <= v) /\
    sum_of_squares f = (1 + rsum rs) * (1 + rsum rs) /\
    f = map (Rmult (1 + rsum rs)) (rev (spread cos sin (theta (rsum rs) (position m x)))).
Proof.
  intros m x M B. assert (G := proj1 (roots_zero (distance m x) (distance_box m x B))). eexists. exists (map (fun v => c_pow v (/ 10)) (distance m x)).
  fold (roots (distance m x)). split; [|split; [apply dtlz6_ok; lia|]].
  - assert (D := distance_box m x B). revert D. generalize (distance m x) as l. clear. induction l as [|v l IH]; intros D; cbn; constructor; [apply c_pow_root, D; left; auto|apply IH; intros w Hw; apply D; right; auto].
  - destruct (sum_round m (1 + roots (distance m x)) cos sin (theta (roots (distance m x)) (position m x)) _ ltac:(rewrite theta_length; apply position_length; lia) ltac:(lia) (fun v _ => circle _) eq_refl) as [L Sm].
    split; [exact L|]. split; [|split; [exact Sm|reflexivity]].
    apply scaled_nonneg; [lra|]. apply rev_in. apply spread_nonneg. intros v Hv. apply theta_quarter in Hv; auto using box_position. assert (P := PI_RGT_0). split; [apply cos_ge_0|apply sin_ge_0]; lra.
Qed.
Theorem C168_dtlz6_front : forall m x, (2 <= m <= length x)%nat -> in_box x ->
  (forall v, In v (distance m x) -> v = 0) -> optimal (fun x v => dtlz6 m x = Ok v) x.
Proof. intros m x M B H. apply (optimal56 m x _ roots 0); auto. - intros; apply dtlz6_ok; auto. - apply roots_zero. Qed.

(** DTLZ7: the position variables, then m (1 + g) less what the positions earn; only distance variables at 0 are optimal *)
Theorem C168_dtlz7_values : forall m x, (1 <= m <= length x)%nat -> in_box x ->
  dtlz7 m x = Ok (position m x ++ [INR m * (1 + mean9 (distance m x)) - rsum (map (fun v => v * (1 + sin (3 * PI * v))) (position m x))]) /\
  1 <= mean9 (distance m x).
Proof. intros m x M B. split; [apply dtlz7_ok; auto|]. apply mean9_zero; [unfold distance; rewrite skipn_length; lia|apply distance_box; auto]. Qed.
Theorem C168_dtlz7_front : forall m x, (1 <= m <= length x)%nat -> in_box x ->
  optimal (fun x v => dtlz7 m x = Ok v) x -> forall v, In v (distance m x) -> v = 0.
Proof. exact optimal7. Qed.
(** with fewer variables than objectives, less one, the evaluations read past the end of the vector; so do DTLZ5 and
    DTLZ6 with a single objective *)
Theorem C168_variables_missing_outside : forall m x alpha, (length x + 2 <= m)%nat ->
  dtlz1 m x = UB /\ dtlz2 m x = UB /\ dtlz3 m x = UB /\ dtlz4 alpha m x = UB.
Proof.
  intros m x al L. unfold dtlz1, dtlz2, dtlz3, dtlz4. rewrite !tail_sum_out by auto. cbn [rbind]. repeat split; apply shape_out; auto.
Qed.
Theorem C168_single_objective_outside : forall x, dtlz5 1 x = UB /\ dtlz6 1 x = UB.
Proof. intros x. unfold dtlz5, dtlz6. rewrite !tail_sum_ok by lia. auto. Qed.

(** two objectives and two variables: (1/4, 1/2) is optimal for DTLZ1, with objectives (1/8, 3/8); (1/4, 1) is not *)
Example C168_example_optimal : dtlz1 2 [/ 4; / 2] = Ok [/ 8; 3 / 8] /\ optimal (fun x v => dtlz1 2 x = Ok v) [/ 4; / 2].
Proof.
  assert (B : in_box [/ 4; / 2]) by (intros v [<-|[<-|[]]]; lra). split.
  - rewrite dtlz1_ok by (cbn; lia). rewrite (proj2 (proj2 (rastrigin_zero _))) by (intros v [<-|[]]; auto). cbn. do 2 f_equal; [|f_equal]; lra.
  - apply C168_dtlz1_front; [cbn; lia|exact B|]. intros v [<-|[]]. auto.
Qed.
Example C168_example_dominated : ~ optimal (fun x v => dtlz2 3 x = Ok v) [/ 4; 1; 1; / 2].
Proof.
  assert (B : in_box [/ 4; 1; 1; / 2]) by (intros v [<-|[<-|[<-|[<-|[]]]]]; lra).
  intros H. assert (E := proj1 (C168_dtlz2_front 3 [/ 4; 1; 1; / 2] ltac:(cbn; lia) B) H 1 (or_introl eq_refl)). lra.
Qed.
Example C168_example_dtlz6 : optimal (fun x v => dtlz6 3 x = Ok v) [/ 4; 1; 0; 0].
Proof. apply C168_dtlz6_front; [cbn; lia|intros v [<-|[<-|[<-|[<-|[]]]]]; lra|]. intros v [<-|[<-|[]]]; auto. Qed.

(** ** C169: the SBX crossover and the polynomial mutation *)
Theorem C169_sbx : forall eta bs x y us coins ch x' y' us' coins', 0 <= eta ->
  Forall2 within bs x -> Forall2 within bs y -> (forall u, In u us -> 0 <= u < 1) ->
  sbx eta (map Some bs) x y us coins = Ok (ch, x', y', us', coins') ->
  length x' = length bs /\ length y' = length bs /\
  (forall i lo hi a b a' b', nth_error bs i = Some (lo, hi) -> nth_error x i = Some a -> nth_error y i = Some b -> nth_error x' i = Some a' -> nth_error y' i = Some b' -> blended lo hi a b a' b') /\
  (ch = true <-> exists i a b, nth_error x i = Some a /\ nth_error y i = Some b /\ / 10 ^ 14 < Rabs (a - b)).
Proof. intros eta bs x y us coins ch x' y' us' coins' Eta. apply sbx_spec. exact Eta. Qed.
(** where the parents differ the children are exactly those of the bounded SBX distribution for the number drawn (one for
    each such variable), and the coin tells which child is which *)
Theorem C169_sbx_children : forall eta bs x y us coins ch x' y' us' coins', 0 <= eta ->
  Forall2 within bs x -> Forall2 within bs y -> (forall u, In u us -> 0 <= u < 1) ->
  sbx eta (map Some bs) x y us coins = Ok (ch, x', y', us', coins') ->
  forall i lo hi a b a' b', nth_error bs i = Some (lo, hi) -> nth_error x i = Some a -> nth_error y i = Some b -> nth_error x' i = Some a' -> nth_error y' i = Some b' ->
  / 10 ^ 14 < Rabs (a - b) ->
  exists u flip, nth_error us (differing x y i) = Some u /\ nth_error coins (differing x y i) = Some flip /\
    low_child eta lo a b u (if flip then b' else a') /\ high_child eta hi a b u (if flip then a' else b').
Proof. intros eta bs x y us coins ch x' y' us' coins' Eta. apply sbx_children. exact Eta. Qed.
(** a number and a coin per variable are enough *)
Theorem C169_sbx_works : forall eta bs x y us coins, length x = length bs -> length y = length bs -> (length x <= length us)%nat -> (length x <= length coins)%nat ->
  exists ch x' y' us' coins', sbx eta (map Some bs) x y us coins = Ok (ch, x', y', us', coins').
Proof. exact sbx_works. Qed.
(** a mutated variable moves by no more than its distance to the nearest bound, downwards for a number up to 1/2 and
    upwards from 1/2; the others stay; the answer tells whether one was drawn *)
Theorem C169_polynomial : forall eta bs x coins us ch x' coins' us', 0 <= eta ->
  Forall2 within bs x -> (forall b, In b bs -> fst b < snd b) -> (forall u, In u us -> 0 <= u < 1) ->
  poly eta (map Some bs) x coins us = Ok (ch, x', coins', us') ->
  length x' = length x /\ (length x <= length coins)%nat /\ (ch = true <-> In true (firstn (length x) coins)) /\
  (forall i lo hi v v', nth_error bs i = Some (lo, hi) -> nth_error x i = Some v -> nth_error x' i = Some v' ->
     (nth_error coins i = Some false -> v' = v) /\
     (nth_error coins i = Some true -> Rabs (v' - v) <= Rmin (v - lo) (hi - v) /\
        exists u, number coins us i = Some u /\ (u <= / 2 -> v' <= v) /\ (/ 2 <= u -> v <= v'))).
Proof. intros eta bs x coins us ch x' coins' us' Eta. apply poly_spec. exact Eta. Qed.
(** the move is exactly the one of the polynomial distribution for the number drawn *)
Theorem C169_polynomial_moves : forall eta bs x coins us ch x' coins' us', 0 <= eta ->
  Forall2 within bs x -> (forall b, In b bs -> fst b < snd b) -> (forall u, In u us -> 0 <= u < 1) ->
  poly eta (map Some bs) x coins us = Ok (ch, x', coins', us') ->
  forall i lo hi v v', nth_error bs i = Some (lo, hi) -> nth_error x i = Some v -> nth_error x' i = Some v' -> nth_error coins i = Some true ->
  exists u dm d, number coins us i = Some u /\ dm * (hi - lo) = Rmin (v - lo) (hi - v) /\ poly_shift eta dm u d /\ v' = v + d * (hi - lo).
Proof. intros eta bs x coins us ch x' coins' us' Eta. apply poly_exact. exact Eta. Qed.
Theorem C169_polynomial_works : forall eta bs x coins us, length x = length bs -> (length x <= length coins)%nat -> (length x <= length us)%nat ->
  exists ch x' coins' us', poly eta (map Some bs) x coins us = Ok (ch, x', coins', us').
Proof. exact poly_works. Qed.
Example C169_example : exists ch x' y' us' coins', sbx 20 (map Some [(0, 1); (0, 1)]) [/ 4; / 2] [/ 2; / 2] [/ 3; 0] [true; false] = Ok (ch, x', y', us', coins') /\ ch = true.
Proof.
  destruct (C169_sbx_works 20 [(0, 1); (0, 1)] [/ 4; / 2] [/ 2; / 2] [/ 3; 0] [true; false]) as (ch & x' & y' & us' & coins' & E); try (cbn; lia).
  exists ch, x', y', us', coins'. split; auto.
  apply (C169_sbx 20 [(0, 1); (0, 1)] [/ 4; / 2] [/ 2; / 2] [/ 3; 0] [true; false] ch x' y' us' coins') in E; try lra.
  - apply E. exists 0%nat, (/ 4), (/ 2). repeat split. replace (/ 4 - / 2) with (- / 4) by lra. rewrite Rabs_Ropp, Rabs_pos_eq by lra.
    apply Rinv_lt_contravar; [apply Rmult_lt_0_compat; [lra|apply pow_lt; lra]|]. cbn. lra.
  - repeat constructor; cbn; lra.
  - repeat constructor; cbn; lra.
  - intros u [<-|[<-|[]]]; lra.
Qed.
Example C169_example_polynomial : exists ch x' c u, poly 20 (map Some [(0, 1)]) [/ 4] [true] [/ 3] = Ok (ch, [x'], c, u) /\ ch = true /\ 0 <= x' <= / 4.
Proof.
  destruct (C169_polynomial_works 20 [(0, 1)] [/ 4] [true] [/ 3]) as (ch & x' & c & u & E); try (cbn; lia).
  destruct (C169_polynomial 20 [(0, 1)] [/ 4] [true] [/ 3] ch x' c u) as (L & _ & Hc & H); auto; try lra.
  - repeat constructor; cbn; lra.
  - intros b [<-|[]]. cbn. lra.
  - intros v [<-|[]]. lra.
  - destruct x' as [|v' [|? ?]]; try discriminate. exists ch, v', c, u. split; auto. split; [apply Hc; left; auto|].
    destruct (H 0%nat 0 1 (/ 4) v') as [_ H']; auto. destruct (H' eq_refl) as (R1 & w & W & D1 & D2). injection W as <-.
    assert (v' <= / 4) by (apply D1; lra). assert (M1 := Rmin_l (/ 4 - 0) (1 - / 4)). split; [|lra].
    revert R1. unfold Rabs. destruct (Rcase_abs _); intros; lra.
Qed.

(** ** C170: what the operators do not do *)
(** the crossover built with its default constructor, "no bounds", raises an exception whenever the parents differ *)
Theorem C170_no_bounds_refuted : forall eta n x y us coins, length x = n -> length y = n ->
  (exists i a b, nth_error x i = Some a /\ nth_error y i = Some b /\ / 10 ^ 14 < Rabs (a - b)) ->
  sbx eta (repeat None n) x y us coins = Throw.
Proof. intros eta n x y us coins Lx Ly D. apply sbx_unbounded; auto. Qed.
(** a variable on one of its bounds never leaves it, whatever is drawn, although the mutation reports a change *)
Theorem C170_stuck_on_a_bound : forall eta bs x coins us ch x' coins' us', 0 <= eta ->
  Forall2 within bs x -> (forall b, In b bs -> fst b < snd b) -> (forall u, In u us -> 0 <= u < 1) ->
  poly eta (map Some bs) x coins us = Ok (ch, x', coins', us') ->
  forall i lo hi v, nth_error bs i = Some (lo, hi) -> nth_error x i = Some v -> v = lo \/ v = hi -> nth_error x' i = Some v.
Proof.
  intros eta bs x coins us ch x' coins' us' Eta W LH U E i lo hi v K1 K2 K3.
  destruct (C169_polynomial _ _ _ _ _ _ _ _ _ Eta W LH U E) as (L & C & _ & H).
  assert (Li : (i < length x)%nat) by (apply nth_error_Some; rewrite K2; discriminate).
  destruct (some_nth x' i) as (v' & Kv); [lia|]. rewrite Kv. f_equal. destruct (some_nth coins i) as (c & Kc); [lia|].
  destruct (H i lo hi v v' K1 K2 Kv) as [H1 H2]. destruct c; [|auto]. destruct (H2 Kc) as (H3 & _).
  assert (Z : Rmin (v - lo) (hi - v) <= 0) by (destruct K3; subst; [eapply Rle_trans; [apply Rmin_l|]; lra|eapply Rle_trans; [apply Rmin_r|]; lra]).
  assert (P := Rabs_pos (v' - v)). assert (Rabs (v' - v) = 0) by lra. destruct (Req_dec (v' - v) 0) as [Z0|Z0]; [lra|]. apply Rabs_no_R0 in Z0. contradiction.
Qed.
Theorem C170_change_is_reported_refuted : exists eta bs x coins us x' coins' us',
  Forall2 within bs x /\ (forall b, In b bs -> fst b < snd b) /\ (forall u, In u us -> 0 <= u < 1) /\
  poly eta (map Some bs) x coins us = Ok (true, x', coins', us') /\ x' = x.
Proof.
  destruct (C169_polynomial_works 20 [(0, 1)] [0] [true] [/ 3]) as (ch & x' & c & u & E); try (cbn; lia).
  assert (W : Forall2 within [(0, 1)] [0]) by (repeat constructor; cbn; lra).
  assert (LH : forall b, In b [(0, 1)] -> fst b < snd b) by (intros b [<-|[]]; cbn; lra).
  assert (U : forall u, In u [/ 3] -> 0 <= u < 1) by (intros v [<-|[]]; lra).
  destruct (C169_polynomial 20 [(0, 1)] [0] [true] [/ 3] ch x' c u) as (L & _ & Hc & _); auto; try lra.
  assert (St := C170_stuck_on_a_bound 20 [(0, 1)] [0] [true] [/ 3] ch x' c u ltac:(lra) W LH U E 0%nat 0 1 0 eq_refl eq_refl (or_introl eq_refl)).
  destruct x' as [|v [|? ?]]; try discriminate. cbn in St. injection St as ->.
  assert (ch = true) by (apply Hc; left; auto). subst ch. exists 20, [(0, 1)], [0], [true], [/ 3], [0], c, u. auto.
Qed.
Print Assumptions C168_dtlz1_values.
Print Assumptions C168_dtlz1_front.
Print Assumptions C168_dtlz2_values.
Print Assumptions C168_dtlz2_front.
Print Assumptions C168_dtlz3_values.
Print Assumptions C168_dtlz3_front.
Print Assumptions C168_dtlz4_values.
Print Assumptions C168_dtlz4_front.
Print Assumptions C168_dtlz5_values.
Print Assumptions C168_dtlz5_front.
Print Assumptions C168_dtlz6_values.
Print Assumptions C168_dtlz6_front.
Print Assumptions C168_dtlz7_values.
Print Assumptions C168_dtlz7_front.
Print Assumptions C168_variables_missing_outside.
Print Assumptions C168_single_objective_outside.
Print Assumptions C169_sbx.
Print Assumptions C169_sbx_works.
Print Assumptions C169_polynomial.
Print Assumptions C169_polynomial_works.
Print Assumptions C170_no_bounds_refuted.
Print Assumptions C170_stuck_on_a_bound.
Print Assumptions C170_change_is_reported_refuted.
Print Assumptions C169_sbx_children.
Print Assumptions C169_polynomial_moves.
