(** Lemmas about PopModel. *)
From Coq Require Import List Arith Lia Bool ZArith QArith Permutation Sorted.
From Verif Require Import Lib Outcome OrderSpec OrderLemmas PopModel.
Import ListNotations.
Close Scope Q_scope.
Open Scope nat_scope.

(** *** erase_at *)
Lemma erase_at_total {A} (l : list A) i : i < length l -> exists l', erase_at i l = Some l'.
Proof. intros H; unfold erase_at. apply Nat.ltb_lt in H; rewrite H; eauto. Qed.

Lemma nth_error_split_skipn {A} (l : list A) i x :
  nth_error l i = Some x -> skipn i l = x :: skipn (S i) l.
Proof.
  revert i; induction l as [|a t IH]; intros [|i] H; simpl in *; try discriminate.
  - congruence.
  - apply IH; auto.
Qed.

Lemma erase_at_perm {A} (l : list A) i x l' :
  nth_error l i = Some x -> erase_at i l = Some l' -> Permutation l (x :: l').
Proof.
  unfold erase_at. intros Hx. destruct (i <? length l) eqn:E; [|discriminate].
  intros H; assert (l' = firstn i l ++ skipn (S i) l) as -> by congruence.
  rewrite <- (firstn_skipn i l) at 1. rewrite (nth_error_split_skipn _ _ _ Hx).
  symmetry. apply Permutation_middle.
Qed.

Lemma erase_at_length {A} (l : list A) i l' :
  erase_at i l = Some l' -> length l = S (length l').
Proof.
  unfold erase_at. destruct (i <? length l) eqn:E; [|discriminate].
  apply Nat.ltb_lt in E. intros H; assert (l' = firstn i l ++ skipn (S i) l) as -> by congruence.
  rewrite app_length, firstn_length, skipn_length. lia.
Qed.

Lemma erase_at_lt {A} (l : list A) i l' : erase_at i l = Some l' -> i < length l.
Proof. unfold erase_at. destruct (i <? length l) eqn:E; [|discriminate]. now apply Nat.ltb_lt in E. Qed.

(** *** sub-populations *)
Lemma sub_pop_refl {A} (l : list A) : sub_population l l.
Proof. exists []; rewrite app_nil_r; auto. Qed.

Lemma sub_pop_perm {A} (l l1 l2 : list A) : Permutation l (l1 ++ l2) -> sub_population l l1.
Proof. intros H; exists l2; auto. Qed.

Lemma sub_pop_trans {A} (l1 l2 l3 : list A) :
  sub_population l1 l2 -> sub_population l2 l3 -> sub_population l1 l3.
Proof.
  intros [d1 H1] [d2 H2]. exists (d2 ++ d1). rewrite H1, H2, app_assoc. auto.
Qed.

Lemma sub_pop_In {A} (l k : list A) x : sub_population l k -> In x k -> In x l.
Proof.
  intros [d H] Hx. apply (Permutation_in _ (Permutation_sym H)). apply in_or_app; auto.
Qed.

Lemma sub_pop_firstn {A} (l l' : list A) n : Permutation l l' -> sub_population l (firstn n l').
Proof. intros H; exists (skipn n l'). rewrite firstn_skipn; auto. Qed.

Lemma best_n_refl {A} (ltb : A -> A -> bool) l : best_n ltb l (length l) l.
Proof. split; auto. exists []; rewrite app_nil_r; split; auto. intros ? ? ? []. Qed.

Lemma best_n_has_best {A} (ltb : A -> A -> bool) pop n k b :
  strict_weak_order ltb ->
  best_n ltb pop n k -> 0 < n -> In b pop -> exists b', In b' k /\ ltb b' b = false.
Proof.
  intros Hs [Hl (d & Hp & Hb)] Hn Hin.
  apply (Permutation_in _ Hp) in Hin. apply in_app_or in Hin as [H|H].
  - exists b; split; auto. apply (swo_irrefl ltb Hs).
  - destruct k as [|x t]; simpl in Hl; [lia|]. exists x; split; simpl; auto. apply Hb; simpl; auto.
Qed.

Section P.
Variable A : Type.
Variable ltb : A -> A -> bool.
Hypothesis Hswo : strict_weak_order ltb.

(** *** min / max element *)
Lemma max_from_spec l : forall best bv i pre,
  length pre = i -> nth_error pre best = Some bv ->
  (forall y, In y pre -> ltb bv y = false) ->
  exists v, nth_error (pre ++ l) (max_from A ltb best bv i l) = Some v /\
    (forall y, In y (pre ++ l) -> ltb v y = false).
Proof.
  induction l as [|x t IH]; intros best bv i pre Hl Hb Hall; simpl.
  - rewrite app_nil_r. eauto.
  - replace (pre ++ x :: t) with ((pre ++ [x]) ++ t) by (rewrite <- app_assoc; auto).
    destruct (ltb bv x) eqn:E; apply IH.
    + rewrite app_length; simpl; lia.
    + rewrite nth_error_app2 by lia. subst i; rewrite Nat.sub_diag; auto.
    + intros y Hy. apply in_app_or in Hy as [Hy|[->|[]]]; [|apply (swo_irrefl _ Hswo)].
      apply (swo_ntrans _ Hswo x bv y); auto. apply (swo_asym _ Hswo); auto.
    + rewrite app_length; simpl; lia.
    + rewrite nth_error_app1; auto. eapply nth_error_lt; eauto.
    + intros y Hy. apply in_app_or in Hy as [Hy|[->|[]]]; auto.
Qed.

Lemma min_from_spec l : forall best bv i pre,
  length pre = i -> nth_error pre best = Some bv ->
  (forall y, In y pre -> ltb y bv = false) ->
  exists v, nth_error (pre ++ l) (min_from A ltb best bv i l) = Some v /\
    (forall y, In y (pre ++ l) -> ltb y v = false).
Proof.
  induction l as [|x t IH]; intros best bv i pre Hl Hb Hall; simpl.
  - rewrite app_nil_r. eauto.
  - replace (pre ++ x :: t) with ((pre ++ [x]) ++ t) by (rewrite <- app_assoc; auto).
    destruct (ltb x bv) eqn:E; apply IH.
    + rewrite app_length; simpl; lia.
    + rewrite nth_error_app2 by lia. subst i; rewrite Nat.sub_diag; auto.
    + intros y Hy. apply in_app_or in Hy as [Hy|[->|[]]]; [|apply (swo_irrefl _ Hswo)].
      apply (swo_ntrans _ Hswo y bv x); auto. apply (swo_asym _ Hswo); auto.
    + rewrite app_length; simpl; lia.
    + rewrite nth_error_app1; auto. eapply nth_error_lt; eauto.
    + intros y Hy. apply in_app_or in Hy as [Hy|[->|[]]]; auto.
Qed.

Lemma it_best_spec pop i :
  it_best_element A ltb pop = Some i ->
  exists v, nth_error pop i = Some v /\ is_best ltb pop v.
Proof.
  destruct pop as [|x t]; simpl; [discriminate|]. intros H; inversion H; subst.
  destruct (max_from_spec t 0 x 1 [x]) as (v & Hv & Hb); auto.
  - intros y [->|[]]; apply (swo_irrefl _ Hswo).
  - exists v; split; auto. split; auto. eapply nth_error_In; eauto.
Qed.

Lemma it_worse_spec pop i :
  it_worse_element A ltb pop = Some i ->
  exists v, nth_error pop i = Some v /\ is_worst ltb pop v.
Proof.
  destruct pop as [|x t]; simpl; [discriminate|]. intros H; inversion H; subst.
  destruct (min_from_spec t 0 x 1 [x]) as (v & Hv & Hb); auto.
  - intros y [->|[]]; apply (swo_irrefl _ Hswo).
  - exists v; split; auto. split; auto. eapply nth_error_In; eauto.
Qed.

Lemma it_worse_total pop : pop <> [] -> exists i, it_worse_element A ltb pop = Some i.
Proof. destruct pop; simpl; intros; [congruence|eauto]. Qed.
Lemma it_best_total pop : pop <> [] -> exists i, it_best_element A ltb pop = Some i.
Proof. destruct pop; simpl; intros; [congruence|eauto]. Qed.

(** first position *)
Lemma max_from_first l : forall best bv i pre,
  length pre = i -> nth_error pre best = Some bv ->
  (forall y, In y pre -> ltb bv y = false) ->
  (forall j y, j < best -> nth_error pre j = Some y -> ltb y bv = true) ->
  forall v, nth_error (pre ++ l) (max_from A ltb best bv i l) = Some v ->
  forall j y, j < max_from A ltb best bv i l -> nth_error (pre ++ l) j = Some y -> ltb y v = true.
Proof.
  induction l as [|x t IH]; intros best bv i pre Hl Hb Hall Hf; simpl.
  - rewrite app_nil_r. intros v Hv j y Hj Hy. assert (v = bv) by congruence; subst. eauto.
  - replace (pre ++ x :: t) with ((pre ++ [x]) ++ t) by (rewrite <- app_assoc; auto).
    destruct (ltb bv x) eqn:E; apply IH.
    + rewrite app_length; simpl; lia.
    + rewrite nth_error_app2 by lia. subst i; rewrite Nat.sub_diag; auto.
    + intros y Hy. apply in_app_or in Hy as [Hy|[->|[]]]; [|apply (swo_irrefl _ Hswo)].
      apply (swo_ntrans _ Hswo x bv y); auto. apply (swo_asym _ Hswo); auto.
    + intros j y Hj Hy. rewrite nth_error_app1 in Hy by lia.
      apply (swo_le_lt _ Hswo y bv x); auto. apply Hall. eapply nth_error_In; eauto.
    + rewrite app_length; simpl; lia.
    + rewrite nth_error_app1; auto. eapply nth_error_lt; eauto.
    + intros y Hy. apply in_app_or in Hy as [Hy|[->|[]]]; auto.
    + intros j y Hj Hy. pose proof (nth_error_lt _ _ _ Hb).
      rewrite nth_error_app1 in Hy by lia. eauto.
Qed.

Lemma min_from_first l : forall best bv i pre,
  length pre = i -> nth_error pre best = Some bv ->
  (forall y, In y pre -> ltb y bv = false) ->
  (forall j y, j < best -> nth_error pre j = Some y -> ltb bv y = true) ->
  forall v, nth_error (pre ++ l) (min_from A ltb best bv i l) = Some v ->
  forall j y, j < min_from A ltb best bv i l -> nth_error (pre ++ l) j = Some y -> ltb v y = true.
Proof.
  induction l as [|x t IH]; intros best bv i pre Hl Hb Hall Hf; simpl.
  - rewrite app_nil_r. intros v Hv j y Hj Hy. assert (v = bv) by congruence; subst. eauto.
  - replace (pre ++ x :: t) with ((pre ++ [x]) ++ t) by (rewrite <- app_assoc; auto).
    destruct (ltb x bv) eqn:E; apply IH.
    + rewrite app_length; simpl; lia.
    + rewrite nth_error_app2 by lia. subst i; rewrite Nat.sub_diag; auto.
    + intros y Hy. apply in_app_or in Hy as [Hy|[->|[]]]; [|apply (swo_irrefl _ Hswo)].
      apply (swo_ntrans _ Hswo y bv x); auto. apply (swo_asym _ Hswo); auto.
    + intros j y Hj Hy. rewrite nth_error_app1 in Hy by lia.
      apply (swo_lt_le _ Hswo x bv y); auto. apply Hall. eapply nth_error_In; eauto.
    + rewrite app_length; simpl; lia.
    + rewrite nth_error_app1; auto. eapply nth_error_lt; eauto.
    + intros y Hy. apply in_app_or in Hy as [Hy|[->|[]]]; auto.
    + intros j y Hj Hy. pose proof (nth_error_lt _ _ _ Hb).
      rewrite nth_error_app1 in Hy by lia. eauto.
Qed.

(** what a caller of best_element / worse_element sees *)
Lemma best_element_spec pop :
  (pop = [] -> best_element A ltb pop = Throw) /\
  (pop <> [] -> exists i v, best_element A ltb pop = Ok v /\ nth_error pop i = Some v /\
     is_best ltb pop v /\
     forall j y, j < i -> nth_error pop j = Some y -> ltb y v = true).
Proof.
  split; [intros ->; auto|]. intros Hne.
  destruct pop as [|x t]; [congruence|]. unfold best_element.
  destruct (it_best_element A ltb (x :: t)) as [i|] eqn:E; [|discriminate].
  destruct (it_best_spec _ _ E) as (v & Hv & Hb). simpl in E; inversion E; subst i.
  exists (max_from A ltb 0 x 1 t), v. rewrite Hv; simpl. repeat split; try apply Hb; auto.
  apply (max_from_first t 0 x 1 [x]); auto.
  - intros y [->|[]]; apply (swo_irrefl _ Hswo).
  - intros j y Hj; lia.
Qed.

Lemma worse_element_spec pop :
  pop <> [] -> exists i v, worse_element A ltb pop = Ok v /\ nth_error pop i = Some v /\
     is_worst ltb pop v /\
     forall j y, j < i -> nth_error pop j = Some y -> ltb v y = true.
Proof.
  intros Hne.
  destruct pop as [|x t]; [congruence|]. unfold worse_element.
  destruct (it_worse_element A ltb (x :: t)) as [i|] eqn:E; [|discriminate].
  destruct (it_worse_spec _ _ E) as (v & Hv & Hb). simpl in E; inversion E; subst i.
  exists (min_from A ltb 0 x 1 t), v. rewrite Hv; simpl. repeat split; try apply Hb; auto.
  apply (min_from_first t 0 x 1 [x]); auto.
  - intros y [->|[]]; apply (swo_irrefl _ Hswo).
  - intros j y Hj; lia.
Qed.

Lemma best_element_ok pop v : best_element A ltb pop = Ok v -> is_best ltb pop v.
Proof.
  destruct (best_element_spec pop) as [H1 H2]. destruct pop as [|x t].
  - rewrite H1; auto; discriminate.
  - intros E. destruct H2 as (i & w & Hw & _ & Hb & _); [discriminate|]. congruence.
Qed.

(** *** erasing worsts *)
Lemma erase_worst_spec k : forall pop,
  k <= length pop ->
  exists kept, erase_worst A ltb k pop = Ok kept /\ best_n ltb pop (length pop - k) kept.
Proof.
  induction k as [|k IH]; intros pop Hk.
  - simpl. exists pop; split; auto. rewrite Nat.sub_0_r. apply best_n_refl.
  - destruct (it_worse_total pop) as [i Hi]; [destruct pop; simpl in *; [lia|congruence]|].
    destruct (it_worse_spec _ _ Hi) as (w & Hw & Hworst).
    destruct (erase_at_total pop i) as [pop' He]; [eapply nth_error_lt; eauto|].
    pose proof (erase_at_length _ _ _ He) as Hlen.
    pose proof (erase_at_perm _ _ _ _ Hw He) as Hperm.
    cbn [erase_worst]. rewrite Hi; cbn [of_opt rbind]. rewrite He; cbn [of_opt rbind].
    destruct (IH pop') as (kept & -> & Hkl & d & Hpd & Hb); [lia|].
    exists kept; split; auto. split; [lia|].
    exists (w :: d). split.
    + rewrite Hperm, Hpd. apply Permutation_middle.
    + intros a b Ha [->|Hb']; [|auto].
      apply Hworst. apply (Permutation_in _ (Permutation_sym Hperm)). right.
      apply (Permutation_in _ (Permutation_sym Hpd)). apply in_or_app; auto.
Qed.

(** *** the erase loop *)
Lemma erase_loop_spec pick k : forall pop ds surv out ds',
  erase_loop A pick k pop ds = Ok (surv, out, ds') ->
  length out = k /\ Permutation pop (surv ++ out).
Proof.
  induction k as [|k IH]; intros pop ds surv out ds' H; simpl in H.
  - inversion H; subst. rewrite app_nil_r; auto.
  - inv_res. destruct v as [i ds1]. inv_res. destruct v1 as [[s o] ds2]. simpl in *. inv_res.
    destruct (IH _ _ _ _ _ H2) as [H4 H5]. simpl; split; [lia|].
    rewrite (erase_at_perm _ _ _ _ H0 H1), H5. apply Permutation_middle.
Qed.

Lemma erase_loop_nothrow pick k : forall pop ds,
  (forall p d, pick p d <> Throw) -> erase_loop A pick k pop ds <> Throw.
Proof.
  induction k as [|k IH]; intros pop ds Hp H; simpl in H; [discriminate|].
  destruct (pick pop ds) as [[i ds1]| | |] eqn:E; simpl in H; try discriminate.
  - destruct (nth_error pop i); simpl in H; try discriminate.
    destruct (erase_at i pop); simpl in H; try discriminate.
    destruct (erase_loop A pick k l ds1) as [[[s o] d]| | |] eqn:E2; simpl in H; try discriminate.
    eapply IH; eauto.
  - eapply Hp; eauto.
Qed.

(** a pick that designates a valid position for populations above [m] never leads to UB *)
Definition good_pick (pick : list A -> list nat -> res (nat * list nat)) (m : nat) : Prop :=
  forall p d, m < length p ->
    match pick p d with Ok (i, _) => i < length p | NoDraw => True | _ => False end.

Lemma erase_loop_no_ub pick m k : forall pop ds,
  good_pick pick m -> m + k <= length pop ->
  match erase_loop A pick k pop ds with
  | Ok (surv, _, _) => length surv + k = length pop | NoDraw => True | _ => False end.
Proof.
  induction k as [|k IH]; intros pop ds Hg Hk; simpl.
  - lia.
  - pose proof (Hg pop ds ltac:(lia)) as Hp.
    destruct (pick pop ds) as [[i ds1]| | |]; simpl; auto.
    destruct (nth_error_in_some pop i Hp) as [x Hx]; rewrite Hx; simpl.
    destruct (erase_at_total pop i Hp) as [pop' He]; rewrite He; simpl.
    pose proof (erase_at_length _ _ _ He).
    pose proof (IH pop' ds1 Hg ltac:(lia)) as HI.
    destruct (erase_loop A pick k pop' ds1) as [[[s o] d]| | |]; simpl in *; auto. lia.
Qed.

(** *** tournaments *)
Lemma inv_det_loop_valid pop ds : forall rounds worst,
  worst < length pop ->
  match inv_det_loop A ltb pop rounds worst ds with
  | Ok (i, _) => i < length pop | NoDraw => True | _ => False end.
Proof.
  induction ds as [|d ds IH]; intros rounds worst Hw; destruct rounds as [|r]; simpl; auto.
  destruct (d mod length pop =? worst) eqn:E.
  - apply (IH (S r)); auto.
  - assert (Hc : d mod length pop < length pop) by (apply Nat.mod_upper_bound; lia).
    destruct (nth_error_in_some _ _ Hw) as [w ->].
    destruct (nth_error_in_some _ _ Hc) as [x ->].
    apply IH. destruct (ltb x w); auto.
Qed.

Lemma inv_det_valid t : good_pick (fun p => inv_det_tournament A ltb p t) 0.
Proof.
  intros p d Hp. unfold inv_det_tournament, draw. destruct d as [|d ds]; simpl; auto.
  apply inv_det_loop_valid. apply Nat.mod_upper_bound; lia.
Qed.

(** the loser of a tournament is never better than every other individual: some
    other position holds somebody not worse *)
Definition beaten (pop : list A) (i : nat) : Prop :=
  exists j x y, j <> i /\ nth_error pop i = Some x /\ nth_error pop j = Some y /\ ltb y x = false.

Lemma inv_det_loop_beaten pop ds : forall rounds worst i ds',
  inv_det_loop A ltb pop rounds worst ds = Ok (i, ds') ->
  (rounds = 0 -> beaten pop worst) -> beaten pop i.
Proof.
  induction ds as [|d ds IH]; intros rounds worst i ds' H H0; destruct rounds as [|r]; simpl in H.
  - inversion H; subst; auto.
  - discriminate.
  - inversion H; subst; auto.
  - destruct (d mod length pop =? worst) eqn:E.
    + eapply IH; [exact H|]. intros; discriminate.
    + destruct (nth_error pop worst) as [w|] eqn:Ew; [|discriminate].
      destruct (nth_error pop (d mod length pop)) as [x|] eqn:Ex; [|discriminate].
      apply Nat.eqb_neq in E.
      eapply IH; [exact H|]. intros _.
      destruct (ltb x w) eqn:El.
      * exists worst, x, w. repeat split; auto. apply (swo_asym _ Hswo); auto.
      * exists (d mod length pop), w, x. repeat split; auto.
Qed.

Lemma inv_det_beaten pop t ds i ds' : 2 <= t ->
  inv_det_tournament A ltb pop t ds = Ok (i, ds') -> beaten pop i.
Proof.
  intros Ht H. unfold inv_det_tournament in H. inv_res. destruct v as [w ds1].
  eapply inv_det_loop_beaten; [exact H0|]. lia.
Qed.

Lemma erase_beaten pop i pop' b :
  beaten pop i -> erase_at i pop = Some pop' -> In b pop ->
  exists b', In b' pop' /\ ltb b' b = false.
Proof.
  intros (j & x & y & Hji & Hx & Hy & Hyx) He Hb.
  assert (Hother : forall k z, k <> i -> nth_error pop k = Some z -> In z pop').
  { intros k z Hk Hz. pose proof He as He'. unfold erase_at in He.
    destruct (i <? length pop) eqn:E; [|discriminate]. assert (pop' = firstn i pop ++ skipn (S i) pop) as -> by congruence. clear He.
    apply Nat.ltb_lt in E. apply in_or_app.
    destruct (Nat.lt_ge_cases k i).
    - left. apply nth_error_In with k. rewrite firstn_nth_error; auto.
    - right. apply nth_error_In with (k - S i). rewrite skipn_nth_error.
      replace (S i + (k - S i)) with k by lia. auto. }
  apply In_nth_error in Hb as [k Hk].
  destruct (Nat.eq_dec k i) as [->|Hki].
  - assert (b = x) by congruence; subst. exists y; split; eauto.
  - exists b; split; eauto. apply (swo_irrefl _ Hswo).
Qed.

Lemma erase_loop_keeps_best pick k : forall pop ds surv out ds' b,
  (forall p d i d', pick p d = Ok (i, d') -> beaten p i) ->
  erase_loop A pick k pop ds = Ok (surv, out, ds') -> In b pop ->
  exists b', In b' surv /\ ltb b' b = false.
Proof.
  induction k as [|k IH]; intros pop ds surv out ds' b Hp H Hb; simpl in H.
  - inversion H; subst. exists b; split; auto. apply (swo_irrefl _ Hswo).
  - inv_res. destruct v as [i ds1]. inv_res. destruct v1 as [[s o] ds2]. simpl in *. inv_res.
    destruct (erase_beaten pop i v0 b) as (b1 & Hb1 & Hl1); eauto.
    destruct (IH v0 ds1 surv o ds' b1) as (b2 & Hb2 & Hl2); auto.
    exists b2; split; auto. apply (swo_ntrans _ Hswo _ b1); auto.
Qed.

Lemma inv_stoch_valid c : good_pick (fun p => inv_stoch_tournament A ltb p c) 0.
Proof.
  intros p d Hp. unfold inv_stoch_tournament, draw, draw_flip.
  destruct d as [|d0 [|d1 [|d2 ds]]]; simpl; auto.
  assert (Hc : forall d, d mod length p < length p) by (intros; apply Nat.mod_upper_bound; lia).
  destruct (nth_error_in_some _ _ (Hc d0)) as [w ->].
  destruct (nth_error_in_some _ _ (Hc d1)) as [x ->]. simpl.
  destruct (ltb w x), (c || Nat.odd d2); auto.
Qed.

Lemma draw_valid : good_pick (fun p => draw (length p)) 0.
Proof.
  intros p d Hp. unfold draw. destruct d; simpl; auto. apply Nat.mod_upper_bound; lia.
Qed.

(** *** Termination is always possible: any draws so far can be continued so that
    the tournament finishes. *)
Definition can_finish {B} (run : list nat -> res B) : Prop :=
  forall ds, exists more, run (ds ++ more) <> NoDraw.

Definition pick_can_finish (pick : list A -> list nat -> res (nat * list nat)) (m : nat) : Prop :=
  forall p ds, m < length p -> exists more i rest, pick p (ds ++ more) = Ok (i, rest).

(** extending the draws does not change a finished run *)
Definition pick_mono (pick : list A -> list nat -> res (nat * list nat)) : Prop :=
  forall p ds i rest more, pick p ds = Ok (i, rest) -> pick p (ds ++ more) = Ok (i, rest ++ more).

Lemma draw_mono n ds i rest more :
  draw n ds = Ok (i, rest) -> draw n (ds ++ more) = Ok (i, rest ++ more).
Proof. destruct ds; simpl; intros H; inversion H; subst; auto. Qed.

Lemma inv_det_loop_mono pop more : forall ds rounds worst i rest,
  inv_det_loop A ltb pop rounds worst ds = Ok (i, rest) ->
  inv_det_loop A ltb pop rounds worst (ds ++ more) = Ok (i, rest ++ more).
Proof.
  induction ds as [|d ds IH]; intros rounds worst i rest H; destruct rounds as [|r]; simpl in *;
    try discriminate.
  - inversion H; subst. destruct more; auto.
  - inversion H; subst; auto.
  - destruct (d mod length pop =? worst); eauto.
    destruct (nth_error pop worst); [|discriminate].
    destruct (nth_error pop (d mod length pop)); [|discriminate]. eauto.
Qed.

Lemma inv_det_mono t : pick_mono (fun p => inv_det_tournament A ltb p t).
Proof.
  intros p ds i rest more H. unfold inv_det_tournament in *. inv_res. destruct v as [w ds1].
  rewrite (draw_mono _ _ _ _ _ H); simpl. apply inv_det_loop_mono; auto.
Qed.

Lemma inv_det_loop_finish pop : 1 < length pop -> forall rounds worst,
  worst < length pop ->
  exists more i, inv_det_loop A ltb pop rounds worst more = Ok (i, []).
Proof.
  intros Hp. induction rounds as [|r IH]; intros worst Hw.
  - exists [], worst. auto.
  - set (c := if worst =? 0 then 1 else 0).
    assert (Hc : c < length pop /\ c <> worst).
    { unfold c; destruct (worst =? 0) eqn:E; [apply Nat.eqb_eq in E | apply Nat.eqb_neq in E]; lia. }
    destruct Hc as [Hc Hcw].
    destruct (nth_error_in_some _ _ Hw) as [w Ew].
    destruct (nth_error_in_some _ _ Hc) as [x Ex].
    destruct (IH (if ltb x w then c else worst)) as (more & i & Hm).
    { destruct (ltb x w); auto. }
    exists (c :: more), i. simpl. rewrite (Nat.mod_small c) by auto.
    apply Nat.eqb_neq in Hcw. rewrite Hcw, Ew, Ex. auto.
Qed.

Lemma inv_det_loop_ext pop : 1 < length pop -> forall ds rounds worst,
  worst < length pop ->
  exists more i rest, inv_det_loop A ltb pop rounds worst (ds ++ more) = Ok (i, rest).
Proof.
  intros Hp. induction ds as [|d ds IH]; intros rounds worst Hw.
  - destruct (inv_det_loop_finish pop Hp rounds worst Hw) as (more & i & H). simpl; eauto.
  - destruct rounds as [|r]; simpl; [exists [], worst; eauto|].
    destruct (d mod length pop =? worst); [apply IH; auto|].
    assert (Hc : d mod length pop < length pop) by (apply Nat.mod_upper_bound; lia).
    destruct (nth_error_in_some _ _ Hw) as [w ->].
    destruct (nth_error_in_some _ _ Hc) as [x ->].
    apply IH. destruct (ltb x w); auto.
Qed.

Lemma inv_det_ext t : pick_can_finish (fun p => inv_det_tournament A ltb p t) 1.
Proof.
  intros p ds Hp. unfold inv_det_tournament. destruct ds as [|d ds].
  - destruct (inv_det_loop_finish p Hp (t - 1) 0) as (more & i & H); [lia|].
    exists (0 :: more), i, []. simpl. rewrite Nat.mod_small by lia. auto.
  - simpl. apply inv_det_loop_ext; auto. apply Nat.mod_upper_bound; lia.
Qed.

Lemma inv_stoch_mono c : pick_mono (fun p => inv_stoch_tournament A ltb p c).
Proof.
  intros p ds i rest more H. unfold inv_stoch_tournament in *.
  destruct ds as [|d0 [|d1 [|d2 ds]]]; simpl in *; try discriminate.
  destruct (nth_error p (d0 mod length p)); simpl in *; [|discriminate].
  destruct (nth_error p (d1 mod length p)); simpl in *; [|discriminate].
  inversion H; subst; auto.
Qed.

Lemma inv_stoch_ext c : pick_can_finish (fun p => inv_stoch_tournament A ltb p c) 1.
Proof.
  intros p ds Hp. exists [0;0;0].
  pose proof (inv_stoch_valid c p (ds ++ [0;0;0]) ltac:(lia)) as H. simpl in H.
  destruct (inv_stoch_tournament A ltb p c (ds ++ [0;0;0])) as [[i r]| | |] eqn:E; eauto; try tauto.
  exfalso. unfold inv_stoch_tournament in E.
  destruct ds as [|d0 [|d1 [|d2 ds]]]; simpl in E;
  repeat match type of E with context [nth_error p ?k] =>
    destruct (nth_error p k); simpl in E end; discriminate.
Qed.

Lemma erase_loop_mono pick k : pick_mono pick -> forall pop ds r rest more,
  erase_loop A pick k pop ds = Ok (r, rest) ->
  erase_loop A pick k pop (ds ++ more) = Ok (r, rest ++ more).
Proof.
  intros Hm. induction k as [|k IH]; intros pop ds r rest more H; simpl in *.
  - inversion H; subst; auto.
  - inv_res. destruct v as [i ds1]. rewrite (Hm _ _ _ _ more H); simpl. inv_res.
    destruct v1 as [r1 ds2]. inv_res. rewrite H0; simpl. rewrite H1; simpl.
    rewrite (IH _ _ _ _ more H2). simpl. auto.
Qed.

Lemma erase_loop_ext pick m k :
  pick_mono pick -> pick_can_finish pick m -> good_pick pick m -> forall pop ds,
  m + k <= length pop ->
  exists more r rest, erase_loop A pick k pop (ds ++ more) = Ok (r, rest).
Proof.
  intros Hm Hf Hg. induction k as [|k IH]; intros pop ds Hk; simpl.
  - exists [], (pop, []); eauto.
  - destruct (Hf pop ds) as (more & i & rest & Hp); [lia|].
    pose proof (Hg pop (ds ++ more) ltac:(lia)) as Hi. rewrite Hp in Hi.
    destruct (nth_error_in_some pop i Hi) as [x Hx].
    destruct (erase_at_total pop i Hi) as [pop' He].
    pose proof (erase_at_length _ _ _ He).
    destruct (IH pop' rest) as (more2 & r & rest2 & Hr); [lia|].
    exists (more ++ more2), (fst r, x :: snd r), rest2.
    rewrite app_assoc, (Hm _ _ _ _ more2 Hp). simpl. rewrite Hx; simpl. rewrite He; simpl.
    rewrite Hr; simpl. auto.
Qed.

(** *** EP scores *)
Lemma ep_score_valid pop a : pop <> [] -> forall rounds acc ds,
  match ep_score A ltb pop a rounds acc ds with Ok _ => True | NoDraw => True | _ => False end.
Proof.
  intros Hp. induction rounds as [|r IH]; intros acc ds; simpl; auto.
  destruct ds as [|d ds]; simpl; auto.
  destruct (nth_error_in_some pop (d mod length pop)) as [x ->].
  { apply Nat.mod_upper_bound. destruct pop; simpl; congruence. }
  simpl. apply IH.
Qed.

Lemma ep_scores_valid pop t : pop <> [] -> forall todo ds,
  match ep_scores A ltb pop t todo ds with
  | Ok (sc, _) => map snd sc = todo | NoDraw => True | _ => False end.
Proof.
  intros Hp. induction todo as [|a rest IH]; intros ds; simpl; auto.
  pose proof (ep_score_valid pop a Hp t 0 ds) as H.
  destruct (ep_score A ltb pop a t 0 ds) as [[s ds']| | |]; simpl; auto.
  pose proof (IH ds') as H2.
  destruct (ep_scores A ltb pop t rest ds') as [[l ds'']| | |]; simpl; auto. congruence.
Qed.

Lemma ep_score_ext pop a : pop <> [] -> forall rounds acc ds,
  exists s rest, ep_score A ltb pop a rounds acc (ds ++ repeat 0 rounds) = Ok (s, rest).
Proof.
  intros Hp.
  assert (Hc : forall d, d mod length pop < length pop).
  { intros; apply Nat.mod_upper_bound. destruct pop; simpl; congruence. }
  induction rounds as [|r IH]; intros acc ds; simpl; eauto.
  destruct ds as [|d ds]; simpl.
  - destruct (nth_error_in_some _ _ (Hc 0)) as [x ->]. simpl.
    destruct (IH (acc + ep_score1 A ltb a x) []) as (s & rest & H). simpl in H. eauto.
  - destruct (nth_error_in_some _ _ (Hc d)) as [x ->]. simpl.
    destruct (IH (acc + ep_score1 A ltb a x) (ds ++ [0])) as (s & rest & H).
    rewrite <- app_assoc in H. simpl in H. eauto.
Qed.

Lemma ep_score_mono pop a more : forall rounds acc ds s rest,
  ep_score A ltb pop a rounds acc ds = Ok (s, rest) ->
  ep_score A ltb pop a rounds acc (ds ++ more) = Ok (s, rest ++ more).
Proof.
  induction rounds as [|r IH]; intros acc ds s rest H; simpl in *.
  - inversion H; subst; auto.
  - inv_res. destruct v as [i ds']. rewrite (draw_mono _ _ _ _ more H); simpl. inv_res.
    rewrite H0; simpl. auto.
Qed.

Lemma ep_scores_ext pop t : pop <> [] -> forall todo ds,
  exists more sc rest, ep_scores A ltb pop t todo (ds ++ more) = Ok (sc, rest).
Proof.
  intros Hp. induction todo as [|a l IH]; intros ds; simpl.
  - exists [], [], (ds ++ []); auto.
  - destruct (ep_score_ext pop a Hp t 0 ds) as (s & r1 & H1).
    destruct (IH r1) as (more & sc & r2 & H2).
    exists (repeat 0 t ++ more), ((s, a) :: sc), r2.
    rewrite app_assoc, (ep_score_mono _ _ more _ _ _ _ _ H1). simpl. rewrite H2; auto.
Qed.

Lemma ep_cmp_swo : strict_weak_order (ep_cmp A ltb).
Proof.
  pose proof (swo_lex (fun a b : nat * A => fst b <? fst a) (fun a b => ltb (snd b) (snd a))) as H.
  assert (H1 : strict_weak_order (fun a b : nat * A => fst b <? fst a)).
  { apply (swo_flip (fun a b : nat * A => fst a <? fst b)).
    apply (swo_preimage (fst : nat * A -> nat) Nat.ltb). apply ltb_nat_swo. }
  assert (H2 : strict_weak_order (fun a b : nat * A => ltb (snd b) (snd a))).
  { apply (swo_flip (fun a b : nat * A => ltb (snd a) (snd b))).
    apply (swo_preimage (snd : nat * A -> A) ltb). auto. }
  specialize (H H1 H2).
  assert (E : forall a b, ep_cmp A ltb a b =
    (if fst b <? fst a then true else if fst a <? fst b then false else ltb (snd b) (snd a))).
  { intros a b. unfold ep_cmp. destruct (fst b =? fst a) eqn:E.
    - apply Nat.eqb_eq in E. rewrite E, Nat.ltb_irrefl. auto.
    - apply Nat.eqb_neq in E. destruct (fst b <? fst a) eqn:F; auto.
      apply Nat.ltb_ge in F. assert (fst a <? fst b = true) as ->; auto. apply Nat.ltb_lt; lia. }
  destruct H as (I & T & N).
  repeat split; intros; rewrite ?E in *; eauto.
Qed.

End P.
