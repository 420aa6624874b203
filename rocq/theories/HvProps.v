(** C47: the hypervolume metrics compute the dominated volume. *)
From Coq Require Import List Arith Lia Bool ZArith QArith Lqa Permutation.
From Verif Require Import Outcome Lib ReplModel HvModel HvSpec HvProofs HvMetric.
Import ListNotations.
Close Scope Q_scope.
Open Scope nat_scope.

(** The recursive computation returns the volume of the union of the boxes from the origin to
    the points, for every front of points with non-negative coordinates in two dimensions or more. *)
Theorem C47_recursion_is_volume : forall k front, 2 <= k -> in_orthant k front ->
  exists v front', calc_hypervolume k front (length front) = Ok (v, front') /\ is_hypervolume k front v.
Proof. exact calc_hypervolume_correct. Qed.
(** The specification determines the value. *)
Theorem C47_volume_is_unique : forall k front v w, is_hypervolume k front v -> is_hypervolume k front w -> (v == w)%Q.
Proof. exact hypervolume_unique. Qed.
Example C47_recursion_case : in_orthant 3 [[1; 2; 3]; [2; 2; 2]; [3; 1; 1 # 2]]%Q /\
  match calc_hypervolume 3 [[1; 2; 3]; [2; 2; 2]; [3; 1; 1 # 2]]%Q 3 with Ok (v, _) => Qeq_bool v (21 # 2) = true | _ => False end.
Proof.
  split; [|vm_compute; reflexivity]. intros p i Hp Hi. cbn in Hp.
  destruct Hp as [<-|[<-|[<-|[]]]]; destruct i as [|[|[|]]]; try lia; cbn; eexists; split; try reflexivity; lra.
Qed.

(** With a reference point and no normalisation, the metric is the volume dominated by the set
    and bounded by the reference point, when no point is worse than the reference point. *)
Theorem C47_metric_with_reference_point : forall (dirs : list bool) (ref : list Q) (set : list (list Q)),
  2 <= length dirs -> length ref = length dirs -> (forall p, In p set -> length dirs <= length p) ->
  (forall p, In p set -> no_worse dirs ref p) ->
  exists v front, hv_metric dirs false 0 ref (repeat (0, 1)%Q (length dirs)) set = Ok v /\
    Forall2 (seen_from dirs ref (repeat (0, 1)%Q (length dirs))) set front /\ in_orthant (length dirs) front /\ is_hypervolume (length dirs) front v.
Proof. exact metric_with_reference. Qed.
Example C47_reference_case :
  match hv_metric [true; false] false 0 [10; 0]%Q [(0, 1); (0, 1)]%Q [[2; 3]; [4; 6]]%Q with Ok v => Qeq_bool v 42 = true | _ => False end /\
  no_worse [true; false] [10; 0]%Q [2; 3]%Q.
Proof.
  split; [vm_compute; reflexivity|]. intros [|[|i]] d r x A B C; cbn in *; try (destruct i; discriminate); inversion A; inversion B; inversion C; subst; lra.
Qed.

(** With normalisation and a coefficient of at least 1, the metric is the volume dominated by the
    set scaled to the unit box, when every objective takes two values. *)
Theorem C47_metric_normalised : forall (dirs : list bool) rho ref b0 (set : list (list Q)),
  2 <= length dirs -> (1 <= rho)%Q -> (forall p, In p set -> length dirs <= length p) ->
  (forall i, i < length dirs -> exists p q x y, In p set /\ In q set /\ nth_error p i = Some x /\ nth_error q i = Some y /\ (x < y)%Q) ->
  exists v bounds front, hv_metric dirs true rho ref b0 set = Ok v /\
    (forall i, i < length dirs -> exists mn mx, nth_error bounds i = Some (mn, mx) /\ spans set i mn mx) /\
    Forall2 (seen_from dirs (map (fun d : bool => if d then rho else 1 - rho)%Q dirs) bounds) set front /\ in_orthant (length dirs) front /\ is_hypervolume (length dirs) front v.
Proof. exact metric_normalised. Qed.
Example C47_normalised_case :
  match hv_metric [true; true] true (11 # 10) [] [] [[2; 30]; [4; 10]]%Q with Ok v => Qeq_bool v (21 # 100) = true | _ => False end.
Proof. vm_compute. reflexivity. Qed.

(** The difference metric is non-negative for a set that covers the other, and antisymmetric. *)
Theorem C47_difference_of_covering_sets : forall (dirs : list bool) (ref : list Q) (set1 set2 : list (list Q)),
  2 <= length dirs -> length ref = length dirs -> (forall p, In p (set1 ++ set2) -> length dirs <= length p /\ no_worse dirs ref p) ->
  (forall q, In q set2 -> exists p, In p set1 /\ at_least dirs p q) ->
  exists d, hv_difference dirs ref set1 set2 = Ok d /\ (0 <= d)%Q /\ exists d', hv_difference dirs ref set2 set1 = Ok d' /\ (d' == - d)%Q.
Proof. exact difference_signs. Qed.
Example C47_difference_case :
  match hv_difference [true; true] [10; 10]%Q [[2; 3]; [4; 1]]%Q [[5; 5]]%Q with Ok v => Qeq_bool v 43 = true | _ => False end.
Proof. vm_compute. reflexivity. Qed.

(** Refuted without the conditions above. With one objective the value is the square of the length. *)
Theorem C47_one_objective_outside : exists v, hv_metric [true] false 0 [3]%Q [(0, 1)]%Q [[1]]%Q = Ok v /\ ~ is_hypervolume 1 [[2]]%Q v.
Proof.
  eexists. split; [vm_compute; reflexivity|]. intros [_ H]. destruct (H 1) as (L & N & I & E).
  - split; [lia|]. intros p i [<-|[]] Hi. assert (i = 0) as -> by lia. exists 2%Q, 2. split; reflexivity.
  - assert (Hl : length L <= length [[0]; [1]]).
    { apply NoDup_incl_length; auto. intros c Hc. apply I in Hc as [Lc (p & [<-|[]] & Hp)]. destruct c as [|a [|]]; try discriminate.
      specialize (Hp 0 a 2%Q eq_refl eq_refl). change (2 * natQ 1)%Q with (natQ 2) in Hp. rewrite <- natQ_S in Hp. apply natQ_le in Hp.
      destruct a as [|[|]]; cbn; auto. lia. }
    cbn in Hl. apply natQ_le in Hl. rewrite <- E in Hl. cbn in Hl. unfold natQ, Qle in Hl. cbn in Hl. lia.
Qed.
(** A point beyond the reference point changes the value: here the volume of the second point
    alone is 6, and adding a point worse than the reference point on one objective gives 4. *)
Theorem C47_beyond_reference_outside :
  match hv_metric [false; false] false 0 [0; 0]%Q [(0, 1); (0, 1)]%Q [[2; 3]]%Q with Ok v => Qeq_bool v 6 = true | _ => False end /\
  match hv_metric [false; false] false 0 [0; 0]%Q [(0, 1); (0, 1)]%Q [[-1; 5]; [2; 3]]%Q with Ok v => Qeq_bool v 4 = true | _ => False end.
Proof. split; vm_compute; reflexivity. Qed.
(** With normalisation, a set where some objective is constant divides by zero. *)
Theorem C47_constant_objective_outside : hv_metric [true; true] true (11 # 10) [] [] [[2; 1]; [2; 3]]%Q = UB.
Proof. vm_compute. reflexivity. Qed.
(** Without normalisation, the reference point computed from a coefficient is on the wrong side
    of negative values: two negative lengths give a positive volume. *)
Theorem C47_negative_maximum_outside :
  match hv_metric [true; true] false (3 # 2) [] [] [[-2; -4]]%Q with Ok v => Qeq_bool v 2 = true | _ => False end /\ ~ no_worse [true; true] [-3; -6]%Q [-2; -4]%Q.
Proof.
  split; [vm_compute; reflexivity|]. intros H. specialize (H 0 true (-3)%Q (-2)%Q eq_refl eq_refl eq_refl). cbn in H. lra.
Qed.

Print Assumptions C47_recursion_is_volume.
Print Assumptions C47_metric_normalised.
Print Assumptions C47_difference_of_covering_sets.
Print Assumptions C47_volume_is_unique.
Print Assumptions C47_metric_with_reference_point.
Print Assumptions C47_one_objective_outside.
Print Assumptions C47_beyond_reference_outside.
Print Assumptions C47_constant_objective_outside.
Print Assumptions C47_negative_maximum_outside.
