(** C26: theorems about the repair of values outside of their bounds. *)
From Coq Require Import ZArith QArith Qabs List Lia Lqa.
From Verif Require Import Outcome BoundsModel BoundsSpec BoundsProofs.
Import ListNotations.
Open Scope Q_scope.

(** in exact arithmetic, folding returns the image of the value by reflections on the two
    bounds that lies in the interval, and leaves inside values alone *)
Theorem C26_fold_interval :
  forall mn mx r u y, mn < mx -> Qabs r <= 1000000000 -> fold (fun x => x) (Interval mn mx) r u = Ok y ->
  mn <= y <= mx /\ mirror_image mn mx r y /\ (mn <= r <= mx -> y = r).
Proof. exact fold_exact. Qed.
Print Assumptions C26_fold_interval.
Example C26_fold_interval_ex :
  exists y z, fold (fun x => x) (Interval (-1) (3 # 2)) 11 0 = Ok y /\ y == 1 /\
              fold (fun x => x) (Interval (-1) (3 # 2)) (-(37 # 4)) 0 = Ok z /\ z == 3 # 4.
Proof. eexists. eexists. split; [vm_compute; reflexivity|]. split; [reflexivity|].
  split; [vm_compute; reflexivity|reflexivity]. Qed.
(** there is only one such point, so folding is periodic with twice the range and
    symmetric around each bound *)
Theorem C26_fold_unique :
  forall mn mx r y z, mn < mx -> mn <= y <= mx -> mn <= z <= mx ->
  mirror_image mn mx r y -> mirror_image mn mx r z -> y == z.
Proof. exact mirror_unique. Qed.
Print Assumptions C26_fold_unique.
Theorem C26_fold_periodic :
  forall mn mx r s u v y z, mn < mx -> Qabs r <= 1000000000 -> Qabs s <= 1000000000 ->
  mirror_image mn mx r s ->
  fold (fun x => x) (Interval mn mx) r u = Ok y -> fold (fun x => x) (Interval mn mx) s v = Ok z -> y == z.
Proof. exact fold_periodic. Qed.
Print Assumptions C26_fold_periodic.
Example C26_fold_periodic_ex : mirror_image (-1) (3 # 2) 11 (-13) /\ mirror_image (-1) (3 # 2) 11 1.
Proof. split; [exists 0%Z; right; reflexivity|exists (-2)%Z; left; reflexivity]. Qed.
(** it answers whenever the number of ranges between the value and the interval fits in
    a long *)
Theorem C26_fold_answers :
  forall mn mx r u, mn < mx -> Qabs r <= 1000000000 ->
  (Qabs r + Qabs mn + Qabs mx) / (2 * (mx - mn)) < inject_Z long_max + 1 ->
  exists y, fold (fun x => x) (Interval mn mx) r u = Ok y.
Proof. exact fold_total. Qed.
Print Assumptions C26_fold_answers.
Example C26_fold_answers_ex :
  (Qabs 500 + Qabs (-1) + Qabs 1) / (2 * (1 - -1)) < inject_Z long_max + 1 /\
  (* an interval of length 1e-12 overflows *)
  fold (fun x => x) (Interval 0 (1 # 1000000000000)) 100000000 0 = UB.
Proof. split; vm_compute; reflexivity. Qed.
(** values beyond 1e9 are replaced by a point of the interval *)
Theorem C26_fold_far :
  forall mn mx r u y, mn < mx -> 1000000000 < Qabs r -> 0 <= u -> u < mx - mn ->
  fold (fun x => x) (Interval mn mx) r u = Ok y -> mn <= y <= mx.
Proof. exact fold_far. Qed.
Print Assumptions C26_fold_far.
Example C26_fold_far_ex : fold (fun x => x) (Interval 2 5) (-2000000000) 1 = Ok (2 + 1).
Proof. reflexivity. Qed.
(** in doubles it leaves the interval: folding -191723202 into [0, 0.08] gives
    0.0800000131..., which isInBounds rejects *)
Theorem C91_fold_double_refuted :
  exists mx y, round_double (8 # 100) = mx /\
  fold round_double (Interval 0 mx) (-191723202) 0 = Ok y /\
  mx < y /\ in_bounds (Interval 0 mx) y = false.
Proof.
  exists (5764607523034235 # 72057594037927936). eexists.
  split; [vm_compute; reflexivity|]. split; [vm_compute; reflexivity|].
  split; vm_compute; reflexivity.
Qed.
Print Assumptions C91_fold_double_refuted.
(** half-bounded folding stays in bounds and leaves inside values alone, with any monotone
    rounding that is exact on the bound and on its double *)
Theorem C26_fold_half :
  forall rnd b r u y, monotone rnd -> (forall mn, b = Below mn -> exact_on rnd mn /\ exact_on rnd (2 * mn)) ->
  (forall mx, b = Above mx -> exact_on rnd mx /\ exact_on rnd (2 * mx)) -> (forall mn mx, b <> Interval mn mx) ->
  fold rnd b r u = Ok y -> inside b y /\ (inside b r -> y = r).
Proof. exact fold_half. Qed.
Print Assumptions C26_fold_half.
(** in exact arithmetic it is the reflection on the bound *)
Theorem C26_fold_half_mirror :
  forall m r u, (r < m -> fold (fun x => x) (Below m) r u = Ok (2 * m - r)) /\
  (m < r -> fold (fun x => x) (Above m) r u = Ok (2 * m - r)) /\ fold (fun x => x) NoBounds r u = Ok r.
Proof.
  intros m r u. cbn [fold]. repeat split; intros H; apply qltb_lt in H; rewrite H; reflexivity.
Qed.
Print Assumptions C26_fold_half_mirror.
Example C26_fold_half_ex :
  monotone (fun x => x) /\ exact_on (fun x => x) 3 /\ fold (fun x => x) (Below 3) (-5) 0 = Ok (2 * 3 - -5).
Proof. split; [intros x y H; exact H|]. split; reflexivity. Qed.
(** truncation gives the nearest point in bounds *)
Theorem C26_truncate :
  forall b r, not_empty b -> nearest (inside b) r (truncate b r) /\ (inside b r -> truncate b r = r).
Proof. exact truncate_ok. Qed.
Print Assumptions C26_truncate.
Theorem C26_in_bounds : forall b r, in_bounds b r = true <-> inside b r.
Proof. exact in_bounds_ok. Qed.
Print Assumptions C26_in_bounds.
Example C26_truncate_ex :
  not_empty (Interval 2 5) /\ truncate (Interval 2 5) 7 = 5 /\ truncate (Below 2) 1 = 2 /\ truncate (Above 2) 3 = 2 /\
  in_bounds (Interval 2 5) 5 = true /\ in_bounds (Above 2) 3 = false.
Proof. split; [cbn; lra|]. repeat split; reflexivity. Qed.
(** vectors: component by component *)
Theorem C26_truncate_vector :
  forall bs v v', Forall not_empty bs -> truncate_vector bs v = Ok v' ->
  length v' = length v /\
  forall i r, nth_error v i = Some r ->
    match nth_error bs i with
    | Some b => exists y, nth_error v' i = Some y /\ nearest (inside b) r y /\ (inside b r -> y = r)
    | None => nth_error v' i = Some r
    end.
Proof. exact truncate_vector_ok. Qed.
Print Assumptions C26_truncate_vector.
Theorem C26_fold_vector :
  forall bs v us v', fold_vector (fun x => x) bs v us = Ok v' ->
  length v' = length v /\
  forall i r, nth_error v i = Some r ->
    match nth_error bs i with
    | Some b => exists u y, nth_error us i = Some u /\ nth_error v' i = Some y /\ fold (fun x => x) b r u = Ok y
    | None => nth_error v' i = Some r
    end.
Proof. exact fold_vector_ok. Qed.
Print Assumptions C26_fold_vector.
Theorem C26_in_bounds_vector :
  forall bs v b, in_bounds_vector bs v = Ok b ->
  (b = true <-> forall i bd r, nth_error bs i = Some bd -> nth_error v i = Some r -> inside bd r).
Proof. exact in_bounds_vector_ok. Qed.
Print Assumptions C26_in_bounds_vector.
Example C26_vector_ex :
  truncate_vector [Interval 2 5; NoBounds; Below 1] [7; 8; 0; 4] = Ok [5; 8; 1; 4] /\
  fold_vector (fun x => x) [NoBounds; Below 1] [7; 2] [0; 0] = Ok [7; 2] /\
  in_bounds_vector [Interval 2 5; Below 1] [7; 1] = Ok false.
Proof. repeat split; reflexivity. Qed.
(** a random integer of an integer interval is in bounds but is never its maximum *)
Theorem C26_int_random :
  forall mn mx k, (0 <= k < mx - mn)%Z -> (mn <= int_random mn mx k < mx)%Z.
Proof. unfold int_random. intros. lia. Qed.
Print Assumptions C26_int_random.
Example C26_int_random_ex : int_random 3 7 3 = 6%Z.
Proof. reflexivity. Qed.
