(** Theorems about the diversity assignments (C107-C110). *)
From Coq Require Import List Bool QArith Arith Lia Lqa Permutation Sorted.
From Verif Require Import Lib Outcome OrderSpec OrderLemmas BoundsModel EvalModel EvalSpec DivSpec DivModel DivProofs DivNear.
Import ListNotations.
Close Scope Q_scope.
Open Scope nat_scope.

(** ** C107: crowding *)
(** every solution receives exactly one diversity, and it is its crowding distance *)
Theorem C107_crowding_distance : forall X (obj : nat -> X -> Q) sort nobj pop, std_sort_ok sort -> NoDup pop ->
  (2 < length pop -> forall i, i < nobj -> exists a b, In a pop /\ In b pop /\ ~ (obj i a == obj i b)%Q) ->
  exists run, crowding_distances X obj sort nobj pop = Ok run /\ Permutation pop (map fst run) /\ crowding nobj obj pop (fun x d => In (x, d) run).
Proof. intros. apply crowding_distances_ok; auto. Qed.
Print Assumptions C107_crowding_distance.

Lemma arranged_end X (val : X -> Q) members l x : arranged val members l -> In x members -> ~ at_end x l ->
  (exists y, In y members /\ (val y <= val x)%Q /\ at_end y l) /\ (exists z, In z members /\ (val x <= val z)%Q /\ at_end z l).
Proof.
  intros [P S] Hx He. assert (Hl : In x l) by (eapply Permutation_in; eauto). split.
  - destruct l as [|y r]; [contradiction|]. exists y. split; [eapply Permutation_in; [symmetry; exact P|left; auto]|]. split; [|left; eauto]. inversion_clear S as [|? ? S' F]. destruct Hl as [->|Hl]; [lra|]. rewrite Forall_forall in F. apply F. auto.
  - destruct (exists_last (l := l)) as (r & z & ->); [intros ->; contradiction|]. exists z. split; [eapply Permutation_in; [symmetry; exact P|apply in_or_app; right; left; auto]|]. split; [|right; eauto].
    apply in_app_or in Hl as [Hl|[->|[]]]; [|lra]. clear -S Hl. induction r as [|a r IH]; [contradiction|]. cbn in S. inversion_clear S as [|? ? S' F]. destruct Hl as [->|Hl]; [|auto]. rewrite Forall_forall in F. apply F. apply in_or_app. right. left. auto.
Qed.
(** a solution strictly better, or strictly worse, than all the others on an objective has an
    infinite diversity *)
Theorem C107_extremes_are_infinite : forall X (obj : nat -> X -> Q) sort nobj pop run x d i, std_sort_ok sort -> NoDup pop ->
  (2 < length pop -> forall i, i < nobj -> exists a b, In a pop /\ In b pop /\ ~ (obj i a == obj i b)%Q) ->
  crowding_distances X obj sort nobj pop = Ok run -> In (x, d) run -> i < nobj ->
  (forall y, In y pop -> y <> x -> (obj i x < obj i y)%Q) \/ (forall y, In y pop -> y <> x -> (obj i y < obj i x)%Q) -> d = Infinite.
Proof.
  intros X obj sort nobj pop run x d i Hs Hn Hc E Hin Hi Hext. destruct (crowding_distances_ok X obj sort Hs nobj pop Hn Hc) as (run' & E' & P & C1 & C2). assert (run' = run) as -> by congruence.
  assert (Hx : In x pop) by (eapply Permutation_in; [symmetry; exact P|apply in_map_iff; exists (x, d); auto]).
  destruct (Nat.le_gt_cases (length pop) 2) as [Hle|Hgt]; [eapply C1; eauto|]. destruct (C2 Hgt) as (arr & A & B). destruct (B x d Hx Hin) as [[_ Hd]|[Hne _]]; auto. exfalso.
  destruct (arranged_end X (obj i) pop (arr i) x (A i Hi) Hx (Hne i Hi)) as [(y & Hy & Ly & Ey) (z & Hz & Lz & Ez)].
  assert (y <> x) by (intros ->; apply (Hne i Hi); auto). assert (z <> x) by (intros ->; apply (Hne i Hi); auto).
  destruct Hext as [Hm|Hm]; [specialize (Hm y Hy ltac:(auto)); lra|specialize (Hm z Hz ltac:(auto)); lra].
Qed.
Print Assumptions C107_extremes_are_infinite.

(** a finite diversity is a sum, over the objectives, of shares between 0 and 1 *)
Lemma gap_range X (val : X -> Q) members l x g : arranged val members l -> gap_share val l x g -> (0 <= g <= 1)%Q.
Proof.
  intros [_ S] (b & p & s & a & lo & hi & El & (r1 & E1) & (r2 & E2) & H1 & H2).
  assert (O : forall l1 l2 u v, l = l1 ++ u :: l2 -> In v l2 -> (val u <= val v)%Q).
  { intros l1 l2 u v -> Hv. clear -S Hv. induction l1 as [|c l1 IH]; cbn in S; inversion_clear S as [|? ? S' F]; [rewrite Forall_forall in F; apply F; auto|auto]. }
  assert (Hlo : (val lo <= val p)%Q). { destruct b as [|c b]; cbn in El; [assert (lo = p) as -> by congruence; lra|]. apply (O [] r1); [auto|]. assert (r1 = b ++ p :: x :: s :: a) as -> by congruence. apply in_or_app; right; left; auto. }
  assert (Hhi : (val s <= val hi)%Q).
  { destruct (exists_last (l := s :: a)) as (t & z & Et); [discriminate|]. assert (z = hi) as ->. { rewrite El in E2. change (p :: x :: s :: a) with ([p; x] ++ (s :: a)) in E2. rewrite Et, !app_assoc in E2. apply app_inj_tail in E2. tauto. }
    destruct t as [|t0 t]; cbn in Et; [assert (s = hi) as -> by congruence; lra|]. apply (O (b ++ [p; x]) a); [rewrite El, <- app_assoc; auto|]. assert (a = t ++ [hi]) as -> by congruence. apply in_or_app; right; left; auto. }
  assert (Hps : (val p <= val s)%Q). { apply (O b (x :: s :: a)); auto. right. left. auto. }
  destruct (Qlt_le_dec (val lo) (val hi)) as [L|L]; [|rewrite H2 by lra; lra]. rewrite (H1 L). split.
  - apply Qle_shift_div_l; lra.
  - apply Qle_shift_div_r; lra.
Qed.
Theorem C107_finite_range : forall X (obj : nat -> X -> Q) sort nobj pop run x d, std_sort_ok sort -> NoDup pop ->
  (2 < length pop -> forall i, i < nobj -> exists a b, In a pop /\ In b pop /\ ~ (obj i a == obj i b)%Q) ->
  crowding_distances X obj sort nobj pop = Ok run -> In (x, d) run -> d = Infinite \/ exists q, d = Finite q /\ (0 <= q <= inject_Z (Z.of_nat nobj))%Q.
Proof.
  intros X obj sort nobj pop run x d Hs Hn Hc E Hin. destruct (crowding_distances_ok X obj sort Hs nobj pop Hn Hc) as (run' & E' & P & C1 & C2). assert (run' = run) as -> by congruence.
  assert (Hx : In x pop) by (eapply Permutation_in; [symmetry; exact P|apply in_map_iff; exists (x, d); auto]).
  destruct (Nat.le_gt_cases (length pop) 2) as [Hle|Hgt]; [left; eapply C1; eauto|]. destruct (C2 Hgt) as (arr & A & B). destruct (B x d Hx Hin) as [[_ Hd]|[_ (gs & q & Lg & Hg & -> & Hq)]]; auto. right. exists q. split; auto. rewrite Hq.
  assert (R : forall g, In g gs -> (0 <= g <= 1)%Q). { intros g Hg'. apply In_nth_error in Hg' as (i & Hi). eapply gap_range; [apply A|apply Hg; eauto]. rewrite <- Lg. apply nth_error_Some. congruence. }
  rewrite <- Lg. clear -R. induction gs as [|g gs IH]; [split; unfold qsum; cbn; discriminate|]. rewrite EvalNk.qsum_cons. cbn [length]. rewrite Nat2Z.inj_succ. unfold Z.succ. rewrite inject_Z_plus. specialize (IH ltac:(intros; apply R; right; auto)). specialize (R g (or_introl eq_refl)). cbn [inject_Z]. change (inject_Z 1) with 1%Q. lra.
Qed.
Print Assumptions C107_finite_range.

(** five solutions, two objectives: the middle ones get the sums of their shares *)
Definition five : list nat := [3; 0; 4; 1; 2].
Definition two_obj (i x : nat) : Q := nth x (nth i [[0; 1; 2; 4; 8]; [9; 6; 5; 1; 0]]%Q []) 0%Q.
Example C107_example : NoDup five /\ (forall i, i < 2 -> exists a b, In a five /\ In b five /\ ~ (two_obj i a == two_obj i b)%Q) /\
  exists run, crowding_distances nat two_obj the_sort 2 five = Ok run /\
  In (0, Infinite) run /\ In (4, Infinite) run /\ exists q, In (1, Finite q) run /\ (q == (2 # 8) + (4 # 9))%Q.
Proof.
  split; [repeat constructor; cbn; intuition lia|]. split.
  - intros i Hi. exists 0, 4. split; [cbn; auto|]. split; [cbn; auto|]. destruct i as [|[|i]]; [| |lia]; vm_compute; discriminate.
  - eexists. split; [vm_compute; reflexivity|]. cbn. split; [auto 9|]. split; [auto 9|]. eexists. split; [auto 9|]. reflexivity.
Qed.
(** outside: an objective on which all the solutions are equal divides zero by zero *)
Theorem C107_constant_objective_outside : exists x run, crowding_distances nat (fun _ _ => 1%Q) the_sort 1 [0; 1; 2] = Ok run /\ In (x, NotANumber) run.
Proof. exists 1. eexists. split; [vm_compute; reflexivity|]. cbn. auto. Qed.
Print Assumptions C107_constant_objective_outside.

(** ** C108: crowding front by front *)
(** within every front (the solutions of one fitness), the diversities are the crowding
    distances of that front, whatever the other fronts are, and a constant objective adds nothing *)
Theorem C108_crowding_within_the_front : forall X (obj : nat -> X -> Q) fit sort nobj pop, std_sort_ok sort -> NoDup pop ->
  exists run, front_by_front_crowding X obj fit sort nobj pop = Ok run /\ Permutation pop (map fst run) /\
  forall q, crowding nobj obj (filter (fun x => Qeq_bool (fit x) q) pop) (fun x d => In (x, d) run).
Proof. intros. apply front_by_front_ok; auto. Qed.
Print Assumptions C108_crowding_within_the_front.

Theorem C108_never_not_a_number : forall X (obj : nat -> X -> Q) fit sort nobj pop run x d, std_sort_ok sort -> NoDup pop ->
  front_by_front_crowding X obj fit sort nobj pop = Ok run -> In (x, d) run -> d = Infinite \/ exists q, d = Finite q /\ (0 <= q <= inject_Z (Z.of_nat nobj))%Q.
Proof.
  intros X obj fit sort nobj pop run x d Hs Hn E Hin. destruct (front_by_front_ok X obj fit sort Hs nobj pop Hn) as (run' & E' & P & C). assert (run' = run) as -> by congruence.
  assert (Hx : In x pop) by (eapply Permutation_in; [symmetry; exact P|apply in_map_iff; exists (x, d); auto]). destruct (C (fit x)) as [C1 C2].
  assert (Hf : In x (front_of X fit (fit x) pop)). { apply filter_In. split; auto. apply Qeq_bool_iff. reflexivity. }
  destruct (Nat.le_gt_cases (length (front_of X fit (fit x) pop)) 2) as [Hle|Hgt]; [left; eapply C1; eauto|]. destruct (C2 Hgt) as (arr & A & B). destruct (B x d Hf Hin) as [[_ Hd]|[_ (gs & q & Lg & Hg & -> & Hq)]]; auto. right. exists q. split; auto. rewrite Hq.
  assert (R : forall g, In g gs -> (0 <= g <= 1)%Q). { intros g Hg'. apply In_nth_error in Hg' as (i & Hi). eapply gap_range; [apply A|apply Hg; eauto]. rewrite <- Lg. apply nth_error_Some. congruence. }
  rewrite <- Lg. clear -R. induction gs as [|g gs IH]; [split; unfold qsum; cbn; discriminate|]. rewrite EvalNk.qsum_cons. cbn [length]. rewrite Nat2Z.inj_succ. unfold Z.succ. rewrite inject_Z_plus. specialize (IH ltac:(intros; apply R; right; auto)). specialize (R g (or_introl eq_refl)). cbn [inject_Z]. change (inject_Z 1) with 1%Q. lra.
Qed.
Print Assumptions C108_never_not_a_number.

Definition two_fronts (x : nat) : Q := if x <? 3 then 1%Q else 2%Q.
Example C108_example : NoDup five /\ exists run, front_by_front_crowding nat two_obj two_fronts the_sort 2 five = Ok run /\
  In (0, Infinite) run /\ In (2, Infinite) run /\ In (3, Infinite) run /\ exists q, In (1, Finite q) run /\ (q == 2)%Q.
Proof.
  split; [repeat constructor; cbn; intuition lia|]. eexists. split; [vm_compute; reflexivity|]. cbn. split; [auto 9|]. split; [auto 9|]. split; [auto 9|]. eexists. split; [auto 9|]. reflexivity.
Qed.

(** ** C109: nearest neighbour *)
(** the diversity of a solution of the population or of the archive depends on the distance to
    its [index]-th nearest neighbour among all the others (the farthest one when there are fewer) *)
Theorem C109_nearest_neighbour : forall X sort dist index pop archive, std_sort_ok sort -> (forall x y : X, dist x y = dist y x) -> length (pop ++ archive) <> 1 ->
  exists divs, nearest_neighbour X sort dist index pop archive = Ok divs /\ length divs = length (pop ++ archive) /\
    forall before x after, pop ++ archive = before ++ x :: after ->
      exists d v, kth_smallest (Nat.max 1 (Nat.min index (length (before ++ after)))) (map (dist x) (before ++ after)) d /\
        nth_error divs (length before) = Some v /\ (v == - (1) / (2 + d))%Q.
Proof.
  intros X sort dist index pop archive Hs Hd Hn. destruct (nearest_ok X sort dist index pop archive Hs Hd Hn) as (ds & E & L & H). exists (map (fun d => - (1) / (2 + d))%Q ds). split; auto. split; [rewrite map_length; auto|].
  intros b x a Ea. destruct (H b x a Ea) as (d & Ed & K). exists d, (- (1) / (2 + d))%Q. split; auto. split; [rewrite nth_error_map', Ed; auto|reflexivity].
Qed.
Print Assumptions C109_nearest_neighbour.

(** with non-negative distances the diversity is negative, at least -1/2, and grows with the
    distance *)
Theorem C109_range : forall X sort dist index pop archive divs v, std_sort_ok sort -> (forall x y : X, dist x y = dist y x) -> (forall x y, 0 <= dist x y)%Q -> length (pop ++ archive) <> 1 ->
  nearest_neighbour X sort dist index pop archive = Ok divs -> In v divs -> (- (1 # 2) <= v < 0)%Q.
Proof.
  intros X sort dist index pop archive divs v Hs Hd Hp Hn E Hv. destruct (C109_nearest_neighbour X sort dist index pop archive Hs Hd Hn) as (divs' & E' & L & H). assert (divs' = divs) as -> by congruence.
  apply In_nth_error in Hv as (i & Hi). assert (Hl : i < length (pop ++ archive)) by (rewrite <- L; apply nth_error_Some; congruence). destruct (nth_error (pop ++ archive) i) as [x|] eqn:Ex; [|apply nth_error_None in Ex; lia].
  apply nth_error_split in Ex as (b & a & Ea & Lb). destruct (H b x a Ea) as (d & w & (l & P & _ & Ed) & Ew & Hw). assert (w = v) as -> by congruence. rewrite Hw.
  assert (D : (0 <= d)%Q). { apply nth_error_In in Ed. apply (Permutation_in _ (Permutation_sym P)) in Ed. apply in_map_iff in Ed as (y & <- & _). apply Hp. }
  split; [apply Qle_shift_div_l; lra|apply Qlt_shift_div_r; lra].
Qed.
Print Assumptions C109_range.

Lemma ranked l : StronglySorted Qle l -> forall i d e j, nth_error l i = Some d -> nth_error l j = Some e -> i <= j -> (d <= e)%Q.
Proof. induction 1 as [|a l S IH F]; intros [|i] d e [|j] Hi Hj Hij; cbn in *; try discriminate; try lia; [assert (d = e) as -> by congruence; lra|injection Hi as <-; rewrite Forall_forall in F; apply F; eapply nth_error_In; eauto|eapply IH; eauto; lia]. Qed.
(** what the rank means: fewer than [k] distances are smaller, at least [k] are not greater *)
Theorem C109_rank : forall k ds d, 1 <= k -> kth_smallest k ds d -> k <= length ds ->
  length (filter (fun e => if Qlt_le_dec e d then true else false) ds) < k <= length (filter (fun e => if Qlt_le_dec d e then false else true) ds).
Proof.
  intros k ds d Hk (l & P & S & E) Hl.
  assert (Pf : forall p : Q -> bool, length (filter p ds) = length (filter p l)). { intros p. clear -P. induction P; cbn; auto; [destruct (p x); cbn; lia|destruct (p x), (p y); cbn; auto|lia]. }
  rewrite !Pf. assert (Ek : k - 1 < length l) by (apply nth_error_Some; congruence).
  pose proof (firstn_skipn (k - 1) l) as F1. pose proof (firstn_skipn k l) as F2. split.
  - rewrite <- F1, filter_app, app_length.
    assert (Z : filter (fun e => if Qlt_le_dec e d then true else false) (skipn (k - 1) l) = []).
    { apply filter_none. intros e He. apply In_nth_error in He as (i & Hi). rewrite nth_error_skipn in Hi || (rewrite skipn_nth_error in Hi). destruct (Qlt_le_dec e d) as [B|]; auto. pose proof (ranked l S (k - 1) d e _ E Hi ltac:(lia)). lra. }
    rewrite Z. cbn [length]. assert (G : forall r, length (filter (fun e => if Qlt_le_dec e d then true else false) r) <= length r) by (induction r as [|a r IH]; cbn; auto; destruct (Qlt_le_dec a d); cbn; lia). specialize (G (firstn (k - 1) l)). rewrite firstn_length in G. lia.
  - rewrite <- F2 at 1. rewrite filter_app, app_length. rewrite (filter_id _ (firstn k l)); [rewrite firstn_length; lia|]. intros e He. apply In_nth_error in He as (i & Hi).
    assert (Hik : i < k) by (assert (i < length (firstn k l)) by (apply nth_error_Some; congruence); rewrite firstn_length in *; lia). rewrite firstn_nth_error in Hi by auto. destruct (Qlt_le_dec d e) as [B|]; auto. pose proof (ranked l S i e d _ Hi E ltac:(lia)). lra.
Qed.
Print Assumptions C109_rank.

Definition gap (x y : nat) : Q := inject_Z (Z.abs (Z.of_nat x - Z.of_nat y)).
Example C109_example : (forall x y, gap x y = gap y x) /\ length ([0; 10; 3] ++ [4]) <> 1 /\
  nearest_neighbour nat the_sort gap 2 [0; 10; 3] [4] = Ok [(- (1) / (2 + 4))%Q; (- (1) / (2 + 7))%Q; (- (1) / (2 + 3))%Q; (- (1) / (2 + 4))%Q].
Proof. split; [intros x y; unfold gap; f_equal; lia|]. split; [discriminate|]. vm_compute. reflexivity. Qed.
(** outside: the only solution has no neighbour, and the end of an empty list is read *)
Theorem C109_single_outside : forall X sort dist index (x : X), std_sort_ok sort -> nearest_neighbour X sort dist index [x] [] = UB.
Proof.
  intros X sort dist index x Hs. unfold nearest_neighbour. rewrite distances_ok. cbn [app length seq map rbind filter Nat.eqb negb for_in].
  destruct (Hs _ qltb [] (qltb_swo (fun q => q))) as [P _]. apply Permutation_nil in P. rewrite P. unfold get_element. destruct (Nat.min _ _ - 1); auto.
Qed.
Print Assumptions C109_single_outside.

(** ** C110: sharing *)
(** the diversity is how much less crowded the niche is than the most crowded one *)
Theorem C110_sharing : forall X dist close niche (pop : list X), (forall x y, dist x y = dist y x) -> (forall x, dist x x = 0%Q) -> pop <> [] ->
  exists divs most, sharing X dist close niche pop = Ok divs /\ length divs = length pop /\
    (forall x, In x pop -> (niche_count close niche dist x pop <= most)%Q) /\ (exists x, In x pop /\ (niche_count close niche dist x pop == most)%Q) /\
    forall i x, nth_error pop i = Some x -> exists v, nth_error divs i = Some v /\ (v == most - niche_count close niche dist x pop)%Q.
Proof. intros. apply sharing_ok; auto. Qed.
Print Assumptions C110_sharing.

(** front by front, only the solutions of the same fitness share the niche *)
Theorem C110_sharing_within_the_front : forall X fit dist close niche (pop : list X), (forall x y, dist x y = dist y x) -> (forall x, dist x x = 0%Q) -> pop <> [] ->
  let crowded x := niche_count close niche dist x (filter (fun y => Qeq_bool (fit y) (fit x)) pop) in
  exists divs most, front_by_front_sharing X fit dist close niche pop = Ok divs /\ length divs = length pop /\
    (forall x, In x pop -> (crowded x <= most)%Q) /\ (exists x, In x pop /\ (crowded x == most)%Q) /\
    forall i x, nth_error pop i = Some x -> exists v, nth_error divs i = Some v /\ (v == most - crowded x)%Q.
Proof. intros. apply front_sharing_ok; auto. Qed.
Print Assumptions C110_sharing_within_the_front.

(** so no diversity is negative and some solution has diversity 0, in both *)
Theorem C110_never_negative : forall X fit dist close niche (pop : list X) divs, (forall x y, dist x y = dist y x) -> (forall x, dist x x = 0%Q) -> pop <> [] ->
  sharing X dist close niche pop = Ok divs \/ front_by_front_sharing X fit dist close niche pop = Ok divs ->
  (forall v, In v divs -> (0 <= v)%Q) /\ exists v, In v divs /\ (v == 0)%Q.
Proof.
  intros X fit dist close niche pop divs Hd Hs Hne E.
  assert (G : forall (nc : X -> Q) l mx, length l = length pop -> (forall x, In x pop -> (nc x <= mx)%Q) -> (exists x, In x pop /\ (nc x == mx)%Q) -> (forall i x, nth_error pop i = Some x -> exists v, nth_error l i = Some v /\ (v == mx - nc x)%Q) ->
    (forall v, In v l -> (0 <= v)%Q) /\ exists v, In v l /\ (v == 0)%Q).
  { intros nc l mx L M (x0 & Hx0 & E0) H. split.
    - intros v Hv. apply In_nth_error in Hv as (i & Hi). assert (Hl : i < length pop) by (rewrite <- L; apply nth_error_Some; congruence). destruct (nth_error pop i) as [x|] eqn:Ex; [|apply nth_error_None in Ex; lia].
      destruct (H i x Ex) as (w & Ew & Hw). assert (w = v) as -> by congruence. rewrite Hw. pose proof (M x (nth_error_In _ _ Ex)). lra.
    - apply In_nth_error in Hx0 as (i & Hi). destruct (H i x0 Hi) as (w & Ew & Hw). exists w. split; [eapply nth_error_In; eauto|]. rewrite Hw. lra. }
  destruct E as [E|E].
  - destruct (C110_sharing X dist close niche pop Hd Hs Hne) as (l & mx & E' & L & M & N & H). assert (l = divs) as -> by congruence. exact (G (fun x => niche_count close niche dist x pop) divs mx L M N H).
  - destruct (C110_sharing_within_the_front X fit dist close niche pop Hd Hs Hne) as (l & mx & E' & L & M & N & H). assert (l = divs) as -> by congruence. exact (G _ divs mx L M N H).
Qed.
Print Assumptions C110_never_negative.

Example C110_example : (forall x y, gap x y = gap y x) /\ (forall x, gap x x = 0%Q) /\ [1; 2; 9; 2] <> [] /\
  (exists divs, sharing nat gap (fun d => 1 - d / 3)%Q 3 [1; 2; 9; 2] = Ok divs /\ Forall2 Qeq divs [1 # 3; 0; 5 # 3; 0]%Q) /\
  exists divs, front_by_front_sharing nat (fun x => if x =? 1 then 1 else 0)%Q gap (fun d => 1 - d / 3)%Q 3 [1; 2; 9; 2] = Ok divs /\ Forall2 Qeq divs [1; 0; 1; 0]%Q.
Proof.
  split; [intros x y; unfold gap; f_equal; lia|]. split; [intros x; unfold gap; rewrite Z.sub_diag; reflexivity|]. split; [discriminate|].
  split; eexists; (split; [vm_compute; reflexivity|repeat constructor]).
Qed.
(** outside: an empty population indexes the first row of an empty matrix *)
Theorem C110_empty_outside : forall X fit dist close niche, sharing X dist close niche [] = UB /\ front_by_front_sharing X fit dist close niche [] = UB.
Proof. intros. split; reflexivity. Qed.
Print Assumptions C110_empty_outside.
