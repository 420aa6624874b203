(** Indicator-based fitness assignment (C105) and the hypervolume-difference indicator (C106). *)
From Coq Require Import List Bool QArith ZArith Arith Lia Lqa Permutation.
From Verif Require Import Lib Outcome BoundsModel BoundsProofs ParetoModel ParetoSpec ParetoProofs EvalModel EvalSpec HvSpec HvProofs IndModel IndSpec IndProofs IndVol IndMetric.
Import ListNotations.
Close Scope Q_scope.
Open Scope nat_scope.

(** the object used on one population after another: the matrix it keeps *)
Fixpoint used_before (metric : list (Q * Q) -> list Q -> list Q -> res Q) (h : Q -> Q) (nobj : nat) (history : list (list (list Q * Q))) (values : list (list Q)) : res (list (list Q)) :=
  match history with
  | [] => Ok values
  | pop :: rest => let! (_, _, vs) := assign metric h nobj pop values in used_before metric h nobj rest vs
  end.
Definition well_formed (nobj : nat) (pop : list (list Q * Q)) : Prop := pop <> [] /\ forall p, In p pop -> length (fst p) = nobj.
Lemma history_square metric h ind nobj : (forall bs x y, length bs = nobj -> length x = nobj -> length y = nobj -> metric bs x y = Ok (ind bs x y)) ->
  forall history m values, square m values -> Forall (well_formed nobj) history -> exists k vs, used_before metric h nobj history values = Ok vs /\ square k vs.
Proof.
  intros Hm. induction history as [|pop rest IH]; intros m values Hs Hf; cbn [used_before]; [eauto|]. apply Forall_cons_iff in Hf as [[Hne Hl] Hf].
  destruct (assign_ok metric h ind nobj pop m values Hne Hl Hs) as (p & bs & vs & k & E & _ & _ & Sq & _); [intros bs [Lb _] p q Hp Hq; apply Hm; auto|].
  rewrite E. cbn [rbind]. eapply IH; eauto.
Qed.
Lemma square_nil : square 0 []. Proof. split; auto. Qed.

(** whatever populations the object was used on before, on a non-empty population it leaves the
    solutions in place, sets the bounds to those the population spans, and gives every solution
    minus the sum of the weights of the others' indicators against it *)
Theorem C105_fitness_is_the_indicator_sum : forall metric h ind nobj history pop,
  (forall bs x y, length bs = nobj -> length x = nobj -> length y = nobj -> metric bs x y = Ok (ind bs x y)) ->
  Forall (well_formed nobj) history -> well_formed nobj pop ->
  exists values p bs vs, used_before metric h nobj history [] = Ok values /\ assign metric h nobj pop values = Ok (p, bs, vs) /\
    map fst p = map fst pop /\ spanned_bounds nobj pop bs /\ indicator_fitness h (ind bs) p.
Proof.
  intros metric h ind nobj history pop Hm Hh [Hne Hl]. destruct (history_square metric h ind nobj Hm history 0 [] square_nil Hh) as (k & vs & E & Sq).
  destruct (assign_ok metric h ind nobj pop k vs Hne Hl Sq) as (p & bs & vs' & k' & E' & A & B & _ & C); [intros bs [Lb _] p q Hp Hq; apply Hm; auto|].
  exists vs, p, bs, vs'. auto.
Qed.
Print Assumptions C105_fitness_is_the_indicator_sum.

(** a solution leaves (and the others' fitnesses are updated) or joins (at any place) *)
Inductive update (metric : list (Q * Q) -> list Q -> list Q -> res Q) (h : Q -> Q) (nobj : nat) (bs : list (Q * Q)) : list (list Q * Q) -> change -> list (list Q * Q) -> Prop :=
| update_leaves pop x f rest rest' : Permutation pop ((x, f) :: rest) -> update_by_deleting metric h bs rest x = Ok rest' -> update metric h nobj bs pop (Leaves x) rest'
| update_joins pop x pop' f before after : length x = nobj -> update_by_adding metric h bs pop x = Ok (pop', f) -> pop' = before ++ after ->
    update metric h nobj bs pop (Joins x) (before ++ (x, f) :: after).
Inductive updates metric h nobj bs : list (list Q * Q) -> list change -> list (list Q * Q) -> Prop :=
| updates_none pop : updates metric h nobj bs pop [] pop
| updates_one pop c pop1 cs pop2 : update metric h nobj bs pop c pop1 -> updates metric h nobj bs pop1 cs pop2 -> updates metric h nobj bs pop (c :: cs) pop2.

(** after any sequence of departures and arrivals the incrementally updated fitnesses are those
    of the formula on the current population (with the bounds of the assignment) *)
Theorem C105_updates_agree_with_recomputing : forall metric h ind nobj bs pop cs pop',
  (forall x y, length x = nobj -> length y = nobj -> metric bs x y = Ok (ind bs x y)) ->
  (forall p, In p pop -> length (fst p) = nobj) -> indicator_fitness h (ind bs) pop ->
  updates metric h nobj bs pop cs pop' ->
  indicator_fitness h (ind bs) pop' /\ (forall p, In p pop' -> length (fst p) = nobj).
Proof.
  intros metric h ind nobj bs pop cs pop' Hm Hl Hf Hu. revert Hl Hf. induction Hu as [|pop c pop1 cs pop2 H1 _ IH]; intros Hl Hf; auto.
  assert (indicator_fitness h (ind bs) pop1 /\ (forall p, In p pop1 -> length (fst p) = nobj)) as [? ?]; [|auto]. clear IH.
  assert (Same : forall l l' : list (list Q * Q), map fst l = map fst l' -> (forall p, In p l' -> length (fst p) = nobj) -> forall p, In p l -> length (fst p) = nobj).
  { intros l l' E H p Hp. apply (in_map fst) in Hp. rewrite E in Hp. apply in_map_iff in Hp as (q & <- & Hq). auto. }
  destruct H1 as [pop x f rest rest' P E|pop x pop' f b a Lx E Ep].
  - assert (Hr : forall p, In p rest -> length (fst p) = nobj) by (intros p Hp; apply Hl; rewrite P; right; auto).
    assert (Hx : length x = nobj) by (apply (Hl (x, f)); rewrite P; left; auto).
    destruct (deleting_ok metric h ind bs pop x f rest Hf P) as (r' & E' & Em & Hf'); [auto|]. assert (r' = rest') as -> by congruence. split; auto. eapply Same; eauto.
  - destruct (adding_ok metric h ind bs pop x Hf) as (p' & f' & E' & Em & Hf'); [auto|]. assert (p' = pop' /\ f' = f) as [-> ->] by (split; congruence). split; [auto|].
    intros p Hp. apply in_elt_inv in Hp as [Ex|Hp]; [rewrite Ex; auto|]. rewrite <- Ep in Hp. eapply Same; eauto.
Qed.
Print Assumptions C105_updates_agree_with_recomputing.

(** the updates never fail *)
Theorem C105_updates_possible : forall metric h ind nobj bs pop x,
  (forall x y, length x = nobj -> length y = nobj -> metric bs x y = Ok (ind bs x y)) ->
  (forall p, In p pop -> length (fst p) = nobj) -> length x = nobj ->
  (exists rest', update_by_deleting metric h bs pop x = Ok rest') /\ (exists pop' f, update_by_adding metric h bs pop x = Ok (pop', f)).
Proof.
  intros metric h ind nobj bs pop x Hm Hl Hx. unfold update_by_deleting, update_by_adding. rewrite (metrics_ok _ (ind bs x)) by auto. cbn [rbind].
  rewrite (metrics_ok _ (fun v => ind bs v x)) by auto. cbn [rbind]. eauto.
Qed.
Print Assumptions C105_updates_possible.

(** with the additive epsilon indicator, a solution that dominates another gets a greater fitness *)
Theorem C105_epsilon_fitness_respects_domination : forall h dirs history pop,
  weight h -> dirs <> [] -> Forall (well_formed (length dirs)) history -> well_formed (length dirs) pop ->
  exists values p bs vs, used_before (epsilon_metric dirs) h (length dirs) history [] = Ok values /\ assign (epsilon_metric dirs) h (length dirs) pop values = Ok (p, bs, vs) /\
    forall x1 f1 x2 f2, In (x1, f1) p -> In (x2, f2) p -> dominates dirs x1 x2 -> (f2 < f1)%Q.
Proof.
  intros h dirs history pop Hw Hd Hh Hp. destruct (C105_fitness_is_the_indicator_sum (epsilon_metric dirs) h (epi dirs) (length dirs) history pop) as (values & p & bs & vs & E & E' & Em & Sb & Hf); auto.
  { intros bs x y Lb Lx Ly. unfold epi. destruct (epsilon_metric_least dirs bs x y Hd Lb Lx Ly) as (e & -> & _). auto. }
  exists values, p, bs, vs. split; [auto|]. split; [auto|]. intros x1 f1 x2 f2 H1 H2 Hdom. destruct Hp as [Hne Hl].
  assert (Hl' : forall q, In q p -> length (fst q) = length dirs). { intros q Hq. apply (in_map fst) in Hq. rewrite Em in Hq. apply in_map_iff in Hq as (q' & <- & Hq'). auto. }
  assert (Hpos : Forall (fun b => 0 < snd b)%Q bs).
  { apply Forall_forall. intros b Hb. apply In_nth_error in Hb as (i & Hi). destruct Sb as [Lb Hb]. destruct (Hb i b Hi) as (lo & hi & (q & Hq & Eq) & _ & C & D & F). specialize (C q lo Hq Eq).
    destruct (Qlt_le_dec lo hi) as [X|X]; [destruct (D X) as [_ ->]; lra|]. assert (lo == hi)%Q as Y by lra. destruct (F Y) as [_ ->]. lra. }
  destruct Sb as [Lb _]. destruct (epi_dominance dirs bs x1 x2 Hd Lb Hpos (Hl' _ H1) (Hl' _ H2) Hdom) as [A B].
  eapply (dominance_ok h (epi dirs) bs p dirs x1 f1 x2 f2); eauto.
  intros v [V1 (i & d & a & b & (O1 & O2 & O3) & Hb)]. assert (a = b) as -> by congruence. unfold better, better_by in Hb. destruct d; lra.
Qed.
Print Assumptions C105_epsilon_fitness_respects_domination.

(** the same with the hypervolume indicator and a reference point strictly beyond the bounds *)
Theorem C105_hypervolume_fitness_respects_domination : forall h tol rho dirs history pop,
  weight h -> (0 <= tol)%Q -> (1 < rho)%Q -> dirs <> [] -> Forall (well_formed (length dirs)) history -> well_formed (length dirs) pop ->
  exists values p bs vs, used_before (hypervolume_metric tol rho dirs) h (length dirs) history [] = Ok values /\
    assign (hypervolume_metric tol rho dirs) h (length dirs) pop values = Ok (p, bs, vs) /\
    forall x1 f1 x2 f2, In (x1, f1) p -> In (x2, f2) p -> dominates dirs x1 x2 -> (f2 < f1)%Q.
Proof.
  intros h tol rho dirs history pop Hw Ht Hr Hd Hh Hp.
  destruct (C105_fitness_is_the_indicator_sum (hypervolume_metric tol rho dirs) h (fun bs => hvi tol rho dirs bs) (length dirs) history pop) as (values & p & bs & vs & E & E' & Em & Sb & Hf); auto.
  { intros bs x y Lb Lx Ly. unfold hvi. destruct (hypervolume_metric_total tol rho dirs bs x y Hd Lb Lx Ly) as (e & ->). auto. }
  exists values, p, bs, vs. split; [auto|]. split; [auto|]. intros x1 f1 x2 f2 H1 H2 Hdom. destruct Hp as [Hne Hl].
  assert (Hin : forall q, In q p -> inside bs (fst q)). { intros q Hq. apply (in_map fst) in Hq. rewrite Em in Hq. apply in_map_iff in Hq as (q' & <- & Hq'). eapply spanned_inside; eauto. }
  destruct Sb as [Lb _]. destruct (hvi_dominance tol rho Ht dirs bs Hd Lb x1 x2 Hr (Hin _ H1) (Hin _ H2) Hdom) as [A B].
  eapply (dominance_ok h (fun bs => hvi tol rho dirs bs) bs p dirs x1 f1 x2 f2); eauto.
  intros v [V1 (i & d & a & b & (O1 & O2 & O3) & Hb)]. assert (a = b) as -> by congruence. unfold better, better_by in Hb. destruct d; lra.
Qed.
Print Assumptions C105_hypervolume_fitness_respects_domination.

(** ** examples: three solutions, the first dominates the third; one leaves, one joins *)
Definition toy (x : Q) : Q := if qltb x 0 then (1 - x)%Q else (1 / (1 + x))%Q.
Definition three : list (list Q * Q) := [([0; 2]%Q, 0%Q); ([2; 0]%Q, 0%Q); ([1; 3]%Q, 0%Q)].
Example C105_example : exists p bs vs, assign (epsilon_metric [true; true]) toy 2 three [] = Ok (p, bs, vs) /\
  exists f1 f2 f3, p = [([0; 2]%Q, f1); ([2; 0]%Q, f2); ([1; 3]%Q, f3)] /\ (f3 < f1)%Q /\ length vs = 3.
Proof. eexists. eexists. eexists. split; [vm_compute; reflexivity|]. eexists. eexists. eexists. split; [reflexivity|]. split; reflexivity. Qed.
Example C105_weight_example : weight toy.
Proof.
  assert (Hinv : forall a b, (0 < a -> a < b -> 1 / b < 1 / a)%Q).
  { intros a b Ha Hb. apply Qlt_shift_div_r; [lra|]. assert (E : (1 / a * b == b / a)%Q) by (field; lra). rewrite E. apply Qlt_shift_div_l; lra. }
  assert (Hp : forall a, (0 < a -> 0 < 1 / a)%Q) by (intros a Ha; apply Qlt_shift_div_l; lra).
  assert (H1 : forall x, (0 <= x -> 1 / (1 + x) <= 1)%Q) by (intros x Hx; apply Qle_shift_div_r; lra).
  unfold toy. split; [|split].
  - intros x. destruct (qltb x 0) eqn:E; [apply qltb_lt in E; lra|apply qltb_ge in E; apply Hp; lra].
  - intros x y Hxy. destruct (qltb x 0) eqn:E, (qltb y 0) eqn:F; rewrite ?qltb_lt in *; try (apply qltb_ge in E); try (apply qltb_ge in F); try lra; [specialize (H1 y); lra|apply Hinv; lra].
  - intros x y Hxy. destruct (qltb x 0) eqn:E, (qltb y 0) eqn:F; rewrite ?qltb_lt in *; try (apply qltb_ge in E); try (apply qltb_ge in F); try lra. rewrite Hxy. reflexivity.
Qed.
Example C105_well_formed_example : well_formed 2 three.
Proof. split; [discriminate|]. intros p [<-|[<-|[<-|[]]]]; auto. Qed.
Example C105_update_example : exists pop', updates (epsilon_metric [true; true]) toy 2 [(0, 2); (0, 2)]%Q [([0; 2]%Q, 0%Q)] [Joins [1; 1]%Q; Leaves [0; 2]%Q] pop' /\ length pop' = 1.
Proof.
  eexists. split.
  - eapply updates_one; [eapply (update_joins _ _ _ _ _ _ _ _ [] _); [auto|vm_compute; reflexivity|reflexivity]|].
    eapply updates_one; [eapply update_leaves; [cbn [app]; apply perm_swap|vm_compute; reflexivity]|]. apply updates_none.
  - reflexivity.
Qed.
(** the population must not be empty *)
Theorem C105_empty_outside : forall metric h nobj values, assign metric h (S nobj) [] values = UB.
Proof. reflexivity. Qed.
Print Assumptions C105_empty_outside.
(** with rho = 1 the reference point touches the worst values, and domination can go unnoticed *)
Theorem C105_rho_one_outside : exists pop, well_formed 2 pop /\ exists p bs vs, assign (hypervolume_metric 0 1 [true; true]) toy 2 pop [] = Ok (p, bs, vs) /\
  exists x1 f1 x2 f2, In (x1, f1) p /\ In (x2, f2) p /\ dominates [true; true] x1 x2 /\ (f1 == f2)%Q.
Proof.
  exists [([0; 1]%Q, 0%Q); ([1; 1]%Q, 0%Q); ([1; 0]%Q, 0%Q)]. split; [split; [discriminate|intros p [<-|[<-|[<-|[]]]]; auto]|].
  eexists. eexists. eexists. split; [vm_compute; reflexivity|]. exists [0; 1]%Q. eexists. exists [1; 1]%Q. eexists. split; [left; reflexivity|]. split; [right; left; reflexivity|]. split; [|reflexivity].
  split.
  - intros [|[|[|i]]] d x y (A & B & C); cbn in A, B, C; try discriminate; injection A as <-; injection B as <-; injection C as <-; unfold better, better_by; lra.
  - exists 0, true, 0%Q, 1%Q. split; [split; auto|]. unfold better, better_by. lra.
Qed.
Print Assumptions C105_rho_one_outside.

(** ** C106 *)
(** for vectors inside the bounds, the indicator of [o1] against [o2] is the volume dominated by
    [o2] and not by [o1] (union of the two boxes minus the box of [o1]); when [o1] dominates [o2],
    it is minus the volume dominated by [o1] and not by [o2] *)
Theorem C106_indicator_is_the_volume_difference : forall tol rho rho' dirs bs o1 o2 p1 p2 v1 v2 v12,
  (0 <= tol)%Q -> ((1 <= rho)%Q -> rho' = rho) -> ((rho < 1)%Q -> rho' = 1%Q) -> dirs <> [] -> length bs = length dirs ->
  inside bs o1 -> inside bs o2 -> box_sides rho' dirs bs o1 p1 -> box_sides rho' dirs bs o2 p2 ->
  is_hypervolume (length dirs) [p1] v1 -> is_hypervolume (length dirs) [p2] v2 -> is_hypervolume (length dirs) [p1; p2] v12 ->
  exists r, hypervolume_metric tol rho dirs bs o1 o2 = Ok r /\
    (dominates_tol tol dirs o1 o2 -> (r == - (v12 - v2))%Q) /\ (~ dominates_tol tol dirs o1 o2 -> (r == v12 - v1)%Q).
Proof.
  intros tol rho rho' dirs bs o1 o2 p1 p2 v1 v2 v12 Ht Hr Hr' Hd Lb H1 H2 B1 B2 V1 V2 V12.
  assert (rho' = adjust_rho rho) as ->. { unfold adjust_rho. destruct (qltb rho 1) eqn:E; [apply qltb_lt in E|apply qltb_ge in E]; auto. }
  destruct (metric_closed tol rho Ht dirs bs Hd Lb o1 o2 H1 H2) as (r & E & A & B). exists r. split; auto.
  pose proof (sides_of rho dirs bs Lb o1 p1 H1 B1) as S1. pose proof (sides_of rho dirs bs Lb o2 p2 H2 B2) as S2.
  assert (N1 : forall i, i < length dirs -> (0 <= side rho dirs bs o1 i)%Q) by (intros i Hi; apply side_range; auto). assert (N2 : forall i, i < length dirs -> (0 <= side rho dirs bs o2 i)%Q) by (intros i Hi; apply side_range; auto).
  pose proof (hypervolume_unique _ _ _ _ V1 (one_box _ _ _ S1 N1)) as E1. pose proof (hypervolume_unique _ _ _ _ V2 (one_box _ _ _ S2 N2)) as E2.
  pose proof (hypervolume_unique _ _ _ _ V12 (two_boxes _ _ _ _ _ S1 S2 N1 N2)) as E12. unfold dif in *. split.
  - intros X. rewrite (A X), E12, E2. lra.
  - intros X. rewrite (B X), E12, E1. rewrite (min_sym rho dirs bs o1 o2). lra.
Qed.
Print Assumptions C106_indicator_is_the_volume_difference.

(** these boxes and volumes exist *)
Theorem C106_volumes_exist : forall rho dirs bs o1 o2, (1 <= rho)%Q -> length bs = length dirs -> inside bs o1 -> inside bs o2 ->
  exists p1 p2 v1 v2 v12, box_sides rho dirs bs o1 p1 /\ box_sides rho dirs bs o2 p2 /\
  is_hypervolume (length dirs) [p1] v1 /\ is_hypervolume (length dirs) [p2] v2 /\ is_hypervolume (length dirs) [p1; p2] v12.
Proof.
  intros rho dirs bs o1 o2 Hr Lb H1 H2. assert (Er : adjust_rho rho = rho) by (unfold adjust_rho; destruct (qltb rho 1) eqn:E; [apply qltb_lt in E; lra|auto]).
  destruct (sides_exist rho dirs bs Lb o1 H1) as (p1 & B1). destruct (sides_exist rho dirs bs Lb o2 H2) as (p2 & B2).
  pose proof (sides_of rho dirs bs Lb o1 p1 H1 B1) as S1. pose proof (sides_of rho dirs bs Lb o2 p2 H2 B2) as S2. rewrite Er in *.
  assert (N1 : forall i, i < length dirs -> (0 <= side rho dirs bs o1 i)%Q) by (intros i Hi; apply side_range; auto). assert (N2 : forall i, i < length dirs -> (0 <= side rho dirs bs o2 i)%Q) by (intros i Hi; apply side_range; auto).
  exists p1, p2. do 3 eexists. split; [auto|]. split; [auto|]. split; [eapply one_box; eauto|]. split; [eapply one_box; eauto|]. eapply two_boxes; eauto.
Qed.
Print Assumptions C106_volumes_exist.

(** its value is between -1 and 1, and 0 between a vector and itself *)
Theorem C106_indicator_range : forall tol rho dirs bs o1 o2 r,
  (0 <= tol)%Q -> dirs <> [] -> length bs = length dirs -> inside bs o1 -> inside bs o2 -> hypervolume_metric tol rho dirs bs o1 o2 = Ok r ->
  (-1 <= r <= 1)%Q /\ (o1 = o2 -> (r == 0)%Q).
Proof.
  intros tol rho dirs bs o1 o2 r Ht Hd Lb H1 H2 E. destruct (metric_closed tol rho Ht dirs bs Hd Lb o1 o2 H1 H2) as (r' & E' & A & B). assert (r' = r) as -> by congruence.
  pose proof (dif_nonneg rho dirs bs Lb o1 o2 H1 H2). pose proof (dif_nonneg rho dirs bs Lb o2 o1 H2 H1).
  split; [destruct (tol_dom_dec tol Ht dirs o1 o2) as [T|T]; [rewrite <- Lb; apply H1|rewrite <- Lb; apply H2|rewrite (A T); lra|rewrite (B T); lra]|].
  intros ->. assert (Z : (dif rho dirs bs o2 o2 == 0)%Q).
  { unfold dif. rewrite (pr_ext (fun i => qmin (side rho dirs bs o2 i) (side rho dirs bs o2 i)) (side rho dirs bs o2)); [lra|]. intros i _. destruct (qmin_spec (side rho dirs bs o2 i) (side rho dirs bs o2 i)) as (_ & _ & [X|X]); auto. }
  destruct (tol_dom_dec tol Ht dirs o2 o2) as [T|T]; [rewrite <- Lb; apply H1|rewrite <- Lb; apply H2|rewrite (A T); lra|rewrite (B T); lra].
Qed.
Print Assumptions C106_indicator_range.

(** an example in three dimensions with a maximised objective *)
Example C106_example : inside [(0, 2); (1, 4); (0, 1)]%Q [1; 2; 1]%Q /\ inside [(0, 2); (1, 4); (0, 1)]%Q [2; 3; 1 # 2]%Q /\
  exists r, hypervolume_metric 0 (11 # 10) [true; false; true] [(0, 2); (1, 4); (0, 1)]%Q [1; 2; 1]%Q [2; 3; 1 # 2]%Q = Ok r /\ (0 < r)%Q.
Proof.
  split; [|split].
  - split; auto. intros [|[|[|[|i]]]] b x A B; cbn in A, B; try discriminate; injection A as <-; injection B as <-; cbn [fst snd]; lra.
  - split; auto. intros [|[|[|[|i]]]] b x A B; cbn in A, B; try discriminate; injection A as <-; injection B as <-; cbn [fst snd]; lra.
  - eexists. split; [vm_compute; reflexivity|]. reflexivity.
Qed.
