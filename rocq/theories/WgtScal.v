(** Proofs about the scalarizations. *)
From Coq Require Import List Bool Arith QArith Qabs Lia Lqa.
From Verif Require Import Lib Outcome BoundsModel BoundsProofs ParetoModel ParetoSpec ParetoProofs MetEps WgtModel WgtSpec.
From Coq Require Import List.
Import ListNotations.
Local Open Scope Q_scope.

(** ** aggregation *)
Lemma weak_cons d dirs x v y u : weakly_dominates (d :: dirs) (x :: v) (y :: u) <-> ~ better d y x /\ weakly_dominates dirs v u.
Proof. exact (all_objectives d dirs x v y u (fun d x y => ~ better d y x)). Qed.
Lemma not_better d x y : ~ better d y x <-> worse_by d x y <= 0.
Proof. unfold better, better_by, worse_by. destruct d; lra. Qed.
Lemma is_better d x y : better d x y <-> worse_by d x y < 0.
Proof. unfold better, better_by, worse_by. destruct d; lra. Qed.
Lemma aggregate_mono : forall dirs weight v u r1 r2, (length dirs <= length weight)%nat -> length v = length dirs -> length u = length dirs -> nonnegative weight ->
  weakly_dominates dirs v u -> r2 <= r1 -> exists a b, aggregate dirs weight v r1 = Ok a /\ aggregate dirs weight u r2 = Ok b /\ b <= a.
Proof.
  induction dirs as [|d dirs IH]; intros [|w weight] [|x v] [|y u] r1 r2 Lw Lv Lu P D R; cbn [length] in *; try lia; cbn [aggregate].
  - exists r1, r2. auto.
  - exists r1, r2. auto.
  - inversion P as [|? ? Pw Pr]; subst. apply weak_cons in D as [D1 D]. apply IH; auto; try lia. apply not_better in D1. unfold worse_by in D1. destruct d; nra.
Qed.
Lemma aggregate_strict : forall dirs weight v u r1 r2, (length dirs <= length weight)%nat -> length v = length dirs -> length u = length dirs -> positive weight ->
  weakly_dominates dirs v u -> r2 <= r1 -> (r2 < r1 \/ exists i d x y, objective dirs v u i d x y /\ better d x y) ->
  exists a b, aggregate dirs weight v r1 = Ok a /\ aggregate dirs weight u r2 = Ok b /\ b < a.
Proof.
  induction dirs as [|d dirs IH]; intros [|w weight] [|x v] [|y u] r1 r2 Lw Lv Lu P D R S; cbn [length] in *; try lia; cbn [aggregate].
  - exists r1, r2. repeat split. destruct S as [S|(i & d & x & y & S & _)]; [exact S|]. destruct (objective_nil _ _ _ _ _ _ S).
  - exists r1, r2. repeat split. destruct S as [S|(i & d & x & y & S & _)]; [exact S|]. destruct (objective_nil _ _ _ _ _ _ S).
  - inversion P as [|? ? Pw Pr]; subst. apply weak_cons in D as [D1 D]. apply not_better in D1. assert (R' : (if d then r2 - y * w else r2 + y * w) <= (if d then r1 - x * w else r1 + x * w)) by (unfold worse_by in D1; destruct d; nra).
    apply IH; auto; try lia. destruct S as [S|S]; [left; unfold worse_by in D1; destruct d; nra|]. apply (some_objective d dirs x v y u (fun d x y => better d x y)) in S as [S|S]; [|right; exact S].
    left. apply is_better in S. unfold worse_by in S. destruct d; nra.
Qed.

(** ** weighted shortfalls *)
Lemma shortfalls_ok : forall dirs weight ref v, length weight = length dirs -> length ref = length dirs -> length v = length dirs ->
  exists l, shortfalls dirs weight ref v = Ok l /\ weighted_shortfalls dirs weight ref v l.
Proof.
  induction dirs as [|d dirs IH]; intros [|w weight] [|y ref] [|x v] L1 L2 L3; try discriminate; cbn [shortfalls].
  - exists []. split; [reflexivity|]. split; [reflexivity|]. intros i d w x y H. destruct i; discriminate.
  - cbn [length] in *. destruct (IH weight ref v ltac:(lia) ltac:(lia) ltac:(lia)) as (l & E & L & H). rewrite E. cbn [rbind]. eexists. split; [reflexivity|]. split; [cbn; lia|].
    intros [|i] d' w' x' y' Ew (O1 & O2 & O3); cbn in *.
    + inversion Ew; inversion O1; inversion O2; inversion O3; subst. reflexivity.
    + apply H; [exact Ew|repeat split; assumption].
Qed.
Lemma shortfalls_unique dirs weight ref v l l' : length weight = length dirs -> length ref = length dirs -> length v = length dirs ->
  weighted_shortfalls dirs weight ref v l -> weighted_shortfalls dirs weight ref v l' -> l = l'.
Proof.
  intros L1 L2 L3 [La Ha] [Lb Hb]. apply nth_error_ext. intros i. destruct (le_lt_dec (length dirs) i) as [G|G].
  - rewrite (proj2 (nth_error_None l i)), (proj2 (nth_error_None l' i)) by lia. reflexivity.
  - destruct (nth_error weight i) as [w|] eqn:Ew; [|apply nth_error_None in Ew; lia]. destruct (nth_error dirs i) as [d|] eqn:Ed; [|apply nth_error_None in Ed; lia].
    destruct (objective_total dirs v ref i d L3 L2 Ed) as (x & y & O). rewrite (Ha i d w x y Ew O), (Hb i d w x y Ew O). reflexivity.
Qed.
Lemma shortfall_in dirs weight ref v l t : length weight = length dirs -> length ref = length dirs -> length v = length dirs -> weighted_shortfalls dirs weight ref v l ->
  In t l -> exists i d w x y, nth_error weight i = Some w /\ objective dirs v ref i d x y /\ nth_error l i = Some t /\ t = w * worse_by d x y.
Proof.
  intros L1 L2 L3 [L H] Ht. apply In_nth_error in Ht as (i & Ht). assert (G : (i < length dirs)%nat) by (rewrite <- L; apply nth_error_Some; congruence).
  destruct (nth_error weight i) as [w|] eqn:Ew; [|apply nth_error_None in Ew; lia]. destruct (nth_error dirs i) as [d|] eqn:Ed; [|apply nth_error_None in Ed; lia].
  destruct (objective_total dirs v ref i d L3 L2 Ed) as (x & y & O). exists i, d, w, x, y. rewrite (H i d w x y Ew O) in Ht. inversion Ht. rewrite (H i d w x y Ew O). auto.
Qed.
(** lists compared position by position *)
Definition below (l l' : list Q) : Prop := length l = length l' /\ forall i x y, nth_error l i = Some x -> nth_error l' i = Some y -> x <= y.
Lemma shortfalls_below dirs weight ref v u l l' : length weight = length dirs -> length ref = length dirs -> length v = length dirs -> length u = length dirs ->
  nonnegative weight -> weakly_dominates dirs v u -> weighted_shortfalls dirs weight ref v l -> weighted_shortfalls dirs weight ref u l' -> below l l'.
Proof.
  intros L1 L2 L3 L4 P D [La Ha] [Lb Hb]. split; [congruence|]. intros i t t' Et Et'. assert (G : (i < length dirs)%nat) by (rewrite <- La; apply nth_error_Some; congruence).
  destruct (nth_error weight i) as [w|] eqn:Ew; [|apply nth_error_None in Ew; lia]. destruct (nth_error dirs i) as [d|] eqn:Ed; [|apply nth_error_None in Ed; lia].
  destruct (objective_total dirs v ref i d L3 L2 Ed) as (x & y & O). destruct (objective_total dirs u ref i d L4 L2 Ed) as (x' & y' & O').
  rewrite (Ha i d w x y Ew O) in Et. rewrite (Hb i d w x' y' Ew O') in Et'. inversion Et; inversion Et'; subst t t'.
  assert (y' = y) as -> by (destruct O as (_ & _ & O), O' as (_ & _ & O'); congruence).
  assert (B : ~ better d x' x) by (apply (D i d x x'); destruct O as (? & ? & _), O' as (_ & ? & _); repeat split; assumption).
  apply not_better in B. assert (Pw : 0 <= w) by (unfold nonnegative in P; rewrite Forall_forall in P; apply P; eapply nth_error_In; eauto).
  assert (0 <= w * (worse_by d x' y - worse_by d x y)); [apply Qmult_le_0_compat; [exact Pw|unfold worse_by in *; destruct d; lra]|lra].
Qed.
Lemma below_max l l' m m' : below l l' -> greatest_in l m -> greatest_in l' m' -> m <= m'.
Proof.
  intros [L H] [Hm _] [_ Hm']. apply In_nth_error in Hm as (i & E). destruct (nth_error l' i) as [y|] eqn:E'.
  - specialize (H i m y E E'). specialize (Hm' y (nth_error_In _ _ E')). lra.
  - apply nth_error_None in E'. assert (i < length l)%nat by (apply nth_error_Some; congruence). lia.
Qed.
Lemma below_min l l' m m' : below l l' -> least_in l m -> least_in l' m' -> m <= m'.
Proof.
  intros [L H] [_ Hm] [Hm' _]. apply In_nth_error in Hm' as (i & E). destruct (nth_error l i) as [y|] eqn:E'.
  - specialize (H i y m' E' E). specialize (Hm y (nth_error_In _ _ E')). lra.
  - apply nth_error_None in E'. assert (i < length l')%nat by (apply nth_error_Some; congruence). lia.
Qed.
Lemma below_total : forall l l', below l l' -> total_of l <= total_of l'.
Proof.
  induction l as [|x l IH]; intros [|y l'] [L H]; try discriminate. cbn [total_of fold_right]. specialize (IH l').
  assert (G : below l l') by (split; [cbn in L; lia|intros i a b Ea Eb; apply (H (S i)); assumption]). specialize (IH G). specialize (H 0%nat x y eq_refl eq_refl). unfold total_of in IH. lra.
Qed.
Lemma below_total_strict : forall l l' i x y, below l l' -> nth_error l i = Some x -> nth_error l' i = Some y -> x < y -> total_of l < total_of l'.
Proof.
  induction l as [|a l IH]; intros [|b l'] [|i] x y [L H] E E' Lt; try discriminate; cbn [total_of fold_right];
    assert (G : below l l') by (split; [cbn in L; lia|intros j a' b' Ea Eb; apply (H (S j)); assumption]).
  - cbn in E, E'. inversion E; inversion E'; subst. pose proof (below_total l l' G) as T. unfold total_of in T. lra.
  - cbn in E, E'. specialize (IH l' i x y G E E' Lt). specialize (H 0%nat a b eq_refl eq_refl). unfold total_of in IH. lra.
Qed.
Lemma max_loop l x : In x l -> exists m, fold_left (fun m t => if qltb m t then t else m) l x = m /\ greatest_in l m.
Proof.
  intros Hx. eexists. split; [reflexivity|]. destruct (fold_max_ok l x) as [H1 H2]. unfold std_max in *. split.
  - destruct H1 as [->|H1]; auto.
  - intros y Hy. apply H2. right. exact Hy.
Qed.
Lemma achievement_ok dirs weight ref v l : dirs <> [] -> length weight = length dirs -> length ref = length dirs -> length v = length dirs -> weighted_shortfalls dirs weight ref v l ->
  exists m, achievement dirs weight ref v = Ok m /\ greatest_in l m.
Proof.
  intros N L1 L2 L3 W. destruct (shortfalls_ok dirs weight ref v L1 L2 L3) as (l' & E & W'). assert (l' = l) as -> by exact (shortfalls_unique dirs weight ref v l' l L1 L2 L3 W' W).
  unfold achievement. rewrite E. cbn [rbind]. destruct l as [|x l]; [destruct W as [W _]; destruct dirs; [congruence|discriminate]|].
  destruct (max_loop (x :: l) x (or_introl eq_refl)) as (m & Em & G). exists m. rewrite Em. auto.
Qed.
Lemma sum_loop : forall l m r, fold_left (fun mr t => (if qltb (fst mr) t then t else fst mr, snd mr + t)) l (m, r) =
  (fold_left (fun m t => if qltb m t then t else m) l m, fold_left Qplus l r).
Proof. induction l as [|x l IH]; intros m r; cbn [fold_left fst snd]; [reflexivity|]. apply IH. Qed.
Lemma plus_loop : forall l r, fold_left Qplus l r == r + total_of l.
Proof. induction l as [|x l IH]; intros r; cbn [fold_left total_of fold_right]; [ring|]. rewrite IH. unfold total_of. ring. Qed.
Lemma augmented_ok rho dirs weight ref v l : dirs <> [] -> length weight = length dirs -> length ref = length dirs -> length v = length dirs -> weighted_shortfalls dirs weight ref v l ->
  exists m r, augmented_achievement rho dirs weight ref v = Ok r /\ greatest_in l m /\ r == total_of l + rho * m.
Proof.
  intros N L1 L2 L3 W. destruct (shortfalls_ok dirs weight ref v L1 L2 L3) as (l' & E & W'). assert (l' = l) as -> by exact (shortfalls_unique dirs weight ref v l' l L1 L2 L3 W' W).
  unfold augmented_achievement. rewrite E. cbn [rbind]. destruct l as [|x l]; [destruct W as [W _]; destruct dirs; [congruence|discriminate]|].
  rewrite sum_loop. destruct (max_loop (x :: l) x (or_introl eq_refl)) as (m & Em & G). rewrite Em. exists m. eexists. split; [reflexivity|]. split; [exact G|]. rewrite plus_loop. ring.
Qed.

(** ** Chebychev *)
Lemma distances_ok : forall v ref, length ref = length v -> exists l, distances ref v = Ok l /\ length l = length v /\
  forall i x y, nth_error v i = Some x -> nth_error ref i = Some y -> nth_error l i = Some (Qabs (x - y)).
Proof.
  induction v as [|x v IH]; intros [|y ref] L; try discriminate; cbn [distances].
  - exists []. repeat split. intros [|i]; discriminate.
  - destruct (IH ref ltac:(cbn in L; lia)) as (l & E & Ll & H). rewrite E. cbn [rbind]. eexists. split; [reflexivity|]. split; [cbn; lia|].
    intros [|i] a b Ea Eb; cbn in *; [inversion Ea; inversion Eb; reflexivity|apply H; assumption].
Qed.
Fixpoint times (weight ds : list Q) : list Q := match weight, ds with w :: weight, t :: ds => t * w :: times weight ds | _, _ => [] end.
Lemma chebychev_loop_ok : forall ds weight r m, length weight = length ds ->
  chebychev_loop weight ds r m = Ok (fold_left Qplus ds r, fold_left (fun m t => if qltb m t then t else m) (times weight ds) m).
Proof. induction ds as [|t ds IH]; intros [|w weight] r m L; try discriminate; cbn [chebychev_loop times fold_left]; [reflexivity|]. apply IH. cbn in L. lia. Qed.
Lemma times_len : forall weight ds, length weight = length ds -> length (times weight ds) = length ds.
Proof. induction weight as [|w weight IH]; intros [|t ds] L; try discriminate; cbn; auto. Qed.
Lemma times_nth : forall weight ds i w t, nth_error weight i = Some w -> nth_error ds i = Some t -> nth_error (times weight ds) i = Some (t * w).
Proof. induction weight as [|w' weight IH]; intros [|t' ds] [|i] w t E1 E2; try discriminate; cbn in *; [inversion E1; inversion E2; reflexivity|auto]. Qed.
Lemma chebychev_ok rho weight ref v ds : v <> [] -> length weight = length v -> length ref = length v -> distances ref v = Ok ds ->
  exists m r, augmented_chebychev rho weight ref v = Ok r /\ greatest_in (times weight ds) m /\ r == rho * total_of ds + m.
Proof.
  intros N L1 L2 E. destruct (distances_ok v ref L2) as (ds' & E' & Ld & _). assert (ds' = ds) as -> by congruence. unfold augmented_chebychev. rewrite E. cbn [rbind].
  destruct ds as [|t ds]; [destruct v; [congruence|discriminate]|]. destruct weight as [|w weight]; [destruct v; [congruence|discriminate]|].
  rewrite chebychev_loop_ok by (cbn in *; lia). cbn [rbind]. destruct (max_loop (times (w :: weight) (t :: ds)) (t * w) (or_introl eq_refl)) as (m & Em & G). exists m. eexists. split; [reflexivity|].
  split; [exact G|]. cbn [times fold_left] in Em. assert (X : (if qltb (t * w) (t * w) then t * w else t * w) = t * w) by (destruct (qltb (t * w) (t * w)); reflexivity). rewrite X in Em. rewrite Em, plus_loop. cbn [total_of fold_right]. unfold total_of. ring.
Qed.
Lemma total_nonneg l : (forall x, In x l -> 0 <= x) -> 0 <= total_of l.
Proof. induction l as [|x l IH]; intros H; cbn [total_of fold_right]; [lra|]. pose proof (H x (or_introl eq_refl)). specialize (IH (fun y Hy => H y (or_intror Hy))). unfold total_of in IH. lra. Qed.
Lemma total_member l x : (forall x, In x l -> 0 <= x) -> In x l -> x <= total_of l.
Proof.
  intros H Hx. induction l as [|y l IH]; [destruct Hx|]. cbn [total_of fold_right]. assert (P : 0 <= total_of l) by (apply total_nonneg; intros; apply H; right; auto). unfold total_of in *.
  destruct Hx as [->|Hx]; [lra|]. pose proof (H y (or_introl eq_refl)). specialize (IH (fun z Hz => H z (or_intror Hz)) Hx). lra.
Qed.

(** ** moeoAchievementFitnessAssignment *)
Fixpoint margins (lambdas ref v : list Q) : list Q :=
  match lambdas, ref, v with l :: lambdas, y :: ref, x :: v => l * (y - x) :: margins lambdas ref v | _, _, _ => [] end.
Lemma min_loop xs : forall x, exists m, fold_left (fun b t => if qltb t b then t else b) xs x = m /\ least_in (x :: xs) m.
Proof.
  induction xs as [|z xs IH]; intros x; cbn [fold_left]. { exists x. split; [reflexivity|]. split; [left; reflexivity|]. intros y [->|[]]. lra. }
  destruct (qltb z x) eqn:E.
  - destruct (IH z) as (m & Em & Hm & Hb). exists m. split; [exact Em|]. split; [right; exact Hm|]. apply qltb_lt in E. pose proof (Hb z (or_introl eq_refl)). intros y [->|Hy]; [lra|apply Hb; exact Hy].
  - destruct (IH x) as (m & Em & Hm & Hb). exists m. split; [exact Em|]. apply qltb_ge in E. pose proof (Hb x (or_introl eq_refl)). split; [destruct Hm; [left|right; right]; auto|]. intros y [->|[->|Hy]]; [lra|lra|apply Hb; right; exact Hy].
Qed.
Lemma achievement_loop_ok : forall v lambdas ref m s, length lambdas = length v -> length ref = length v ->
  achievement_loop lambdas ref v (Some m) s = Ok (Some (fold_left (fun b t => if qltb t b then t else b) (margins lambdas ref v) m), fold_left Qplus (margins lambdas ref v) s).
Proof. induction v as [|x v IH]; intros [|l lambdas] [|y ref] m s L1 L2; try discriminate; cbn [achievement_loop margins fold_left]; [reflexivity|]. cbv zeta. rewrite IH by (cbn in *; lia). reflexivity. Qed.
Lemma achievement_fitness_ok lambdas ref spn v : v <> [] -> length lambdas = length v -> length ref = length v ->
  exists m r, achievement_fitness lambdas ref spn v = Ok r /\ least_in (margins lambdas ref v) m /\ r == m + spn * total_of (margins lambdas ref v).
Proof.
  intros N L1 L2. destruct v as [|x v]; [congruence|]. destruct lambdas as [|l lambdas]; [discriminate|]. destruct ref as [|y ref]; [discriminate|].
  unfold achievement_fitness. cbn [achievement_loop]. cbv zeta. rewrite achievement_loop_ok by (cbn in *; lia). cbn [rbind margins].
  destruct (min_loop (margins lambdas ref v) (l * (y - x))) as (m & Em & G). exists m. eexists. split; [reflexivity|]. split; [exact G|]. rewrite Em, plus_loop. cbn [total_of fold_right]. unfold total_of. ring.
Qed.
Lemma margins_len : forall lambdas ref v, length lambdas = length v -> length ref = length v -> length (margins lambdas ref v) = length v.
Proof. induction lambdas as [|l lambdas IH]; intros [|y ref] [|x v] L1 L2; try discriminate; cbn; auto. Qed.
Lemma margins_nth : forall lambdas ref v i l y x, nth_error lambdas i = Some l -> nth_error ref i = Some y -> nth_error v i = Some x -> nth_error (margins lambdas ref v) i = Some (l * (y - x)).
Proof. induction lambdas as [|l' lambdas IH]; intros [|y' ref] [|x' v] [|i] l y x E1 E2 E3; try discriminate; cbn in *; [inversion E1; inversion E2; inversion E3; reflexivity|auto]. Qed.

(** ** the normalizer *)
Lemma scaled_ok : forall v sc, length sc = length v -> exists r, scaled sc v = Ok r /\ length r = length v /\
  forall i x c m, nth_error v i = Some x -> nth_error sc i = Some (c, m) -> nth_error r i = Some ((x - m) * c).
Proof.
  induction v as [|x v IH]; intros [|[c m] sc] L; try discriminate; cbn [scaled].
  - exists []. repeat split. intros [|i]; discriminate.
  - destruct (IH sc ltac:(cbn in L; lia)) as (r & E & Lr & H). rewrite E. cbn [rbind]. eexists. split; [reflexivity|]. split; [cbn; lia|].
    intros [|i] a b d Ea Eb; cbn in *; [inversion Ea; inversion Eb; reflexivity|apply H; assumption].
Qed.
Lemma scaled_weak dirs sc v u v' u' : length sc = length dirs -> length v = length dirs -> length u = length dirs -> (forall c m, In (c, m) sc -> 0 <= c) -> scaled sc v = Ok v' -> scaled sc u = Ok u' ->
  weakly_dominates dirs v u -> weakly_dominates dirs v' u'.
Proof.
  intros L0 L1 L2 P E1 E2 D. destruct (scaled_ok v sc ltac:(congruence)) as (a & Ea & La & Ha). destruct (scaled_ok u sc ltac:(congruence)) as (b & Eb & Lb & Hb).
  assert (a = v') as -> by congruence. assert (b = u') as -> by congruence. intros i d x y (O1 & O2 & O3).
  assert (Hi : (i < length dirs)%nat) by (apply nth_error_Some; congruence). destruct (nth_error sc i) as [[c m]|] eqn:Es; [|apply nth_error_None in Es; lia].
  destruct (objective_total dirs v u i d L1 L2 O1) as (x0 & y0 & O). destruct O as (_ & Ox & Oy).
  rewrite (Ha i x0 c m Ox Es) in O2. rewrite (Hb i y0 c m Oy Es) in O3. inversion O2; inversion O3; subst x y.
  assert (B : ~ better d y0 x0) by (apply (D i d); repeat split; assumption). apply not_better in B. apply not_better. assert (Pc : 0 <= c) by (apply (P c m); eapply nth_error_In; eauto).
  unfold worse_by in *. destruct d.
  - assert (0 <= c * (y0 - x0)) by (apply Qmult_le_0_compat; lra). lra.
  - assert (0 <= c * (x0 - y0)) by (apply Qmult_le_0_compat; lra). lra.
Qed.
Lemma extremes_ok xs : forall mn mx, mn <= mx -> let r := fold_left (fun mm y => (if qltb y (fst mm) then y else fst mm, if qltb (snd mm) y then y else snd mm)) xs (mn, mx) in
  least_in (mn :: xs) (fst r) /\ greatest_in (mx :: xs) (snd r).
Proof.
  intros mn mx H. assert (G : forall a b, fold_left (fun mm y => (if qltb y (fst mm) then y else fst mm, if qltb (snd mm) y then y else snd mm)) xs (a, b) =
    (fold_left (fun b t => if qltb t b then t else b) xs a, fold_left (fun m t => if qltb m t then t else m) xs b)).
  { induction xs as [|x xs IH]; intros a b; cbn [fold_left fst snd]; [reflexivity|]. apply IH. }
  cbv zeta. rewrite G. cbn [fst snd]. split.
  - destruct (min_loop xs mn) as (m & -> & L). exact L.
  - destruct (max_loop (mx :: xs) mx (or_introl eq_refl)) as (m & E & L). cbn [fold_left] in E. assert (X : (if qltb mx mx then mx else mx) = mx) by (destruct (qltb mx mx); reflexivity). rewrite X in E. rewrite E. exact L.
Qed.
Lemma scale1_ok max xs : 0 < max -> xs <> [] -> exists c mn mx, scale1 max xs = Ok (c, mn) /\ least_in xs mn /\ greatest_in xs mx /\ 0 < c /\
  (forall x, In x xs -> 0 <= (x - mn) * c <= max) /\ (mn < mx -> (mx - mn) * c == max).
Proof.
  intros P N. destruct xs as [|x xs]; [congruence|]. unfold scale1, extremes. destruct (extremes_ok (x :: xs) x x (Qle_refl x)) as [H1 H2]. cbv zeta in H1, H2.
  destruct (fold_left _ (x :: xs) (x, x)) as [mn mx]. cbn [fst snd] in H1, H2.
  assert (M : least_in (x :: xs) mn) by (destruct H1 as [[->|H1] H1']; split; [left; reflexivity|intros; apply H1'; right; auto|exact H1|intros; apply H1'; right; auto]).
  assert (K : greatest_in (x :: xs) mx) by (destruct H2 as [[->|H2] H2']; split; [left; reflexivity|intros; apply H2'; right; auto|exact H2|intros; apply H2'; right; auto]).
  assert (B : forall y, In y (x :: xs) -> mn <= y <= mx) by (intros y Hy; split; [apply M|apply K]; exact Hy). pose proof (B x (or_introl eq_refl)).
  destruct (Qeq_bool (mx - mn) 0) eqn:E.
  - apply Qeq_bool_iff in E. exists 1, mn, mx. split; [reflexivity|]. split; [exact M|]. split; [exact K|]. split; [lra|]. split; [|lra]. intros y Hy. specialize (B y Hy). split; lra.
  - assert (D : 0 < mx - mn). { destruct (Qlt_le_dec 0 (mx - mn)) as [|G]; [assumption|]. assert (Z : mx - mn == 0) by lra. apply Qeq_bool_iff in Z. congruence. }
    exists (max / (mx - mn)), mn, mx. split; [reflexivity|]. split; [exact M|]. split; [exact K|]. assert (C : 0 < max / (mx - mn)) by (apply Qlt_shift_div_l; lra). split; [exact C|].
    assert (T : (mx - mn) * (max / (mx - mn)) == max) by (field; lra). split; [|intros _; exact T].
    intros y Hy. specialize (B y Hy). split; [apply Qmult_le_0_compat; lra|]. apply Qle_trans with ((mx - mn) * (max / (mx - mn))); [apply Qmult_le_r; [exact C|lra]|rewrite T; apply Qle_refl].
Qed.
Lemma column_of_ok n i pop : (forall v, In v pop -> length v = n) -> (i < n)%nat -> exists c, column_of i pop = Ok c /\ Forall2 (fun v x => nth_error v i = Some x) pop c.
Proof.
  intros V Hi. induction pop as [|v pop IH]; cbn [column_of]; [exists []; split; [reflexivity|constructor]|].
  destruct (nth_error v i) as [x|] eqn:E; [|apply nth_error_None in E; rewrite (V v (or_introl eq_refl)) in E; lia]. cbn [of_opt rbind].
  destruct IH as (c & Ec & F); [intros; apply V; right; auto|]. rewrite Ec. cbn [rbind]. eexists. split; [reflexivity|]. constructor; auto.
Qed.
Lemma columns_of_ok n pop is : (forall v, In v pop -> length v = n) -> (forall i, In i is -> (i < n)%nat) ->
  exists cols, columns_of is pop = Ok cols /\ Forall2 (fun i c => Forall2 (fun v x => nth_error v i = Some x) pop c) is cols.
Proof.
  intros V. induction is as [|i is IH]; intros H; cbn [columns_of]; [exists []; split; [reflexivity|constructor]|].
  destruct (column_of_ok n i pop V (H i (or_introl eq_refl))) as (c & Ec & F). rewrite Ec. cbn [rbind]. destruct IH as (cols & El & Fl); [intros; apply H; right; auto|]. rewrite El. cbn [rbind].
  eexists. split; [reflexivity|]. constructor; auto.
Qed.
Lemma scale_from_pop_ok n max pop : pop <> [] -> 0 < max -> (forall v, In v pop -> length v = n) ->
  exists sc, scale_from_pop n max pop = Ok sc /\ length sc = n /\ forall i, (i < n)%nat -> exists c mn mx, nth_error sc i = Some (c, mn) /\ 0 < c /\
    (exists v, In v pop /\ nth_error v i = Some mn) /\ (exists v, In v pop /\ nth_error v i = Some mx) /\
    (forall v x, In v pop -> nth_error v i = Some x -> mn <= x <= mx /\ 0 <= (x - mn) * c <= max) /\ (mn < mx -> (mx - mn) * c == max).
Proof.
  intros N P V. unfold scale_from_pop. destruct pop as [|v0 pop]; [congruence|]. set (all := v0 :: pop) in *.
  destruct (columns_of_ok n all (seq 0 n) V) as (cols & Ec & F); [intros i Hi; apply in_seq in Hi; lia|]. rewrite Ec. cbn [rbind]. clear Ec.
  assert (G : forall is cols, Forall2 (fun i c => Forall2 (fun v x => nth_error v i = Some x) all c) is cols ->
    exists sc, each_col (scale1 max) cols = Ok sc /\ Forall2 (fun i s => exists c mn mx, s = (c, mn) /\ 0 < c /\ (exists v, In v all /\ nth_error v i = Some mn) /\ (exists v, In v all /\ nth_error v i = Some mx) /\
    (forall v x, In v all -> nth_error v i = Some x -> mn <= x <= mx /\ 0 <= (x - mn) * c <= max) /\ (mn < mx -> (mx - mn) * c == max)) is sc).
  { clear F cols. intros is cols F. induction F as [|i col is cols Hc F (sc & Es & Fs)]; cbn [each_col]; [exists []; split; [reflexivity|constructor]|].
    assert (Nc : col <> []) by (eapply f2_nonempty; [exact Hc|discriminate]). destruct (scale1_ok max col P Nc) as (c & mn & mx & E1 & M & K & C & B & T). rewrite E1. cbn [rbind]. rewrite Es. cbn [rbind].
    eexists. split; [reflexivity|]. constructor; [|exact Fs]. exists c, mn, mx. split; [reflexivity|]. split; [exact C|].
    split; [exact (f2_in_r _ _ _ _ Hc (proj1 M))|]. split; [exact (f2_in_r _ _ _ _ Hc (proj1 K))|]. split; [|exact T].
    intros v x Hv Ex. destruct (f2_in_l _ _ _ _ Hc Hv) as (y & Hy & Ey). assert (y = x) as -> by congruence. split; [split; [apply M|apply K]; exact Hy|apply B; exact Hy]. }
  destruct (G _ _ F) as (sc & Es & Fs). exists sc. split; [exact Es|].
  assert (K : forall (P : nat -> Q * Q -> Prop) k m l, Forall2 P (seq k m) l -> length l = m /\ forall i, (i < m)%nat -> exists b, nth_error l i = Some b /\ P (k + i)%nat b).
  { clear. intros P k m. revert k. induction m as [|m IH]; intros k l F; cbn [seq] in F; inversion F; subst; [split; [reflexivity|lia]|].
    destruct (IH _ _ H3) as [L H]. split; [cbn; lia|]. intros [|i] Hi; [exists y; rewrite Nat.add_0_r; auto|]. cbn [nth_error]. replace (k + S i)%nat with (S k + i)%nat by lia. apply H. lia. }
  destruct (K _ _ _ _ Fs) as [L H]. split; [exact L|]. intros i Hi. destruct (H i Hi) as (b & Eb & c & mn & mx & -> & R). exists c, mn, mx. split; [exact Eb|]. exact R.
Qed.
