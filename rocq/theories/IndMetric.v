(** The hypervolume-difference and epsilon indicators agree with domination (C105, C106). *)
From Coq Require Import List Bool QArith ZArith Arith Lia Lqa Permutation.
From Verif Require Import Lib Outcome BoundsModel BoundsProofs ParetoModel ParetoSpec ParetoProofs EvalModel EvalSpec HvSpec HvProofs IndModel IndSpec IndProofs IndVol.
Import ListNotations.
Close Scope Q_scope.
Open Scope nat_scope.

Lemma mirror_nth : forall dirs bs o i d b x, nth_error dirs i = Some d -> nth_error bs i = Some b -> nth_error o i = Some x ->
  nth_error (mirror dirs bs o) i = Some (if d : bool then x else (fst b + snd b) - x + fst b)%Q.
Proof.
  induction dirs as [|d dirs IH]; intros [|b bs] [|x o] [|i] d' b' x' Hd Hb Hx; try discriminate; cbn [mirror nth_error] in *.
  - injection Hd as ->. injection Hb as ->. injection Hx as ->. auto.
  - eapply IH; eauto.
Qed.
Lemma mirror_length : forall dirs bs o, length (mirror dirs bs o) = length o.
Proof. induction dirs as [|d dirs IH]; intros [|b bs] [|x o]; cbn; auto. Qed.
Lemma hypervolume_total rho bs o1 o2 : forall k flag, k < length bs -> k < length o1 -> k < length o2 -> exists v, hypervolume rho bs o1 o2 k flag = Ok v.
Proof.
  induction k as [|k IH]; intros flag Hb H1 H2.
  - cbn [hypervolume]. destruct (nth_error bs 0) eqn:E; [|apply nth_error_None in E; lia]. destruct (nth_error o1 0) eqn:E1; [|apply nth_error_None in E1; lia].
    destruct (nth_error o2 0) eqn:E2; [|apply nth_error_None in E2; lia]. cbn. eauto.
  - cbn [hypervolume]. destruct (nth_error bs (S k)) eqn:E; [|apply nth_error_None in E; lia]. destruct (nth_error o1 (S k)) eqn:E1; [|apply nth_error_None in E1; lia].
    destruct (nth_error o2 (S k)) eqn:E2; [|apply nth_error_None in E2; lia]. cbn [of_opt rbind].
    destruct (IH true) as (a & Ea); try lia. destruct (IH false) as (c & Ec); try lia. destruct (qltb _ _); rewrite ?Ea, ?Ec; cbn [rbind]; rewrite ?Ec; cbn; eauto.
Qed.
Lemma hypervolume_metric_total tol rho dirs bs o1 o2 : dirs <> [] -> length bs = length dirs -> length o1 = length dirs -> length o2 = length dirs ->
  exists v, hypervolume_metric tol rho dirs bs o1 o2 = Ok v.
Proof.
  intros Hd Lb L1 L2. unfold hypervolume_metric. destruct dirs as [|d dirs]; [congruence|]. cbn [length] in *.
  destruct (hypervolume_total (adjust_rho rho) bs (mirror (d :: dirs) bs o1) (mirror (d :: dirs) bs o2) (length dirs) false) as (v & E); rewrite ?mirror_length; try lia.
  destruct (hypervolume_total (adjust_rho rho) bs (mirror (d :: dirs) bs o2) (mirror (d :: dirs) bs o1) (length dirs) false) as (w & E'); rewrite ?mirror_length; try lia.
  destruct (pareto _ _ _ _); rewrite ?E, ?E'; cbn; eauto.
Qed.

Section Hv.
Variable tol rho : Q.
Hypothesis tol_ok : (0 <= tol)%Q.
Variable dirs : list bool.
Variable bs : list bound.
Hypothesis dirs_ok : dirs <> [].
Hypothesis bs_ok : length bs = length dirs.
Notation n := (length dirs).
Notation rho' := (adjust_rho rho).
Definition side (o : vec) : nat -> Q := sidef rho' bs (mirror dirs bs o).
Lemma rho_ge1 : (1 <= rho')%Q.
Proof. unfold adjust_rho. destruct (qltb rho 1) eqn:E; [lra|apply qltb_ge in E; auto]. Qed.
(** one objective of a vector inside its bounds *)
Lemma side_at o i : inside bs o -> i < n -> exists d mn rg x, nth_error dirs i = Some d /\ nth_error bs i = Some (mn, rg) /\ nth_error o i = Some x /\ (mn <= x <= mn + rg)%Q /\ (0 < rg)%Q /\ (0 < rho' * rg)%Q /\
  nth_error (mirror dirs bs o) i = Some (if d then x else (mn + rg) - x + mn)%Q /\
  side o i = ((mn + rho' * rg - (if d then x else (mn + rg) - x + mn)) / (rho' * rg))%Q.
Proof.
  intros [L H] Hi. destruct (nth_error dirs i) as [d|] eqn:Ed; [|apply nth_error_None in Ed; lia]. destruct (nth_error bs i) as [[mn rg]|] eqn:Eb; [|apply nth_error_None in Eb; lia].
  destruct (nth_error o i) as [x|] eqn:Ex; [|apply nth_error_None in Ex; lia]. destruct (H i _ x Eb Ex) as [H1 H2]. cbn [fst snd] in *. pose proof rho_ge1.
  exists d, mn, rg, x. pose proof (mirror_nth dirs bs o i d (mn, rg) x Ed Eb Ex) as Em. cbn [fst snd] in Em. repeat split; auto; try lra; try nra.
  unfold side, sidef. rewrite (nth_error_nth _ _ _ Eb), (nth_error_nth _ _ _ Em). auto.
Qed.
Lemma side_range o i : inside bs o -> i < n -> (0 <= side o i <= 1)%Q.
Proof.
  intros Ho Hi. destruct (side_at o i Ho Hi) as (d & mn & rg & x & _ & _ & _ & Hx & Hr & Hp & _ & ->). pose proof rho_ge1. assert ((rg <= rho' * rg)%Q) by nra.
  split; [apply div_pos; auto; destruct d; lra|]. apply Qle_shift_div_r; auto. destruct d; lra.
Qed.
Lemma side_pos o i : (1 < rho)%Q -> inside bs o -> i < n -> (0 < side o i)%Q.
Proof.
  intros Hr1 Ho Hi. destruct (side_at o i Ho Hi) as (d & mn & rg & x & _ & _ & _ & Hx & Hr & Hp & _ & ->).
  assert ((rho' == rho)%Q) as Er by (unfold adjust_rho; destruct (qltb rho 1) eqn:E; [apply qltb_lt in E; lra|reflexivity]). assert ((rg < rho' * rg)%Q) by nra.
  apply Qlt_shift_div_l; auto. destruct d; lra.
Qed.
Lemma fits_inside o : inside bs o -> fits rho' bs (mirror dirs bs o) n.
Proof.
  intros Ho i Hi. destruct (side_at o i Ho Hi) as (d & mn & rg & x & Ed & Eb & Ex & Hx & Hr & Hp & Em & _). exists (mn, rg). eexists. split; [auto|]. split; [eauto|]. cbn [fst snd].
  pose proof rho_ge1. assert ((rg <= rho' * rg)%Q) by nra. split; auto. destruct d; lra.
Qed.
Definition dif (o1 o2 : vec) : Q := (pr (side o1) n - pr (fun i => qmin (side o1 i) (side o2 i)) n)%Q.
Lemma metric_closed o1 o2 : inside bs o1 -> inside bs o2 -> exists r, hypervolume_metric tol rho dirs bs o1 o2 = Ok r /\
  (dominates_tol tol dirs o1 o2 -> (r == - dif o1 o2)%Q) /\ (~ dominates_tol tol dirs o1 o2 -> (r == dif o2 o1)%Q).
Proof.
  intros H1 H2. pose proof (fits_inside o1 H1) as F1. pose proof (fits_inside o2 H2) as F2.
  assert (L1 : length o1 = n) by (rewrite <- bs_ok; apply H1). assert (L2 : length o2 = n) by (rewrite <- bs_ok; apply H2).
  pose proof (pareto_tol tol dirs o2 o1 tol_ok L2 L1) as Hp. unfold hypervolume_metric, dif.
  assert (exists k, n = S k) as [k Hk] by (destruct dirs; [congruence|cbn; eauto]). rewrite Hk in *.
  destruct (pareto tol dirs o2 o1) eqn:E.
  - destruct (hypervolume_ok rho' bs (mirror dirs bs o1) (mirror dirs bs o2) k F1 F2) as [_ (v & Ev & Hv)]. rewrite Ev. cbn [rbind]. eexists. split; [reflexivity|].
    split; [intros _; rewrite Hv; reflexivity|]. intros Hn. destruct Hn. apply Hp. auto.
  - destruct (hypervolume_ok rho' bs (mirror dirs bs o2) (mirror dirs bs o1) k F2 F1) as [_ (v & Ev & Hv)]. exists v. split; auto.
    split; [intros Hd; apply Hp in Hd; congruence|]. intros _. exact Hv.
Qed.
Lemma min_sym o1 o2 : (pr (fun i => qmin (side o1 i) (side o2 i)) n == pr (fun i => qmin (side o2 i) (side o1 i)) n)%Q.
Proof.
  apply pr_ext. intros i _. destruct (qmin_spec (side o1 i) (side o2 i)) as (A & B & [C|C]), (qmin_spec (side o2 i) (side o1 i)) as (A' & B' & [C'|C']); lra.
Qed.
Lemma dif_nonneg o1 o2 : inside bs o1 -> inside bs o2 -> (0 <= dif o1 o2 <= 1)%Q.
Proof.
  intros H1 H2. unfold dif. assert (N : forall i, i < n -> (0 <= qmin (side o1 i) (side o2 i) <= side o1 i)%Q).
  { intros i Hi. pose proof (side_range o1 i H1 Hi). pose proof (side_range o2 i H2 Hi). destruct (qmin_spec (side o1 i) (side o2 i)) as (A & B & [C|C]); rewrite C in *; lra. }
  assert ((pr (fun i => qmin (side o1 i) (side o2 i)) n <= pr (side o1) n)%Q) by (apply pr_mono; auto).
  assert ((0 <= pr (fun i => qmin (side o1 i) (side o2 i)) n)%Q) by (apply pr_nonneg; intros i Hi; apply N; auto).
  assert ((pr (side o1) n <= 1)%Q) by (apply pr_le1; intros i Hi; apply side_range; auto). lra.
Qed.
Lemma sides_of o p : inside bs o -> box_sides rho' dirs bs o p -> sides_are p (side o) n.
Proof.
  intros Ho [L H] i Hi. destruct (side_at o i Ho Hi) as (d & mn & rg & x & Ed & Eb & Ex & Hx & Hr & Hp & _ & Es). destruct (nth_error p i) as [y|] eqn:Ey; [|apply nth_error_None in Ey; lia].
  exists y. split; auto. rewrite (H i d mn rg x y Ed Eb Ex Ey), Es. pose proof rho_ge1. destruct d; [reflexivity|]. field. split; lra.
Qed.
Lemma sides_exist o : inside bs o -> exists p, box_sides rho' dirs bs o p.
Proof.
  intros Ho. exists (map (side o) (seq 0 n)). split; [rewrite map_length, seq_length; auto|]. intros i d mn rg x y Ed Eb Ex Ey.
  assert (Hi : i < n) by (apply nth_error_Some; congruence). destruct (side_at o i Ho Hi) as (d' & mn' & rg' & x' & Ed' & Eb' & Ex' & Hx & Hr & Hp & _ & Es).
  rewrite Ed in Ed'. injection Ed' as <-. rewrite Eb in Eb'. injection Eb' as <- <-. rewrite Ex in Ex'. injection Ex' as <-.
  rewrite nth_error_map' in Ey. rewrite nth_error_seq' in Ey by auto. cbn in Ey. injection Ey as <-. rewrite Es. pose proof rho_ge1. destruct d; [reflexivity|]. field. split; lra.
Qed.

(** ** domination *)
Lemma side_mono o1 o2 i : inside bs o1 -> inside bs o2 -> i < n -> (forall i d x y, objective dirs o1 o2 i d x y -> ~ better d y x) -> (side o2 i <= side o1 i)%Q.
Proof.
  intros H1 H2 Hi Hd. destruct (side_at o1 i H1 Hi) as (d & mn & rg & x & Ed & Eb & Ex & Hx & Hr & Hp & _ & ->). destruct (side_at o2 i H2 Hi) as (d' & mn' & rg' & y & Ed' & Eb' & Ey & Hy & _ & _ & _ & ->).
  rewrite Ed in Ed'. injection Ed' as <-. rewrite Eb in Eb'. injection Eb' as <- <-. specialize (Hd i d x y (conj Ed (conj Ex Ey))).
  unfold Qdiv. apply Qmult_le_compat_r; [|apply Qlt_le_weak, Qinv_lt_0_compat; auto]. unfold better, better_by in Hd. destruct d; lra.
Qed.
Lemma side_strict o1 o2 i d x y : inside bs o1 -> inside bs o2 -> objective dirs o1 o2 i d x y -> better d x y -> (side o2 i < side o1 i)%Q.
Proof.
  intros H1 H2 (Ed & Ex & Ey) Hb. assert (Hi : i < n) by (apply nth_error_Some; congruence).
  destruct (side_at o1 i H1 Hi) as (d1 & mn & rg & x1 & Ed1 & Eb & Ex1 & Hx & Hr & Hp & _ & ->). destruct (side_at o2 i H2 Hi) as (d' & mn' & rg' & y' & Ed' & Eb' & Ey' & Hy & _ & _ & _ & ->).
  rewrite Ed in Ed1. injection Ed1 as <-. rewrite Ed in Ed'. injection Ed' as <-. rewrite Eb in Eb'. injection Eb' as <- <-. rewrite Ex in Ex1. injection Ex1 as <-. rewrite Ey in Ey'. injection Ey' as <-.
  unfold Qdiv. apply Qmult_lt_compat_r; [apply Qinv_lt_0_compat; auto|]. unfold better, better_by in Hb. destruct d; lra.
Qed.
Lemma dif_strict x1 x2 : (1 < rho)%Q -> inside bs x1 -> inside bs x2 -> dominates dirs x1 x2 -> (0 < dif x1 x2)%Q /\ (dif x2 x1 == 0)%Q.
Proof.
  intros Hr H1 H2 [Hw (i & d & x & y & Ho & Hb)].
  assert (M : forall i, i < n -> (qmin (side x1 i) (side x2 i) == side x2 i)%Q).
  { intros j Hj. pose proof (side_mono x1 x2 j H1 H2 Hj Hw). destruct (qmin_spec (side x1 j) (side x2 j)) as (A & B & [C|C]); rewrite C in *; lra. }
  assert (E : (pr (fun i => qmin (side x1 i) (side x2 i)) n == pr (side x2) n)%Q) by (apply pr_ext; auto). split.
  - unfold dif. rewrite E. assert ((pr (side x2) n < pr (side x1) n)%Q); [|lra]. apply pr_strict.
    + intros j Hj. split; [apply side_pos; auto|apply side_mono; auto].
    + exists i. split; [apply nth_error_Some; destruct Ho; congruence|]. eapply side_strict; eauto.
  - unfold dif. rewrite min_sym, E. lra.
Qed.
(** the part of [y]'s box outside the box of a better vector is smaller *)
Lemma dif_mono_r y x1 x2 : inside bs y -> inside bs x1 -> inside bs x2 -> dominates dirs x1 x2 -> (dif y x1 <= dif y x2)%Q.
Proof.
  intros Hy H1 H2 [Hw _]. unfold dif. assert ((pr (fun i => qmin (side y i) (side x2 i)) n <= pr (fun i => qmin (side y i) (side x1 i)) n)%Q); [|lra].
  apply pr_mono. intros i Hi. pose proof (side_mono x1 x2 i H1 H2 Hi Hw). pose proof (side_range y i Hy Hi). pose proof (side_range x2 i H2 Hi).
  destruct (qmin_spec (side y i) (side x1 i)) as (A & B & [C|C]), (qmin_spec (side y i) (side x2 i)) as (A' & B' & [C'|C']); rewrite C, C' in *; lra.
Qed.
(** the part of the better vector's box outside [y]'s box is larger *)
Lemma dif_mono_l y x1 x2 : inside bs y -> inside bs x1 -> inside bs x2 -> dominates dirs x1 x2 -> (dif x2 y <= dif x1 y)%Q.
Proof.
  intros Hy H1 H2 [Hw _]. unfold dif.
  assert (G : forall k, k <= n -> (pr (side x2) k - pr (fun i => qmin (side x2 i) (side y i)) k <= pr (side x1) k - pr (fun i => qmin (side x1 i) (side y i)) k)%Q).
  { induction k as [|k IH]; intros Hk; cbn [pr]; [lra|]. specialize (IH ltac:(lia)). pose proof (side_mono x1 x2 k H1 H2 ltac:(lia) Hw) as Hm. pose proof (side_range y k Hy ltac:(lia)). pose proof (side_range x2 k H2 ltac:(lia)).
    set (P2 := pr (side x2) k) in *. set (P1 := pr (side x1) k) in *. set (Q2 := pr (fun i => qmin (side x2 i) (side y i)) k) in *. set (Q1 := pr (fun i => qmin (side x1 i) (side y i)) k) in *.
    assert (N : forall o, inside bs o -> forall i, i < k -> (0 <= qmin (side o i) (side y i) <= side o i)%Q).
    { intros o Ho i Hi. pose proof (side_range o i Ho ltac:(lia)). pose proof (side_range y i Hy ltac:(lia)). destruct (qmin_spec (side o i) (side y i)) as (A & B & [C|C]); rewrite C in *; lra. }
    assert ((0 <= Q2)%Q) by (apply pr_nonneg; intros i Hi; apply N; auto). assert ((Q2 <= P2)%Q) by (apply pr_mono; intros i Hi; apply N; auto).
    assert ((Q1 <= P1)%Q) by (apply pr_mono; intros i Hi; apply N; auto). assert ((0 <= Q1)%Q) by (apply pr_nonneg; intros i Hi; apply N; auto).
    assert ((P2 <= P1)%Q) by (apply pr_mono; intros i Hi; split; [apply side_range; auto; lia|apply side_mono; auto; lia]).
    destruct (qmin_spec (side x2 k) (side y k)) as (A & B & [C|C]), (qmin_spec (side x1 k) (side y k)) as (A' & B' & [C'|C']); rewrite C, C' in *; nra. }
  apply G. auto.
Qed.
Lemma tol_dom_trans y x1 x2 : length y = n -> length x1 = n -> length x2 = n -> dominates_tol tol dirs y x1 -> dominates dirs x1 x2 -> dominates_tol tol dirs y x2.
Proof.
  intros Ly L1 L2 [Hw (i & d & a & b & Ho & Hb)] [Hw' _]. split.
  - intros j e p q Hj Hbad. destruct Hj as (J1 & J2 & J3). destruct (nth_error x1 j) as [m|] eqn:Em; [|apply nth_error_None in Em; assert (j < n) by (apply nth_error_Some; congruence); lia].
    specialize (Hw j e p m (conj J1 (conj J2 Em))). specialize (Hw' j e m q (conj J1 (conj Em J3))). unfold better, better_by in *. destruct e; lra.
  - destruct Ho as (J1 & J2 & J3). destruct (nth_error x2 i) as [q|] eqn:Eq; [|apply nth_error_None in Eq; assert (i < n) by (apply nth_error_Some; congruence); lia].
    exists i, d, a, q. split; [split; auto|]. specialize (Hw' i d b q (conj J1 (conj J3 Eq))). unfold better, better_by in *. destruct d; lra.
Qed.
Lemma not_tol_dom x1 x2 : dominates dirs x1 x2 -> ~ dominates_tol tol dirs x2 x1.
Proof.
  intros [Hw _] [_ (i & d & x & y & Ho & Hb)]. apply objective_swap in Ho. specialize (Hw i d y x Ho). unfold better, better_by in *. destruct d; lra.
Qed.
Definition hvi (x y : vec) : Q := match hypervolume_metric tol rho dirs bs x y with Ok v => v | _ => 0%Q end.
Lemma tol_dom_dec x y : length x = n -> length y = n -> dominates_tol tol dirs x y \/ ~ dominates_tol tol dirs x y.
Proof. intros Lx Ly. pose proof (pareto_tol tol dirs y x tol_ok Ly Lx) as H. destruct (pareto tol dirs y x); [left; apply H; auto|right; intros X; apply H in X; discriminate]. Qed.
Lemma hvi_spec x y : inside bs x -> inside bs y -> (dominates_tol tol dirs x y -> (hvi x y == - dif x y)%Q) /\ (~ dominates_tol tol dirs x y -> (hvi x y == dif y x)%Q).
Proof. intros Hx Hy. unfold hvi. destruct (metric_closed x y Hx Hy) as (r & -> & A & B). auto. Qed.
Lemma hvi_dominance x1 x2 : (1 < rho)%Q -> inside bs x1 -> inside bs x2 -> dominates dirs x1 x2 ->
  (hvi x1 x2 < hvi x2 x1)%Q /\ forall y, inside bs y -> (hvi y x2 <= hvi y x1)%Q.
Proof.
  intros Hr H1 H2 Hd. assert (L : forall o, inside bs o -> length o = n) by (intros o Ho; rewrite <- bs_ok; apply Ho). destruct (dif_strict x1 x2 Hr H1 H2 Hd) as [P Z]. split.
  - destruct (hvi_spec x2 x1 H2 H1) as [_ B]. rewrite (B (not_tol_dom x1 x2 Hd)). destruct (hvi_spec x1 x2 H1 H2) as [C D]. destruct (tol_dom_dec x1 x2) as [T|T]; auto; [rewrite (C T)|rewrite (D T)]; lra.
  - intros y Hy. destruct (hvi_spec y x1 Hy H1) as [A1 B1]. destruct (hvi_spec y x2 Hy H2) as [A2 B2].
    pose proof (dif_nonneg y x1 Hy H1). pose proof (dif_nonneg y x2 Hy H2). pose proof (dif_nonneg x1 y H1 Hy). pose proof (dif_nonneg x2 y H2 Hy).
    destruct (tol_dom_dec y x1) as [T1|T1]; auto.
    + pose proof (tol_dom_trans y x1 x2 (L y Hy) (L x1 H1) (L x2 H2) T1 Hd) as T2. rewrite (A1 T1), (A2 T2). pose proof (dif_mono_r y x1 x2 Hy H1 H2 Hd). lra.
    + rewrite (B1 T1). destruct (tol_dom_dec y x2) as [T2|T2]; auto; [rewrite (A2 T2); lra|]. rewrite (B2 T2). apply dif_mono_l; auto.
Qed.
End Hv.

(** ** the epsilon indicator *)
Definition epi (dirs : list bool) (bs : list bound) (x y : vec) : Q := match epsilon_metric dirs bs x y with Ok v => v | _ => 0%Q end.
Lemma epi_dominance dirs bs x1 x2 : dirs <> [] -> length bs = length dirs -> Forall (fun b => 0 < snd b)%Q bs -> length x1 = length dirs -> length x2 = length dirs -> dominates dirs x1 x2 ->
  (epi dirs bs x1 x2 < epi dirs bs x2 x1)%Q /\ forall y, length y = length dirs -> (epi dirs bs y x2 <= epi dirs bs y x1)%Q.
Proof.
  intros Hd Lb Hb L1 L2 [Hw (i & d & x & y & Ho & Hbt)]. unfold epi. split.
  - destruct (epsilon_metric_least dirs bs x1 x2 Hd Lb L1 L2) as (e1 & E1 & _). destruct (epsilon_metric_least dirs bs x2 x1 Hd Lb L2 L1) as (e2 & E2 & _). rewrite E1, E2.
    pose proof (proj2 (epsilon_sign dirs bs x1 x2 e1 Hd Lb L1 L2 Hb E1) Hw) as S1. destruct (Qlt_le_dec 0 e2) as [S2|S2]; [lra|]. apply (epsilon_sign dirs bs x2 x1 e2) in S2; auto.
    destruct (S2 i d y x); auto. apply objective_swap. auto.
  - intros z Lz. destruct (epsilon_metric_least dirs bs z x2 Hd Lb Lz L2) as (e1 & E1 & _). destruct (epsilon_metric_least dirs bs z x1 Hd Lb Lz L1) as (e2 & E2 & _). destruct (epsilon_metric_least dirs bs x1 x2 Hd Lb L1 L2) as (e3 & E3 & _).
    rewrite E1, E2. pose proof (epsilon_triangle dirs bs z x1 x2 e2 e3 e1 Hd Lb Lz L1 L2 E2 E3 E1). pose proof (proj2 (epsilon_sign dirs bs x1 x2 e3 Hd Lb L1 L2 Hb E3) Hw). lra.
Qed.
