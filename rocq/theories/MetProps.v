(** C142 and C143: the metrics between two Pareto sets. *)
From Coq Require Import List Bool Arith QArith Reals Lia Lra Lqa Permutation.
From Verif Require Import Lib Outcome BoundsModel BoundsProofs ParetoModel ParetoSpec ParetoProofs BoxSpec MetModel MetSpec MetProofs MetEps MetNiche MetReal.
From Coq Require Import List.
Import ListNotations.
Local Open Scope Q_scope.

(** ** C142: contribution *)
Theorem C142_contribution_range : forall tol dirs s1 s2, s1 <> [] \/ s2 <> [] -> exists q, contribution tol dirs s1 s2 = Some q /\ 0 <= q <= 1.
Proof. intros tol dirs s1 s2 H. destruct (contribution_some tol dirs s1 s2 H) as (q & E & R & _). eauto. Qed.
Print Assumptions C142_contribution_range.
Theorem C142_contribution_complement : forall dirs s1 s2 q1 q2,
  vectors_of (length dirs) s1 -> vectors_of (length dirs) s2 -> all_different s1 -> all_different s2 ->
  contribution 0 dirs s1 s2 = Some q1 -> contribution 0 dirs s2 s1 = Some q2 -> q1 + q2 == 1.
Proof.
  intros dirs s1 s2 q1 q2 V1 V2 D1 D2 E1 E2.
  assert (N : s1 <> [] \/ s2 <> []) by (destruct s1; [destruct s2; [discriminate|right; discriminate]|left; discriminate]).
  destruct (contribution_some 0 dirs s1 s2 N) as (q & E & _ & H & P). assert (q = q1) as -> by congruence.
  assert (N' : s2 <> [] \/ s1 <> []) by tauto.
  destruct (contribution_some 0 dirs s2 s1 N') as (q & E' & _ & H' & P'). assert (q = q2) as -> by congruence.
  rewrite (card_C_sym _ s2 s1 V2 V1 D2 D1) in H', P'. set (c := natq (card_C 0 s1 s2)) in *. set (w1 := natq (card_W 0 dirs s1 s2)) in *.
  set (w2 := natq (card_W 0 dirs s2 s1)) in *. set (n1 := natq (card_N 0 dirs s1 s2)) in *. set (n2 := natq (card_N 0 dirs s2 s1)) in *.
  assert (Hc : c / 2 == c * (1 # 2)) by field. rewrite Hc in H, H'. set (t := c + w1 + n1 + w2 + n2) in *.
  assert (T : c + w2 + n2 + w1 + n1 == t) by (unfold t; ring). rewrite T in H'. apply (Qmult_inj_r _ _ t); [lra|]. rewrite Qmult_plus_distr_l, H, H'. unfold t. ring.
Qed.
Print Assumptions C142_contribution_complement.
Theorem C142_contribution_itself : forall tol dirs s, s <> [] -> exists q, contribution tol dirs s s = Some q /\ q == 1 # 2.
Proof.
  intros tol dirs s N. destruct (contribution_some tol dirs s s (or_introl N)) as (q & E & _ & H & P). exists q. split; [exact E|].
  set (c := natq (card_C tol s s)) in *. set (w := natq (card_W tol dirs s s)) in *. set (n := natq (card_N tol dirs s s)) in *.
  assert (Hc : c / 2 == c * (1 # 2)) by field. rewrite Hc in H. apply (Qmult_inj_r _ _ (c + w + n + w + n)); [lra|]. rewrite H. ring.
Qed.
Print Assumptions C142_contribution_itself.
(** 1: every vector of the second set is dominated by one of the first *)
Theorem C142_contribution_one : forall dirs s1 s2 q, vectors_of (length dirs) s1 -> vectors_of (length dirs) s2 -> mutually_nondominated dirs s1 ->
  contribution 0 dirs s1 s2 = Some q -> (q == 1 <-> forall b, In b s2 -> exists a, In a s1 /\ dominates dirs a b).
Proof.
  intros dirs s1 s2 q V1 V2 M E.
  assert (N : s1 <> [] \/ s2 <> []) by (destruct s1; [destruct s2; [discriminate|right; discriminate]|left; discriminate]).
  destruct (contribution_some 0 dirs s1 s2 N) as (q' & E' & _ & H & P). assert (q' = q) as -> by congruence.
  rewrite <- (card_zero dirs _ s1 s2 eq_refl V1 V2 M).
  pose proof (natq_nonneg (card_C 0 s1 s2)). pose proof (natq_nonneg (card_W 0 dirs s2 s1)). pose proof (natq_nonneg (card_N 0 dirs s2 s1)).
  assert (Hc : natq (card_C 0 s1 s2) / 2 == natq (card_C 0 s1 s2) * (1 # 2)) by field. rewrite Hc in H. split.
  - intros Q1. rewrite Q1, Qmult_1_l in H. repeat split; apply natq_zero; lra.
  - intros (Z1 & Z2 & Z3). rewrite Z1, Z2, Z3 in H, P. change (natq 0) with 0 in H, P. apply (Qmult_inj_r _ _ (0 + natq (card_W 0 dirs s1 s2) + natq (card_N 0 dirs s1 s2) + 0 + 0)); [lra|]. rewrite H. ring.
Qed.
Print Assumptions C142_contribution_one.
(** no common vector: the share of the first set in the front of both *)
Theorem C142_contribution_share : forall dirs s1 s2 k1 k2 q, vectors_of (length dirs) s1 -> vectors_of (length dirs) s2 ->
  mutually_nondominated dirs s1 -> mutually_nondominated dirs s2 -> (forall v w, In v s1 -> In w s2 -> ~ equal_vectors v w) ->
  how_many (not_dominated_by dirs s2) s1 k1 -> how_many (not_dominated_by dirs s1) s2 k2 ->
  contribution 0 dirs s1 s2 = Some q -> q * natq (k1 + k2) == natq k1.
Proof.
  assert (G : forall dirs s t k, vectors_of (length dirs) s -> vectors_of (length dirs) t -> how_many (not_dominated_by dirs t) s k -> k = count (fun a => negb (existsb (fun b => pareto 0 dirs a b) t)) s).
  { intros dirs s t k V1 V2 H. rewrite count_ok. induction H as [|x l n P H IH|x l n P H IH]; [reflexivity| |]; cbn [filter];
    assert (Vx := V1 x (or_introl eq_refl)); specialize (IH (fun v Hv => V1 v (or_intror Hv))); destruct (existsb (fun b => pareto 0 dirs x b) t) eqn:E; cbn [negb length]; try congruence.
    - exfalso. apply existsb_exists in E as (b & Hb & E). apply (P b Hb). apply pareto_exact; auto.
    - exfalso. apply P. intros w Hw D. apply pareto_exact in D; auto. assert (X : existsb (fun b => pareto 0 dirs x b) t = true) by (apply existsb_exists; eauto). congruence. }
  intros dirs s1 s2 k1 k2 q V1 V2 M1 M2 D H1 H2 E. apply G in H1; auto. apply G in H2; auto. rewrite <- winners in H1, H2 by auto.
  assert (N : s1 <> [] \/ s2 <> []) by (destruct s1; [destruct s2; [discriminate|right; discriminate]|left; discriminate]).
  destruct (contribution_some 0 dirs s1 s2 N) as (q' & E' & _ & H & P). assert (q' = q) as -> by congruence.
  assert (C0 : card_C 0 s1 s2 = 0%nat).
  { unfold card_C. apply count_zero. intros a Ha. destruct (existsb (fun b => same_vector 0 a b) s2) eqn:X; [|reflexivity]. apply existsb_exists in X as (b & Hb & X). exfalso. apply (D a b Ha Hb).
    apply same_vector_exact; [rewrite (V1 a Ha), (V2 b Hb); reflexivity|exact X]. }
  rewrite C0 in H. change (natq 0) with 0 in H. rewrite H1, H2, !natq_plus. rewrite (Qmult_comp q q (Qeq_refl q) _ (0 + natq (card_W 0 dirs s1 s2) + natq (card_N 0 dirs s1 s2) + natq (card_W 0 dirs s2 s1) + natq (card_N 0 dirs s2 s1))) by ring.
  rewrite H. field.
Qed.
Print Assumptions C142_contribution_share.
Example C142_contribution_case :
  contribution 0 [true; true] [[1; 3]; [3; 1]] [[2; 4]; [0; 5]] = Some (4 # 6) /\ contribution 0 [true; true] [[2; 4]; [0; 5]] [[1; 3]; [3; 1]] = Some (2 # 6) /\
  contribution 0 [true; true] [[1; 3]; [3; 1]] [[2; 4]; [3; 2]] = Some (4 # 4) /\
  all_different [[1; 3]; [3; 1]] /\ all_different [[2; 4]; [0; 5]].
Proof.
  split; [|split; [|split]].
  1-3: vm_compute; reflexivity.
  split; repeat constructor; intros w Hw; repeat (destruct Hw as [<-|Hw]); try destruct Hw; intros [_ H]; specialize (H 0%nat _ _ eq_refl eq_refl); discriminate.
Qed.

(** ** C142: epsilon indicators *)
Theorem C142_additive_least : forall dirs s1 s2, dirs <> [] -> vectors_of (length dirs) s1 -> vectors_of (length dirs) s2 -> s1 <> [] -> s2 <> [] ->
  exists e, additive_metric dirs false s1 s2 = Ok (Some e) /\ least (set_covers (fun _ x => x) dirs s1 s2) e.
Proof. exact plain_least. Qed.
Print Assumptions C142_additive_least.
Theorem C142_additive_normalized : forall dirs s1 s2 mn mx, dirs <> [] -> vectors_of (length dirs) s1 -> vectors_of (length dirs) s2 -> s1 <> [] -> s2 <> [] ->
  (forall i, (i < length dirs)%nat -> spans (s1 ++ s2) i (mn i) (mx i) /\ mn i < mx i) ->
  exists e, additive_metric dirs true s1 s2 = Ok (Some e) /\ least (set_covers (fun i x => (x - mn i) / (mx i - mn i)) dirs s1 s2) e.
Proof. exact normalized_least. Qed.
Print Assumptions C142_additive_normalized.
(** never positive exactly when the first set covers the second *)
Theorem C142_additive_sign : forall dirs normalize s1 s2 mn mx e, dirs <> [] -> vectors_of (length dirs) s1 -> vectors_of (length dirs) s2 -> s1 <> [] -> s2 <> [] ->
  (normalize = true -> forall i, (i < length dirs)%nat -> spans (s1 ++ s2) i (mn i) (mx i) /\ mn i < mx i) ->
  additive_metric dirs normalize s1 s2 = Ok (Some e) ->
  (e <= 0 <-> forall b, In b s2 -> exists a, In a s1 /\ weakly_dominates dirs a b).
Proof.
  intros dirs normalize s1 s2 mn mx e Nd V1 V2 N1 N2 Hs E.
  assert (G : forall norm, (forall i x y, (i < length dirs)%nat -> (norm i x <= norm i y <-> x <= y)) -> least (set_covers norm dirs s1 s2) e -> (e <= 0 <-> forall b, In b s2 -> exists a, In a s1 /\ weakly_dominates dirs a b)).
  { intros norm M [C L]. split.
    - intros H b Hb. destruct (C b Hb) as (a & Ha & Hc). exists a. split; [exact Ha|]. apply (covers_zero norm); [exact M|]. exact (covers_more _ _ _ _ _ _ H Hc).
    - intros H. apply L. intros b Hb. destruct (H b Hb) as (a & Ha & Hw). exists a. split; [exact Ha|]. apply covers_zero; auto. }
  destruct normalize.
  - destruct (normalized_least dirs s1 s2 mn mx Nd V1 V2 N1 N2 (Hs eq_refl)) as (e' & E' & L). assert (e' = e) as -> by congruence. apply (G _) in L; [exact L|].
    intros i x y Hi. destruct (Hs eq_refl i Hi) as [_ P]. exact (normal_mono (mn i, mx i - mn i) x y ltac:(cbn; lra)).
  - destruct (plain_least dirs s1 s2 Nd V1 V2 N1 N2) as (e' & E' & L). assert (e' = e) as -> by congruence. apply (G _) in L; [exact L|]. intros; reflexivity.
Qed.
Print Assumptions C142_additive_sign.
Theorem C142_additive_triangle : forall dirs s1 s2 s3 e12 e23 e13, dirs <> [] -> vectors_of (length dirs) s1 -> vectors_of (length dirs) s2 -> vectors_of (length dirs) s3 ->
  s1 <> [] -> s2 <> [] -> s3 <> [] ->
  additive_metric dirs false s1 s2 = Ok (Some e12) -> additive_metric dirs false s2 s3 = Ok (Some e23) -> additive_metric dirs false s1 s3 = Ok (Some e13) -> e13 <= e12 + e23.
Proof.
  intros dirs s1 s2 s3 e12 e23 e13 Nd V1 V2 V3 N1 N2 N3 E1 E2 E3.
  destruct (plain_least dirs s1 s2 Nd V1 V2 N1 N2) as (x & Ex & [Cx _]). destruct (plain_least dirs s2 s3 Nd V2 V3 N2 N3) as (y & Ey & [Cy _]). destruct (plain_least dirs s1 s3 Nd V1 V3 N1 N3) as (z & Ez & [_ Lz]).
  assert (x = e12) as -> by congruence. assert (y = e23) as -> by congruence. assert (z = e13) as -> by congruence. apply Lz.
  intros c Hc. destruct (Cy c Hc) as (b & Hb & H2). destruct (Cx b Hb) as (a & Ha & H1). exists a. split; [exact Ha|]. apply (covers_twice _ _ a b c); auto.
Qed.
Print Assumptions C142_additive_triangle.
Theorem C142_multiplicative_least : forall dirs s1 s2, dirs <> [] -> vectors_of (length dirs) s1 -> vectors_of (length dirs) s2 -> s1 <> [] -> s2 <> [] ->
  (forall v x, In v (s1 ++ s2) -> In x v -> 0 < x) ->
  exists e, multiplicative_metric dirs s1 s2 = Ok (Some e) /\ least (set_covers_times dirs s1 s2) e.
Proof. exact times_least. Qed.
Print Assumptions C142_multiplicative_least.
Theorem C142_multiplicative_refuses : forall dirs s1 s2, dirs <> [] -> vectors_of (length dirs) s1 -> vectors_of (length dirs) s2 -> s1 <> [] -> s2 <> [] ->
  (multiplicative_metric dirs s1 s2 = Throw <-> exists a b i d x y, In a s1 /\ In b s2 /\ objective dirs a b i d x y /\ x * y <= 0).
Proof. exact set_metric_throw. Qed.
Print Assumptions C142_multiplicative_refuses.
Theorem C142_empty_outside : forall dirs s, dirs <> [] -> additive_metric dirs false s [] = UB /\ multiplicative_metric dirs s [] = UB /\
  (s <> [] -> additive_metric dirs false [] s = UB /\ multiplicative_metric dirs [] s = UB /\ additive_metric dirs true [] s = UB).
Proof.
  intros dirs s Nd. split; [reflexivity|]. split; [reflexivity|]. intros N. destruct s; [congruence|]. destruct dirs; [congruence|]. repeat split.
Qed.
Print Assumptions C142_empty_outside.
Example C142_epsilon_case :
  (exists e, additive_metric [true; false] false [[1; 3]; [4; 8]] [[2; 6]; [3; 3]] = Ok (Some e) /\ e == 2) /\
  (exists e, additive_metric [true; false] true [[1; 3]; [4; 8]] [[2; 6]; [3; 3]] = Ok (Some e) /\ e == 3 / 5) /\
  (exists e, multiplicative_metric [true; false] [[1; 3]; [4; 8]] [[2; 6]; [3; 3]] = Ok (Some e) /\ e == 2) /\
  multiplicative_metric [true; false] [[1; 3]; [4; 0]] [[2; 6]] = Throw /\
  (forall i, (i < 2)%nat -> spans ([[1; 3]; [4; 8]] ++ [[2; 6]; [3; 3]]) i (nth i [1; 3] 0) (nth i [4; 8] 0)).
Proof.
  split; [|split; [|split; [|split]]].
  1-3: eexists; split; [vm_compute; reflexivity|reflexivity].
  - reflexivity.
  - intros [|[|i]] Hi; [| |lia]; (split; [|split]); cbn [nth app].
    1,4: exists [1; 3]; split; [left; reflexivity|reflexivity].
    1,3: exists [4; 8]; split; [right; left; reflexivity|reflexivity].
    all: intros v x Hv; repeat (destruct Hv as [<-|Hv]); try destruct Hv; intros E; inversion E; subst; split; lra.
Qed.

(** ** C142: the sets of the entropy *)
Theorem C142_remove_dominated : forall dirs f, vectors_of (length dirs) f ->
  exists keep, Permutation (remove_dominated 0 dirs f) (filter keep f) /\ forall x, In x f -> (keep x = true <-> forall y, In y f -> ~ dominates dirs y x).
Proof. intros dirs f V. exists (best dirs f). split; [apply remove_ok; exact V|]. intros x Hx. apply best_iff; auto. Qed.
Print Assumptions C142_remove_dominated.
Theorem C142_union : forall n f1 f2, vectors_of n f1 -> vectors_of n f2 ->
  exists extra, union 0 f1 f2 = f1 ++ extra /\ forall x, In x extra <-> In x f2 /\ forall y, In y f1 -> ~ equal_vectors y x.
Proof.
  intros n f1 f2 V1 V2. eexists. split; [apply union_ok|]. intros x. rewrite filter_In, negb_true_iff. split.
  - intros [H E]. split; [exact H|]. intros y Hy G. apply same_vector_exact in G; [|rewrite (V1 y Hy), (V2 x H); reflexivity].
    assert (X : existsb (fun y => same_vector 0 y x) f1 = true) by (apply existsb_exists; eauto). congruence.
  - intros [H E]. split; [exact H|]. destruct (existsb (fun y => same_vector 0 y x) f1) eqn:G; [|reflexivity]. apply existsb_exists in G as (y & Hy & G). exfalso. apply (E y Hy).
    apply same_vector_exact; [rewrite (V1 y Hy), (V2 x H); reflexivity|exact G].
Qed.
Print Assumptions C142_union.
(** the size of the niche: the vectors at a distance less than n / size *)
Theorem C142_niche : forall n f s size, vectors_of n f -> length s = n ->
  exists p, in_niche f s size = Ok (length (filter p f)) /\ forall x, p x = true <-> square_distance x s < natq n / natq size * (natq n / natq size).
Proof.
  intros n f s size V L. destruct (niche_ok n f s size V L) as (k & E & ->). eexists. split; [exact E|]. intros x. split; apply qltb_lt.
Qed.
Print Assumptions C142_niche.
(** the extent of the set used is mapped onto [0, 1] *)
Theorem C142_normalize : forall dirs f mm, vectors_of (length dirs) f -> f <> [] -> prenormalize dirs f = Ok mm ->
  (forall i mn mx, spans f i mn mx -> mn < mx) ->
  forall v i x, In v f -> nth_error v i = Some x -> exists mn mx, spans f i mn mx /\ nth_error (normalize1 mm v) i = Some ((x - mn) / (mx - mn)) /\ 0 <= (x - mn) / (mx - mn) <= 1.
Proof.
  intros dirs f mm V N E P v i x Hv Ex. destruct (prenormalize_ok dirs f V N) as (mm' & E' & L & H). assert (mm' = mm) as -> by congruence.
  assert (Hi : (i < length dirs)%nat) by (rewrite <- (V v Hv); apply nth_error_Some; congruence). destruct (H i Hi) as (mn & mx & En & Sp). exists mn, mx. split; [exact Sp|].
  split; [apply normalize1_nth; auto|]. pose proof (P i mn mx Sp) as Pi. destruct Sp as (_ & _ & B). specialize (B v x Hv Ex). split; [apply Qle_shift_div_l|apply Qle_shift_div_r]; lra.
Qed.
Print Assumptions C142_normalize.
Example C142_entropy_case :
  remove_dominated 0 [true; true] [[3; 3]; [1; 2]; [2; 1]; [1; 4]] = [[2; 1]; [1; 2]] /\
  union 0 [[1; 2]; [2; 1]] [[0; 4]; [2; 1]] = [[1; 2]; [2; 1]; [0; 4]] /\
  in_niche [[0; 1]; [1; 0]; [(1 # 4); (1 # 2)]] [0; 1] 2 = Ok 2%nat /\
  prenormalize [true; true] [[1; 5]; [3; 2]; [2; 3]] = Ok [(1, 3); (2, 5)] /\
  niches 0 [true; true] [[1; 5]; [3; 1]; [2; 3]] [[2; 2]; [4; 4]] = Ok [(1, 1); (2, 1); (2, 1); (3, 2)]%nat.
Proof. vm_compute. auto 8. Qed.

(** ** C143: what the documentation of the metrics says and the code does not do *)
(** a vector of both sets is counted as common and as incomparable: one common vector and one more in the first set make
    (1/2 + 1) / 2 of the front, not 5/8 *)
Theorem C143_common_vectors_refuted : exists s1 s2 common extra q, s1 = [common; extra] /\ s2 = [common] /\
  all_different s1 /\ mutually_nondominated [true; true] s1 /\ contribution 0 [true; true] s1 s2 = Some q /\ q == 5 # 8 /\ ~ q == ((1 # 2) + 1) / 2.
Proof.
  exists [[1; 3]; [3; 1]], [[1; 3]], [1; 3], [3; 1], (5 # 8). split; [reflexivity|]. split; [reflexivity|]. split.
  { repeat constructor; intros w Hw; repeat (destruct Hw as [<-|Hw]); try destruct Hw; intros [_ H]; specialize (H 0%nat _ _ eq_refl eq_refl); discriminate. }
  split.
  { intros v w Hv Hw D. assert (Lv : length v = 2%nat) by (repeat (destruct Hv as [<-|Hv]; [reflexivity|]); destruct Hv). assert (Lw : length w = 2%nat) by (repeat (destruct Hw as [<-|Hw]; [reflexivity|]); destruct Hw).
    apply (pareto_exact [true; true] w v) in D; auto. repeat (destruct Hv as [<-|Hv]); try destruct Hv; repeat (destruct Hw as [<-|Hw]); try destruct Hw; discriminate. }
  split; [reflexivity|]. split; [reflexivity|]. intros H. discriminate.
Qed.
Print Assumptions C143_common_vectors_refuted.
(** an objective that is the same everywhere: ignored, or, when it is the first one, the result is NaN for all sets *)
Theorem C143_constant_objective_refuted :
  (exists s1 s2 e, additive_metric [true; true] true s1 s2 = Ok (Some e) /\ e < 0 /\
     forall a b, In a s1 -> In b s2 -> exists x, nth_error a 1 = Some x /\ nth_error b 1 = Some x) /\
  (forall c x y, additive_metric [true; true] true [[c; x]] [[c; y]] = Ok None).
Proof.
  split.
  - exists [[0; 5]], [[1; 5]], (-1 # 1). split; [reflexivity|]. split; [reflexivity|]. intros a b [<-|[]] [<-|[]]. exists 5. split; reflexivity.
  - intros c x y. unfold additive_metric, setup. cbn [length seq each_of]. unfold bounds_at. cbn [hd_error of_opt rbind nth_error tl app each_of fold_left].
    assert (Z : Qeq_bool (std_max c c - IndModel.std_min c c) 0 = true).
    { apply Qeq_bool_iff. unfold std_max, IndModel.std_min. destruct (qltb c c); ring. }
    unfold set_metric. cbn [each_of additive rbind]. unfold additive1. cbn [snd]. rewrite Z. cbn [rbind]. cbn [greatest_of fold_left lt_nan least_of rbind]. reflexivity.
Qed.
Print Assumptions C143_constant_objective_refuted.
(** negative values: the better set gets the factor above 1 *)
Theorem C143_negative_values_refuted : exists a b e, dominates [true] a b /\ multiplicative_metric [true] [a] [b] = Ok (Some e) /\ 1 < e /\
  exists e', multiplicative_metric [true] [b] [a] = Ok (Some e') /\ e' < 1.
Proof.
  exists [-10 # 1], [-5 # 1]. eexists. split.
  - apply (pareto_exact [true] [-5 # 1] [-10 # 1]); reflexivity.
  - split; [vm_compute; reflexivity|]. split; [reflexivity|]. eexists. split; [vm_compute; reflexivity|reflexivity].
Qed.
Print Assumptions C143_negative_values_refuted.
(** two vectors alone in their niches: the normalised entropy of a perfectly spread set is 1 *)
Theorem C143_entropy_refuted : exists s v, niches 0 [true; true] s s = Ok [(1, 1); (1, 1)]%nat /\ entropy 0 [true; true] s s = Ok v /\ (v < 1)%R.
Proof.
  exists [[1; 0]; [0; 1]], (entropy_value [(1, 1); (1, 1)]%nat). split; [vm_compute; reflexivity|]. split.
  { unfold entropy. replace (niches 0 [true; true] [[1; 0]; [0; 1]] [[1; 0]; [0; 1]]) with (Ok [(1, 1); (1, 1)]%nat) by (vm_compute; reflexivity). reflexivity. }
  unfold entropy_value, entropy_loop, entropy_step. cbn [fold_left length Nat.eqb fst snd INR].
  assert (L2 : (0 < ln 2)%R) by (rewrite <- ln_1; apply ln_increasing; Lra.lra).
  assert (E1 : (2 < exp 1)%R) by (pose proof (exp_ineq1 1 ltac:(Lra.lra)); Lra.lra).
  assert (L1 : (ln 2 < 1)%R) by (rewrite <- (ln_exp 1); apply ln_increasing; Lra.lra).
  replace (0 + 1 / 1 + 1 / 1)%R with 2%R by (field; Lra.lra). replace (1 / (1 + 1) / ln 2)%R with (/ (2 * ln 2))%R by (field; Lra.lra).
  rewrite ln_Rinv by Lra.lra. replace ((0 + 1 / (1 * (1 + 1)) * - ln (2 * ln 2) + 1 / (1 * (1 + 1)) * - ln (2 * ln 2)) / - ln 2 * ln 2)%R with (ln (2 * ln 2))%R by (field; Lra.lra).
  rewrite <- (ln_exp 1). apply ln_increasing; Lra.lra.
Qed.
Print Assumptions C143_entropy_refuted.
