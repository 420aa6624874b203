From Coq Require Import List Bool Arith QArith Lia Lqa Permutation.
From Verif Require Import Lib Outcome BoundsModel BoundsProofs ParetoModel ParetoSpec ParetoProofs IndModel IndProofs MetModel MetSpec.
From Coq Require Import List.
Import ListNotations.
Local Open Scope Q_scope.

(** ** contribution *)
Lemma count_ok p s : count p s = length (filter p s).
Proof.
  unfold count. assert (G : forall n, fold_left (fun n x => if p x then S n else n) s n = (n + length (filter p s))%nat).
  { induction s as [|x s IH]; intros n; cbn [fold_left filter]; [cbn; lia|]. rewrite IH. destruct (p x); cbn; lia. }
  apply G.
Qed.
Lemma count_pos p s x : In x s -> p x = true -> (0 < count p s)%nat.
Proof. intros H E. rewrite count_ok. assert (I : In x (filter p s)) by (apply filter_In; auto). destruct (filter p s); [destruct I|cbn; lia]. Qed.
Lemma count_zero p s : count p s = 0%nat <-> forall x, In x s -> p x = false.
Proof.
  split.
  - intros H x Hx. destruct (p x) eqn:E; [|reflexivity]. pose proof (count_pos p s x Hx E). lia.
  - intros H. rewrite count_ok. induction s as [|x s IH]; [reflexivity|]. cbn [filter]. rewrite (H x (or_introl eq_refl)). apply IH. intros; apply H; right; auto.
Qed.
Lemma natq_nonneg n : 0 <= natq n.
Proof. unfold natq. change 0 with (inject_Z 0). rewrite <- Zle_Qle. lia. Qed.
Lemma natq_plus a b : natq (a + b) == natq a + natq b.
Proof. unfold natq. rewrite Nat2Z.inj_add, inject_Z_plus. reflexivity. Qed.
Lemma natq_pos n : (0 < n)%nat -> 0 < natq n.
Proof. intros H. unfold natq. change 0 with (inject_Z 0). rewrite <- Zlt_Qlt. lia. Qed.
Lemma natq_zero n : natq n == 0 -> n = 0%nat.
Proof. intros H. destruct n; [reflexivity|]. pose proof (natq_pos (S n) ltac:(lia)). lra. Qed.

Section Contribution.
Variables (tol : Q) (dirs : list bool).
Notation cC := (card_C tol).
Notation cW := (card_W tol dirs).
Notation cN := (card_N tol dirs).
Lemma some_counted s1 s2 : s1 <> [] -> (0 < cW s1 s2 + cN s1 s2 + cW s2 s1)%nat.
Proof.
  intros N. destruct s1 as [|a s1]; [congruence|]. unfold card_W, card_N.
  destruct (existsb (fun b => pareto tol dirs b a) s2) eqn:E1.
  - pose proof (count_pos (fun a => existsb (fun b => pareto tol dirs b a) s2) (a :: s1) a (or_introl eq_refl) E1). lia.
  - destruct (existsb (fun b => pareto tol dirs b a || pareto tol dirs a b) s2) eqn:E2.
    + apply existsb_exists in E2 as (b & Hb & E2). apply orb_true_iff in E2 as [E2|E2].
      * assert (X : existsb (fun b => pareto tol dirs b a) s2 = true) by (apply existsb_exists; eauto). congruence.
      * pose proof (count_pos (fun b => existsb (fun x => pareto tol dirs x b) (a :: s1)) s2 b Hb). rewrite existsb_exists in H.
        specialize (H (ex_intro _ a (conj (or_introl eq_refl) E2))). lia.
    + assert (X : negb (existsb (fun b => pareto tol dirs b a || pareto tol dirs a b) s2) = true) by (rewrite E2; reflexivity).
      pose proof (count_pos (fun a => negb (existsb (fun b => pareto tol dirs b a || pareto tol dirs a b) s2)) (a :: s1) a (or_introl eq_refl) X). lia.
Qed.
Lemma ratio_some c w1 n1 w2 n2 : (0 < c + w1 + n1 + w2 + n2)%nat -> exists q, ratio c w1 n1 w2 n2 = Some q /\ 0 <= q <= 1 /\
  q * (natq c + natq w1 + natq n1 + natq w2 + natq n2) == natq c / 2 + natq w1 + natq n1.
Proof.
  intros H. unfold ratio. destruct (c + w1 + n1 + w2 + n2 =? 0)%nat eqn:E; [apply Nat.eqb_eq in E; lia|]. eexists. split; [reflexivity|].
  pose proof (natq_pos _ H) as P. pose proof (natq_nonneg c). pose proof (natq_nonneg w1). pose proof (natq_nonneg n1). pose proof (natq_nonneg w2). pose proof (natq_nonneg n2).
  assert (S : natq (c + w1 + n1 + w2 + n2) == natq c + natq w1 + natq n1 + natq w2 + natq n2) by (rewrite !natq_plus; reflexivity).
  assert (Hc : natq c / 2 == natq c * (1 # 2)) by (field). split; [split|].
  - apply Qle_shift_div_l; [exact P|]. rewrite Hc. lra.
  - apply Qle_shift_div_r; [exact P|]. rewrite Hc, S. lra.
  - rewrite <- S. field. lra.
Qed.
Lemma contribution_some s1 s2 : s1 <> [] \/ s2 <> [] -> exists q, contribution tol dirs s1 s2 = Some q /\ 0 <= q <= 1 /\
  q * (natq (cC s1 s2) + natq (cW s1 s2) + natq (cN s1 s2) + natq (cW s2 s1) + natq (cN s2 s1)) == natq (cC s1 s2) / 2 + natq (cW s1 s2) + natq (cN s1 s2) /\
  0 < natq (cC s1 s2) + natq (cW s1 s2) + natq (cN s1 s2) + natq (cW s2 s1) + natq (cN s2 s1).
Proof.
  intros H. assert (P : (0 < cC s1 s2 + cW s1 s2 + cN s1 s2 + cW s2 s1 + cN s2 s1)%nat).
  { destruct H as [H|H]; [pose proof (some_counted s1 s2 H)|pose proof (some_counted s2 s1 H)]; lia. }
  destruct (ratio_some _ _ _ _ _ P) as (q & E & R & V). exists q. split; [exact E|]. split; [exact R|]. split; [exact V|].
  rewrite <- !natq_plus. apply natq_pos. exact P.
Qed.
End Contribution.

(** counting the pairs both ways *)
Definition b2n (b : bool) : nat := if b then 1 else 0.
Definition pairs (R : list Q -> list Q -> bool) (s1 s2 : list (list Q)) : nat :=
  fold_right (fun a n => (fold_right (fun b m => b2n (R a b) + m) 0 s2 + n)%nat) 0%nat s1.
Lemma pairs_row (R : list Q -> list Q -> bool) a s2 : fold_right (fun b m => (b2n (R a b) + m)%nat) 0%nat s2 = length (filter (R a) s2).
Proof. induction s2 as [|b s2 IH]; [reflexivity|]. cbn [fold_right filter]. rewrite IH. destruct (R a b); reflexivity. Qed.
Lemma pairs_swap R s1 : forall s2, pairs R s1 s2 = pairs (fun b a => R a b) s2 s1.
Proof.
  induction s1 as [|a s1 IH]; intros s2.
  - unfold pairs. cbn [fold_right]. induction s2; cbn; auto.
  - unfold pairs in *. cbn [fold_right]. rewrite IH. clear IH. induction s2 as [|b s2 IH]; [reflexivity|]. cbn [fold_right] in *. rewrite <- IH. lia.
Qed.
Lemma pairs_count R s1 s2 : (forall a, In a s1 -> (length (filter (R a) s2) <= 1)%nat) -> pairs R s1 s2 = count (fun a => existsb (R a) s2) s1.
Proof.
  rewrite count_ok. induction s1 as [|a s1 IH]; intros H; [reflexivity|]. unfold pairs in *. cbn [fold_right filter]. rewrite IH by (intros; apply H; right; auto).
  rewrite pairs_row. specialize (H a (or_introl eq_refl)). destruct (existsb (R a) s2) eqn:E; cbn [length].
  - apply existsb_exists in E as (b & Hb & E). assert (I : In b (filter (R a) s2)) by (apply filter_In; auto). destruct (filter (R a) s2) as [|x [|y l]]; [destruct I|reflexivity|cbn in H; lia].
  - replace (filter (R a) s2) with (@nil (list Q)); [reflexivity|]. symmetry. clear H IH. induction s2 as [|b s2 IH]; [reflexivity|]. cbn [existsb] in E. apply orb_false_iff in E as [E1 E2]. cbn [filter]. rewrite E1. auto.
Qed.
Lemma one_equal n s a : vectors_of n s -> length a = n -> all_different s -> (length (filter (same_vector 0 a) s) <= 1)%nat.
Proof.
  intros V La D. induction D as [|v s Nv D IH]; [cbn; lia|]. cbn [filter]. assert (Vs : vectors_of n s) by (intros w Hw; apply V; right; auto). specialize (IH Vs).
  destruct (same_vector 0 a v) eqn:E; [|exact IH]. cbn [length]. assert (Lv := V v (or_introl eq_refl)).
  apply (same_vector_exact a v) in E; [|congruence]. replace (filter (same_vector 0 a) s) with (@nil (list Q)); [cbn; lia|].
  symmetry. clear IH D. induction s as [|w s IH]; [reflexivity|]. cbn [filter]. assert (Lw := Vs w (or_introl eq_refl)).
  destruct (same_vector 0 a w) eqn:Ew.
  - apply (same_vector_exact a w) in Ew; [|congruence]. exfalso. apply (Nv w (or_introl eq_refl)). eapply equal_vectors_trans; [apply equal_vectors_sym; exact E|exact Ew].
  - apply IH; [|intros; apply Nv; right; auto|intros u Hu; apply Vs; right; auto]. intros u [->|Hu]; [apply V; left; auto|apply Vs; right; auto].
Qed.
Lemma card_C_sym n s1 s2 : vectors_of n s1 -> vectors_of n s2 -> all_different s1 -> all_different s2 -> card_C 0 s1 s2 = card_C 0 s2 s1.
Proof.
  intros V1 V2 D1 D2. unfold card_C. change (count (fun a => existsb (same_vector 0 a) s2) s1 = count (fun a => existsb (same_vector 0 a) s1) s2). rewrite <- (pairs_count (same_vector 0) s1 s2); [|intros a Ha; eapply one_equal; eauto].
  rewrite <- (pairs_count (same_vector 0) s2 s1); [|intros b Hb; eapply one_equal; eauto]. rewrite pairs_swap.
  assert (G : forall s, vectors_of n s -> pairs (fun b a => same_vector 0 a b) s s1 = pairs (same_vector 0) s s1).
  { induction s as [|b s IH]; intros V; [reflexivity|]. unfold pairs in *. cbn [fold_right]. rewrite IH by (intros w Hw; apply V; right; auto). f_equal.
    rewrite (pairs_row (fun b a => same_vector 0 a b) b s1). rewrite (pairs_row (same_vector 0) b s1).
    f_equal. apply filter_ext_in. intros a Ha. assert (La := V1 a Ha). assert (Lb := V b (or_introl eq_refl)).
    destruct (same_vector 0 a b) eqn:E.
    - symmetry. apply same_vector_exact in E; [|congruence]. apply same_vector_exact; [congruence|]. apply equal_vectors_sym. exact E.
    - destruct (same_vector 0 b a) eqn:E'; [|reflexivity]. apply same_vector_exact in E'; [|congruence]. apply equal_vectors_sym in E'. apply same_vector_exact in E'; congruence. }
  apply G. exact V2.
Qed.
Lemma card_zero dirs n s1 s2 : n = length dirs -> vectors_of n s1 -> vectors_of n s2 -> mutually_nondominated dirs s1 ->
  (card_C 0 s1 s2 = 0%nat /\ card_W 0 dirs s2 s1 = 0%nat /\ card_N 0 dirs s2 s1 = 0%nat <-> forall b, In b s2 -> exists a, In a s1 /\ dominates dirs a b).
Proof.
  intros -> V1 V2 M. unfold card_C, card_W, card_N. rewrite !count_zero. split.
  - intros (HC & HW & HN) b Hb. specialize (HW b Hb). specialize (HN b Hb). apply negb_false_iff in HN. apply existsb_exists in HN as (a & Ha & E).
    assert (La := V1 a Ha). assert (Lb := V2 b Hb). exists a. split; [exact Ha|]. apply orb_true_iff in E as [E|E].
    + assert (X : existsb (fun b0 => pareto 0 dirs b0 b) s1 = true) by (apply existsb_exists; eauto). congruence.
    + apply pareto_exact in E; auto.
  - intros H. assert (NW : forall b a, In b s2 -> In a s1 -> ~ dominates dirs b a).
    { intros b a Hb Ha D. destruct (H b Hb) as (a' & Ha' & D'). apply (M a' a Ha' Ha). apply pareto_exact; auto.
      eapply pareto_trans with (v := b); auto; apply pareto_exact; auto. }
    split; [|split].
    + intros a Ha. destruct (existsb (fun b => same_vector 0 a b) s2) eqn:E; [|reflexivity]. apply existsb_exists in E as (b & Hb & E).
      assert (La := V1 a Ha). assert (Lb := V2 b Hb). apply same_vector_exact in E; [|congruence]. destruct (H b Hb) as (a' & Ha' & D). exfalso. apply (M a' a Ha' Ha).
      eapply dominates_equal; [apply equal_vectors_refl|apply equal_vectors_sym; exact E|exact D].
    + intros b Hb. destruct (existsb (fun b0 => pareto 0 dirs b0 b) s1) eqn:E; [|reflexivity]. apply existsb_exists in E as (a & Ha & E). exfalso.
      apply (NW b a Hb Ha). apply pareto_exact in E; auto.
    + intros b Hb. apply negb_false_iff. apply existsb_exists. destruct (H b Hb) as (a & Ha & D). exists a. split; [exact Ha|]. apply orb_true_iff. right. apply pareto_exact; auto.
Qed.

(** without common vectors: the share of the front *)
Lemma count_split p q s : (forall x, In x s -> p x && q x = false) -> (count p s + count q s = count (fun x => p x || q x) s)%nat.
Proof.
  rewrite !count_ok. induction s as [|x s IH]; intros H; [reflexivity|]. cbn [filter]. specialize (IH (fun y Hy => H y (or_intror Hy))). specialize (H x (or_introl eq_refl)).
  destruct (p x), (q x); cbn [orb length] in *; try discriminate; lia.
Qed.
Lemma count_ext p q s : (forall x, In x s -> p x = q x) -> count p s = count q s.
Proof. intros H. rewrite !count_ok. f_equal. apply filter_ext_in. exact H. Qed.
Lemma winners dirs s1 s2 : vectors_of (length dirs) s1 -> vectors_of (length dirs) s2 -> mutually_nondominated dirs s2 ->
  (card_W 0 dirs s1 s2 + card_N 0 dirs s1 s2 = count (fun a => negb (existsb (fun b => pareto 0 dirs a b) s2)) s1)%nat.
Proof.
  intros V1 V2 M. unfold card_W, card_N. rewrite count_split.
  - apply count_ext. intros a Ha. destruct (existsb (fun b => pareto 0 dirs b a) s2) eqn:E1; cbn [orb].
    + symmetry. apply negb_true_iff. destruct (existsb (fun b => pareto 0 dirs a b) s2) eqn:E2; [|reflexivity]. exfalso.
      apply existsb_exists in E1 as (b & Hb & E1). apply existsb_exists in E2 as (c & Hc & E2). apply (M c b Hc Hb). apply pareto_exact; auto. apply (pareto_trans dirs b a c); auto.
    + f_equal. apply eq_iff_eq_true. rewrite !existsb_exists. split; intros (b & Hb & E); exists b; (split; [exact Hb|]).
      * apply orb_true_iff in E as [E|E]; [|exact E]. assert (X : existsb (fun b => pareto 0 dirs b a) s2 = true) by (apply existsb_exists; eauto). congruence.
      * rewrite E. apply orb_true_r.
  - intros a Ha. destruct (existsb (fun b => pareto 0 dirs b a) s2) eqn:E1; cbn [andb]; [|reflexivity]. apply negb_false_iff. apply existsb_exists. apply existsb_exists in E1 as (b & Hb & E1). exists b. rewrite E1. auto.
Qed.
