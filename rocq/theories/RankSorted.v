(** Dominance depth with one and two objectives, and the final inversion (C44). *)
From Coq Require Import List Arith Lia Bool ZArith QArith Lqa Permutation Sorted.
From Verif Require Import Outcome Lib OrderSpec OrderLemmas BoundsModel BoundsProofs ParetoModel ParetoSpec ParetoProofs RankModel RankSpec RankProofs.
Import ListNotations.
Close Scope Q_scope.

(** ** inversion *)
Lemma all_valid_some zs : all_valid (map Some zs) = Some zs.
Proof. induction zs as [|z zs IH]; cbn; auto. rewrite IH. auto. Qed.
Lemma max_of (z0 : Z) zs : In z0 zs -> In (fold_right Z.max z0 zs) zs /\ forall z, In z zs -> (z <= fold_right Z.max z0 zs)%Z.
Proof.
  intros H0. assert (G : forall l, (forall z, In z l -> (z <= fold_right Z.max z0 l)%Z) /\ (fold_right Z.max z0 l = z0 \/ In (fold_right Z.max z0 l) l)).
  { induction l as [|a l [I1 I2]]; cbn; [split; [intros z []|auto]|]. split.
    - intros z [->|Hz]; [lia|]. specialize (I1 z Hz). lia.
    - destruct (Z.max_spec a (fold_right Z.max z0 l)) as [[_ ->]|[_ ->]]; [destruct I2; auto|auto]. }
  destruct (G zs) as [G1 [G2|G2]]; split; auto. rewrite G2. auto.
Qed.
Lemma invert_ok zs : zs <> [] -> exists m, In m zs /\ (forall z, In z zs -> (z <= m)%Z) /\ invert (map Some zs) = Ok (map (fun z => (m - z)%Z) zs).
Proof.
  intros Hn. destruct zs as [|z zs]; [tauto|]. set (l := z :: zs). exists (fold_right Z.max (hd 0%Z l) l).
  destruct (max_of z l (or_introl eq_refl)) as [H1 H2]. split; auto. split; auto. unfold invert.
  rewrite all_valid_some. reflexivity.
Qed.

(** ** fronts of a rearranged list *)
Lemma survives_rearranged {V} (D : V -> V -> Prop) vs ptrs d : Permutation ptrs (seq 0 (length vs)) ->
  forall k i p, nth_error ptrs i = Some p -> (survives D (map (fun p => nth p vs d) ptrs) k i <-> survives D vs k p).
Proof.
  intros P. assert (Lp : forall p, In p ptrs -> p < length vs) by (intros p Hp; apply (Permutation_in _ P), in_seq in Hp; lia).
  assert (Len : length ptrs = length vs) by (rewrite (Permutation_length P), seq_length; auto).
  assert (Hd : forall i j p q, nth_error ptrs i = Some p -> nth_error ptrs j = Some q ->
    (dominated_at D (map (fun p => nth p vs d) ptrs) i j <-> dominated_at D vs p q)).
  { intros i j p q Hi Hj. unfold dominated_at. rewrite !nth_error_map, Hi, Hj. cbn.
    rewrite (nth_error_nth' vs d (Lp p (nth_error_In _ _ Hi))), (nth_error_nth' vs d (Lp q (nth_error_In _ _ Hj))). tauto. }
  induction k as [|k IH]; intros i p Hi.
  - cbn. rewrite map_length. pose proof (nth_error_lt _ _ _ Hi). specialize (Lp p (nth_error_In _ _ Hi)). tauto.
  - rewrite !surv_S. split.
    + intros (j & Hj & Hdj). pose proof (surv_lt _ _ _ _ Hj) as Lj. rewrite map_length in Lj. destruct (nth_error ptrs j) as [q|] eqn:Eq; [|apply nth_error_None in Eq; lia].
      exists q. split; [apply (IH j); auto|]. apply (Hd i j); auto.
    + intros (q & Hq & Hdq). assert (In q ptrs) as Hin by (apply (Permutation_in _ (Permutation_sym P)), in_seq; apply surv_lt in Hq; lia).
      apply In_nth_error in Hin as [j Hj]. exists j. split; [apply (IH j q); auto|]. apply (Hd i j p q); auto.
Qed.
Lemma front_rearranged {V} (D : V -> V -> Prop) vs ptrs d i p r : Permutation ptrs (seq 0 (length vs)) ->
  nth_error ptrs i = Some p -> (in_front_number D (map (fun p => nth p vs d) ptrs) i r <-> in_front_number D vs p r).
Proof. intros P Hi. unfold in_front_number. rewrite !(survives_rearranged D vs ptrs d P _ i p Hi). tauto. Qed.

(** ** one objective *)
Definition key1 (m : bool) (v : Q) : Q := if m then v else (- v)%Q.
Lemma differ0_true a b : differ 0 a b = true <-> ~ (a == b)%Q.
Proof. rewrite differ_true. split; [intros [H|H] E; lra|]. intros H. destruct (Q_dec a b) as [[L|L]|L]; [left; lra|right; lra|tauto]. Qed.
Lemma differ0_false a b : differ 0 a b = false <-> (a == b)%Q.
Proof. rewrite differ_false. split; [intros [H1 H2]; lra|]. intros E. split; lra. Qed.
Lemma lex1 d a b : lexicographic 0 [d] [a] [b] = qltb a b.
Proof.
  cbn. destruct (differ 0 a b) eqn:E; [destruct (qltb a b); auto|]. apply differ0_false in E. symmetry. apply qltb_ge. lra.
Qed.
Lemma before1 m v w : obj_before 0 [m] [v] [w] = qltb (key1 m v) (key1 m w).
Proof.
  unfold obj_before, key1. destruct m; rewrite lex1; auto. destruct (qltb w v) eqn:E.
  - symmetry. apply qltb_lt. apply qltb_lt in E. lra.
  - symmetry. apply qltb_ge. apply qltb_ge in E. lra.
Qed.
Lemma same1 m v w : same_vector 0 [v] [w] = true <-> (key1 m v == key1 m w)%Q.
Proof.
  unfold key1. cbn [same_vector]. destruct (differ 0 v w) eqn:E.
  - apply differ0_true in E. split; [discriminate|]. intros H. exfalso. apply E. destruct m; lra.
  - apply differ0_false in E. split; auto. intros _. destruct m; lra.
Qed.
Lemma dominates1 m v w : dominates [m] [w] [v] <-> (key1 m w < key1 m v)%Q.
Proof.
  rewrite <- (pareto_exact [m] [v] [w]) by auto. unfold pareto, key1. cbn. destruct (differ 0 v w) eqn:E.
  - apply differ0_true in E. destruct m.
    + destruct (qltb w v) eqn:L; [apply qltb_lt in L; tauto|]. apply qltb_ge in L. split; [discriminate|intros; lra].
    + destruct (qltb v w) eqn:L; [apply qltb_lt in L; split; auto; intros; lra|]. apply qltb_ge in L. split; [discriminate|intros; lra].
  - apply differ0_false in E. split; [discriminate|]. destruct m; intros; lra.
Qed.

Lemma ranks_length {A} (obj : A -> Q) tol : forall pop prev r, length (ranks_from obj tol prev r pop) = length pop.
Proof. induction pop as [|x pop IH]; intros; cbn; auto. Qed.
Section Steps.
(** a sequence of ranks that starts at 1 and grows by one at each change of key *)
Variable n : nat.
Variable x : nat -> Q.
Variable z : nat -> nat.
Hypothesis sorted : forall i j, i < j -> j < n -> (x i <= x j)%Q.
Hypothesis start : 0 < n -> z 0 = 1.
Hypothesis step : forall i, S i < n -> ((x (S i) == x i)%Q -> z (S i) = z i) /\ (~ (x (S i) == x i)%Q -> z (S i) = S (z i)).
Lemma steps_pos i : i < n -> 1 <= z i.
Proof. induction i as [|i IH]; intros H; [rewrite start; lia|]. destruct (step i H) as [S1 S2]. destruct (Qeq_dec (x (S i)) (x i)); [rewrite S1 by auto|rewrite S2 by auto]; lia. Qed.
Lemma steps_mono j : forall i, i <= j -> j < n -> z i <= z j /\ (z i = z j <-> (x i == x j)%Q).
Proof.
  induction j as [|j IH]; intros i Hij Hj.
  - assert (i = 0) as -> by lia. split; auto. split; auto. intros _. reflexivity.
  - destruct (Nat.eq_dec i (S j)) as [->|]; [split; auto; split; auto; intros; reflexivity|].
    destruct (IH i) as [I1 I2]; try lia. destruct (step j Hj) as [S1 S2]. pose proof (sorted j (S j) ltac:(lia) Hj).
    assert (x i <= x j)%Q by (destruct (Nat.eq_dec i j) as [->|]; [lra|apply sorted; lia]).
    destruct (Qeq_dec (x (S j)) (x j)) as [E|E].
    + rewrite S1 by auto. split; auto. rewrite I2. split; intros; lra.
    + rewrite S2 by auto. split; [lia|]. split; [lia|]. intros C. exfalso. apply E. lra.
Qed.
Lemma steps_prev i : i < n -> 1 < z i -> exists j, j < i /\ S (z j) = z i /\ (x j < x i)%Q.
Proof.
  induction i as [|i IH]; intros Hi Hz; [rewrite start in Hz; lia|]. destruct (step i Hi) as [S1 S2]. pose proof (sorted i (S i) ltac:(lia) Hi).
  destruct (Qeq_dec (x (S i)) (x i)) as [E|E].
  - rewrite S1 in Hz |- * by auto. destruct IH as (j & J1 & J2 & J3); try lia. exists j. repeat split; try lia. lra.
  - exists i. rewrite S2 by auto. repeat split; try lia. destruct (Q_dec (x i) (x (S i))) as [[L|L]|L]; try lra; exfalso; apply E; lra.
Qed.
End Steps.
Lemma ranks_step {A} (obj : A -> Q) tol : forall pop prev r i a b,
  nth_error pop i = Some a -> nth_error pop (S i) = Some b ->
  nth (S i) (ranks_from obj tol prev r pop) 0%Z = (if same_vector tol [obj b] [obj a] then nth i (ranks_from obj tol prev r pop) 0 else nth i (ranks_from obj tol prev r pop) 0 + 1)%Z.
Proof.
  induction pop as [|y pop IH]; intros prev r i a b Ha Hb; [destruct i; discriminate|]. destruct i as [|i].
  - cbn in Ha, Hb. inversion Ha; subst. destruct pop as [|b' pop]; [discriminate|]. cbn in Hb. inversion Hb; subst. cbn. reflexivity.
  - cbn [nth_error] in Ha, Hb. cbn [ranks_from]. cbv zeta. exact (IH _ _ _ _ _ Ha Hb).
Qed.
Lemma ranks_nonneg {A} (obj : A -> Q) tol : forall pop prev r i, (0 <= r)%Z -> (0 <= nth i (ranks_from obj tol prev r pop) 0)%Z.
Proof.
  induction pop as [|y pop IH]; intros prev r i Hr; [destruct i; cbn; lia|]. cbn [ranks_from]. cbv zeta.
  assert (0 <= (if same_vector tol [obj y] [prev] then r else r + 1))%Z by (destruct (same_vector _ _ _); lia).
  destruct i; cbn [nth]; auto.
Qed.
Lemma same_vector_refl1 a : same_vector 0 [a] [a] = true.
Proof. cbn. rewrite (proj2 (differ0_false a a)); [auto|reflexivity]. Qed.
Lemma qltb_swo : strict_weak_order qltb.
Proof.
  repeat split.
  - intros a. apply qltb_ge. lra.
  - intros a b c. rewrite !qltb_lt. lra.
  - intros a b c. rewrite !qltb_ge. lra.
Qed.

Section One.
Variable sort : forall T : Type, (T -> T -> bool) -> list T -> list T.
Hypothesis Hsort : std_sort_ok sort.
Lemma one_ok {A} (obj : A -> Q) m pop : pop <> [] -> exists sorted zs, oneObjective sort obj 0 m pop = Ok (sorted, zs) /\
  Permutation pop sorted /\ length zs = length sorted /\
  forall i z, nth_error zs i = Some z -> exists r, z = Z.of_nat r /\ in_front_number (fun a b => dominates [m] [obj b] [obj a]) sorted i r.
Proof.
  intros Hn. unfold oneObjective.
  assert (W : strict_weak_order (fun a b : A => obj_before 0 [m] [obj a] [obj b])).
  { pose proof (swo_preimage (fun a => key1 m (obj a)) qltb qltb_swo) as (S1 & S2 & S3).
    repeat split; intros; rewrite ?before1 in *; eauto. }
  destruct (Hsort A _ pop W) as [P S]. set (sorted := sort A _ pop) in *. destruct sorted as [|x r] eqn:Es.
  { exfalso. apply Hn. apply Permutation_sym, Permutation_nil in P. auto. }
  rewrite <- Es in *. clearbody sorted. exists sorted, (1%Z :: ranks_from obj 0 (obj x) 1 r). split; [auto|]. split; auto.
  assert (Ez : 1%Z :: ranks_from obj 0 (obj x) 1 r = ranks_from obj 0 (obj x) 1 sorted).
  { subst sorted. cbn [ranks_from]. cbv zeta. rewrite same_vector_refl1. auto. }
  rewrite Ez. set (zs := ranks_from obj 0 (obj x) 1 sorted) in *. split; [apply ranks_length|].
  set (k := fun i => key1 m (match nth_error sorted i with Some a => obj a | None => 0%Q end)).
  set (z := fun i => Z.to_nat (nth i zs 0%Z)).
  assert (Some_at : forall i, i < length sorted -> exists a, nth_error sorted i = Some a).
  { intros i Hi. destruct (nth_error sorted i) eqn:E; [eauto|apply nth_error_None in E; lia]. }
  assert (Nn : forall i, (0 <= nth i zs 0)%Z) by (intros i; apply ranks_nonneg; lia).
  assert (K1 : forall i j, i < j -> j < length sorted -> (k i <= k j)%Q).
  { intros i j Hij Hj. destruct (Some_at i) as [a Ha]; [lia|]. destruct (Some_at j) as [b Hb]; [lia|]. unfold k. rewrite Ha, Hb.
    pose proof (StronglySorted_nth _ _ _ _ _ _ S Hij Ha Hb) as H. cbv beta in H. rewrite before1 in H. apply qltb_ge in H. auto. }
  assert (K2 : 0 < length sorted -> z 0 = 1) by (intros _; unfold z; rewrite <- Ez; reflexivity).
  assert (K3 : forall i, Datatypes.S i < length sorted -> ((k (Datatypes.S i) == k i)%Q -> z (Datatypes.S i) = z i) /\ (~ (k (Datatypes.S i) == k i)%Q -> z (Datatypes.S i) = Datatypes.S (z i))).
  { intros i Hi. destruct (Some_at i) as [a Ha]; [lia|]. destruct (Some_at (Datatypes.S i)) as [b Hb]; [lia|]. unfold k, z. rewrite Ha, Hb.
    unfold zs. rewrite (ranks_step obj 0 sorted (obj x) 1%Z i a b Ha Hb). fold zs. specialize (Nn i).
    destruct (same_vector 0 [obj b] [obj a]) eqn:E.
    - apply (same1 m) in E. split; auto. intros C. tauto.
    - assert (~ (key1 m (obj b) == key1 m (obj a))%Q) by (intros C; apply same1 in C; congruence). split; [tauto|]. intros _. rewrite Z2Nat.inj_add by lia. cbn. lia. }
  assert (Dk : forall i j, dominated_at (fun a b => dominates [m] [obj b] [obj a]) sorted i j <-> i < length sorted /\ j < length sorted /\ (k j < k i)%Q).
  { intros i j. unfold dominated_at, k. split.
    - intros (a & b & Ha & Hb & Hd). apply dominates1 in Hd. rewrite Ha, Hb. repeat split; auto; eapply nth_error_lt; eauto.
    - intros (Hi & Hj & H). destruct (Some_at i Hi) as [a Ha]. destruct (Some_at j Hj) as [b Hb]. rewrite Ha, Hb in H. exists a, b. split; auto. split; auto. apply dominates1. auto. }
  intros i zi Hz. assert (Hi : i < length sorted) by (apply nth_error_lt in Hz; unfold zs in Hz; rewrite ranks_length in Hz; auto).
  exists (z i). split; [unfold z; apply (nth_error_nth _ _ 0%Z) in Hz; rewrite Hz; specialize (Nn i); rewrite Hz in Nn; lia|].
  apply layering; auto.
  - intros j Hj. pose proof (steps_pos _ k z K2 K3 j Hj). lia.
  - intros j Hj Hzj. destruct (steps_prev _ k z K1 K2 K3 j Hj Hzj) as (p & Hp & Ep & Lp). exists p. split; [|lia]. apply Dk. repeat split; auto; lia.
  - intros a b Hd. apply Dk in Hd as (Ha & Hb & L). assert (b < a) as Hba.
    { destruct (Nat.lt_trichotomy a b) as [C|[C|C]]; auto; exfalso; [pose proof (K1 a b C Hb); lra|subst; lra]. }
    destruct (steps_mono _ k z K1 K2 K3 a b ltac:(lia) Ha) as [M1 M2]. destruct (Nat.eq_dec (z b) (z a)) as [E|]; [|lia]. apply M2 in E. lra.
Qed.
End One.

(** ** two objectives *)
Section Two.
Variable m : bool.
Variable top : Q.
(** both objectives as values to be minimised *)
Definition kx (v : Q * Q) : Q := if m then fst v else (- fst v)%Q.
Definition ky (v : Q * Q) : Q := if m then snd v else (top - snd v)%Q.
Definition lexlt (v w : Q * Q) : Prop := (kx v < kx w)%Q \/ ((kx v == kx w)%Q /\ (ky v < ky w)%Q).
Definition same2 (v w : Q * Q) : Prop := (kx v == kx w)%Q /\ (ky v == ky w)%Q.
(** [w] dominates [v] *)
Definition dom2 (v w : Q * Q) : Prop := (kx w <= kx v)%Q /\ (ky w <= ky v)%Q /\ ~ same2 v w.
Lemma before2 v w : obj_before 0 [m; m] (vec2 v) (vec2 w) = true <-> lexlt v w.
Proof.
  destruct v as [a b], w as [c d]. unfold obj_before, lexlt, kx, ky, vec2. cbn [fst snd].
  assert (G : forall a b c d, lexicographic 0 [m; m] [a; b] [c; d] = true <-> ((a < c)%Q \/ ((a == c)%Q /\ (b < d)%Q))).
  { clear. intros a b c d. cbn. destruct (differ 0 a c) eqn:E1.
    - apply differ0_true in E1. destruct (qltb a c) eqn:L; [apply qltb_lt in L; tauto|]. apply qltb_ge in L. split; [discriminate|]. intros [H|[H _]]; [lra|tauto].
    - apply differ0_false in E1. destruct (differ 0 b d) eqn:E2.
      + destruct (qltb b d) eqn:L; [apply qltb_lt in L; tauto|]. apply qltb_ge in L. split; [discriminate|]. intros [H|[_ H]]; lra.
      + apply differ0_false in E2. split; [discriminate|]. intros [H|[_ H]]; lra. }
  destruct m; rewrite G; [tauto|]. split; (intros [H|[H1 H2]]; [left; lra|right; split; lra]).
Qed.
Lemma same2_spec v w : same_vector 0 (vec2 v) (vec2 w) = true <-> same2 v w.
Proof.
  destruct v as [a b], w as [c d]. unfold same2, kx, ky, vec2. cbn. destruct (differ 0 a c) eqn:E1.
  - apply differ0_true in E1. split; [discriminate|]. intros [H _]. exfalso. apply E1. destruct m; lra.
  - apply differ0_false in E1. destruct (differ 0 b d) eqn:E2.
    + apply differ0_true in E2. split; [discriminate|]. intros [_ H]. exfalso. apply E2. destruct m; lra.
    + apply differ0_false in E2. split; auto. intros _. destruct m; lra.
Qed.
Lemma dominates2 v w : dominates [m; m] (vec2 w) (vec2 v) <-> dom2 v w.
Proof.
  rewrite <- (pareto_exact [m; m] (vec2 v) (vec2 w)) by auto.
  assert (G : forall p : bool, p = true -> (p = true <-> True)) by tauto.
  destruct v as [a b], w as [c d]. unfold dom2, same2, kx, ky, vec2, pareto. cbn.
  destruct (differ 0 a c) eqn:E1; [apply differ0_true in E1|apply differ0_false in E1];
  (destruct (differ 0 b d) eqn:E2; [apply differ0_true in E2|apply differ0_false in E2]); destruct m;
  repeat match goal with |- context [qltb ?p ?q] => destruct (qltb p q) eqn:?; [apply -> qltb_lt in Heqb0 || apply -> qltb_lt in Heqb1|apply -> qltb_ge in Heqb0 || apply -> qltb_ge in Heqb1] end;
  split; try discriminate; intros H; try (exfalso; lra); try (repeat split; try lra; intros [N1 N2]; apply E1 || apply E2; lra); auto;
  try (exfalso; destruct H as (H1 & H2 & H3); try lra; try (apply H3; split; lra)).
Qed.
End Two.
