(** Dominance depth: the assigned fitnesses (C44). *)
From Coq Require Import List Arith Lia Bool ZArith QArith Lqa Permutation Sorted.
From Verif Require Import Outcome Lib OrderSpec OrderLemmas BoundsModel BoundsProofs ParetoModel ParetoSpec ParetoProofs RankModel RankSpec RankProofs RankSorted RankTwo.
Import ListNotations.
Close Scope Q_scope.

Lemma front_size {V} (D : V -> V -> Prop) vs i r : in_front_number D vs i r -> i < length vs.
Proof. intros (_ & H & _). apply surv_lt in H. auto. Qed.
Lemma invert_fronts {V} (D : V -> V -> Prop) (vs : list V) (R : nat -> nat) : vs <> [] -> (forall i, i < length vs -> in_front_number D vs i (R i)) ->
  exists d, fronts_count D vs d /\
  invert (map (fun i => Some (Z.of_nat (R i))) (seq 0 (length vs))) = Ok (map (fun i => (Z.of_nat d - Z.of_nat (R i))%Z) (seq 0 (length vs))).
Proof.
  intros Hn H. set (zs := map (fun i => Z.of_nat (R i)) (seq 0 (length vs))).
  assert (zs <> []) as Hz by (unfold zs; destruct vs; [tauto|cbn; discriminate]).
  destruct (invert_ok zs Hz) as (m & Hm & Hmax & E). unfold zs in Hm. apply in_map_iff in Hm as (i & <- & Hi). apply in_seq in Hi.
  exists (R i). split.
  - split; [|exists i; apply H; lia]. intros j r Hj. pose proof (front_size _ _ _ _ Hj) as Lj. rewrite (front_unique D vs j r (R j) Hj (H j Lj)).
    assert (Z.of_nat (R j) <= Z.of_nat (R i))%Z; [|lia]. apply Hmax. apply in_map_iff. exists j. split; auto. apply in_seq. lia.
  - unfold zs in E. rewrite !map_map in E. exact E.
Qed.
Lemma map_seq_list {A} (l : list A) d : l = map (fun i => nth i l d) (seq 0 (length l)).
Proof.
  apply nth_error_ext. intros i. rewrite nth_error_map. destruct (lt_dec i (length l)).
  - rewrite nth_error_seq' by auto. cbn. apply nth_error_nth'. auto.
  - rewrite (proj2 (nth_error_None l i)) by lia. rewrite (proj2 (nth_error_None (seq 0 (length l)) i)) by (rewrite seq_length; lia). auto.
Qed.
Section Many.
Variable V : Type.
Variable dominated : V -> V -> bool.
Notation D := (fun a b => dominated a b = true).
Lemma many_ok vs f0 : vs <> [] -> length f0 = length vs ->
  (forall a, In a vs -> dominated a a = false) ->
  (forall a b c, In a vs -> In b vs -> In c vs -> dominated a b = true -> dominated b c = true -> dominated a c = true) ->
  exists d zs, depth_many dominated vs f0 = Ok zs /\ length zs = length vs /\ fronts_count D vs d /\
  forall i z, nth_error zs i = Some z -> exists r, in_front_number D vs i r /\ z = (Z.of_nat d - Z.of_nat r)%Z.
Proof.
  intros Hn Lf Hirr Htr.
  assert (Tr : forall i j k, cmp_at V dominated vs i j = true -> cmp_at V dominated vs j k = true -> cmp_at V dominated vs i k = true).
  { intros i j k H1 H2. apply cmp_dom in H1 as (a & b & A1 & A2 & A3). apply cmp_dom in H2 as (b' & c & B1 & B2 & B3). assert (b' = b) as -> by congruence.
    apply cmp_dom. exists a, c. split; auto. split; auto. apply (Htr a b c); auto; eapply nth_error_In; eauto. }
  assert (Ir : forall i, cmp_at V dominated vs i i = false).
  { intros i. apply not_true_iff_false. intros H. apply cmp_dom in H as (a & b & A1 & A2 & A3). assert (b = a) as -> by congruence. rewrite Hirr in A3; [discriminate|]. eapply nth_error_In; eauto. }
  assert (As : forall i j, cmp_at V dominated vs i j = true -> cmp_at V dominated vs j i = false).
  { intros i j H. apply not_true_iff_false. intros C. pose proof (Tr _ _ _ H C). rewrite Ir in *. discriminate. }
  destruct (mObjectives_all V dominated vs As Tr (fun i => nth i f0 None)) as (R & E & HR).
  rewrite <- Lf, <- map_seq_list in E. rewrite Lf in E. destruct (invert_fronts D vs R Hn HR) as (d & Hd & Ei).
  exists d, (map (fun i => (Z.of_nat d - Z.of_nat (R i))%Z) (seq 0 (length vs))). unfold depth_many. rewrite E. cbn [rbind]. split; auto.
  split; [rewrite map_length, seq_length; auto|]. split; auto. intros i z Hz. rewrite nth_error_map in Hz.
  destruct (nth_error (seq 0 (length vs)) i) as [j|] eqn:Ej; [|discriminate]. cbn in Hz. inversion Hz; subst z.
  assert (Hi : i < length vs) by (apply nth_error_lt in Ej; rewrite seq_length in Ej; auto). rewrite nth_error_seq' in Ej by auto. cbn in Ej. inversion Ej; subst j. eauto.
Qed.
(** asymmetric comparators: who survives for ever gets no fitness *)
Lemma many_forever vs f0 : length f0 = length vs -> (forall a b, In a vs -> In b vs -> dominated a b = true -> dominated b a = false) ->
  exists f', mObjectives V dominated vs f0 = Ok f' /\ length f' = length vs /\
  forall i z, nth_error f' i = Some z -> (exists r, z = Some (Z.of_nat r) /\ in_front_number D vs i r) \/ (nth_error f0 i = Some z /\ forall k, survives D vs k i).
Proof.
  intros Lf Has.
  assert (As : forall i j, cmp_at V dominated vs i j = true -> cmp_at V dominated vs j i = false).
  { intros i j H. apply not_true_iff_false. intros C. apply cmp_dom in H as (a & b & A1 & A2 & A3). apply cmp_dom in C as (b' & a' & B1 & B2 & B3).
    assert (b' = b) as -> by congruence. assert (a' = a) as -> by congruence. rewrite (Has a b) in B3; try discriminate; auto; eapply nth_error_In; eauto. }
  destruct (mObjectives_spec V dominated vs As (fun i => nth i f0 None)) as (F & E & HF).
  rewrite <- Lf, <- map_seq_list in E. rewrite Lf in E. exists (map F (seq 0 (length vs))). split; auto. split; [rewrite map_length, seq_length; auto|].
  intros i z Hz. rewrite nth_error_map in Hz. destruct (nth_error (seq 0 (length vs)) i) as [j|] eqn:Ej; [|discriminate]. cbn in Hz. inversion Hz; subst z.
  assert (Hi : i < length vs) by (apply nth_error_lt in Ej; rewrite seq_length in Ej; auto). rewrite nth_error_seq' in Ej by auto. cbn in Ej. inversion Ej; subst j.
  destruct (HF i Hi) as [|[H1 H2]]; auto. right. split; auto. rewrite H1. apply nth_error_nth'. lia.
Qed.
End Many.

Section TwoOne.
Variable sort : forall T : Type, (T -> T -> bool) -> list T -> list T.
Hypothesis Hsort : std_sort_ok sort.
Lemma two_distinct m rm_equiv vs f0 : vs <> [] -> length f0 = length vs ->
  (forall i j a b, i <> j -> nth_error vs i = Some a -> nth_error vs j = Some b -> ~ equal_vectors (vec2 a) (vec2 b)) ->
  exists d zs, depth_two sort rm_equiv 0 [m; m] vs f0 = Ok zs /\ length zs = length vs /\ fronts_count (fun a b => dominates [m; m] (vec2 b) (vec2 a)) vs d /\
  forall i z, nth_error zs i = Some z -> exists r, in_front_number (fun a b => dominates [m; m] (vec2 b) (vec2 a)) vs i r /\ z = (Z.of_nat d - Z.of_nat r)%Z.
Proof.
  intros Hn Lf Hd. destruct (two_ok sort Hsort m rm_equiv vs f0 Lf (fun _ => Hd)) as (f' & E & L & H).
  set (R := fun i => match nth i f' None with Some z => Z.to_nat z | None => 0 end).
  assert (HR : forall i, i < length vs -> nth_error f' i = Some (Some (Z.of_nat (R i))) /\ in_front_number (fun a b => dominates [m; m] (vec2 b) (vec2 a)) vs i (R i)).
  { intros i Hi. destruct (nth_error vs i) as [a|] eqn:Ea; [|apply nth_error_None in Ea; lia]. destruct (H i a Ea) as (r & R1 & [R2|(_ & _ & j & b & _ & J1 & J2 & J3 & _)]).
    - assert (R i = r) as ->; auto. unfold R. rewrite (nth_error_nth _ _ None R1). apply Nat2Z.id.
    - exfalso. apply (Hd i j a b); auto. }
  assert (Ef : f' = map (fun i => Some (Z.of_nat (R i))) (seq 0 (length vs))).
  { apply nth_error_ext. intros i. rewrite nth_error_map. destruct (lt_dec i (length vs)) as [Hi|Hi].
    - rewrite (proj1 (HR i Hi)), nth_error_seq' by auto. auto.
    - rewrite (proj2 (nth_error_None f' i)) by lia. rewrite (proj2 (nth_error_None (seq 0 (length vs)) i)) by (rewrite seq_length; lia). auto. }
  destruct (invert_fronts (fun a b => dominates [m; m] (vec2 b) (vec2 a)) vs R Hn (fun i Hi => proj2 (HR i Hi))) as (d & Hc & Ei).
  exists d, (map (fun i => (Z.of_nat d - Z.of_nat (R i))%Z) (seq 0 (length vs))). unfold depth_two. rewrite E, Ef. cbn [rbind]. split; auto.
  split; [rewrite map_length, seq_length; auto|]. split; auto. intros i z Hz. rewrite nth_error_map in Hz.
  destruct (nth_error (seq 0 (length vs)) i) as [j|] eqn:Ej; [|discriminate]. cbn in Hz. inversion Hz; subst z.
  assert (Hi : i < length vs) by (apply nth_error_lt in Ej; rewrite seq_length in Ej; auto). rewrite nth_error_seq' in Ej by auto. cbn in Ej. inversion Ej; subst j.
  exists (R i). split; auto. apply HR; auto.
Qed.
Lemma one_fitness {A} (obj : A -> Q) m pop : pop <> [] ->
  exists d pop' zs, depth_one sort obj 0 m pop = Ok (pop', zs) /\ Permutation pop pop' /\ length zs = length pop' /\
  fronts_count (fun a b => dominates [m] [obj b] [obj a]) pop' d /\
  forall i z, nth_error zs i = Some z -> exists r, in_front_number (fun a b => dominates [m] [obj b] [obj a]) pop' i r /\ z = (Z.of_nat d - Z.of_nat r)%Z.
Proof.
  intros Hn. destruct (one_ok sort Hsort obj m pop Hn) as (pop' & ks & E & P & L & H).
  assert (Hn' : pop' <> []) by (intros ->; apply Permutation_sym, Permutation_nil in P; auto).
  set (R := fun i => Z.to_nat (nth i ks 0%Z)).
  assert (HR : forall i, i < length pop' -> nth_error ks i = Some (Z.of_nat (R i)) /\ in_front_number (fun a b => dominates [m] [obj b] [obj a]) pop' i (R i)).
  { intros i Hi. destruct (nth_error ks i) as [z|] eqn:Ez; [|apply nth_error_None in Ez; lia]. destruct (H i z Ez) as (r & -> & Hr).
    assert (R i = r) as ->; auto. unfold R. rewrite (nth_error_nth _ _ 0%Z Ez). apply Nat2Z.id. }
  assert (Ef : map Some ks = map (fun i => Some (Z.of_nat (R i))) (seq 0 (length pop'))).
  { apply nth_error_ext. intros i. rewrite !nth_error_map. destruct (lt_dec i (length pop')) as [Hi|Hi].
    - rewrite (proj1 (HR i Hi)), nth_error_seq' by auto. auto.
    - rewrite (proj2 (nth_error_None ks i)) by lia. rewrite (proj2 (nth_error_None (seq 0 (length pop')) i)) by (rewrite seq_length; lia). auto. }
  destruct (invert_fronts (fun a b => dominates [m] [obj b] [obj a]) pop' R Hn' (fun i Hi => proj2 (HR i Hi))) as (d & Hc & Ei).
  exists d, pop', (map (fun i => (Z.of_nat d - Z.of_nat (R i))%Z) (seq 0 (length pop'))). unfold depth_one. rewrite E. cbn [rbind]. rewrite Ef, Ei. cbn [rbind]. split; auto.
  split; auto. split; [rewrite map_length, seq_length; auto|]. split; auto. intros i z Hz. rewrite nth_error_map in Hz.
  destruct (nth_error (seq 0 (length pop')) i) as [j|] eqn:Ej; [|discriminate]. cbn in Hz. inversion Hz; subst z.
  assert (Hi : i < length pop') by (apply nth_error_lt in Ej; rewrite seq_length in Ej; auto). rewrite nth_error_seq' in Ej by auto. cbn in Ej. inversion Ej; subst j.
  exists (R i). split; auto. apply HR; auto.
Qed.
Lemma sort_two (cmp : nat -> nat -> bool) : strict_weak_order cmp -> cmp 0 1 = true -> sort nat cmp [0; 1] = [0; 1].
Proof.
  intros W H. destruct (Hsort nat cmp [0; 1] W) as [P S]. apply Permutation_length_2_inv in P as [->| P]; auto. rewrite P in S. inversion S as [|? ? _ F]; subst. inversion F; subst. congruence.
Qed.
Lemma two_mixed : exists f', twoObjectives sort true 0 [true; false] [(0, 1); (0, 2)]%Q [None; None] = Ok f' /\
  nth_error f' 0 = Some (Some 1%Z) /\ in_front_number (fun a b => dominates [true; false] (vec2 b) (vec2 a)) [(0, 1); (0, 2)]%Q 0 2.
Proof.
  unfold twoObjectives, sorted_ptrs. cbn [length seq].
  assert (W : strict_weak_order (fun i j => obj_before 0 [true; false] (vec2 (nth i [(0, 1); (0, 2)]%Q (0, 0)%Q)) (vec2 (nth j [(0, 1); (0, 2)]%Q (0, 0)%Q)))).
  { exact (before2_swo true (fun i => nth i [(0, 1); (0, 2)]%Q (0, 0)%Q)). }
  rewrite sort_two by (auto; reflexivity). eexists. split; [vm_compute; reflexivity|]. split; [reflexivity|].
  rewrite (front_number_iff _ (fun a b => pareto 0 [true; false] (vec2 a) (vec2 b) = true)) by (intros; symmetry; apply pareto_exact; auto).
  apply (layering _ _ (fun i => match i with 0 => 2 | _ => 1 end)).
  - intros [|i] _; lia.
  - intros [|i] _ H; [|lia]. exists 1. split; [|lia]. exists (0, 1)%Q, (0, 2)%Q. repeat split.
  - intros [|[|i]] [|[|j]] (a & b & Ha & Hb & Hd); cbn in Ha, Hb; try discriminate; try (destruct i; discriminate); try (destruct j; discriminate);
      inversion Ha; inversion Hb; subst; vm_compute in Hd; try discriminate; lia.
  - cbn; lia.
Qed.
Lemma two_duplicates : exists f', twoObjectives sort false 0 [true; true] [(0, 0); (0, 0)]%Q [None; None] = Ok f' /\
  ~ (forall i r, nth_error f' i = Some (Some (Z.of_nat r)) -> in_front_number (fun a b => dominates [true; true] (vec2 b) (vec2 a)) [(0, 0); (0, 0)]%Q i r).
Proof.
  unfold twoObjectives, sorted_ptrs. cbn [length seq].
  assert (W : strict_weak_order (fun i j => obj_before 0 [true; true] (vec2 (nth i [(0, 0); (0, 0)]%Q (0, 0)%Q)) (vec2 (nth j [(0, 0); (0, 0)]%Q (0, 0)%Q)))).
  { exact (before2_swo true (fun i => nth i [(0, 0); (0, 0)]%Q (0, 0)%Q)). }
  assert (F : forall i, i < 2 -> in_front_number (fun a b => dominates [true; true] (vec2 b) (vec2 a)) [(0, 0); (0, 0)]%Q i 1).
  { intros i Hi. rewrite (front_number_iff _ (fun a b => pareto 0 [true; true] (vec2 a) (vec2 b) = true)) by (intros; symmetry; apply pareto_exact; auto).
    apply (layering _ _ (fun i => 1)); auto.
    - intros; lia.
    - intros [|[|k]] [|[|j]] (a & b & Ha & Hb & Hd); cbn in Ha, Hb; try discriminate; try (destruct k; discriminate); try (destruct j; discriminate);
      inversion Ha; inversion Hb; subst; vm_compute in Hd; discriminate. }
  destruct (Hsort nat _ [0; 1] W) as [P _]. apply Permutation_length_2_inv in P as [->|P].
  - eexists. split; [vm_compute; reflexivity|]. intros C. specialize (C 1 2 eq_refl). pose proof (front_unique _ _ _ _ _ C (F 1 ltac:(lia))). discriminate.
  - rewrite P. eexists. split; [vm_compute; reflexivity|]. intros C. specialize (C 0 2 eq_refl). pose proof (front_unique _ _ _ _ _ C (F 0 ltac:(lia))). discriminate.
Qed.
End TwoOne.

Lemma cycle_of_three t : (0 < t)%Q -> exists u v w : list Q, length u = 3 /\ length v = 3 /\ length w = 3 /\
  pareto t [true; true; true] u v = true /\ pareto t [true; true; true] v w = true /\ pareto t [true; true; true] w u = true.
Proof.
  intros Ht. exists [0; 0; 0]%Q, [- (2) * t; t; t]%Q, [- t; - t; 2 * t]%Q. do 3 (split; [reflexivity|]).
  repeat split; rewrite pareto_tol by (auto; lra); split.
  - intros [|[|[|[|i]]]] d x y (A & B & C); cbn in A, B, C; try discriminate; inversion A; inversion B; inversion C; subst; cbn; lra.
  - exists 0, true, (- (2) * t)%Q, 0%Q. split; [repeat split|cbn; lra].
  - intros [|[|[|[|i]]]] d x y (A & B & C); cbn in A, B, C; try discriminate; inversion A; inversion B; inversion C; subst; cbn; lra.
  - exists 1, true, (- t)%Q, t. split; [repeat split|cbn; lra].
  - intros [|[|[|[|i]]]] d x y (A & B & C); cbn in A, B, C; try discriminate; inversion A; inversion B; inversion C; subst; cbn; lra.
  - exists 2, true, 0%Q, (2 * t)%Q. split; [repeat split|cbn; lra].
Qed.
Lemma many_cycle t : (0 < t)%Q -> exists u v w, length u = 3 /\ length v = 3 /\ length w = 3 /\
  depth_many (pareto t [true; true; true]) [u; v; w] [None; None; None] = Throw.
Proof.
  intros Ht. destruct (cycle_of_three t Ht) as (u & v & w & L1 & L2 & L3 & H1 & H2 & H3). exists u, v, w. do 3 (split; [auto|]).
  assert (Lin : forall a, In a [u; v; w] -> length a = 3) by (intros a [<-|[<-|[<-|[]]]]; auto).
  destruct (many_forever (list Q) (pareto t [true; true; true]) [u; v; w] [None; None; None] eq_refl) as (f' & E & Lf & H).
  { intros a b Ha Hb Hd. apply pareto_asym; auto. lra. }
  set (D := fun a b => pareto t [true; true; true] a b = true) in *.
  assert (Sv : forall k i, i < 3 -> survives D [u; v; w] k i).
  { induction k as [|k IH]; intros i Hi; [auto|]. apply surv_S. destruct i as [|[|[|i]]]; [exists 1|exists 2|exists 0|lia]; (split; [apply IH; lia|]).
    - exists u, v; auto.
    - exists v, w; auto.
    - exists w, u; auto. }
  assert (F : forall i z, nth_error f' i = Some z -> z = None).
  { intros i z Hz. destruct (H i z Hz) as [(r & _ & (_ & _ & N))|[H0 _]].
    - exfalso. apply N, Sv. apply nth_error_lt in Hz. rewrite Lf in Hz. auto.
    - destruct i as [|[|[|i]]]; cbn in H0; try congruence. destruct i; discriminate. }
  unfold depth_many. rewrite E. cbn [rbind]. destruct f' as [|z f']; [discriminate|]. rewrite (F 0 z eq_refl). reflexivity.
Qed.
