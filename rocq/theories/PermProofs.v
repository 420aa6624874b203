From Coq Require Import List Arith NArith ZArith Lia Bool Permutation.
From Verif Require Import Lib Outcome BitModel BitProofs PermModel PermSpec.
Import ListNotations.

(** *** choosing two indices *)
Lemma two_indices_spec n ds i j ds' : 0 < n -> two_indices n ds = Ok (i, j, ds') ->
  i <> j /\ i < n /\ j < n.
Proof.
  intros Hn H. unfold two_indices in H. apply rbind_ok in H as ((i0 & ds1) & E1 & H).
  apply rbind_ok in H as ((j0 & ds2) & E2 & H). inversion H; subst.
  apply draw_lt in E1; auto. apply draw_other_spec in E2 as (Hne & Hlt & _). specialize (Hlt ltac:(lia)). auto.
Qed.
Lemma two_indices_unstuck n ds : 2 <= n -> exists more i j ds', two_indices n (ds ++ more) = Ok (i, j, ds').
Proof.
  intros Hn. unfold two_indices. destruct ds as [|d ds].
  - destruct (draw_other_unstuck n (0 mod n) [] Hn) as (more & v & ds' & E). cbn [app] in E.
    exists (0 :: more). cbn [app draw rbind]. rewrite E. cbn [rbind]. eauto.
  - destruct (draw_other_unstuck n (d mod n) ds Hn) as (more & v & ds' & E).
    exists more. cbn [app draw rbind]. rewrite E. cbn [rbind]. eauto.
Qed.
Lemma two_indices_stuck ds : two_indices 1 ds = NoDraw.
Proof.
  unfold two_indices. destruct ds as [|d ds]; [reflexivity|]. cbn [draw rbind]. rewrite Nat.mod_1_r.
  assert (E : draw_other 1 0 ds = NoDraw).
  { induction ds as [|e ds IH]; [reflexivity|]. cbn [draw_other]. rewrite Nat.mod_1_r. exact IH. }
  rewrite E. reflexivity.
Qed.

(** *** swap *)

Lemma swap_at_two_exchanged {A} (c c' : list A) i j : i <> j -> i < length c -> j < length c ->
  swap_at c i j = Some c' -> two_exchanged i j c c'.
Proof.
  intros Hne Hi Hj H. pose proof (swap_at_length _ _ _ _ H) as HL.
  repeat split; auto. intros k. rewrite (swap_at_nth_error _ _ _ _ H k).
  destruct (Nat.eqb_spec k j), (Nat.eqb_spec k i); auto; congruence.
Qed.

Lemma swap_mutation_spec {A} k : forall (c : list A) ds c' b ds', c <> [] ->
  swap_mutation k c ds = Ok (c', b, ds') -> b = true /\ swaps k c c' /\ Permutation c' c.
Proof.
  induction k as [|k IH]; intros c ds c' b ds' Hne H; cbn [swap_mutation] in H.
  - inversion H; subst. repeat split; auto. constructor.
  - apply rbind_ok in H as (((i & j) & ds1) & E1 & H). apply rbind_ok in H as (c1 & E2 & H).
    apply of_opt_ok in E2.
    apply two_indices_spec in E1 as (Hij & Hi & Hj); [|destruct c; simpl; [congruence|lia]].
    pose proof (swap_at_perm _ _ _ _ E2) as P. pose proof (swap_at_length _ _ _ _ E2) as L.
    destruct (IH c1 ds1 c' b ds') as (Hb & Hs & HP); auto.
    { destruct c1; simpl in *; [destruct c; simpl in *; [congruence|lia]|congruence]. }
    repeat split; auto.
    + econstructor; [apply swap_at_two_exchanged; eauto|auto].
    + eapply Permutation_trans; eauto.
Qed.
Lemma swap_mutation_unstuck {A} k : forall (c : list A) ds, 2 <= length c ->
  exists more c' ds', swap_mutation k c (ds ++ more) = Ok (c', true, ds').
Proof.
  assert (H0 : forall k (c : list A), 2 <= length c -> exists more c', forall tail, swap_mutation k c (more ++ tail) = Ok (c', true, tail)).
  { clear. induction k as [|k IH]; intros c Hc.
    - exists [], c. reflexivity.
    - destruct (swap_at_total c 0 1) as [c1 E1]; [lia|lia|].
      pose proof (swap_at_length _ _ _ _ E1) as L.
      destruct (IH c1) as (more & c' & E); [lia|]. exists (0 :: 1 :: more), c'. intros tail.
      cbn [swap_mutation app]. unfold two_indices. cbn [draw rbind draw_other].
      rewrite (Nat.mod_small 0) by lia. rewrite (Nat.mod_small 1) by lia. cbn [Nat.eqb rbind].
      rewrite E1. cbn [of_opt rbind]. apply E. }
  induction k as [|k IH]; intros c ds Hc; cbn [swap_mutation].
  - exists []. rewrite app_nil_r. eauto.
  - destruct (two_indices_unstuck (length c) ds Hc) as (more & i & j & ds' & E).
    pose proof E as E'. apply two_indices_spec in E' as (_ & Hi & Hj); [|lia].
    destruct (swap_at_total c i j Hi Hj) as [c1 E1]. pose proof (swap_at_length _ _ _ _ E1) as L.
    destruct (IH c1 ds' ltac:(lia)) as (more2 & c' & ds2 & E2).
    exists (more ++ more2), c', ds2. rewrite app_assoc.
    assert (Eapp : two_indices (length c) ((ds ++ more) ++ more2) = Ok (i, j, ds' ++ more2)).
    { clear -E. revert E. generalize (ds ++ more) as l. intros l E. unfold two_indices in *.
      destruct l as [|d l]; [discriminate|]. cbn [draw rbind app] in *.
      destruct (draw_other (length c) (d mod length c) l) as [[v r]| | |] eqn:Ed; try discriminate.
      cbn [rbind] in E. inversion E; subst.
      assert (F : draw_other (length c) (d mod length c) (l ++ more2) = Ok (j, ds' ++ more2)).
      { clear E. revert Ed. generalize (d mod length c) as u. intros u. induction l as [|e l IH]; cbn [draw_other app]; [discriminate|].
        destruct (e mod length c =? u); [exact IH|]. intros H; inversion H; subst; auto. }
      rewrite F. reflexivity. }
    rewrite Eapp. cbn [rbind]. rewrite E1. cbn [of_opt rbind]. exact E2.
Qed.

(** *** shift *)
Lemma shift_loop_spec {A} steps : forall k (c : list A), steps <= k -> k < length c ->
  exists c', shift_loop steps k c = Some c' /\ length c' = length c /\
    forall i, nth_error c' i = if (k - steps <? i) && (i <=? k) then nth_error c (i - 1) else nth_error c i.
Proof.
  induction steps as [|s IH]; intros k c Hs Hk; cbn [shift_loop].
  - exists c. split; auto. split; auto. intros i.
    destruct (Nat.ltb_spec (k - 0) i), (Nat.leb_spec i k); cbn [andb]; auto; lia.
  - destruct (nth_error_in_some c (k - 1)) as [x Hx]; [lia|]. rewrite Hx. cbn [obind].
    rewrite upd_set by auto. cbn [obind].
    destruct (IH (k - 1) (set c k x)) as (c' & E & L & N); [lia|rewrite set_length; lia|].
    exists c'. split; auto. rewrite set_length in L. split; auto. intros i. rewrite N.
    destruct (Nat.ltb_spec (k - 1 - s) i), (Nat.leb_spec i (k - 1)); cbn [andb];
      destruct (Nat.ltb_spec (k - S s) i), (Nat.leb_spec i k); cbn [andb]; try lia;
      try (rewrite nth_error_set_neq by lia; auto).
    assert (i = k) by lia. subst i. rewrite nth_error_set_eq by auto. auto.
Qed.

Lemma segment_rotated_perm {A} from to (c c' : list A) : from <= to -> to < length c ->
  segment_rotated from to c c' -> Permutation c' c.
Proof.
  intros Hft Hto [HL HN].
  assert (E : c' = firstn from c ++ (skipn to (firstn (S to) c)) ++ skipn from (firstn to c) ++ skipn (S to) c).
  { apply nth_error_ext. intros i. rewrite HN.
    assert (L1 : length (firstn from c) = from) by (apply firstn_length_le; lia).
    assert (L2 : length (skipn to (firstn (S to) c)) = 1) by (rewrite skipn_length, firstn_length_le by lia; lia).
    assert (L3 : length (skipn from (firstn to c)) = to - from) by (rewrite skipn_length, firstn_length_le by lia; lia).
    destruct (Nat.eqb_spec i from) as [->|Hne].
    - rewrite nth_error_app2 by lia. rewrite L1, Nat.sub_diag. rewrite nth_error_app1 by lia.
      rewrite skipn_nth_error, Nat.add_0_r, firstn_nth_error by lia. auto.
    - destruct (Nat.ltb_spec from i); cbn [andb].
      + rewrite nth_error_app2 by lia. rewrite L1. rewrite nth_error_app2 by lia. rewrite L2.
        destruct (Nat.leb_spec i to).
        * rewrite nth_error_app1 by lia. rewrite skipn_nth_error. rewrite firstn_nth_error by lia. f_equal. lia.
        * rewrite nth_error_app2 by lia. rewrite L3, skipn_nth_error. f_equal. lia.
      + rewrite nth_error_app1 by lia. rewrite firstn_nth_error by lia. auto. }
  rewrite E. clear E HN.
  rewrite <- (firstn_skipn from c) at 5. apply Permutation_app_head.
  rewrite app_assoc. rewrite Permutation_app_comm with (l := skipn to (firstn (S to) c)). rewrite <- app_assoc.
  assert (E : skipn from c = skipn from (firstn to c) ++ skipn to (firstn (S to) c) ++ skipn (S to) c).
  { rewrite <- (firstn_skipn (S to) c) at 1.
    rewrite skipn_app. rewrite firstn_length_le by lia. replace (from - S to) with 0 by lia. cbn [skipn].
    rewrite app_assoc. f_equal.
    rewrite <- (firstn_skipn to (firstn (S to) c)) at 1. rewrite skipn_app, firstn_firstn.
    replace (Nat.min to (S to)) with to by lia. f_equal.
    rewrite firstn_length_le by lia. replace (from - to) with 0 by lia. reflexivity. }
  rewrite E. reflexivity.
Qed.

Lemma shift_mutation_strong {A} (c : list A) ds c' b ds' : c <> [] ->
  shift_mutation c ds = Ok (c', b, ds') ->
  b = true /\ exists i j from to, two_indices (length c) ds = Ok (i, j, ds') /\ from = Nat.min i j /\ to = Nat.max i j /\
    from < to /\ to < length c /\ segment_rotated from to c c' /\ Permutation c' c.
Proof.
  intros Hne H. unfold shift_mutation in H. apply rbind_ok in H as (((i & j) & ds1) & E1 & H).
  pose proof E1 as E0. apply two_indices_spec in E1 as (Hij & Hi & Hj); [|destruct c; simpl; [congruence|lia]].
  set (from := Nat.min i j) in *. set (to := Nat.max i j) in *.
  assert (Hft : from < to) by lia. assert (Hto : to < length c) by lia.
  assert (Efrom : from = Nat.min i j) by auto. assert (Eto : to = Nat.max i j) by auto. clearbody from to.
  apply rbind_ok in H as (tmp & Et & H). apply of_opt_ok in Et.
  apply rbind_ok in H as (c1 & E2 & H). apply of_opt_ok in E2.
  apply rbind_ok in H as (c2 & E3 & H). apply of_opt_ok in E3. inversion H; subst c' b ds1.
  split; auto. exists i, j, from, to. split; auto. split; auto. split; auto. split; auto. split; auto.
  destruct (shift_loop_spec (to - from) to c) as (c1' & E2' & L & N); [lia|lia|].
  rewrite E2 in E2'. inversion E2'; subst c1'. apply upd_some in E3 as (Hf & ->).
  assert (HR : segment_rotated from to c (set c1 from tmp)).
  { split; [rewrite set_length; auto|]. intros k. rewrite nth_error_set.
    destruct (Nat.eqb_spec k from) as [->|Hk]; cbn [andb].
    - apply Nat.ltb_lt in Hf. rewrite Hf. auto.
    - rewrite N. replace (to - (to - from)) with from by lia. auto. }
  split; auto. eapply segment_rotated_perm; [|eauto|eauto]. lia.
Qed.
Lemma shift_mutation_spec {A} (c : list A) ds c' b ds' : c <> [] ->
  shift_mutation c ds = Ok (c', b, ds') ->
  b = true /\ exists from to, from < to /\ to < length c /\ segment_rotated from to c c' /\ Permutation c' c.
Proof.
  intros Hne H. apply shift_mutation_strong in H as (-> & i & j & from & to & _ & _ & _ & H); auto.
  split; auto. exists from, to. exact H.
Qed.
Lemma shift_mutation_ok {A} (c : list A) ds : 2 <= length c ->
  exists more c' ds', shift_mutation c (ds ++ more) = Ok (c', true, ds').
Proof.
  intros Hc. destruct (two_indices_unstuck (length c) ds Hc) as (more & i & j & ds' & E).
  exists more. unfold shift_mutation. rewrite E. cbn [rbind].
  apply two_indices_spec in E as (Hij & Hi & Hj); [|lia].
  destruct (nth_error_in_some c (Nat.max i j)) as [t Ht]; [lia|]. rewrite Ht. cbn [of_opt rbind].
  destruct (shift_loop_spec (Nat.max i j - Nat.min i j) (Nat.max i j) c) as (c1 & E1 & L & _); [lia|lia|].
  rewrite E1. cbn [of_opt rbind]. rewrite upd_set by lia. cbn [of_opt rbind]. eauto.
Qed.

(** *** two-opt *)
Lemma two_opt_loop_spec {A} todo : forall k from to (c : list A),
  from <= to -> to < length c -> k + todo <= S ((to - from) / 2) ->
  exists c', two_opt_loop todo k from to c = Some c' /\ length c' = length c /\
    forall i, nth_error c' i =
      if ((from + k <=? i) && (i <? from + k + todo)) || ((to <? i + k + todo) && (i + k <=? to))
      then nth_error c (from + to - i) else nth_error c i.
Proof.
  induction todo as [|t IH]; intros k from to c Hft Hto Hk; cbn [two_opt_loop].
  - exists c. split; auto. split; auto. intros i.
    destruct (Nat.leb_spec (from + k) i), (Nat.ltb_spec i (from + k + 0)), (Nat.ltb_spec to (i + k + 0)), (Nat.leb_spec (i + k) to);
      cbn [andb orb]; auto; lia.
  - assert (H2 : 2 * ((to - from) / 2) <= to - from) by (apply Nat.mul_div_le; lia).
    destruct (swap_at_total c (from + k) (to - k)) as [c1 E1]; [lia|lia|]. rewrite E1. cbn [obind].
    pose proof (swap_at_length _ _ _ _ E1) as L1. pose proof (swap_at_nth_error _ _ _ _ E1) as N1.
    destruct (IH (S k) from to c1) as (c' & E & L & N); [lia|lia|lia|].
    exists c'. split; auto. split; [lia|]. intros i. rewrite N, !N1.
    destruct (Nat.leb_spec (from + k) i), (Nat.ltb_spec i (from + k + S t)), (Nat.ltb_spec to (i + k + S t)), (Nat.leb_spec (i + k) to),
      (Nat.leb_spec (from + S k) i), (Nat.ltb_spec i (from + S k + t)), (Nat.ltb_spec to (i + S k + t)), (Nat.leb_spec (i + S k) to);
      cbn [andb orb]; try lia;
      destruct (Nat.eqb_spec i (to - k)), (Nat.eqb_spec i (from + k)); try lia;
      try (destruct (Nat.eqb_spec (from + to - i) (to - k)), (Nat.eqb_spec (from + to - i) (from + k)); try lia);
      try (f_equal; lia); auto.
Qed.

Lemma skipn_skipn' {A} (l : list A) : forall a b, skipn a (skipn b l) = skipn (a + b) l.
Proof.
  intros a b. apply nth_error_ext. intros k. rewrite !skipn_nth_error. f_equal. lia.
Qed.
Lemma segment_reversed_perm {A} from to (c c' : list A) : from <= to -> to < length c ->
  segment_reversed from to c c' -> Permutation c' c.
Proof.
  intros Hft Hto [HL HN].
  assert (E : c' = reverse_range from (S to) c).
  { apply nth_error_ext. intros i. rewrite HN.
    destruct (reverse_range_spec from (S to) c) as [_ N]; [lia|lia|]. rewrite N.
    replace (i <=? to) with (i <? S to) by (destruct (Nat.ltb_spec i (S to)), (Nat.leb_spec i to); auto; lia).
    destruct ((from <=? i) && (i <? S to)); auto. f_equal. lia. }
  rewrite E. unfold reverse_range. rewrite <- (firstn_skipn from c) at 4. apply Permutation_app_head.
  rewrite <- (firstn_skipn (S to - from) (skipn from c)) at 2.
  rewrite skipn_skipn'. replace (S to - from + from) with (S to) by lia.
  apply Permutation_app_tail. symmetry. apply Permutation_rev.
Qed.

Lemma two_opt_mutation_strong {A} (c : list A) ds c' b ds' : c <> [] ->
  two_opt_mutation c ds = Ok (c', b, ds') ->
  b = true /\ exists i j from to, two_indices (length c) ds = Ok (i, j, ds') /\ from = Nat.min i j /\ to = Nat.max i j /\
    from < to /\ to < length c /\ segment_reversed from to c c' /\ Permutation c' c.
Proof.
  intros Hne H. unfold two_opt_mutation in H. apply rbind_ok in H as (((i & j) & ds1) & E1 & H).
  pose proof E1 as E0. apply two_indices_spec in E1 as (Hij & Hi & Hj); [|destruct c; simpl; [congruence|lia]].
  set (from := Nat.min i j) in *. set (to := Nat.max i j) in *.
  assert (Hft : from < to) by lia. assert (Hto : to < length c) by lia.
  assert (Efrom : from = Nat.min i j) by auto. assert (Eto : to = Nat.max i j) by auto. clearbody from to.
  apply rbind_ok in H as (c1 & E2 & H). apply of_opt_ok in E2. inversion H; subst c' b ds1.
  split; auto. exists i, j, from, to. split; auto. split; auto. split; auto. split; auto. split; auto.
  destruct (two_opt_loop_spec (S ((to - from) / 2)) 0 from to c) as (c1' & E2' & L & N); [lia|lia|lia|].
  rewrite E2 in E2'. inversion E2'; subst c1'.
  assert (HR : segment_reversed from to c c1).
  { split; auto. intros k. rewrite N.
    assert (H2 : to - from < 2 * S ((to - from) / 2)).
    { apply Nat.mul_succ_div_gt. lia. }
    assert (H3 : 2 * ((to - from) / 2) <= to - from) by (apply Nat.mul_div_le; lia).
    set (h := (to - from) / 2) in *. clearbody h.
    destruct (Nat.leb_spec (from + 0) k), (Nat.ltb_spec k (from + 0 + S h)), (Nat.ltb_spec to (k + 0 + S h)), (Nat.leb_spec (k + 0) to),
      (Nat.leb_spec from k), (Nat.leb_spec k to); cbn [andb orb]; auto; lia. }
  split; auto. eapply segment_reversed_perm; [|eauto|eauto]. lia.
Qed.
Lemma two_opt_mutation_spec {A} (c : list A) ds c' b ds' : c <> [] ->
  two_opt_mutation c ds = Ok (c', b, ds') ->
  b = true /\ exists from to, from < to /\ to < length c /\ segment_reversed from to c c' /\ Permutation c' c.
Proof.
  intros Hne H. apply two_opt_mutation_strong in H as (-> & i & j & from & to & _ & _ & _ & H); auto.
  split; auto. exists from, to. exact H.
Qed.
Lemma two_opt_mutation_ok {A} (c : list A) ds : 2 <= length c ->
  exists more c' ds', two_opt_mutation c (ds ++ more) = Ok (c', true, ds').
Proof.
  intros Hc. destruct (two_indices_unstuck (length c) ds Hc) as (more & i & j & ds' & E).
  exists more. unfold two_opt_mutation. rewrite E. cbn [rbind].
  apply two_indices_spec in E as (Hij & Hi & Hj); [|lia].
  destruct (two_opt_loop_spec (S ((Nat.max i j - Nat.min i j) / 2)) 0 (Nat.min i j) (Nat.max i j) c) as (c1 & E1 & _); [lia|lia|lia|].
  rewrite E1. cbn [of_opt rbind]. eauto.
Qed.

Lemma mutations_stuck {A} (x : A) ds k :
  swap_mutation (S k) [x] ds = NoDraw /\ shift_mutation [x] ds = NoDraw /\ two_opt_mutation [x] ds = NoDraw.
Proof.
  unfold shift_mutation, two_opt_mutation. cbn [swap_mutation length].
  rewrite two_indices_stuck. auto.
Qed.

(** *** order crossover *)
Lemma mem_In x l : mem x l = true <-> In x l.
Proof.
  unfold mem. rewrite existsb_exists. split.
  - intros (y & Hy & E). apply Nat.eqb_eq in E. subst; auto.
  - intros H. exists x. split; auto. apply Nat.eqb_refl.
Qed.
Lemma mem_app x l l' : mem x (l ++ l') = mem x l || mem x l'.
Proof. unfold mem. apply existsb_app. Qed.
Lemma mem_one x y : mem x [y] = (x =? y).
Proof. unfold mem. cbn [existsb]. apply orb_false_r. Qed.

Lemma mod_inj s n x y : s <= x < s + n -> s <= y < s + n -> x mod n = y mod n -> x = y.
Proof.
  intros Hx Hy H. destruct (Nat.eq_dec n 0); [lia|].
  pose proof (Nat.div_mod x n ltac:(auto)) as Ex. pose proof (Nat.div_mod y n ltac:(auto)) as Ey.
  rewrite H in Ex. assert (x / n = y / n); [|lia].
  set (q := x / n) in *. set (q' := y / n) in *. set (r := y mod n) in *.
  assert (n * q < n * S q') by (pose proof (Nat.mod_upper_bound y n ltac:(auto)); fold r in H0; nia).
  assert (n * q' < n * S q) by nia. apply Nat.mul_lt_mono_pos_l in H0; [|lia]. apply Nat.mul_lt_mono_pos_l in H1; [|lia]. lia.
Qed.

(** [verif] records the genes already placed *)
Definition tracks (s n : nat) (verif : list bool) (pre : list nat) : Prop :=
  length verif = n /\ forall x, s <= x < s + n -> nth_error verif (x mod n) = Some (mem x pre).

Lemma tracks_nil s n : tracks s n (repeat false n) [].
Proof.
  split; [apply repeat_length|]. intros x Hx. rewrite nth_error_repeat; auto. apply Nat.mod_upper_bound. lia.
Qed.
Lemma tracks_add s n verif pre x : s <= x < s + n -> tracks s n verif pre ->
  exists verif', upd verif (x mod n) true = Some verif' /\ tracks s n verif' (pre ++ [x]).
Proof.
  intros Hx [HL HT]. assert (Hm : x mod n < n) by (apply Nat.mod_upper_bound; lia).
  exists (set verif (x mod n) true). rewrite upd_set by lia. split; auto.
  split; [rewrite set_length; auto|]. intros y Hy. rewrite mem_app, mem_one.
  destruct (Nat.eqb_spec y x) as [->|Hne].
  - rewrite nth_error_set_eq by lia. rewrite orb_true_r. auto.
  - rewrite nth_error_set_neq; [|intros F; apply Hne; eapply mod_inj; eauto].
    rewrite HT by auto. rewrite orb_false_r. auto.
Qed.

Lemma upd_app {A} (pre : list A) y suf x : upd (pre ++ y :: suf) (length pre) x = Some (pre ++ x :: suf).
Proof. induction pre as [|a pre IH]; simpl; auto. rewrite IH. auto. Qed.

Lemma ox_copy_spec s c1 : forall todo i pre suf verif,
  (forall x, In x c1 -> s <= x < s + length c1) -> i + todo <= length c1 -> todo <= length suf ->
  tracks s (length c1) verif pre ->
  exists verif', ox_copy todo i (length pre) c1 (pre ++ suf) verif
      = Some ((pre ++ firstn todo (skipn i c1)) ++ skipn todo suf, verif', length pre + todo) /\
    tracks s (length c1) verif' (pre ++ firstn todo (skipn i c1)).
Proof.
  induction todo as [|t IH]; intros i pre suf verif Hin Hi Hsuf HT; cbn [ox_copy].
  - exists verif. cbn [firstn skipn]. rewrite app_nil_r, Nat.add_0_r. auto.
  - destruct (nth_error_in_some c1 i) as [x Hx]; [lia|]. rewrite Hx. cbn [obind].
    destruct suf as [|y suf]; [simpl in Hsuf; lia|]. rewrite upd_app. cbn [obind].
    destruct (tracks_add s (length c1) verif pre x) as (v1 & E1 & T1); auto.
    { apply Hin. eapply nth_error_In; eauto. }
    rewrite E1. cbn [obind].
    destruct (IH (S i) (pre ++ [x]) suf v1) as (v2 & E2 & T2); auto; [lia|simpl in Hsuf; lia|].
    rewrite app_length in E2. cbn [length] in E2. rewrite Nat.add_1_r in E2.
    rewrite <- app_assoc in E2. cbn [app] in E2. rewrite E2.
    assert (Hskip : skipn i c1 = x :: skipn (S i) c1).
    { clear -Hx. revert i Hx. induction c1 as [|a c1 IH]; intros [|i] H; simpl in H; try discriminate.
      - inversion H; subst. reflexivity.
      - cbn [skipn]. apply IH. auto. }
    exists v2. rewrite Hskip. cbn [firstn]. rewrite <- app_assoc in T2. cbn [app] in T2.
    split; [|exact T2]. rewrite <- !app_assoc. cbn [app skipn].
    replace (S (length pre) + t) with (length pre + S t) by lia. auto.
Qed.

Lemma ox_find_spec c2 : forall y from, In y c2 -> exists k, ox_find c2 y from = Some (from + k) /\ nth_error c2 k = Some y.
Proof.
  induction c2 as [|x c2 IH]; intros y from Hin; [destruct Hin|]. cbn [ox_find].
  destruct (Nat.eqb_spec x y) as [->|Hne].
  - exists 0. rewrite Nat.add_0_r. auto.
  - destruct Hin as [F|Hin]; [congruence|]. destruct (IH y (S from) Hin) as (k & E & Hk).
    exists (S k). rewrite E. split; [f_equal; lia|auto].
Qed.

Lemma ox_fill_spec s n c2 : (forall x, In x c2 -> s <= x < s + n) ->
  forall js pre suf verif,
  (forall j, In j js -> j < length c2) ->
  NoDup (map (fun j => nth j c2 0) js) ->
  tracks s n verif pre ->
  length (filter (fun x => negb (mem x pre)) (map (fun j => nth j c2 0) js)) <= length suf ->
  exists suf', ox_fill js (length pre) n c2 (pre ++ suf) verif
     = Some (pre ++ filter (fun x => negb (mem x pre)) (map (fun j => nth j c2 0) js) ++ suf') /\
    length suf = length (filter (fun x => negb (mem x pre)) (map (fun j => nth j c2 0) js)) + length suf'.
Proof.
  intros Hin. induction js as [|j js IH]; intros pre suf verif Hj Hnd HT Hlen; cbn [ox_fill map filter].
  - exists suf. auto.
  - assert (Hjl : j < length c2) by (apply Hj; left; auto).
    assert (Hx : nth_error c2 j = Some (nth j c2 0)) by (apply nth_error_nth'; auto).
    set (x := nth j c2 0) in *. rewrite Hx. cbn [obind].
    assert (Hxr : s <= x < s + n) by (apply Hin; eapply nth_error_In; eauto).
    rewrite (proj2 HT x Hxr). cbn [obind]. cbn [map] in Hnd, Hlen. inversion Hnd as [|? ? Hnin Hnd']; subst.
    cbn [filter] in Hlen. fold x in Hlen, Hnin.
    destruct (mem x pre) eqn:Em; cbn [negb] in *.
    + apply IH; auto. intros; apply Hj; right; auto.
    + destruct suf as [|y suf]; [simpl in Hlen; lia|]. rewrite upd_app. cbn [obind].
      destruct (tracks_add s n verif pre x Hxr HT) as (v1 & E1 & T1). rewrite E1. cbn [obind].
      assert (Hf : filter (fun z => negb (mem z (pre ++ [x]))) (map (fun j => nth j c2 0) js) =
                   filter (fun z => negb (mem z pre)) (map (fun j => nth j c2 0) js)).
      { apply filter_ext_in. intros z Hz. rewrite mem_app, mem_one.
        destruct (Nat.eqb_spec z x); [subst; contradiction|]. rewrite !orb_false_r. auto. }
      destruct (IH (pre ++ [x]) suf v1) as (suf' & E2 & L2); auto.
      { intros; apply Hj; right; auto. }
      { rewrite Hf. simpl in Hlen. lia. }
      rewrite Hf in *. rewrite app_length in E2. cbn [length] in E2. rewrite Nat.add_1_r in E2.
      rewrite <- app_assoc in E2. cbn [app] in E2. exists suf'. rewrite E2. split.
      * f_equal. rewrite <- app_assoc. auto.
      * cbn [length]. lia.
Qed.

Lemma ox_index_forward from size i : from < size -> i < size -> (Z.of_nat size < 1073741824)%Z ->
  ox_index 1 from size i = (from + i) mod size.
Proof.
  intros Hf Hi Hs. unfold ox_index.
  assert (H1 : ((1 * N.of_nat i) mod 4294967296 = N.of_nat i)%N) by (rewrite N.mul_1_l; apply N.mod_small; lia).
  rewrite H1. rewrite (N.mod_small _ 4294967296) by lia.
  replace (N.of_nat i + N.of_nat from + N.of_nat size)%N with (N.of_nat ((from + i) + 1 * size)) by lia.
  rewrite <- Nat2N.inj_mod, Nat2N.id, Nat.mod_add by lia. auto.
Qed.
Lemma ox_index_backward from size i : from < size -> i < size -> (Z.of_nat size < 1073741824)%Z ->
  ox_index neg_signed from size i = (from + size - i) mod size.
Proof.
  intros Hf Hi Hs. unfold ox_index, neg_signed.
  assert (H1 : (((4294967295 * N.of_nat i) mod 4294967296 + N.of_nat from + N.of_nat size) mod 4294967296
     = N.of_nat (from + size - i))%N).
  { destruct (Nat.eq_dec i 0) as [->|Hi0].
    - cbn [N.of_nat]. rewrite N.mul_0_r, N.mod_0_l by lia. rewrite N.mod_small by lia. lia.
    - assert (H2 : ((4294967295 * N.of_nat i) mod 4294967296 = 4294967296 - N.of_nat i)%N).
      { replace (4294967295 * N.of_nat i)%N with ((4294967296 - N.of_nat i) + (N.of_nat i - 1) * 4294967296)%N by lia.
        rewrite N.mod_add by lia. apply N.mod_small. lia. }
      rewrite H2.
      replace (4294967296 - N.of_nat i + N.of_nat from + N.of_nat size)%N
        with (N.of_nat (from + size - i) + 1 * 4294967296)%N by lia.
      rewrite N.mod_add by lia. apply N.mod_small. lia. }
  rewrite H1. rewrite <- Nat2N.inj_mod, Nat2N.id. auto.
Qed.

Lemma read_cyclic_perm fw p c : NoDup c -> p < length c -> Permutation (read_cyclic fw p c) c.
Proof.
  intros Hnd Hp. set (n := length c) in *.
  assert (Hr : exists js, read_cyclic fw p c = map (fun j => nth j c 0) js /\ Permutation js (seq 0 n)).
  { exists (map (fun i => if fw then (p + i) mod n else (p + n - i) mod n) (seq 0 n)).
    split; [unfold read_cyclic; rewrite map_map; reflexivity|].
    apply NoDup_incl_perm; [|apply seq_NoDup| |rewrite map_length; auto].
    -
      assert (Hinj : forall i k, i < n -> k < n ->
         (if fw then (p + i) mod n else (p + n - i) mod n) = (if fw then (p + k) mod n else (p + n - k) mod n) -> i = k).
      { intros i k Hi Hk. destruct fw; intros E.
        - apply (mod_inj p n) in E; lia.
        - apply (mod_inj (S p) n) in E; lia. }
      assert (HN : forall l, NoDup l -> (forall i, In i l -> i < n) ->
         NoDup (map (fun i => if fw then (p + i) mod n else (p + n - i) mod n) l)).
      { induction l as [|a l IH]; intros Hl Hb; simpl; [constructor|]. inversion Hl; subst. constructor.
        - intros F. apply in_map_iff in F as (k & Ek & Hk). apply Hinj in Ek; [subst; contradiction| |].
          + apply Hb; right; auto.
          + apply Hb; left; auto.
        - apply IH; auto. intros; apply Hb; right; auto. }
      apply HN; [apply seq_NoDup|]. intros i Hi. apply in_seq in Hi. lia.
    - intros y Hy. apply in_map_iff in Hy as (i & <- & Hi). apply in_seq. 
      split; [lia|]. cbn [Nat.add]. destruct fw; apply Nat.mod_upper_bound; lia. }
  destruct Hr as (js & -> & P).
  eapply Permutation_trans; [apply Permutation_map, P|].
  assert (E : map (fun j => nth j c 0) (seq 0 n) = c).
  { apply nth_error_ext. intros k. rewrite nth_error_map'. destruct (Nat.lt_ge_cases k n).
    - rewrite nth_error_seq' by auto. cbn [option_map Nat.add]. symmetry. apply nth_error_nth'. auto.
    - rewrite (nth_error_ge (seq 0 n)) by (rewrite seq_length; auto). rewrite nth_error_ge; auto. }
  rewrite E. auto.
Qed.

Lemma In_segment {A} cut1 cut2 (c : list A) x : In x (segment cut1 cut2 c) -> In x c.
Proof.
  unfold segment. intros H.
  assert (In x (skipn cut1 c)) by (rewrite <- (firstn_skipn (cut2 - cut1) (skipn cut1 c)); apply in_app_iff; auto).
  rewrite <- (firstn_skipn cut1 c). apply in_app_iff; auto.
Qed.
Lemma NoDup_segment {A} cut1 cut2 (c : list A) : NoDup c -> NoDup (segment cut1 cut2 c).
Proof.
  intros H. unfold segment. rewrite <- (firstn_skipn cut1 c) in H.
  assert (H2 : NoDup (skipn cut1 c)).
  { clear -H. induction (firstn cut1 c) as [|a l IH]; auto. inversion H; auto. }
  rewrite <- (firstn_skipn (cut2 - cut1) (skipn cut1 c)) in H2. eapply NoDup_app_l; eauto.
Qed.

Lemma seg_rest_perm (seg c : list nat) L : NoDup c -> NoDup seg -> incl seg c -> Permutation L c ->
  Permutation (seg ++ filter (fun x => negb (mem x seg)) L) c.
Proof.
  intros Hc Hs Hi HL. apply NoDup_Permutation; auto.
  - assert (HnL : NoDup L) by (eapply Permutation_NoDup; [symmetry; eauto|auto]).
    clear Hi. assert (HD : forall x, In x seg -> ~ In x (filter (fun x => negb (mem x seg)) L)).
    { intros x Hx F. apply filter_In in F as [_ F]. apply mem_In in Hx. rewrite Hx in F. discriminate. }
    assert (Hf : NoDup (filter (fun x => negb (mem x seg)) L)) by (apply NoDup_filter; auto).
    revert HD Hf. generalize (filter (fun x => negb (mem x seg)) L) as R. clear -Hs.
    induction seg as [|a seg IH]; intros R HD Hf; simpl; auto. inversion Hs; subst. constructor.
    + rewrite in_app_iff. intros [F|F]; [contradiction|]. apply (HD a); simpl; auto.
    + apply IH; auto. intros x Hx. apply HD; simpl; auto.
  - intros x. rewrite in_app_iff, filter_In. split.
    + intros [H|[H _]]; auto. eapply Permutation_in; eauto.
    + intros H. destruct (mem x seg) eqn:E; [left; apply mem_In; auto|right]. split; auto.
      eapply Permutation_in; [symmetry; eauto|auto].
Qed.

Definition dir_of (fw : bool) : N := if fw then 1%N else neg_signed.

Lemma ox_cross_spec s c1 c2 fw cut1 cut2 :
  Permutation c1 (seq s (length c1)) -> Permutation c2 (seq s (length c1)) ->
  (Z.of_nat (length c1) < 1073741824)%Z -> cut1 < cut2 -> cut2 <= length c1 ->
  exists child, ox_cross c1 c2 c1 (dir_of fw) cut1 cut2 = Some child /\
    order_child fw cut1 cut2 c1 c2 child /\ Permutation child (seq s (length c1)).
Proof.
  intros P1 P2 Hsz H12 H2. set (n := length c1) in *.
  assert (Hin1 : forall x, In x c1 -> s <= x < s + n) by (intros x Hx; apply (Permutation_in _ P1) in Hx; apply in_seq in Hx; lia).
  assert (Hin2 : forall x, In x c2 -> s <= x < s + n) by (intros x Hx; apply (Permutation_in _ P2) in Hx; apply in_seq in Hx; lia).
  assert (HL2 : length c2 = n) by (apply Permutation_length in P2; rewrite seq_length in P2; auto).
  assert (Hnd1 : NoDup c1) by (eapply Permutation_NoDup; [symmetry; eauto|apply seq_NoDup]).
  assert (Hnd2 : NoDup c2) by (eapply Permutation_NoDup; [symmetry; eauto|apply seq_NoDup]).
  unfold ox_cross. fold n.
  destruct (ox_copy_spec s c1 (cut2 - cut1) cut1 [] c1 (repeat false n)) as (v1 & E1 & T1).
  { exact Hin1. } { fold n. lia. } { fold n. lia. } { apply tracks_nil. }
  cbn [app length Nat.add] in E1, T1. rewrite E1. cbn [obind].
  fold (segment cut1 cut2 c1) in *. set (seg := segment cut1 cut2 c1) in *.
  assert (Lseg : length seg = cut2 - cut1).
  { unfold seg, segment. rewrite firstn_length_le; auto. rewrite skipn_length. fold n. lia. }
  destruct (nth_error_in_some c1 (cut2 - 1)) as [last Hlast]; [fold n; lia|].
  assert (Hy : nth_error (seg ++ skipn (cut2 - cut1) c1) (cut2 - 1) = Some last).
  { destruct (Nat.eq_dec cut1 0) as [->|Hc].
    - rewrite nth_error_app1 by lia. unfold seg, segment. rewrite Nat.sub_0_r. cbn [skipn].
      rewrite firstn_nth_error by lia. auto.
    - rewrite nth_error_app2 by lia. rewrite Lseg, skipn_nth_error. rewrite <- Hlast. f_equal. lia. }
  rewrite Hy. cbn [obind].
  destruct (ox_find_spec c2 last 0) as (p & Ep & Hp).
  { eapply Permutation_in; [symmetry; exact P2|]. eapply Permutation_in; [exact P1|]. eapply nth_error_In; eauto. }
  rewrite Ep. cbn [obind Nat.add].
  pose proof (nth_error_lt _ _ _ Hp) as Hpl. rewrite HL2 in Hpl.
  assert (Hmap : map (fun j => nth j c2 0) (map (ox_index (dir_of fw) p n) (seq 0 n)) = read_cyclic fw p c2).
  { unfold read_cyclic. rewrite map_map, HL2. apply map_ext_in. intros i Hi. apply in_seq in Hi.
    f_equal. destruct fw; unfold dir_of; [apply ox_index_forward|apply ox_index_backward]; auto; lia. }
  assert (PR : Permutation (read_cyclic fw p c2) c2) by (apply read_cyclic_perm; auto; lia).
  assert (Hincl : incl seg c2).
  { intros x Hx. apply In_segment in Hx. eapply Permutation_in; [symmetry; exact P2|].
    eapply Permutation_in; [exact P1|]. auto. }
  assert (Hns : NoDup seg) by (apply NoDup_segment; auto).
  assert (PP : Permutation (seg ++ filter (fun x => negb (mem x seg)) (read_cyclic fw p c2)) c2) by (apply seg_rest_perm; auto).
  destruct (ox_fill_spec s n c2 Hin2 (map (ox_index (dir_of fw) p n) (seq 0 n)) seg (skipn (cut2 - cut1) c1) v1) as (suf' & E2 & L2').
  - intros j Hj. apply in_map_iff in Hj as (i & <- & Hi). apply in_seq in Hi. rewrite HL2.
    destruct fw; unfold dir_of; [rewrite ox_index_forward|rewrite ox_index_backward]; auto; try lia; apply Nat.mod_upper_bound; lia.
  - rewrite Hmap. eapply Permutation_NoDup; [symmetry; exact PR|auto].
  - exact T1.
  - rewrite Hmap. apply Permutation_length in PP. rewrite app_length, Lseg in PP. rewrite skipn_length. fold n. lia.
  - rewrite Hmap in *. rewrite Lseg in E2. rewrite E2.
    assert (suf' = []) as ->.
    { apply Permutation_length in PP. rewrite app_length, Lseg in PP. rewrite skipn_length in L2'. fold n in L2'.
      destruct suf'; auto. simpl in L2'. lia. }
    rewrite app_nil_r. eexists. split; [reflexivity|]. split.
    + exists p, last. auto.
    + eapply Permutation_trans; eauto.
Qed.

Lemma order_xover_spec s c1 c2 f r2 r1 ds : c1 <> [] ->
  Permutation c1 (seq s (length c1)) -> Permutation c2 (seq s (length c1)) ->
  (Z.of_nat (length c1) < 1073741824)%Z ->
  let cut2 := 1 + r2 mod length c1 in let cut1 := r1 mod cut2 in
  exists x1 x2, order_xover neg_signed c1 c2 (f :: r2 :: r1 :: ds) = Ok (x1, x2, true, ds) /\
    order_child (Nat.odd f) cut1 cut2 c1 c2 x1 /\ order_child (Nat.odd f) cut1 cut2 c2 c1 x2 /\
    Permutation x1 (seq s (length c1)) /\ Permutation x2 (seq s (length c1)).
Proof.
  intros Hne P1 P2 Hsz cut2 cut1. unfold order_xover, draw_flip, draw. cbn [rbind]. fold cut2. fold cut1.
  change (if Nat.odd f then 1%N else neg_signed) with (dir_of (Nat.odd f)).
  assert (Hl : 0 < length c1) by (destruct c1; simpl; [congruence|lia]).
  assert (H2 : cut2 <= length c1) by (unfold cut2; pose proof (Nat.mod_upper_bound r2 (length c1)); lia).
  assert (H1 : cut1 < cut2) by (unfold cut1; apply Nat.mod_upper_bound; unfold cut2; lia).
  clearbody cut2 cut1.
  assert (HL2 : length c2 = length c1) by (apply Permutation_length in P2; rewrite seq_length in P2; auto).
  destruct (ox_cross_spec s c1 c2 (Nat.odd f) cut1 cut2) as (x1 & E1 & O1 & Q1); auto.
  destruct (ox_cross_spec s c2 c1 (Nat.odd f) cut1 cut2) as (x2 & E2 & O2 & Q2); try rewrite HL2; auto.
  rewrite HL2 in Q2. rewrite E1. cbn [of_opt rbind]. rewrite E2. cbn [of_opt rbind]. exists x1, x2. auto 6.
Qed.

(** *** partially mapped crossover *)
Section PMX.
Variables (n i1 i2 : nat).
Hypothesis H12 : i1 <= i2.
Hypothesis H2n : i2 < n.

Definition is_map (a b : list nat) (p : list (option nat)) : Prop :=
  length p = n /\
  (forall k v u, i1 <= k <= i2 -> nth_error b k = Some v -> nth_error a k = Some u -> nth_error p v = Some (Some u)) /\
  (forall v, v < n -> (forall k, i1 <= k <= i2 -> nth_error b k <> Some v) -> nth_error p v = Some None).

Lemma pmx_maps_spec s1 s2 : Permutation s1 (seq 0 n) -> Permutation s2 (seq 0 n) ->
  forall todo i p1 p2, i + todo <= n -> length p1 = n -> length p2 = n ->
  exists q1 q2, pmx_maps todo i s1 s2 p1 p2 = Some (q1, q2) /\ length q1 = n /\ length q2 = n /\
    (forall k v u, i <= k < i + todo -> nth_error s2 k = Some v -> nth_error s1 k = Some u -> nth_error q1 v = Some (Some u)) /\
    (forall k v u, i <= k < i + todo -> nth_error s1 k = Some v -> nth_error s2 k = Some u -> nth_error q2 v = Some (Some u)) /\
    (forall v, (forall k, i <= k < i + todo -> nth_error s2 k <> Some v) -> nth_error q1 v = nth_error p1 v) /\
    (forall v, (forall k, i <= k < i + todo -> nth_error s1 k <> Some v) -> nth_error q2 v = nth_error p2 v).
Proof.
  intros P1 P2.
  assert (L1 : length s1 = n) by (apply Permutation_length in P1; rewrite seq_length in P1; auto).
  assert (L2 : length s2 = n) by (apply Permutation_length in P2; rewrite seq_length in P2; auto).
  assert (N1 : NoDup s1) by (eapply Permutation_NoDup; [symmetry; eauto|apply seq_NoDup]).
  assert (N2 : NoDup s2) by (eapply Permutation_NoDup; [symmetry; eauto|apply seq_NoDup]).
  assert (I1 : forall x, In x s1 -> x < n) by (intros x Hx; apply (Permutation_in _ P1), in_seq in Hx; lia).
  assert (I2 : forall x, In x s2 -> x < n) by (intros x Hx; apply (Permutation_in _ P2), in_seq in Hx; lia).
  induction todo as [|t IH]; intros i p1 p2 Hi Lp1 Lp2; cbn [pmx_maps].
  - exists p1, p2. split; auto. split; auto. split; auto. split; [intros; lia|]. split; [intros; lia|]. auto.
  - destruct (nth_error_in_some s1 i) as [x Hx]; [lia|]. destruct (nth_error_in_some s2 i) as [y Hy]; [lia|].
    rewrite Hx, Hy. cbn [obind].
    assert (x < n) by (apply I1; eapply nth_error_In; eauto). assert (y < n) by (apply I2; eapply nth_error_In; eauto).
    rewrite !upd_set by lia. cbn [obind].
    destruct (IH (S i) (set p1 y (Some x)) (set p2 x (Some y))) as (q1 & q2 & E & M1 & M2 & A1 & A2 & B1 & B2);
      [lia|rewrite set_length; auto|rewrite set_length; auto|].
    exists q1, q2. split; auto. split; auto. split; auto.
    assert (Hy' : forall k, S i <= k < S i + t -> nth_error s2 k <> Some y).
    { intros k Hk F. assert (i = k); [|lia]. eapply NoDup_nth_error_inj; [exact N2|exact Hy|exact F]. }
    assert (Hx' : forall k, S i <= k < S i + t -> nth_error s1 k <> Some x).
    { intros k Hk F. assert (i = k); [|lia]. eapply NoDup_nth_error_inj; [exact N1|exact Hx|exact F]. }
    split; [|split; [|split]].
    + intros k v u Hk Hv Hu. destruct (Nat.eq_dec k i) as [->|Hne]; [|apply (A1 k); auto; lia].
      assert (v = y) by congruence. assert (u = x) by congruence. subst v u.
      rewrite B1 by auto. apply nth_error_set_eq. lia.
    + intros k v u Hk Hv Hu. destruct (Nat.eq_dec k i) as [->|Hne]; [|apply (A2 k); auto; lia].
      assert (v = x) by congruence. assert (u = y) by congruence. subst v u.
      rewrite B2 by auto. apply nth_error_set_eq. lia.
    + intros v Hv. rewrite B1 by (intros k Hk; apply Hv; lia). apply nth_error_set_neq.
      intros ->. apply (Hv i); auto. lia.
    + intros v Hv. rewrite B2 by (intros k Hk; apply Hv; lia). apply nth_error_set_neq.
      intros ->. apply (Hv i); auto. lia.
Qed.

Variables (a b : list nat).
Hypothesis Pa : Permutation a (seq 0 n).
Hypothesis Pb : Permutation b (seq 0 n).

Lemma pa_len : length a = n. Proof. apply Permutation_length in Pa. rewrite seq_length in Pa. auto. Qed.
Lemma pb_len : length b = n. Proof. apply Permutation_length in Pb. rewrite seq_length in Pb. auto. Qed.
Lemma pa_nd : NoDup a. Proof. eapply Permutation_NoDup; [symmetry; eauto|apply seq_NoDup]. Qed.
Lemma pb_nd : NoDup b. Proof. eapply Permutation_NoDup; [symmetry; eauto|apply seq_NoDup]. Qed.
Lemma pa_in k x : nth_error a k = Some x -> x < n.
Proof. intros H. apply nth_error_In in H. apply (Permutation_in _ Pa), in_seq in H. lia. Qed.
Lemma pb_in k x : nth_error b k = Some x -> x < n.
Proof. intros H. apply nth_error_In in H. apply (Permutation_in _ Pb), in_seq in H. lia. Qed.

Definition estep (x u : nat) : Prop := exists k, i1 <= k <= i2 /\ nth_error b k = Some x /\ nth_error a k = Some u.
Lemma estep_inj x x' u : estep x u -> estep x' u -> x = x'.
Proof.
  intros (k & Hk & Hb & Ha) (k' & Hk' & Hb' & Ha').
  assert (k = k') by (eapply NoDup_nth_error_inj; [apply pa_nd|eauto|eauto]). congruence.
Qed.
Lemma in_seg_dec x : (exists k, i1 <= k <= i2 /\ nth_error b k = Some x) \/ (forall k, i1 <= k <= i2 -> nth_error b k <> Some x).
Proof.
  destruct (in_dec Nat.eq_dec x (firstn (S i2 - i1) (skipn i1 b))) as [H|H].
  - left. apply In_nth_error in H as [k Hk].
    assert (Hl : k < S i2 - i1).
    { pose proof (nth_error_lt _ _ _ Hk) as Hl. rewrite firstn_length in Hl. lia. }
    rewrite firstn_nth_error in Hk by auto. rewrite skipn_nth_error in Hk. exists (i1 + k). split; [lia|auto].
  - right. intros k Hk F. apply H. apply nth_error_In with (n := k - i1).
    rewrite firstn_nth_error by lia. rewrite skipn_nth_error. replace (i1 + (k - i1)) with k by lia. auto.
Qed.

(** the chase ends: it never meets a gene twice *)
Lemma chase_spec p x0 : is_map a b p -> (forall k, i1 <= k <= i2 -> nth_error a k <> Some x0) ->
  forall fuel visited x, NoDup (x :: visited) -> (forall v, In v (x :: visited) -> v < n) ->
  (forall v, In v (x :: visited) -> v = x0 \/ exists w, In w visited /\ estep w v) ->
  n <= length visited + fuel ->
  exists y, pmx_chase fuel p x = Ok y /\ follows a b i1 i2 x y /\ y < n.
Proof.
  intros (Lp & Ms & Mn) Hx0. induction fuel as [|f IH]; intros visited x Hnd Hlt Hcl Hf.
  - exfalso. assert (length (x :: visited) <= length (seq 0 n)).
    { apply NoDup_incl_length; auto. intros v Hv. apply in_seq. specialize (Hlt v Hv). lia. }
    rewrite seq_length in H. simpl in H. lia.
  - cbn [pmx_chase]. assert (Hxn : x < n) by (apply Hlt; left; auto).
    destruct (in_seg_dec x) as [(k & Hk & Hb)|Hno].
    + destruct (nth_error_in_some a k) as [u Hu]; [rewrite pa_len; lia|].
      rewrite (Ms k x u Hk Hb Hu).
      assert (Hst : estep x u) by (exists k; auto).
      destruct (IH (x :: visited) u) as (y & E & F & Hy).
      * constructor; auto. intros Hin. destruct (Hcl u Hin) as [->|(w & Hw & Hsw)].
        -- apply (Hx0 k); auto.
        -- assert (w = x) by (eapply estep_inj; eauto). subst w. inversion Hnd; contradiction.
      * intros v [<-|Hv]; [eapply pa_in; eauto|auto].
      * intros v [<-|Hv].
        -- right. exists x. split; [left; auto|auto].
        -- destruct (Hcl v Hv) as [->|(w & Hw & Hsw)]; auto. right. exists w. split; [right; auto|auto].
      * simpl. lia.
      * exists y. split; auto. split; auto. eapply follows_step; eauto.
    + rewrite (Mn x Hxn Hno). exists x. split; auto. split; auto. apply follows_stop. auto.
Qed.
Lemma chase_ok p x fuel : is_map a b p -> x < n -> (forall k, i1 <= k <= i2 -> nth_error a k <> Some x) -> n <= fuel ->
  exists y, pmx_chase fuel p x = Ok y /\ follows a b i1 i2 x y /\ y < n.
Proof.
  intros Hm Hx Hno Hf. apply (chase_spec p x Hm Hno fuel []); auto.
  - constructor; [auto|constructor].
  - intros v [<-|[]]; auto.
  - intros v [<-|[]]; auto.
Qed.

Inductive ereach : nat -> nat -> Prop :=
| er_refl x : ereach x x
| er_snoc x y z : ereach x y -> estep y z -> ereach x z.
Lemma er_cons x u y : estep x u -> ereach u y -> ereach x y.
Proof. intros H R. induction R; [eapply er_snoc; [apply er_refl|auto]|eapply er_snoc; eauto]. Qed.
Lemma follows_reach x y : follows a b i1 i2 x y -> ereach x y /\ (forall k, i1 <= k <= i2 -> nth_error b k <> Some y).
Proof.
  induction 1 as [x Hx|x k u y Hk Hb Ha _ [IH1 IH2]].
  - split; auto. apply er_refl.
  - split; auto. eapply er_cons; eauto. exists k; auto.
Qed.
Lemma ereach_inj x x' y : ereach x y -> ereach x' y ->
  (forall k, i1 <= k <= i2 -> nth_error a k <> Some x) -> (forall k, i1 <= k <= i2 -> nth_error a k <> Some x') -> x = x'.
Proof.
  intros R. induction R as [x|x y z R IH S]; intros R' Hx Hx'.
  - inversion R' as [|? w ? _ (k & Hk & _ & Ha)]; subst; auto. exfalso. apply (Hx k); auto.
  - inversion R' as [|? w ? R'' S']; subst.
    + destruct S as (k & Hk & _ & Ha). exfalso. apply (Hx' k); auto.
    + assert (w = y) by (eapply estep_inj; eauto). subst w. auto.
Qed.

Lemma outside k x : nth_error a k = Some x -> k < i1 \/ i2 < k -> forall j, i1 <= j <= i2 -> nth_error a j <> Some x.
Proof.
  intros Hk Ho j Hj F. assert (k = j) by (eapply NoDup_nth_error_inj; [apply pa_nd|eauto|eauto]). lia.
Qed.
Lemma follows_lt x y : x < n -> follows a b i1 i2 x y -> y < n.
Proof. intros Hx F. induction F; auto. apply IHF. eapply pa_in; eauto. Qed.

(** a partially mapped child of two permutations is a permutation *)
Lemma pmx_child_perm x : pmx_child i1 i2 a b x -> Permutation x (seq 0 n).
Proof.
  intros (L & Hin & Hout). rewrite pa_len in L.
  assert (Hkey : forall i j v, i <> j -> nth_error x i = Some v -> nth_error x j = Some v -> False).
  { assert (Hmix : forall i j v, i1 <= i <= i2 -> j < i1 \/ i2 < j -> nth_error x i = Some v -> nth_error x j = Some v -> False).
    { intros i j v Hi Hj Hv Hv'. rewrite (Hin i Hi) in Hv.
      pose proof (nth_error_lt _ _ _ Hv') as Hl. destruct (nth_error_in_some a j) as [w Hw]; [rewrite pa_len; lia|].
      destruct (follows_reach _ _ (Hout j w v Hj Hw Hv')) as [_ Hs]. apply (Hs i); auto. }
    intros i j v Hne Hv Hv'.
    destruct (Nat.lt_ge_cases i i1) as [Ci|Ci], (Nat.lt_ge_cases j i1) as [Cj|Cj];
    destruct (Nat.le_gt_cases i i2) as [Di|Di], (Nat.le_gt_cases j i2) as [Dj|Dj];
      try solve [eapply Hmix with (i := i) (j := j); eauto; lia];
      try solve [eapply Hmix with (i := j) (j := i); eauto; lia];
      try solve [rewrite (Hin i) in Hv by lia; rewrite (Hin j) in Hv' by lia; apply Hne;
                 eapply NoDup_nth_error_inj; [apply pb_nd|eauto|eauto]];
      try lia.
    all: pose proof (nth_error_lt _ _ _ Hv) as Hl; pose proof (nth_error_lt _ _ _ Hv') as Hl';
      destruct (nth_error_in_some a i) as [w Hw]; [rewrite pa_len; lia|];
      destruct (nth_error_in_some a j) as [w' Hw']; [rewrite pa_len; lia|];
      assert (Oi : i < i1 \/ i2 < i) by lia; assert (Oj : j < i1 \/ i2 < j) by lia;
      destruct (follows_reach _ _ (Hout i w v Oi Hw Hv)) as [R1 _];
      destruct (follows_reach _ _ (Hout j w' v Oj Hw' Hv')) as [R2 _];
      assert (w = w') by (eapply ereach_inj; [exact R1|exact R2|eapply outside; eauto|eapply outside; eauto]);
      subst w'; apply Hne; eapply NoDup_nth_error_inj; [apply pa_nd|eauto|eauto]. }
  apply NoDup_incl_perm; [|apply seq_NoDup| |rewrite seq_length; lia].
  - apply NoDup_nth_error. intros i j Hi E. destruct (Nat.eq_dec i j); auto. exfalso.
    destruct (nth_error_in_some x i) as [v Hv]; auto. eapply Hkey; eauto. congruence.
  - intros v Hv. apply In_nth_error in Hv as [i Hi]. apply in_seq. split; [lia|]. cbn [Nat.add].
    destruct (Nat.lt_ge_cases i i1); [|destruct (Nat.le_gt_cases i i2)].
    3: { pose proof (nth_error_lt _ _ _ Hi). destruct (nth_error_in_some a i) as [w Hw]; [rewrite pa_len; lia|].
      eapply follows_lt; [eapply pa_in; eauto|]. apply (Hout i w v); auto. }
    + pose proof (nth_error_lt _ _ _ Hi). destruct (nth_error_in_some a i) as [w Hw]; [rewrite pa_len; lia|].
      eapply follows_lt; [eapply pa_in; eauto|]. apply (Hout i w v); auto.
    + rewrite Hin in Hi by lia. eapply pb_in; eauto.
Qed.
End PMX.

Lemma pmx_replace_spec fuel p1 p2 : forall js s1 s2, NoDup js -> length s1 = length s2 ->
  (forall i, In i js -> i < length s1) ->
  (forall i x, In i js -> nth_error s1 i = Some x -> exists y, pmx_chase fuel p1 x = Ok y) ->
  (forall i x, In i js -> nth_error s2 i = Some x -> exists y, pmx_chase fuel p2 x = Ok y) ->
  exists t1 t2, pmx_replace fuel js p1 p2 s1 s2 = Ok (t1, t2) /\ length t1 = length s1 /\ length t2 = length s2 /\
    (forall i, ~ In i js -> nth_error t1 i = nth_error s1 i) /\ (forall i, ~ In i js -> nth_error t2 i = nth_error s2 i) /\
    (forall i x y, In i js -> nth_error s1 i = Some x -> pmx_chase fuel p1 x = Ok y -> nth_error t1 i = Some y) /\
    (forall i x y, In i js -> nth_error s2 i = Some x -> pmx_chase fuel p2 x = Ok y -> nth_error t2 i = Some y).
Proof.
  induction js as [|i js IH]; intros s1 s2 Hnd HL Hlt H1 H2; cbn [pmx_replace].
  - exists s1, s2. split; auto. repeat (split; auto); intros ? ? ? [].
  - inversion Hnd as [|? ? Hni Hnd']; subst. assert (Hil : i < length s1) by (apply Hlt; left; auto).
    destruct (nth_error_in_some s1 i Hil) as [x Hx]. destruct (nth_error_in_some s2 i) as [y Hy]; [lia|].
    destruct (H1 i x) as [x' Ex]; [left; auto|auto|]. destruct (H2 i y) as [y' Ey]; [left; auto|auto|].
    rewrite Hx. cbn [of_opt rbind]. rewrite Ex. cbn [rbind]. rewrite upd_set by auto. cbn [of_opt rbind].
    rewrite Hy. cbn [of_opt rbind]. rewrite Ey. cbn [rbind]. rewrite upd_set by lia. cbn [of_opt rbind].
    assert (Hne : forall j, In j js -> i <> j) by (intros j Hj ->; contradiction).
    destruct (IH (set s1 i x') (set s2 i y')) as (t1 & t2 & E & L1 & L2 & A1 & A2 & B1 & B2).
    + auto.
    + rewrite !set_length; auto.
    + intros j Hj. rewrite set_length. apply Hlt; right; auto.
    + intros j z Hj Hz. rewrite nth_error_set_neq in Hz by (specialize (Hne j Hj); lia). eapply H1; [right; eauto|eauto].
    + intros j z Hj Hz. rewrite nth_error_set_neq in Hz by (specialize (Hne j Hj); lia). eapply H2; [right; eauto|eauto].
    + rewrite set_length in L1, L2. exists t1, t2. split; auto. split; auto. split; auto.
      split; [|split; [|split]].
      * intros j Hj. rewrite A1 by (intros F; apply Hj; right; auto). apply nth_error_set_neq. intros ->. apply Hj; left; auto.
      * intros j Hj. rewrite A2 by (intros F; apply Hj; right; auto). apply nth_error_set_neq. intros ->. apply Hj; left; auto.
      * intros j z w [<-|Hj] Hz Hw.
        -- rewrite A1 by auto. rewrite nth_error_set_eq by auto. congruence.
        -- eapply B1; eauto. rewrite nth_error_set_neq by (specialize (Hne j Hj); lia). auto.
      * intros j z w [<-|Hj] Hz Hw.
        -- rewrite A2 by auto. rewrite nth_error_set_eq by lia. congruence.
        -- eapply B2; eauto. rewrite nth_error_set_neq by (specialize (Hne j Hj); lia). auto.
Qed.

Lemma pmx_exchange_spec p1 p2 : forall js s1 s2, NoDup js -> length s1 = length s2 ->
  (forall i, In i js -> i < length s1) ->
  (forall i x y, In i js -> nth_error s1 i = Some x -> nth_error s2 i = Some y ->
     nth_error p2 x = Some (Some y) /\ nth_error p1 y = Some (Some x)) ->
  exists t1 t2, pmx_exchange js p1 p2 s1 s2 = Some (t1, t2) /\ length t1 = length s1 /\ length t2 = length s2 /\
    (forall i, ~ In i js -> nth_error t1 i = nth_error s1 i) /\ (forall i, ~ In i js -> nth_error t2 i = nth_error s2 i) /\
    (forall i, In i js -> nth_error t1 i = nth_error s2 i) /\
    (forall i, In i js -> nth_error t2 i = nth_error s1 i).
Proof.
  induction js as [|i js IH]; intros s1 s2 Hnd HL Hlt H1; cbn [pmx_exchange].
  - exists s1, s2. split; auto. repeat (split; auto); intros ? [].
  - inversion Hnd as [|? ? Hni Hnd']; subst. assert (Hil : i < length s1) by (apply Hlt; left; auto).
    destruct (nth_error_in_some s1 i Hil) as [x Hx]. destruct (nth_error_in_some s2 i) as [y Hy]; [lia|].
    destruct (H1 i x y) as [Ex Ey]; [left; auto|auto|auto|].
    rewrite Hx. cbn [obind]. rewrite Ex. cbn [obind]. rewrite upd_set by auto. cbn [obind].
    rewrite Hy. cbn [obind]. rewrite Ey. cbn [obind]. rewrite upd_set by lia. cbn [obind].
    assert (Hne : forall j, In j js -> i <> j) by (intros j Hj ->; contradiction).
    destruct (IH (set s1 i y) (set s2 i x)) as (t1 & t2 & E & L1 & L2 & A1 & A2 & B1 & B2).
    + auto.
    + rewrite !set_length; auto.
    + intros j Hj. rewrite set_length. apply Hlt; right; auto.
    + intros j z w Hj Hz Hw. rewrite nth_error_set_neq in Hz, Hw by (specialize (Hne j Hj); lia). eapply H1; [right; eauto|eauto|eauto].
    + rewrite set_length in L1, L2. exists t1, t2. split; auto. split; auto. split; auto.
      split; [|split; [|split]].
      * intros j Hj. rewrite A1 by (intros F; apply Hj; right; auto). apply nth_error_set_neq. intros ->. apply Hj; left; auto.
      * intros j Hj. rewrite A2 by (intros F; apply Hj; right; auto). apply nth_error_set_neq. intros ->. apply Hj; left; auto.
      * intros j [<-|Hj].
        -- rewrite A1 by auto. rewrite nth_error_set_eq by auto. auto.
        -- rewrite B1 by auto. apply nth_error_set_neq. specialize (Hne j Hj); lia.
      * intros j [<-|Hj].
        -- rewrite A2 by auto. rewrite nth_error_set_eq by lia. auto.
        -- rewrite B2 by auto. apply nth_error_set_neq. specialize (Hne j Hj); lia.
Qed.

Lemma pmx_body_spec fuel i1 i2 s1 s2 n : length s1 = n ->
  Permutation s1 (seq 0 n) -> Permutation s2 (seq 0 n) -> i1 <= i2 -> i2 < n -> n <= fuel ->
  exists x1 x2, pmx_body fuel i1 i2 s1 s2 = Ok (x1, x2) /\ pmx_child i1 i2 s1 s2 x1 /\ pmx_child i1 i2 s2 s1 x2.
Proof.
  intros L1 P1 P2 H12 H2n Hf.
  assert (L2 : length s2 = n) by (apply Permutation_length in P2; rewrite seq_length in P2; auto).
  unfold pmx_body. rewrite L1.
  destruct (pmx_maps_spec n i1 i2 H12 H2n s1 s2 P1 P2 (S i2 - i1) i1 (repeat None n) (repeat None n))
    as (p1 & p2 & E & Lp1 & Lp2 & A1 & A2 & B1 & B2); [lia|apply repeat_length|apply repeat_length|].
  rewrite E. cbn [of_opt rbind].
  assert (M1 : is_map n i1 i2 s1 s2 p1).
  { split; [auto|]. split.
    - intros k v u Hk. apply A1. lia.
    - intros v Hv Hno. rewrite B1 by (intros k Hk; apply Hno; lia). apply nth_error_repeat. auto. }
  assert (M2 : is_map n i1 i2 s2 s1 p2).
  { split; [auto|]. split.
    - intros k v u Hk. apply A2. lia.
    - intros v Hv Hno. rewrite B2 by (intros k Hk; apply Hno; lia). apply nth_error_repeat. auto. }
  assert (C1 : forall i x, i < i1 \/ i2 < i -> nth_error s1 i = Some x ->
    exists y, pmx_chase fuel p1 x = Ok y /\ follows s1 s2 i1 i2 x y).
  { intros i x Hi Hx. destruct (chase_ok n i1 i2 H12 H2n s1 s2 P1 p1 x fuel M1) as (y & Ey & Fy & _); eauto.
    - exact (pa_in n i1 i2 H12 H2n s1 P1 i x Hx).
    - exact (outside n i1 i2 H12 H2n s1 P1 i x Hx Hi). }
  assert (C2 : forall i x, i < i1 \/ i2 < i -> nth_error s2 i = Some x ->
    exists y, pmx_chase fuel p2 x = Ok y /\ follows s2 s1 i1 i2 x y).
  { intros i x Hi Hx. destruct (chase_ok n i1 i2 H12 H2n s2 s1 P2 p2 x fuel M2) as (y & Ey & Fy & _); eauto.
    - exact (pa_in n i1 i2 H12 H2n s2 P2 i x Hx).
    - exact (outside n i1 i2 H12 H2n s2 P2 i x Hx Hi). }
  destruct (pmx_replace_spec fuel p1 p2 (seq 0 i1) s1 s2) as (a1 & a2 & Ea & La1 & La2 & Da1 & Da2 & Fa1 & Fa2).
  { apply seq_NoDup. } { lia. } { intros i Hi. apply in_seq in Hi. lia. }
  { intros i x Hi Hx. apply in_seq in Hi. destruct (C1 i x) as (y & Ey & _); eauto. lia. }
  { intros i x Hi Hx. apply in_seq in Hi. destruct (C2 i x) as (y & Ey & _); eauto. lia. }
  rewrite Ea. cbn [rbind].
  destruct (pmx_exchange_spec p1 p2 (seq i1 (S i2 - i1)) a1 a2) as (b1 & b2 & Eb & Lb1 & Lb2 & Db1 & Db2 & Fb1 & Fb2).
  { apply seq_NoDup. } { lia. } { intros i Hi. apply in_seq in Hi. lia. }
  { intros i x y Hi Hx Hy. apply in_seq in Hi. rewrite Da1 in Hx by (rewrite in_seq; lia).
    rewrite Da2 in Hy by (rewrite in_seq; lia). split; [apply (A2 i)|apply (A1 i)]; auto; lia. }
  rewrite Eb. cbn [of_opt rbind].
  assert (Hb1 : forall i, i2 < i -> nth_error b1 i = nth_error s1 i).
  { intros i Hi. rewrite Db1 by (rewrite in_seq; lia). apply Da1. rewrite in_seq; lia. }
  assert (Hb2 : forall i, i2 < i -> nth_error b2 i = nth_error s2 i).
  { intros i Hi. rewrite Db2 by (rewrite in_seq; lia). apply Da2. rewrite in_seq; lia. }
  destruct (pmx_replace_spec fuel p1 p2 (seq (S i2) (n - S i2)) b1 b2) as (c1 & c2 & Ec & Lc1 & Lc2 & Dc1 & Dc2 & Fc1 & Fc2).
  { apply seq_NoDup. } { lia. } { intros i Hi. apply in_seq in Hi. lia. }
  { intros i x Hi Hx. apply in_seq in Hi. rewrite Hb1 in Hx by lia. destruct (C1 i x) as (y & Ey & _); eauto. lia. }
  { intros i x Hi Hx. apply in_seq in Hi. rewrite Hb2 in Hx by lia. destruct (C2 i x) as (y & Ey & _); eauto. lia. }
  exists c1, c2. split; auto. split.
  - split; [lia|]. split.
    + intros i Hi. rewrite Dc1 by (rewrite in_seq; lia). rewrite Fb1 by (rewrite in_seq; lia). apply Da2. rewrite in_seq; lia.
    + intros i v w Hi Hv Hw. destruct (C1 i v Hi Hv) as (y & Ey & Fy).
      enough (nth_error c1 i = Some y) by (assert (w = y) by congruence; subst; auto).
      pose proof (nth_error_lt _ _ _ Hv). destruct Hi as [Hi|Hi].
      * rewrite Dc1 by (rewrite in_seq; lia). rewrite Db1 by (rewrite in_seq; lia). eapply Fa1; eauto. apply in_seq; lia.
      * eapply Fc1; eauto; [apply in_seq; lia|]. rewrite Hb1; auto.
  - split; [lia|]. split.
    + intros i Hi. rewrite Dc2 by (rewrite in_seq; lia). rewrite Fb2 by (rewrite in_seq; lia). apply Da1. rewrite in_seq; lia.
    + intros i v w Hi Hv Hw. destruct (C2 i v Hi Hv) as (y & Ey & Fy).
      enough (nth_error c2 i = Some y) by (assert (w = y) by congruence; subst; auto).
      pose proof (nth_error_lt _ _ _ Hv). destruct Hi as [Hi|Hi].
      * rewrite Dc2 by (rewrite in_seq; lia). rewrite Db2 by (rewrite in_seq; lia). eapply Fa2; eauto. apply in_seq; lia.
      * eapply Fc2; eauto; [apply in_seq; lia|]. rewrite Hb2; auto.
Qed.

Lemma pmx_spec fuel s1 s2 ds x1 x2 ch ds' :
  2 <= length s1 -> Permutation s1 (seq 0 (length s1)) -> Permutation s2 (seq 0 (length s1)) -> length s1 <= fuel ->
  pmx fuel s1 s2 ds = Ok (x1, x2, ch, ds') ->
  ch = true /\ exists i1 i2, i1 < i2 /\ i2 < length s1 /\ pmx_child i1 i2 s1 s2 x1 /\ pmx_child i1 i2 s2 s1 x2 /\
    Permutation x1 (seq 0 (length s1)) /\ Permutation x2 (seq 0 (length s1)).
Proof.
  intros Hn P1 P2 Hf H. unfold pmx in H. destruct (Nat.ltb_spec 1 (length s1)); [|lia].
  apply rbind_ok in H as ([[i j] ds1] & E & H). apply two_indices_spec in E as (Hij & Hi & Hj); [|lia].
  destruct (pmx_body_spec fuel (Nat.min i j) (Nat.max i j) s1 s2 (length s1)) as (y1 & y2 & Eb & C1 & C2); auto; try lia.
  rewrite Eb in H. cbn [rbind] in H. inversion H; subst. split; auto.
  exists (Nat.min i j), (Nat.max i j). split; [lia|]. split; [lia|]. split; auto. split; auto. split.
  - refine (pmx_child_perm (length s1) (Nat.min i j) (Nat.max i j) _ _ s1 s2 P1 P2 x1 C1); lia.
  - refine (pmx_child_perm (length s1) (Nat.min i j) (Nat.max i j) _ _ s2 s1 P2 P1 x2 C2); lia.
Qed.
Lemma pmx_ok fuel s1 s2 ds :
  2 <= length s1 -> Permutation s1 (seq 0 (length s1)) -> Permutation s2 (seq 0 (length s1)) -> length s1 <= fuel ->
  exists more r, pmx fuel s1 s2 (ds ++ more) = Ok r.
Proof.
  intros Hn P1 P2 Hf. destruct (two_indices_unstuck (length s1) ds Hn) as (more & i & j & ds' & E).
  exists more. unfold pmx. destruct (Nat.ltb_spec 1 (length s1)); [|lia]. rewrite E. cbn [rbind].
  apply two_indices_spec in E as (Hij & Hi & Hj); [|lia].
  destruct (pmx_body_spec fuel (Nat.min i j) (Nat.max i j) s1 s2 (length s1)) as (y1 & y2 & Eb & C1 & C2); auto; try lia.
  rewrite Eb. cbn [rbind]. eauto.
Qed.
Lemma init_permutation_spec shuf size start ds :
  (forall d l, Permutation (fst (shuf d l)) l) ->
  Permutation (fst (init_permutation shuf size start ds)) (seq start size).
Proof.
  intros H. unfold init_permutation. eapply Permutation_trans; [apply H|].
  enough (map (fun idx => idx + start) (seq 0 size) = seq start size) as -> by auto.
  apply nth_error_ext. intros k. rewrite nth_error_map'. destruct (Nat.lt_ge_cases k size).
  - rewrite !nth_error_seq' by auto. cbn [option_map]. f_equal. lia.
  - rewrite !nth_error_ge by (rewrite seq_length; auto). auto.
Qed.

Lemma mutations_unstuck {A} (c : list A) k ds : 2 <= length c ->
  (exists more c' ds', swap_mutation k c (ds ++ more) = Ok (c', true, ds')) /\
  (exists more c' ds', shift_mutation c (ds ++ more) = Ok (c', true, ds')) /\
  (exists more c' ds', two_opt_mutation c (ds ++ more) = Ok (c', true, ds')).
Proof.
  intros H. split; [|split].
  - apply swap_mutation_unstuck; auto.
  - apply shift_mutation_ok; auto.
  - apply two_opt_mutation_ok; auto.
Qed.

Lemma two_indices_drawn n i j ds : i < n -> j < n -> i <> j -> two_indices n (i :: j :: ds) = Ok (i, j, ds).
Proof.
  intros Hi Hj Hne. unfold two_indices. cbn [draw rbind draw_other].
  rewrite !Nat.mod_small by auto. destruct (Nat.eqb_spec j i); [congruence|]. cbn [rbind].
  destruct (Nat.eqb_spec i j); [congruence|]. reflexivity.
Qed.
Lemma drawn_segment {A} (c : list A) i j ds : i < length c -> j < length c -> i <> j ->
  (exists c', swap_mutation 1 c (i :: j :: ds) = Ok (c', true, ds) /\ two_exchanged i j c c') /\
  (exists c', shift_mutation c (i :: j :: ds) = Ok (c', true, ds) /\ segment_rotated (Nat.min i j) (Nat.max i j) c c') /\
  (exists c', two_opt_mutation c (i :: j :: ds) = Ok (c', true, ds) /\ segment_reversed (Nat.min i j) (Nat.max i j) c c').
Proof.
  intros Hi Hj Hne. assert (Hc : c <> []) by (destruct c; [simpl in Hi; lia|congruence]).
  pose proof (two_indices_drawn (length c) i j ds Hi Hj Hne) as ET. split; [|split].
  - cbn [swap_mutation]. rewrite ET. cbn [rbind].
    destruct (swap_at_total c i j Hi Hj) as [c' E]. rewrite E. cbn [of_opt rbind]. exists c'. split; auto.
    apply swap_at_two_exchanged; auto.
  - assert (E : exists c', shift_mutation c (i :: j :: ds) = Ok (c', true, ds)).
    { unfold shift_mutation. rewrite ET. cbn [rbind].
      destruct (nth_error_in_some c (Nat.max i j)) as [t Et]; [lia|]. rewrite Et. cbn [of_opt rbind].
      destruct (shift_loop_spec (Nat.max i j - Nat.min i j) (Nat.max i j) c) as (c1 & E1 & L & _); [lia|lia|].
      rewrite E1. cbn [of_opt rbind]. rewrite upd_set by lia. cbn [of_opt rbind]. eauto. }
    destruct E as [c' E]. exists c'. split; auto.
    apply shift_mutation_strong in E as (_ & i' & j' & from & to & E' & -> & -> & _ & _ & R & _); auto.
    rewrite ET in E'. inversion E'; subst. auto.
  - assert (E : exists c', two_opt_mutation c (i :: j :: ds) = Ok (c', true, ds)).
    { unfold two_opt_mutation. rewrite ET. cbn [rbind].
      destruct (two_opt_loop_spec (S ((Nat.max i j - Nat.min i j) / 2)) 0 (Nat.min i j) (Nat.max i j) c) as (c1 & E1 & _); [lia|lia|lia|].
      rewrite E1. cbn [of_opt rbind]. eauto. }
    destruct E as [c' E]. exists c'. split; auto.
    apply two_opt_mutation_strong in E as (_ & i' & j' & from & to & E' & -> & -> & _ & _ & R & _); auto.
    rewrite ET in E'. inversion E'; subst. auto.
Qed.

Lemma order_xover_unsigned_bad :
  ~ (forall c1 c2 ds x1 x2 ds', Permutation c1 (seq 0 (length c1)) -> Permutation c2 (seq 0 (length c1)) ->
     order_xover neg_unsigned c1 c2 ds = Ok (x1, x2, true, ds') -> Permutation x1 (seq 0 (length c1))).
Proof.
  intros H. specialize (H [0;1;2] [2;1;0] [0;1;1] [1;1;2] [1;1;0] []).
  assert (F : Permutation [1;1;2] [0;1;2]).
  { apply H; [apply Permutation_refl|apply (Permutation_sym (Permutation_rev [0;1;2]))|reflexivity]. }
  assert (F2 : In 0 [1;1;2]) by (eapply Permutation_in; [symmetry; exact F|left; auto]).
  simpl in F2. intuition discriminate.
Qed.
Lemma pmx_one_based_ub : exists s1 s2 ds, Permutation s1 (seq 1 (length s1)) /\ Permutation s2 (seq 1 (length s1)) /\
  forall fuel, length s1 <= fuel -> pmx fuel s1 s2 ds = UB.
Proof.
  exists [1;2], [2;1], [0;1]. split; [apply Permutation_refl|]. split; [apply perm_swap|]. intros fuel _. reflexivity.
Qed.

Section Init.
Context {A F : Type}.
Variable gen : A -> list nat -> res (A * list nat).
Let produced x ds (r : A * list nat) := gen x ds = Ok r.
Lemma init_each_spec : forall l ds l' ds', init_each gen l ds = Ok (l', ds') ->
  length l' = length l /\ generated produced fst snd l' ds ds'.
Proof.
  induction l as [|x l IH]; intros ds l' ds' H; cbn [init_each] in H.
  - inversion H; subst. split; auto. constructor.
  - apply rbind_ok in H as ([y ds1] & E1 & H). apply rbind_ok in H as ([r ds2] & E2 & H). inversion H; subst.
    apply IH in E2 as [L G]. split; [simpl; auto|].
    change (y :: r) with (fst (y, ds1) :: r). eapply generated_cons; [exact E1|exact G].
Qed.
Lemma resize_length (d : A) n l : length (resize d n l) = n.
Proof. unfold resize. rewrite app_length, firstn_length, repeat_length. lia. Qed.
Lemma init_fixed_spec d dim (chrom : list A * option F) ds c ds' :
  init_fixed d gen dim chrom ds = Ok (c, ds') ->
  length (fst c) = dim /\ snd c = None /\ generated produced fst snd (fst c) ds ds'.
Proof.
  intros H. unfold init_fixed in H. apply rbind_ok in H as ([l ds1] & E & H). inversion H; subst.
  apply init_each_spec in E as [L G]. rewrite resize_length in L. auto.
Qed.
Lemma init_variable_spec d mn mx (chrom : list A * option F) ds c ds' :
  init_variable d gen mn mx chrom ds = Ok (c, ds') ->
  mn <= length (fst c) < mx /\ snd c = None /\ generated produced fst snd (fst c) (tl ds) ds'.
Proof.
  intros H. unfold init_variable in H. destruct (Nat.leb_spec mx mn); [discriminate|].
  apply rbind_ok in H as ([r ds1] & E1 & H). apply rbind_ok in H as ([l ds2] & E & H). inversion H; subst.
  assert (ds1 = tl ds) as -> by (destruct ds; simpl in E1; [discriminate|inversion E1; auto]).
  apply draw_lt in E1; [|lia].
  apply init_each_spec in E as [L G]. rewrite resize_length in L. cbn [fst snd]. split; [lia|auto].
Qed.
Lemma init_variable_all d mn mx (chrom : list A * option F) n ds : mn <= n < mx ->
  (forall x ds, exists r, gen x ds = Ok r) ->
  exists c ds', init_variable d gen mn mx chrom ((n - mn) :: ds) = Ok (c, ds') /\ length (fst c) = n.
Proof.
  intros Hn Hg. unfold init_variable. destruct (Nat.leb_spec mx mn); [lia|]. cbn [draw rbind].
  rewrite Nat.mod_small by lia. replace (mn + (n - mn)) with n by lia.
  assert (T : forall l ds, exists r, init_each gen l ds = Ok r).
  { induction l as [|x l IH]; intros ds0; cbn [init_each]; [eauto|]. destruct (Hg x ds0) as [[y d1] E]. rewrite E.
    cbn [rbind]. destruct (IH d1) as [[r d2] E2]. rewrite E2. cbn [rbind]. eauto. }
  destruct (T (resize d n (fst chrom)) ds) as [[l ds'] E]. rewrite E. cbn [rbind]. do 2 eexists. split; [reflexivity|].
  apply init_each_spec in E as [L _]. rewrite resize_length in L. auto.
Qed.
Lemma pop_create_spec d n ds pop ds' : pop_create d gen n ds = Ok (pop, ds') ->
  length pop = n /\ generated produced fst snd pop ds ds'.
Proof. intros H. apply init_each_spec in H as [L G]. rewrite repeat_length in L. auto. Qed.
Lemma pop_append_spec d n pop ds :
  (n < length pop -> pop_append d gen n pop ds = Throw) /\
  (forall pop' ds', pop_append d gen n pop ds = Ok (pop', ds') ->
     exists new, pop' = pop ++ new /\ length pop' = n /\ generated produced fst snd new ds ds').
Proof.
  unfold pop_append. destruct (Nat.ltb_spec n (length pop)); [split; [auto|discriminate]|].
  split; [lia|]. intros pop' ds' H1. destruct (Nat.eqb_spec n (length pop)) as [->|Hne].
  - inversion H1; subst. exists []. rewrite app_nil_r. split; auto. split; auto. constructor.
  - apply rbind_ok in H1 as ([l ds1] & E & H1). inversion H1; subst. apply init_each_spec in E as [L G].
    rewrite skipn_length, resize_length in L. exists l. split; auto. split; auto. rewrite app_length. lia.
Qed.
End Init.
