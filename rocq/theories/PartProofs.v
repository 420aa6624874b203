From Coq Require Import List Arith Bool Lia Sorted Permutation.
From Verif Require Import Outcome Lib DomProofs NeighModel PartModel PartSpec.
Import ListNotations.

Lemma insert_in x l y : In y (set_insert x l) <-> y = x \/ In y l.
Proof.
  induction l as [|z l IH]; cbn [set_insert]; [cbn; intuition|]. destruct (Nat.ltb_spec x z); [cbn; intuition|]. destruct (Nat.eqb_spec x z); [subst; cbn; intuition|]. cbn. rewrite IH. intuition.
Qed.
Lemma insert_sorted x l : StronglySorted lt l -> StronglySorted lt (set_insert x l).
Proof.
  induction 1 as [|z l H IH F]; cbn [set_insert]; [repeat constructor|]. destruct (Nat.ltb_spec x z).
  - constructor; [constructor; auto|]. constructor; auto. rewrite Forall_forall in *. intros y Hy. specialize (F y Hy). lia.
  - destruct (Nat.eqb_spec x z); [constructor; auto|]. constructor; auto. rewrite Forall_forall in *. intros y Hy. apply insert_in in Hy as [->|Hy]; auto. lia.
Qed.
Lemma erase_in x l y : In y (set_erase x l) <-> In y l /\ y <> x.
Proof. unfold set_erase. rewrite filter_In. destruct (Nat.eqb_spec y x); cbn; intuition discriminate. Qed.
Lemma erase_sorted x l : StronglySorted lt l -> StronglySorted lt (set_erase x l).
Proof.
  induction 1 as [|z l H IH F]; cbn; [constructor|]. destruct (z =? x); cbn; auto. constructor; auto. rewrite Forall_forall in *. intros y Hy. apply F. apply erase_in in Hy. apply Hy.
Qed.
Lemma sorted_nodup l : StronglySorted lt l -> NoDup l.
Proof. induction 1 as [|z l H IH F]; constructor; auto. intros C. rewrite Forall_forall in F. specialize (F z C). lia. Qed.
Lemma sorted_same : forall l l', StronglySorted lt l -> StronglySorted lt l' -> (forall x, In x l <-> In x l') -> l = l'.
Proof.
  induction l as [|a l IH]; intros [|b l'] H H' E; auto.
  - exfalso. apply (E b). left; auto.
  - exfalso. apply (E a). left; auto.
  - inversion H as [|? ? H1 F1]; subst. inversion H' as [|? ? H2 F2]; subst. rewrite Forall_forall in *.
    assert (a = b). { destruct (proj1 (E a) (or_introl eq_refl)) as [->|C]; auto. destruct (proj2 (E b) (or_introl eq_refl)) as [->|D]; auto. specialize (F1 b D). specialize (F2 a C). lia. }
    subst b. f_equal. apply IH; auto. intros x. split; intros Hx.
    + destruct (proj1 (E x) (or_intror Hx)) as [<-|]; auto. specialize (F1 a Hx). lia.
    + destruct (proj2 (E x) (or_intror Hx)) as [<-|]; auto. specialize (F2 a Hx). lia.
Qed.
Lemma partition_iff n p : partition_of n p <-> StronglySorted lt (selected p) /\ StronglySorted lt (rejected p) /\
  (forall x, x < n <-> In x (selected p) \/ In x (rejected p)) /\ (forall x, In x (selected p) -> ~ In x (rejected p)).
Proof.
  unfold partition_of. split.
  - intros (A & B & P). split; auto. split; auto. split.
    + intros x. rewrite <- in_app_iff. split; intros H.
      * eapply Permutation_in; [apply Permutation_sym, P|]. apply in_seq. lia.
      * eapply Permutation_in in H; [|apply P]. apply in_seq in H. lia.
    + intros x H1 H2. assert (N : NoDup (selected p ++ rejected p)) by (eapply Permutation_NoDup; [apply Permutation_sym, P|apply seq_NoDup]).
      apply in_split in H1 as (u & v & E). rewrite E in N. rewrite <- app_assoc in N. cbn in N. apply NoDup_remove_2 in N. apply N. apply in_or_app. right. apply in_or_app. right. auto.
  - intros (A & B & C & D). split; auto. split; auto. apply NoDup_Permutation; [|apply seq_NoDup|].
    + pose proof (sorted_nodup _ A) as NA. pose proof (sorted_nodup _ B) as NB. revert NA NB D. generalize (selected p) (rejected p). clear. intros l r NA NB D. induction NA; cbn; auto. constructor; [|apply IHNA; intros; apply D; right; auto].
      intros Hx. apply in_app_or in Hx as [|Hx]; auto. apply (D x); [left; auto|auto].
    + intros x. rewrite in_app_iff, <- C, in_seq. lia.
Qed.
Lemma start_ok n : partition_of n (part_start n) /\ selected (part_start n) = [].
Proof.
  split; auto. apply partition_iff. unfold part_start. cbn [selected rejected].
  assert (G : forall m l, StronglySorted lt l -> StronglySorted lt (fold_left (fun l i => set_insert i l) m l) /\ forall x, In x (fold_left (fun l i => set_insert i l) m l) <-> In x m \/ In x l).
  { induction m as [|a m IH]; intros l H; cbn [fold_left]; [split; auto; intros; cbn; intuition|]. destruct (IH (set_insert a l)) as [A B]; [apply insert_sorted; auto|]. split; auto.
    intros x. rewrite B, insert_in. cbn. intuition. }
  destruct (G (seq 0 n) [] ltac:(constructor)) as [A B]. split; [constructor|]. split; auto. split.
  - intros x. rewrite B, in_seq. cbn. intuition; lia.
  - intros x [].
Qed.
Section Move.
Variable n : nat.
Variable p : part.
Hypothesis P : partition_of n p.
Variables a b : nat.
Hypothesis Ha : In a (rejected p).
Hypothesis Hb : In b (selected p).
Lemma ab_ne : a <> b.
Proof. intros E. destruct (proj1 (partition_iff n p) P) as (_ & _ & _ & D). apply (D b); auto. rewrite <- E. auto. Qed.
Lemma move_sel x : In x (selected (part_move (a, b) p)) <-> x = a \/ (In x (selected p) /\ x <> b).
Proof. unfold part_move, select, reject. cbn [selected rejected fst snd]. rewrite insert_in, erase_in. tauto. Qed.
Lemma move_rej x : In x (rejected (part_move (a, b) p)) <-> x = b \/ (In x (rejected p) /\ x <> a).
Proof. unfold part_move, select, reject. cbn [selected rejected fst snd]. rewrite erase_in, insert_in. pose proof ab_ne. intuition; subst; auto. Qed.
Theorem move_ok : partition_of n (part_move (a, b) p) /\ length (selected (part_move (a, b) p)) = length (selected p).
Proof.
  pose proof ab_ne as N. destruct (proj1 (partition_iff n p) P) as (A & B & C & D).
  assert (S1 : StronglySorted lt (selected (part_move (a, b) p))) by (apply insert_sorted, erase_sorted; auto).
  assert (S2 : StronglySorted lt (rejected (part_move (a, b) p))) by (apply erase_sorted, insert_sorted; auto).
  split.
  - apply partition_iff. split; auto. split; auto. split.
    + intros x. rewrite move_sel, move_rej, C. split; [intros [H|H]|].
      * destruct (Nat.eq_dec x b); tauto.
      * destruct (Nat.eq_dec x a); tauto.
      * intros [[->|H]|[->|H]]; tauto.
    + intros x. rewrite move_sel, move_rej. intros [->|[H1 H2]] [H3|[H3 H4]]; try tauto. apply (D x); auto.
  - assert (E : Permutation (selected (part_move (a, b) p)) (a :: set_erase b (selected p))).
    { apply NoDup_Permutation; [apply sorted_nodup; auto| |].
      - constructor; [|apply sorted_nodup, erase_sorted; auto]. intros H. apply erase_in in H as [H _]. apply (D a); auto.
      - intros x. rewrite move_sel. cbn. rewrite erase_in. intuition. }
    assert (E2 : Permutation (selected p) (b :: set_erase b (selected p))).
    { apply NoDup_Permutation; [apply sorted_nodup; auto| |].
      - constructor; [|apply sorted_nodup, erase_sorted; auto]. intros H. apply erase_in in H as [_ H]. auto.
      - intros x. cbn. rewrite erase_in. destruct (Nat.eq_dec x b); [subst; intuition|intuition congruence]. }
    rewrite (Permutation_length E), (Permutation_length E2). auto.
Qed.
Theorem move_back_ok : part_move_back (a, b) (part_move (a, b) p) = p.
Proof.
  pose proof ab_ne as N. destruct (proj1 (partition_iff n p) P) as (A & B & C & D). destruct move_ok as [M _]. destruct (proj1 (partition_iff n _) M) as (A' & B' & _).
  assert (H1 : selected (part_move_back (a, b) (part_move (a, b) p)) = selected p).
  { apply sorted_same; auto; [apply insert_sorted, erase_sorted; auto|]. intros x. unfold part_move_back, select, reject at 1. cbn [selected rejected fst snd]. rewrite insert_in, erase_in, move_sel.
    destruct (Nat.eq_dec x b) as [->|]; [tauto|]. destruct (Nat.eq_dec x a) as [->|]; [|tauto]. split; [tauto|]. intros H. exfalso. apply (D a); auto. }
  assert (H2 : rejected (part_move_back (a, b) (part_move (a, b) p)) = rejected p).
  { apply sorted_same; auto; [apply erase_sorted, insert_sorted; auto|]. intros x. change (In x (set_erase b (set_insert a (rejected (part_move (a, b) p)))) <-> In x (rejected p)). rewrite erase_in, insert_in, move_rej.
    destruct (Nat.eq_dec x a) as [->|]; [tauto|]. destruct (Nat.eq_dec x b) as [->|]; [|tauto]. split; [tauto|]. intros H. exfalso. apply (D b); auto. }
  destruct p as [s r]. cbn [selected rejected] in *. revert H1 H2. generalize (part_move_back (a, b) (part_move (a, b) (Part s r))). intros [s' r'] H1 H2. cbn in *. congruence.
Qed.
End Move.

(** ** exploration *)
Section Explore.
Variable p : part.
Let r := length (rejected p).
Let s := length (selected p).
Definition grid (j : nat) : list (nat * nat) := map (fun i => (i, j)) (seq 0 r).
Definition remaining (i j : nat) : list (nat * nat) := map (fun k => (k, j)) (seq (S i) (r - 1 - i)) ++ flat_map grid (seq (S j) (s - 1 - j)).
Definition value (ij : nat * nat) : nat * nat := (nth (fst ij) (rejected p) 0, nth (snd ij) (selected p) 0).
Lemma part_at_ok ij ds : fst ij < r -> snd ij < s -> part_at p ij ds = Ok (ij, value ij, ds).
Proof.
  intros Hi Hj. unfold part_at, value. rewrite (nth_error_nth' _ 0 Hi), (nth_error_nth' _ 0 Hj). auto.
Qed.
Lemma remaining_nil j : S j = s -> 0 < r -> remaining (r - 1) j = [].
Proof. intros Hj Hr. unfold remaining. replace (r - 1 - (r - 1)) with 0 by lia. replace (s - 1 - j) with 0 by lia. auto. Qed.
Lemma grid_cons j : 0 < r -> grid j = (0, j) :: map (fun k => (k, j)) (seq 1 (r - 1)).
Proof. intros H. unfold grid. replace r with (S (r - 1)) at 1 by lia. auto. Qed.
Lemma part_continue : forall fuel i j ds, i < r -> j < s -> length (remaining i j) <= fuel ->
  exists st, continue (part_nh p) fuel (i, j) ds = Ok (map value (remaining i j), st, ds).
Proof.
  induction fuel as [|f IH]; intros i j ds Hi Hj Hf.
  - assert (E : remaining i j = []) by (destruct (remaining i j); [auto|cbn in Hf; lia]). rewrite E. cbn [continue]. cbn [part_nh i_cont fst snd]. fold r s.
    unfold remaining in E. apply app_eq_nil in E as [E1 E2]. assert (r - 1 - i = 0) by (destruct (r - 1 - i); [auto|discriminate]).
    assert (s - 1 - j = 0). { destruct (s - 1 - j); [auto|]. cbn [seq flat_map] in E2. rewrite grid_cons in E2 by lia. discriminate. }
    destruct (Nat.eqb_spec i (r - 1)); [|lia]. destruct (Nat.eqb_spec j (s - 1)); [|lia]. cbn. eauto.
  - cbn [continue]. cbn [part_nh i_cont i_next fst snd]. fold r s. destruct (Nat.eqb_spec i (r - 1)) as [Ei|Ei].
    + destruct (Nat.eqb_spec j (s - 1)) as [Ej|Ej]; cbn [andb negb].
      * subst i. rewrite remaining_nil by lia. eauto.
      * rewrite part_at_ok by (cbn; lia). cbn [rbind].
        assert (E : remaining i j = (0, S j) :: remaining 0 (S j)).
        { unfold remaining. replace (r - 1 - i) with 0 by lia. replace (s - 1 - j) with (S (s - 1 - S j)) by lia. cbn [seq map app flat_map]. rewrite grid_cons by lia. cbn [app]. rewrite Nat.sub_0_r. auto. }
        rewrite E in *. cbn in Hf. destruct (IH 0 (S j) ds) as [st E']; try lia. cbn [part_nh] in E'. fold r s in E'. rewrite E'. cbn [rbind map]. eauto.
    + cbn [andb negb]. rewrite part_at_ok by (cbn; lia). cbn [rbind].
      assert (E : remaining i j = (S i, j) :: remaining (S i) j) by (unfold remaining; replace (r - 1 - i) with (S (r - 1 - S i)) by lia; auto).
      rewrite E in *. cbn in Hf. destruct (IH (S i) j ds) as [st E']; try lia. cbn [part_nh] in E'. fold r s in E'. rewrite E'. cbn [rbind map]. eauto.
Qed.
Lemma all_cells : 0 < r -> 0 < s -> (0, 0) :: remaining 0 0 = flat_map grid (seq 0 s).
Proof.
  intros Hr Hs. unfold remaining. replace s with (S (s - 1)) at 2 by lia. cbn [seq flat_map]. rewrite grid_cons by auto. rewrite !Nat.sub_0_r. auto.
Qed.
Lemma grid_length l : length (flat_map grid l) = r * length l.
Proof. induction l as [|j l IH]; cbn [flat_map]; [cbn; lia|]. rewrite app_length, IH. unfold grid at 1. rewrite map_length, seq_length. cbn. lia. Qed.
Theorem part_explores st ds : 0 < r -> 0 < s -> NoDup (rejected p) -> NoDup (selected p) ->
  exists out st', explore (part_nh p) (r * s) st ds = Ok (out, st', ds) /\ NoDup out /\ forall a b, In (a, b) out <-> In a (rejected p) /\ In b (selected p).
Proof.
  intros Hr Hs N1 N2. unfold explore. cbn [part_nh i_init]. rewrite part_at_ok by auto. cbn [rbind]. pose proof (all_cells Hr Hs) as A.
  assert (L : length (remaining 0 0) <= r * s). { assert (length ((0, 0) :: remaining 0 0) = r * s) by (rewrite A, grid_length, seq_length; auto). cbn in H. lia. }
  destruct (part_continue (r * s) 0 0 ds Hr Hs L) as [st' E]. cbn [part_nh] in E. rewrite E. cbn [rbind]. exists (value (0, 0) :: map value (remaining 0 0)), st'. split; auto.
  change (value (0, 0) :: map value (remaining 0 0)) with (map value ((0, 0) :: remaining 0 0)). rewrite A.
  assert (Cell : forall ij, In ij (flat_map grid (seq 0 s)) <-> fst ij < r /\ snd ij < s).
  { intros [i j]. rewrite in_flat_map. unfold grid. cbn [fst snd]. split.
    - intros (j' & Hj & Hi). apply in_map_iff in Hi as (i' & Ei & Hi). inversion Ei; subst. apply in_seq in Hi, Hj. lia.
    - intros [Hi Hj]. exists j. split; [apply in_seq; lia|]. apply in_map_iff. exists i. split; auto. apply in_seq. lia. }
  split.
  - assert (ND : NoDup (flat_map grid (seq 0 s))).
    { apply flat_map_NoDup; [apply seq_NoDup| |].
      - intros j _. apply FinFun.Injective_map_NoDup; [intros x y Exy; inversion Exy; auto|apply seq_NoDup].
      - intros u v x _ _ Hu Hv. apply in_map_iff in Hu as (i & <- & _). apply in_map_iff in Hv as (i' & Ei & _). inversion Ei; auto. }
    assert (Inj : forall x y, In x (flat_map grid (seq 0 s)) -> In y (flat_map grid (seq 0 s)) -> value x = value y -> x = y).
    { intros [i j] [i' j'] Hx Hy Ev. apply Cell in Hx, Hy. cbn [fst snd] in *. unfold value in Ev. cbn [fst snd] in Ev. inversion Ev as [[E1 E2]].
      f_equal; [apply (proj1 (NoDup_nth (rejected p) 0) N1); auto; unfold r in *; tauto|apply (proj1 (NoDup_nth (selected p) 0) N2); auto; unfold s in *; tauto]. }
    revert ND Inj. generalize (flat_map grid (seq 0 s)). intros l ND. induction ND as [|x l Hx _ IH]; intros Inj; cbn; constructor.
    + intros H. apply in_map_iff in H as (y & Ey & Hy). apply Hx. rewrite (Inj x y); cbn; auto.
    + apply IH. intros; apply Inj; cbn; auto.
  - intros a b. rewrite in_map_iff. split.
    + intros ([i j] & Ev & H). apply Cell in H. cbn [fst snd] in H. unfold value in Ev. cbn [fst snd] in Ev. inversion Ev. split; apply nth_In; apply H.
    + intros [Ha Hb]. apply (In_nth _ _ 0) in Ha as (i & Hi & <-). apply (In_nth _ _ 0) in Hb as (j & Hj & <-). exists (i, j). split; auto. apply Cell. auto.
Qed.
End Explore.
Lemma read_atoms_end : forall l acc, exists acc', read_atoms (length l) acc l = Ok (acc', []).
Proof. induction l as [|a l IH]; intros acc; cbn; eauto. Qed.
Theorem read_print p q : selected p <> [] -> part_read q (part_print p) = UB.
Proof.
  intros H. unfold part_print, part_read. destruct (read_atoms_end (selected p) (selected q)) as [acc' E]. rewrite E. cbn [rbind]. destruct (selected p); [congruence|]. reflexivity.
Qed.
Theorem select_reject_ok : forall n p a, partition_of n p ->
  (In a (rejected p) -> partition_of n (select a p) /\ (forall x, In x (selected (select a p)) <-> In x (selected p) \/ x = a)) /\
  (In a (selected p) -> partition_of n (reject a p) /\ (forall x, In x (rejected (reject a p)) <-> In x (rejected p) \/ x = a)).
Proof.
  intros n p a P. destruct (proj1 (partition_iff n p) P) as (A & B & C & D). split; intros Ha; (split; [|intros x; cbn; rewrite insert_in; tauto]); apply partition_iff; cbn [select reject selected rejected];
    (split; [auto using insert_sorted, erase_sorted|]); (split; [auto using insert_sorted, erase_sorted|]); split; intros x; rewrite insert_in, erase_in.
  - rewrite C. destruct (Nat.eq_dec x a); [subst; tauto|tauto].
  - specialize (D x). tauto.
  - rewrite C. destruct (Nat.eq_dec x a); [subst; tauto|tauto].
  - specialize (D x). tauto.
Qed.
Theorem has_neighbor_ub : forall n st ds, 0 < n -> part_has_neighbor (part_start n) = true /\ explore (part_nh (part_start n)) (n * 0) st ds = UB.
Proof.
  intros n st ds Hn. destruct (start_ok n) as [P E]. destruct (proj1 (partition_iff n _) P) as (_ & _ & C & _).
  assert (H : In 0 (rejected (part_start n))) by (destruct (proj1 (C 0) Hn) as [F|]; auto; rewrite E in F; contradiction).
  split; [unfold part_has_neighbor; destruct (rejected (part_start n)); [contradiction|auto]|].
  unfold explore. cbn [part_nh i_init part_at]. unfold part_at. rewrite E. cbn [fst snd]. destruct (nth_error (rejected (part_start n)) 0) eqn:F; auto.
Qed.
