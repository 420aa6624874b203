(** Proofs about the migration topologies (C30). *)
From Coq Require Import List Arith Lia Bool QArith Qabs Lqa Sorted ZArith.
From Verif Require Import Outcome Lib OrderLemmas TopoModel TopoSpec.
Import ListNotations.
Open Scope nat_scope.

Definition sq (n : nat) (m : matrix) : Prop := length m = n /\ forall l, In l m -> length l = n.
Definition cell (m : matrix) (i j : nat) : bool := nth j (nth i m []) false.

Lemma sq_line n m i : sq n m -> i < n -> exists l, nth_error m i = Some l /\ length l = n /\ nth i m [] = l.
Proof.
  intros [L H] Hi. destruct (nth_error_in_some m i) as [l E]; [lia|]. exists l. split; auto. split.
  - apply H. eapply nth_error_In; eauto.
  - apply nth_error_nth. auto.
Qed.
Lemma mset_ok n m i j b : sq n m -> i < n -> j < n ->
  exists m', mset m i j b = Ok m' /\ sq n m' /\
  forall a c, cell m' a c = if (a =? i) && (c =? j) then b else cell m a c.
Proof.
  intros Hs Hi Hj. destruct (sq_line n m i Hs Hi) as (l & El & Ll & Nl). unfold mset. rewrite El. cbn [obind].
  rewrite (upd_set l j b) by lia. cbn [obind]. rewrite upd_set by (destruct Hs; lia). cbn [of_opt].
  eexists. split; [reflexivity|]. destruct Hs as [L H]. split.
  - split; [rewrite set_length; auto|]. intros l' Hl'. apply In_nth_error in Hl' as [k Hk]. rewrite nth_error_set in Hk.
    destruct ((k =? i) && (i <? length m)); [|apply H; eapply nth_error_In; eauto].
    assert (l' = set l j b) as -> by congruence. rewrite set_length. auto.
  - intros a c. unfold cell. rewrite (nth_set m i (set l j b) a []).
    destruct (Nat.eqb_spec a i) as [->|Ha]; cbn [andb]; auto.
    replace (i <? length m) with true by (symmetry; apply Nat.ltb_lt; lia).
    rewrite nth_set. replace (j <? length l) with true by (symmetry; apply Nat.ltb_lt; lia). rewrite andb_true_r, Nl. reflexivity.
Qed.
Lemma square_sq n b : sq n (square n b).
Proof. unfold square. split; [apply repeat_length|]. intros l Hl. apply repeat_spec in Hl as ->. apply repeat_length. Qed.
Lemma square_cell n b i j : i < n -> j < n -> cell (square n b) i j = b.
Proof.
  intros Hi Hj. unfold cell, square.
  assert (E : nth i (repeat (repeat b n) n) [] = repeat b n).
  { apply nth_error_nth. revert i Hi. generalize (repeat b n) as l. clear. intros l. generalize n at 1 2. intros m. induction m as [|m IH]; intros [|i] H; cbn; try lia; auto. apply IH. lia. }
  rewrite E. clear E Hi. revert j Hj. induction n as [|n IH]; intros [|j] H; cbn; try lia; auto. apply IH. lia.
Qed.
Lemma graph_of_cells n m edge : sq n m -> (forall i j, i < n -> j < n -> (cell m i j = true <-> edge i j)) -> is_graph n m edge.
Proof.
  intros Hs H. split; [apply Hs|]. intros i line Hl. assert (Hi : i < n) by (apply nth_error_lt in Hl; destruct Hs; lia).
  destruct (sq_line n m i Hs Hi) as (l & El & Ll & Nl). assert (line = l) as -> by congruence. split; auto.
  intros j b Hb. assert (Hj : j < n) by (apply nth_error_lt in Hb; lia). rewrite <- (H i j Hi Hj). unfold cell. rewrite Nl.
  rewrite (nth_error_nth _ _ false Hb). tauto.
Qed.

Lemma for_each_inv {A} (I : list A -> matrix -> Prop) (body : matrix -> A -> res matrix) : forall l pre m, I pre m ->
  (forall p x q m, pre ++ l = p ++ x :: q -> I p m -> exists m', body m x = Ok m' /\ I (p ++ [x]) m') ->
  exists m', for_each l body m = Ok m' /\ I (pre ++ l) m'.
Proof.
  induction l as [|x l IH]; intros pre m Hm Hs; cbn [for_each].
  - rewrite app_nil_r. eauto.
  - destruct (Hs pre x l m eq_refl Hm) as (m1 & E1 & I1). rewrite E1. cbn [rbind].
    destruct (IH (pre ++ [x]) m1 I1) as (m' & E' & I').
    + intros p y q m2 Hp Hi. apply (Hs p y q m2); auto. rewrite <- Hp, <- app_assoc. reflexivity.
    + exists m'. split; auto. rewrite <- app_assoc in I'. exact I'.
Qed.
Lemma for_seq (I : nat -> matrix -> Prop) body : forall len a m, I a m ->
  (forall k m, a <= k < a + len -> I k m -> exists m', body m k = Ok m' /\ I (S k) m') ->
  exists m', for_each (seq a len) body m = Ok m' /\ I (a + len) m'.
Proof.
  induction len as [|len IH]; intros a m Hm Hs; cbn [seq for_each].
  - rewrite Nat.add_0_r. eauto.
  - destruct (Hs a m ltac:(lia) Hm) as (m1 & E1 & I1). rewrite E1. cbn [rbind].
    destruct (IH (S a) m1 I1) as (m' & E' & I').
    + intros k m2 Hk. apply Hs. lia.
    + exists m'. split; auto. replace (a + S len) with (S a + len) by lia. exact I'.
Qed.

Ltac beq := repeat match goal with
  | |- context [?a =? ?b] => destruct (Nat.eqb_spec a b)
  | |- context [?a <? ?b] => destruct (Nat.ltb_spec a b)
  end; cbn [andb orb negb]; subst; auto; try lia.

Lemma complete_ok n : exists m, complete n = Ok m /\ is_graph n m (fun i j => i <> j).
Proof.
  destruct (for_seq (fun k m => sq n m /\ forall a c, a < n -> c < n -> cell m a c = negb ((a =? c) && (a <? k)))
    (fun m i => mset m i i false) n 0 (square n true)) as (m & E & Hs & Hc).
  - split; [apply square_sq|]. intros a c Ha Hc. rewrite square_cell by auto. beq.
  - intros k m Hk [Hs Hc]. destruct (mset_ok n m k k false Hs) as (m' & E & Hs' & Hc'); [lia|lia|].
    exists m'. split; auto. split; auto. intros a c Ha Hcc. rewrite Hc', Hc by auto. beq.
  - exists m. split; auto. apply graph_of_cells; auto. intros i j Hi Hj. rewrite Hc by auto. beq; intuition congruence.
Qed.
Lemma ring_ok n : exists m, ring n = Ok m /\ is_graph n m (fun i j => j = (i + 1) mod n).
Proof.
  destruct (for_seq (fun k m => sq n m /\ forall a c, a < n -> c < n -> cell m a c = ((c =? (a + 1) mod n) && (a <? k)))
    (fun m i => mset m i ((i + 1) mod n) true) n 0 (square n false)) as (m & E & Hs & Hc).
  - split; [apply square_sq|]. intros a c Ha Hc. rewrite square_cell by auto. destruct (a <? 0) eqn:X; [apply Nat.ltb_lt in X; lia|]. rewrite andb_false_r. auto.
  - intros k m Hk [Hs Hc]. assert ((k + 1) mod n < n) by (apply Nat.mod_upper_bound; lia).
    destruct (mset_ok n m k ((k + 1) mod n) true Hs) as (m' & E & Hs' & Hc'); [lia|lia|].
    exists m'. split; auto. split; auto. intros a c Ha Hcc. rewrite Hc', Hc by auto.
    destruct (Nat.eqb_spec a k) as [->|Hn]; cbn [andb].
    + destruct (c =? (k + 1) mod n); cbn [andb]; auto. symmetry. apply Nat.ltb_lt. lia.
    + f_equal. apply eq_true_iff_eq. rewrite !Nat.ltb_lt. lia.
  - exists m. split; auto. apply graph_of_cells; auto. intros i j Hi Hj. rewrite Hc by auto.
    rewrite andb_true_iff, Nat.eqb_eq, Nat.ltb_lt. intuition lia.
Qed.
Lemma star_ok center n : center < n -> exists m, star center n = Ok m /\ is_graph n m (fun i j => j = center /\ i <> center).
Proof.
  intros Hc. unfold star. rewrite upd_set by (rewrite repeat_length; auto). cbn [of_opt rbind].
  set (line := set (repeat false n) center true).
  assert (Hl : length line = n) by (unfold line; rewrite set_length, repeat_length; auto).
  assert (Hs : sq n (repeat line n)).
  { split; [apply repeat_length|]. intros l H. apply repeat_spec in H as ->. auto. }
  destruct (mset_ok n (repeat line n) center center false Hs Hc Hc) as (m & E & Hs' & Hc'). rewrite E.
  exists m. split; auto. apply graph_of_cells; auto. intros i j Hi Hj. rewrite Hc'.
  assert (E1 : cell (repeat line n) i j = (j =? center)).
  { unfold cell. replace (nth i (repeat line n) []) with line.
    - unfold line. rewrite nth_set, repeat_length. replace (center <? n) with true by (symmetry; apply Nat.ltb_lt; auto).
      rewrite andb_true_r. destruct (j =? center); auto. clear. revert j. induction n; intros [|j]; cbn; auto.
    - symmetry. apply nth_error_nth. clear - Hi. revert i Hi. generalize line. intros l. generalize n at 1 2 as k. induction k; intros [|i] H; cbn; try lia; auto. apply IHk. lia. }
  rewrite E1. destruct (Nat.eqb_spec i center), (Nat.eqb_spec j center); cbn [andb]; intuition congruence.
Qed.

(** ** bits *)
Lemma small_bit a d : a < 2 ^ d -> Nat.testbit a d = false.
Proof.
  intros H. destruct a as [|a]; [apply Nat.bits_0|]. apply Nat.bits_above_log2. apply Nat.log2_lt_pow2; lia.
Qed.
Lemma add_pow2_lxor a d : a < 2 ^ d -> a + 2 ^ d = Nat.lxor a (2 ^ d).
Proof.
  intros H. rewrite Nat.add_nocarry_lxor; auto. apply Nat.bits_inj. intros k. rewrite Nat.land_spec, Nat.bits_0, Nat.pow2_bits_eqb.
  destruct (Nat.eqb_spec d k) as [<-|]; [rewrite small_bit; auto|apply andb_false_r].
Qed.
Lemma lxor_small a c d : a < 2 ^ d -> c < 2 ^ d -> Nat.lxor a c < 2 ^ d.
Proof.
  intros Ha Hc. destruct (Nat.eq_dec (Nat.lxor a c) 0) as [->|Hn]; [lia|].
  apply Nat.log2_lt_pow2; [lia|]. eapply Nat.le_lt_trans; [apply Nat.log2_lxor|].
  destruct d as [|d].
  - cbn in *. assert (a = 0) by lia. assert (c = 0) by lia. subst. cbn in Hn. lia.
  - apply Nat.max_lub_lt.
    + destruct (Nat.eq_dec a 0) as [->|]; [cbn; lia|]. apply Nat.log2_lt_pow2; lia.
    + destruct (Nat.eq_dec c 0) as [->|]; [cbn; lia|]. apply Nat.log2_lt_pow2; lia.
Qed.
Lemma apart_high a c d : a < 2 ^ d -> c < 2 ^ d -> one_bit_apart (a + 2 ^ d) (c + 2 ^ d) <-> one_bit_apart a c.
Proof.
  intros Ha Hc. unfold one_bit_apart. rewrite !add_pow2_lxor by auto.
  replace (Nat.lxor (Nat.lxor a (2 ^ d)) (Nat.lxor c (2 ^ d))) with (Nat.lxor a c); [tauto|].
  apply Nat.bits_inj. intros k. rewrite !Nat.lxor_spec. destruct (Nat.testbit a k), (Nat.testbit c k), (Nat.testbit (2 ^ d) k); reflexivity.
Qed.
Lemma apart_mixed a c d : a < 2 ^ d -> c < 2 ^ d -> one_bit_apart (a + 2 ^ d) c <-> a = c.
Proof.
  intros Ha Hc. unfold one_bit_apart. rewrite add_pow2_lxor by auto.
  assert (E : Nat.lxor (Nat.lxor a (2 ^ d)) c = Nat.lxor a c + 2 ^ d).
  { rewrite add_pow2_lxor by (apply lxor_small; auto). apply Nat.bits_inj. intros k. rewrite !Nat.lxor_spec.
    destruct (Nat.testbit a k), (Nat.testbit c k), (Nat.testbit (2 ^ d) k); reflexivity. }
  rewrite E. pose proof (lxor_small a c d Ha Hc) as Hx. split.
  - intros [k Hk]. apply Nat.lxor_eq. destruct (Nat.le_gt_cases k d) as [Hkd|Hkd].
    + assert (2 ^ k <= 2 ^ d) by (apply Nat.pow_le_mono_r; lia). lia.
    + assert (2 ^ S d <= 2 ^ k) by (apply Nat.pow_le_mono_r; lia). cbn in *. lia.
  - intros ->. exists d. rewrite Nat.lxor_nilpotent. lia.
Qed.
Lemma apart_sym a c : one_bit_apart a c <-> one_bit_apart c a.
Proof. unfold one_bit_apart. rewrite Nat.lxor_comm. tauto. Qed.
Lemma apart_zero : ~ one_bit_apart 0 0.
Proof. intros [k Hk]. cbn in Hk. pose proof (Nat.pow_nonzero 2 k). lia. Qed.

Lemma cube_dim_ok n m d : sq n m -> 2 ^ S d <= n -> (forall a c, a < 2 ^ d -> c < 2 ^ d -> (cell m a c = true <-> one_bit_apart a c)) ->
  exists m', cube_dim m (S d) = Ok m' /\ sq n m' /\ forall a c, a < 2 ^ S d -> c < 2 ^ S d -> (cell m' a c = true <-> one_bit_apart a c).
Proof.
  intros Hs Hn Hc. unfold cube_dim. replace (S d - 1) with d by lia. set (s := 2 ^ d) in *.
  assert (E2 : 2 ^ S d = s + s) by (unfold s; cbn; lia). rewrite E2 in *.
  destruct (for_each_inv (fun pre m' => sq n m' /\
      (forall a c, a < s -> c < s -> cell m' a c = cell m a c) /\
      (forall a c, In (a, c) pre -> a < s -> c < s -> cell m' (a + s) (c + s) = cell m a c /\ cell m' (a + s) c = (a =? c) /\ cell m' a (c + s) = (a =? c)))
    (cube_step s) (list_prod (seq 0 s) (seq 0 s)) [] m) as (m' & E & Hs' & H1 & H2).
  - split; auto. split; auto. intros a c [].
  - intros p [i j] q m1 Hp (S1 & A1 & B1). cbn [app] in Hp.
    assert (Hij : In (i, j) (list_prod (seq 0 s) (seq 0 s))) by (rewrite Hp; apply in_or_app; right; left; auto).
    apply in_prod_iff in Hij as [Hi Hj]. apply in_seq in Hi, Hj.
    unfold cube_step. assert (Eg : mget m1 i j = Some (cell m1 i j)).
    { unfold mget. destruct (sq_line n m1 i S1) as (l & El & Ll & Nl); [lia|]. rewrite El. cbn [obind].
      destruct (nth_error_in_some l j) as [b Eb]; [lia|]. rewrite Eb. unfold cell. rewrite Nl. f_equal. symmetry. apply nth_error_nth. auto. }
    rewrite Eg. cbn [of_opt rbind].
    destruct (mset_ok n m1 (i + s) (j + s) (cell m1 i j) S1) as (m2 & E3 & S2 & C2); [lia|lia|]. rewrite E3. cbn [rbind].
    destruct (mset_ok n m2 (i + s) j (i =? j) S2) as (m3 & E4 & S3 & C3); [lia|lia|]. rewrite E4. cbn [rbind].
    destruct (mset_ok n m3 i (j + s) (i =? j) S3) as (m4 & E5 & S4 & C4); [lia|lia|]. rewrite E5.
    exists m4. split; auto. split; auto.
    assert (Cell : forall a c, cell m4 a c = if (a =? i) && (c =? j + s) then (i =? j) else if (a =? i + s) && (c =? j) then (i =? j) else
      if (a =? i + s) && (c =? j + s) then cell m i j else cell m1 a c).
    { intros a c. rewrite C4, C3, C2, (A1 i j) by lia. reflexivity. }
    split.
    + intros a c Ha Hcc. rewrite Cell, <- (A1 a c) by auto.
      destruct (Nat.eqb_spec c (j + s)); [lia|]. destruct (Nat.eqb_spec a (i + s)); [lia|]. rewrite !andb_false_r. cbn. auto.
    + intros a c Hin Ha Hcc. apply in_app_or in Hin as [Hin|[Hin|[]]].
      * destruct (B1 a c Hin Ha Hcc) as (X & Y & Z). rewrite !Cell.
        destruct (Nat.eqb_spec (a + s) i); [lia|]. destruct (Nat.eqb_spec (c + s) j); [lia|].
        destruct (Nat.eqb_spec c (j + s)); [lia|]. destruct (Nat.eqb_spec a (i + s)); [lia|].
        destruct (Nat.eqb_spec (a + s) (i + s)), (Nat.eqb_spec (c + s) (j + s)), (Nat.eqb_spec a i), (Nat.eqb_spec c j); try lia; cbn [andb]; subst; auto.
      * inversion Hin; subst a c. rewrite !Cell. rewrite !Nat.eqb_refl.
        destruct (Nat.eqb_spec (i + s) i); [lia|]. destruct (Nat.eqb_spec (j + s) j); [lia|]. cbn [andb].
        destruct (Nat.eqb_spec j (j + s)); [lia|]. auto.
  - exists m'. split; auto. split; auto. cbn [app] in *.
    assert (B : forall a c, a < s -> c < s -> cell m' (a + s) (c + s) = cell m a c /\ cell m' (a + s) c = (a =? c) /\ cell m' a (c + s) = (a =? c)).
    { intros a c Ha Hcc. apply H2; auto. apply in_prod_iff. split; apply in_seq; lia. }
    intros a c Ha Hcc. destruct (Nat.lt_ge_cases a s) as [Las|Las], (Nat.lt_ge_cases c s) as [Lcs|Lcs].
    + rewrite H1 by auto. auto.
    + replace c with (c - s + s) by lia. destruct (B a (c - s)) as (_ & _ & ->); [lia|lia|].
      unfold s. rewrite apart_sym, apart_mixed, Nat.eqb_eq by (fold s; lia). split; congruence.
    + replace a with (a - s + s) by lia. destruct (B (a - s) c) as (_ & -> & _); [lia|lia|].
      unfold s. rewrite apart_mixed, Nat.eqb_eq by (fold s; lia). tauto.
    + replace a with (a - s + s) by lia. replace c with (c - s + s) by lia. destruct (B (a - s) (c - s)) as (-> & _); [lia|lia|].
      unfold s. rewrite apart_high by (fold s; lia). apply Hc; lia.
Qed.
Lemma pow2_land p : Nat.land (2 ^ p) (2 ^ p - 1) = 0.
Proof.
  apply Nat.bits_inj. intros k. rewrite Nat.land_spec, Nat.bits_0, Nat.pow2_bits_eqb.
  destruct (Nat.eqb_spec p k) as [<-|]; auto. rewrite small_bit; auto. pose proof (Nat.pow_nonzero 2 p). lia.
Qed.
Lemma land_double a b : Nat.land (2 * a) (2 * b + 1) = 2 * Nat.land a b.
Proof.
  apply Nat.bits_inj. intros [|k].
  - rewrite Nat.land_spec, !Nat.testbit_even_0. reflexivity.
  - rewrite Nat.land_spec, Nat.testbit_even_succ, Nat.testbit_odd_succ, Nat.testbit_even_succ, Nat.land_spec by lia. reflexivity.
Qed.
Lemma land_pow2 : forall n, 0 < n -> Nat.land n (n - 1) = 0 -> exists p, n = 2 ^ p.
Proof.
  induction n as [n IH] using lt_wf_ind. intros Hn H. destruct (Nat.Even_or_Odd n) as [[m Hm]|[m Hm]].
  - destruct (IH m) as [p Hp]; [lia|lia| |exists (S p); cbn; lia].
    replace n with (2 * m) in H at 1 by lia. replace (n - 1) with (2 * (m - 1) + 1) in H by lia. rewrite land_double in H. lia.
  - exists 0. cbn. assert (m = 0); [|lia]. replace (n - 1) with (2 * m) in H by lia. replace n with (2 * m + 1) in H by lia.
    rewrite Nat.land_comm, land_double, Nat.land_diag in H. lia.
Qed.
Lemma lowest_bit_pow2 : forall p fuel, p < fuel -> lowest_bit fuel (2 ^ p) = Some p.
Proof.
  induction p as [|p IH]; intros [|fuel] H; try lia; cbn [lowest_bit].
  - reflexivity.
  - replace (2 ^ S p) with (2 * 2 ^ p) by (cbn; lia). rewrite Nat.odd_mul. cbn [Nat.odd Nat.even negb andb].
    replace (2 * 2 ^ p / 2) with (2 ^ p) by (rewrite Nat.mul_comm, Nat.div_mul; auto). rewrite IH by lia. reflexivity.
Qed.
Lemma hypercubic_ok p : exists m, hypercubic (2 ^ p) = Ok m /\ is_graph (2 ^ p) m one_bit_apart.
Proof.
  unfold hypercubic. pose proof (Nat.pow_nonzero 2 p ltac:(lia)) as Hz.
  destruct (Nat.eqb_spec (2 ^ p) 0); [lia|]. rewrite pow2_land. cbn [Nat.eqb negb].
  rewrite lowest_bit_pow2 by (assert (p < 2 ^ p) by (apply Nat.pow_gt_lin_r; lia); lia). cbn [of_opt rbind].
  destruct (mset_ok (2 ^ p) (square (2 ^ p) false) 0 0 false) as (m0 & E0 & S0 & C0); [apply square_sq|lia|lia|]. rewrite E0. cbn [rbind].
  destruct (for_seq (fun k m => sq (2 ^ p) m /\ forall a c, a < 2 ^ (k - 1) -> c < 2 ^ (k - 1) -> (cell m a c = true <-> one_bit_apart a c))
    cube_dim p 1 m0) as (m & E & Hs & Hc).
  - split; auto. intros a c Ha Hcc. cbn in Ha, Hcc. assert (a = 0) as -> by lia. assert (c = 0) as -> by lia.
    rewrite C0. cbn. split; [discriminate|intros X; destruct (apart_zero X)].
  - intros k m Hk [Hs Hc]. replace k with (S (k - 1)) by lia.
    destruct (cube_dim_ok (2 ^ p) m (k - 1) Hs) as (m' & E' & Hs' & Hc'); auto.
    { apply Nat.pow_le_mono_r; lia. }
    exists m'. split; auto.
  - exists m. split; auto. apply graph_of_cells; auto. intros i j Hi Hj. replace p with (1 + p - 1) in Hi, Hj by lia. auto.
Qed.
Lemma hypercubic_other n : (forall p, n <> 2 ^ p) -> hypercubic n = if n =? 0 then UB else Throw.
Proof.
  intros H. unfold hypercubic. destruct (Nat.eqb_spec n 0); auto. destruct (Nat.eqb_spec (Nat.land n (n - 1)) 0) as [E|]; auto.
  destruct (land_pow2 n ltac:(lia) E) as [p Hp]. destruct (H p Hp).
Qed.

(** ** mesh *)
Definition mesh_edge (w a c : nat) : bool :=
  if a =? c then false
  else let i := Nat.min a c in let j := Nat.max a c in ((j - i =? 1) && negb (j mod w =? 0)) || (j - i =? w).
Lemma mesh_edge_sym w a c : mesh_edge w a c = mesh_edge w c a.
Proof. unfold mesh_edge. rewrite (Nat.eqb_sym a c), (Nat.min_comm a c), (Nat.max_comm a c). reflexivity. Qed.
Lemma grid_sym w a c : grid_adjacent w a c <-> grid_adjacent w c a.
Proof. unfold grid_adjacent. intuition. Qed.
Lemma mesh_edge_lt w a c : 0 < w -> a < c -> (mesh_edge w a c = true <-> grid_adjacent w a c).
Proof.
  intros Hw Hac. unfold mesh_edge. destruct (Nat.eqb_spec a c); [lia|]. rewrite Nat.min_l, Nat.max_r by lia. cbv zeta.
  rewrite orb_true_iff, andb_true_iff, negb_true_iff, !Nat.eqb_eq, Nat.eqb_neq. unfold grid_adjacent.
  pose proof (Nat.div_mod a w ltac:(lia)) as Ea. pose proof (Nat.div_mod c w ltac:(lia)) as Ec.
  pose proof (Nat.mod_upper_bound a w ltac:(lia)) as Ua. pose proof (Nat.mod_upper_bound c w ltac:(lia)) as Uc.
  set (qa := a / w) in *. set (ra := a mod w) in *. set (qc := c / w) in *. set (rc := c mod w) in *. clearbody qa ra qc rc. subst a c.
  split.
  - intros [[H1 H2]|H1].
    + left. destruct (Nat.div_mod_unique w qc qa rc (S ra)); [lia| |lia|lia].
      destruct (Nat.eq_dec (S ra) w); [|lia]. exfalso. destruct (Nat.div_mod_unique w qc (S qa) rc 0); lia.
    + right. destruct (Nat.div_mod_unique w qc (S qa) rc ra); lia.
  - intros [[-> [H|H]]|[-> [H|H]]]; subst; nia || (try lia).
Qed.
Lemma mesh_edge_ok w a c : 0 < w -> (mesh_edge w a c = true <-> grid_adjacent w a c).
Proof.
  intros Hw. destruct (Nat.lt_total a c) as [H|[->|H]].
  - apply mesh_edge_lt; auto.
  - unfold mesh_edge. rewrite Nat.eqb_refl. split; [discriminate|]. unfold grid_adjacent. intuition lia.
  - rewrite mesh_edge_sym, grid_sym. apply mesh_edge_lt; auto.
Qed.
Lemma mesh_build n w : 0 < w -> exists m, for_each (seq 0 n) (mesh_line n w) (square n false) = Ok m /\ is_graph n m (grid_adjacent w).
Proof.
  intros Hw.
  destruct (for_seq (fun i m => sq n m /\ forall a c, a < n -> c < n -> (a < i \/ c < i) -> cell m a c = mesh_edge w a c)
    (mesh_line n w) n 0 (square n false)) as (m & E & Hs & Hc).
  - split; [apply square_sq|]. intros; lia.
  - intros i m Hi [Hs Hc]. unfold mesh_line.
    destruct (mset_ok n m i i false Hs) as (m1 & E1 & S1 & C1); [lia|lia|]. rewrite E1. cbn [rbind].
    destruct (for_seq (fun j m' => sq n m' /\ forall a c, a < n -> c < n -> (a < i \/ c < i \/ (a = i /\ c < j) \/ (c = i /\ a < j)) -> cell m' a c = mesh_edge w a c)
      (fun m j => mesh_cell w m i j) (n - S i) (S i) m1) as (m' & E' & Hs' & Hc').
    + split; auto. intros a c Ha Hcc Hx. rewrite C1. destruct (Nat.eqb_spec a i), (Nat.eqb_spec c i); cbn [andb].
      * subst. unfold mesh_edge. rewrite Nat.eqb_refl. auto.
      * apply Hc; auto; lia.
      * apply Hc; auto; lia.
      * apply Hc; auto; lia.
    + intros j m2 Hj [S2 C2]. unfold mesh_cell.
      set (b := ((j - i =? 1) && negb (j mod w =? 0)) || (j - i =? w)).
      assert (Hb : b = mesh_edge w i j).
      { unfold mesh_edge. destruct (Nat.eqb_spec i j); [lia|]. rewrite Nat.min_l, Nat.max_r by lia. reflexivity. }
      destruct (mset_ok n m2 i j b S2) as (m3 & E3 & S3 & C3); [lia|lia|]. rewrite E3. cbn [rbind].
      destruct (mset_ok n m3 j i b S3) as (m4 & E4 & S4 & C4); [lia|lia|]. rewrite E4.
      exists m4. split; auto. split; auto. intros a c Ha Hcc Hx. rewrite C4, C3, Hb.
      destruct (Nat.eqb_spec a j) as [Xa|Xa], (Nat.eqb_spec c i) as [Xc|Xc]; cbn [andb]; [rewrite Xa, Xc; apply mesh_edge_sym|..];
        destruct (Nat.eqb_spec a i) as [Ya|Ya], (Nat.eqb_spec c j) as [Yc|Yc]; cbn [andb]; try lia; try (rewrite Ya, Yc; reflexivity); apply C2; auto; lia.
    + exists m'. split; auto. split; auto. intros a c Ha Hcc Hx. apply Hc'; auto. lia.
  - exists m. split; auto. apply graph_of_cells; auto. intros i j Hi Hj. rewrite Hc by (auto; lia). apply mesh_edge_ok. auto.
Qed.
Lemma in_factorization n h : In h (factorization n) <-> (0 < h /\ h * h <= n /\ Nat.divide h n).
Proof.
  unfold factorization. rewrite !filter_In, in_seq, Nat.eqb_eq, Nat.ltb_lt. split.
  - intros ((H1 & H2) & H3). split; [lia|]. split; [lia|]. exists (n / h). lia.
  - intros (H1 & H2 & [k ->]). rewrite Nat.div_mul by lia. split; [split; [nia|lia]|lia].
Qed.
Lemma factorization_sorted n : StronglySorted lt (factorization n).
Proof.
  unfold factorization. assert (F : forall f l, StronglySorted lt l -> StronglySorted lt (filter f l)).
  { intros f l. induction 1 as [|x l Hs IH Hf]; cbn; [constructor|]. destruct (f x); auto. constructor; auto.
    apply Forall_forall. intros y Hy. apply filter_In in Hy as [Hy _]. rewrite Forall_forall in Hf. auto. }
  apply F, F. generalize 1. induction n as [|n IH]; intros s; cbn; constructor; auto.
  apply Forall_forall. intros y Hy. apply in_seq in Hy. lia.
Qed.
Lemma find_factor_bound l n ratio : forall fuel i k, find_factor fuel l n ratio i = Ok k -> i <= k /\ (k = i \/ k <= length l - 1).
Proof.
  induction fuel as [|fuel IH]; intros i k H; cbn [find_factor] in H; [discriminate|].
  destruct (Nat.ltb_spec i (length l - 1)) as [Hl|Hl].
  - apply rbind_ok in H as (h & _ & H). destruct (Qle_bool ratio (ratio_of n h)).
    + assert (i = k) by congruence. lia.
    + apply IH in H. lia.
  - assert (i = k) by congruence. lia.
Qed.
Lemma mesh_height_ok n ratio h : mesh_height n ratio = Ok h -> 0 < h /\ Nat.divide h n /\ h * h <= n.
Proof.
  unfold mesh_height. destruct (factorization n) as [|x l] eqn:El; [discriminate|]. intros H. rewrite <- El in *.
  apply rbind_ok in H as (i & _ & H). apply rbind_ok in H as (hi & Hi & H). destruct i as [|i]; [discriminate|].
  apply rbind_ok in H as (hp & Hp & H). apply of_opt_ok in Hi, Hp.
  apply nth_error_In in Hi, Hp. apply in_factorization in Hi, Hp.
  match type of H with Ok (if ?b then _ else _) = _ => destruct b end; [assert (hp = h) as -> by congruence|assert (hi = h) as -> by congruence]; tauto.
Qed.
Lemma mesh_prime_ub n ratio : n = 1 \/ prime n -> mesh n ratio = UB.
Proof.
  intros Hn. unfold mesh, mesh_height.
  assert (E : factorization n = [1]).
  { assert (H1 : forall h, In h (factorization n) <-> h = 1).
    { intros h. rewrite in_factorization. split.
      - intros (P & S & D). destruct Hn as [->|[Hn Hd]]; [nia|]. destruct (Hd h D) as [|X]; auto. subst. nia.
      - intros ->. split; auto. split; [destruct Hn as [->|[? ?]]; lia|]. exists n. lia. }
    pose proof (factorization_sorted n) as Hs. destruct (factorization n) as [|x [|y l]].
    - destruct (proj2 (H1 1) eq_refl).
    - f_equal. apply H1. left; auto.
    - inversion Hs as [|? ? _ Hf]; subst. inversion Hf; subst. assert (x = 1) by (apply H1; left; auto). assert (y = 1) by (apply H1; right; left; auto). lia. }
  rewrite E. reflexivity.
Qed.
Lemma mesh_ok n ratio : (exists m h, mesh n ratio = Ok m /\ Nat.divide h n /\ 0 < h /\ is_graph n m (grid_adjacent (n / h))) \/ mesh n ratio = UB.
Proof.
  unfold mesh. destruct (mesh_height n ratio) as [h| | |] eqn:Eh.
  - left. destruct (mesh_height_ok n ratio h Eh) as (Hh & [k Hk] & Hsq). cbn [rbind]. subst n.
    rewrite Nat.div_mul by lia. destruct (mesh_build (k * h) k) as (m & E & G).
    + destruct k; [nia|lia].
    + exists m, h. split; auto. split; [exists k; auto|]. split; auto. rewrite Nat.div_mul by lia. exact G.
  - exfalso. revert Eh. unfold mesh_height. destruct (factorization n) as [|x l] eqn:El; [discriminate|]. rewrite <- El.
    assert (NT : forall f i, find_factor f (factorization n) n ratio i <> Throw).
    { induction f as [|f IH]; intros i; cbn [find_factor]; [discriminate|]. destruct (i <? _); [|discriminate].
      destruct (nth_error _ i); cbn [of_opt rbind]; [|discriminate]. destruct (Qle_bool _ _); [discriminate|apply IH]. }
    intros H. specialize (NT (S (length (factorization n))) 0). destruct (find_factor _ _ _ _ _) as [i| | |]; cbn [rbind] in H; try congruence.
    destruct (nth_error (factorization n) i); cbn [of_opt rbind] in H; try discriminate. destruct i; [discriminate|].
    destruct (nth_error (factorization n) i); cbn [of_opt rbind] in H; discriminate.
  - right. reflexivity.
  - exfalso. revert Eh. unfold mesh_height. destruct (factorization n) as [|x l] eqn:El; [discriminate|]. rewrite <- El.
    assert (NT : forall f i, length (factorization n) - i < f -> find_factor f (factorization n) n ratio i <> NoDraw).
    { induction f as [|f IH]; intros i Hf; cbn [find_factor]; [lia|]. destruct (Nat.ltb_spec i (length (factorization n) - 1)); [|discriminate].
      destruct (nth_error _ i); cbn [of_opt rbind]; [|discriminate]. destruct (Qle_bool _ _); [discriminate|apply IH; lia]. }
    intros H. specialize (NT (S (length (factorization n))) 0 ltac:(lia)). destruct (find_factor _ _ _ _ _) as [i| | |]; cbn [rbind] in H; try congruence.
    destruct (nth_error (factorization n) i); cbn [of_opt rbind] in H; try discriminate. destruct i; [discriminate|].
    destruct (nth_error (factorization n) i); cbn [of_opt rbind] in H; discriminate.
Qed.
Lemma ratio_lt n a b : 0 < n -> ((ratio_of n a < ratio_of n b)%Q <-> a * a < b * b).
Proof.
  intros Hn. unfold ratio_of. assert (Hq : (0 < inject_Z (Z.of_nat n))%Q) by (change 0%Q with (inject_Z 0); rewrite <- Zlt_Qlt; lia).
  rewrite <- !inject_Z_mult, <- !Nat2Z.inj_mul.
  set (x := inject_Z (Z.of_nat (a * a))). set (y := inject_Z (Z.of_nat (b * b))).
  assert (E : (x < y)%Q <-> a * a < b * b) by (unfold x, y; rewrite <- Zlt_Qlt; lia). rewrite <- E.
  unfold Qdiv. pose proof (Qinv_lt_0_compat _ Hq) as Hi. split; intros H.
  - apply Qmult_lt_r in H; auto.
  - apply Qmult_lt_r; auto.
Qed.
Lemma ratio_one n a : 0 < n -> ((ratio_of n a < 1)%Q <-> a * a < n).
Proof.
  intros Hn. unfold ratio_of. assert (Hq : (0 < inject_Z (Z.of_nat n))%Q) by (change 0%Q with (inject_Z 0); rewrite <- Zlt_Qlt; lia).
  rewrite <- !inject_Z_mult, <- !Nat2Z.inj_mul. set (x := inject_Z (Z.of_nat (a * a))).
  assert (E : (x < inject_Z (Z.of_nat n))%Q <-> a * a < n) by (unfold x; rewrite <- Zlt_Qlt; lia). rewrite <- E.
  split; intros H.
  - apply Qlt_shift_div_r in H || idtac. setoid_replace x with (x / inject_Z (Z.of_nat n) * inject_Z (Z.of_nat n))%Q by (field; lra).
    setoid_replace (inject_Z (Z.of_nat n)) with (1 * inject_Z (Z.of_nat n))%Q at 3 by ring. apply Qmult_lt_r; auto.
  - apply Qlt_shift_div_r; auto. rewrite Qmult_1_l. auto.
Qed.
Lemma find_factor_one l n : 0 < n -> StronglySorted lt l -> (forall h, In h l -> h * h <= n) -> l <> [] ->
  forall fuel i, length l - i < fuel -> i <= length l - 1 -> find_factor fuel l n 1 i = Ok (length l - 1).
Proof.
  intros Hn Hs Hb Hl. induction fuel as [|fuel IH]; intros i Hf Hi; cbn [find_factor]; [lia|].
  destruct (Nat.ltb_spec i (length l - 1)) as [H|H]; [|f_equal; lia].
  destruct (nth_error_in_some l i) as [h Hh]; [lia|]. rewrite Hh. cbn [of_opt rbind].
  destruct (nth_error_in_some l (length l - 1)) as [g Hg]; [lia|].
  assert (h < g) by (apply (StronglySorted_nth lt l i (length l - 1)); auto).
  assert (g * g <= n) by (apply Hb; eapply nth_error_In; eauto).
  assert (ratio_of n h < 1)%Q by (apply ratio_one; auto; nia).
  replace (Qle_bool 1 (ratio_of n h)) with false.
  - apply IH; lia.
  - symmetry. apply not_true_iff_false. rewrite Qle_bool_iff. lra.
Qed.
Lemma mesh_square n : 1 < n -> ~ prime n -> exists h m, squarest n h /\ mesh n 1 = Ok m /\ is_graph n m (grid_adjacent (n / h)).
Proof.
  intros Hn Hp. set (l := factorization n).
  assert (Hs : StronglySorted lt l) by apply factorization_sorted.
  assert (H1 : In 1 l) by (apply in_factorization; split; auto; split; [lia|exists n; lia]).
  assert (Hnil : l <> []) by (intros X; rewrite X in H1; destruct H1).
  assert (H2 : exists k, In k l /\ 1 < k).
  { destruct (existsb (fun k => 1 <? k) l) eqn:E.
    - apply existsb_exists in E as (k & Hk & Lk). apply Nat.ltb_lt in Lk. eauto.
    - exfalso. apply Hp. split; auto. intros k [q Hq].
      assert (Hno : forall x, In x l -> x <= 1).
      { intros x Hx. destruct (Nat.le_gt_cases x 1); auto. exfalso.
        assert (existsb (fun k => 1 <? k) l = true) by (apply existsb_exists; exists x; split; auto; apply Nat.ltb_lt; auto). congruence. }
      destruct (Nat.le_gt_cases k q) as [Hkq|Hkq].
      + left. destruct (Nat.eq_dec k 0) as [->|]; [nia|]. assert (k <= 1); [|lia]. apply Hno, in_factorization. split; [lia|]. split; [nia|exists q; auto].
      + right. destruct (Nat.eq_dec q 0) as [->|]; [nia|]. assert (q <= 1); [apply Hno, in_factorization; split; [lia|]; split; [nia|exists k; lia]|]. nia. }
  assert (Hlen : 2 <= length l).
  { destruct H2 as (k & Hk & Lk). destruct l as [|x [|y r]]; cbn; try lia; [destruct H1|]. destruct H1 as [->|[]]; destruct Hk as [Hk|[]]. lia. }
  destruct (nth_error_in_some l (length l - 1)) as [h Hh]; [lia|]. destruct (nth_error_in_some l (length l - 2)) as [g Hg]; [lia|].
  assert (Hgh : g < h) by (apply (StronglySorted_nth lt l (length l - 2) (length l - 1)); auto; lia).
  assert (Fh : 0 < h /\ h * h <= n /\ Nat.divide h n) by (apply in_factorization; eapply nth_error_In; eauto).
  exists h. assert (Hsq : squarest n h).
  { split; [tauto|]. split; [tauto|]. intros k Dk Sk. destruct (Nat.eq_dec k 0) as [->|]; [lia|].
    assert (Hk : In k l) by (apply in_factorization; split; [lia|auto]). apply In_nth_error in Hk as [i Hi].
    destruct (Nat.eq_dec i (length l - 1)) as [->|Hne]; [assert (k = h) by congruence; lia|].
    assert (i < length l) by (eapply nth_error_lt; eauto).
    assert (k < h) by (apply (StronglySorted_nth lt l i (length l - 1)); auto; lia). lia. }
  assert (Eh : mesh_height n 1 = Ok h).
  { unfold mesh_height. fold l. destruct l as [|x r] eqn:El; [congruence|]. rewrite <- El in *.
    rewrite find_factor_one; auto; try lia.
    2:{ intros k Hk. apply in_factorization in Hk. tauto. }
    cbn [rbind]. rewrite Hh. cbn [of_opt rbind]. replace (length l - 1) with (S (length l - 2)) by lia. rewrite Hg. cbn [of_opt rbind].
    assert (R : (ratio_of n g < ratio_of n h)%Q) by (apply ratio_lt; [lia|nia]).
    assert (R1 : (ratio_of n g < 1)%Q) by (apply ratio_one; [lia|nia]).
    replace (Qle_bool _ _) with false; auto. symmetry. apply not_true_iff_false. rewrite Qle_bool_iff.
    rewrite Qabs_neg by lra. lra. }
  unfold mesh. rewrite Eh. cbn [rbind]. destruct Fh as (Hpos & Hle & [k Hk]).
  destruct (mesh_build n (n / h)) as (m & E & G).
  - subst n. rewrite Nat.div_mul by lia. destruct k; [nia|lia].
  - exists m. auto.
Qed.

(** ** topology *)
Lemma neighbors_ok n m edge id l : is_graph n m edge -> id < n -> neighbors m id = Ok l ->
  StronglySorted lt l /\ forall j, In j l <-> j < n /\ edge id j.
Proof.
  intros [L G] Hid H. unfold neighbors in H. destruct m as [|x m0] eqn:Em; [cbn in L; lia|]. rewrite <- Em in *.
  apply rbind_ok in H as (line & El & H). apply of_opt_ok in El.
  assert (l = filter (fun j => nth j line false) (seq 0 (length m))) as -> by congruence. clear H.
  destruct (G id line El) as [Ll Gl]. split.
  - clear. generalize 0. induction (length m) as [|k IH]; intros s; cbn; [constructor|]. destruct (nth s line false); auto. constructor; auto.
    apply Forall_forall. intros y Hy. apply filter_In in Hy as [Hy _]. apply in_seq in Hy. lia.
  - intros j. rewrite filter_In, in_seq, L. split.
    + intros [Hj Hn]. split; [lia|]. destruct (nth_error_in_some line j) as [b Hb]; [lia|]. apply (Gl j b Hb).
      rewrite (nth_error_nth _ _ false Hb) in Hn. auto.
    + intros [Hj He]. split; [lia|]. destruct (nth_error_in_some line j) as [b Hb]; [lia|].
      rewrite (nth_error_nth _ _ false Hb). apply (Gl j b Hb). auto.
Qed.
Lemma graph_cells n m edge : is_graph n m edge -> sq n m /\ forall i j, i < n -> j < n -> (cell m i j = true <-> edge i j).
Proof.
  intros [L G]. split.
  - split; auto. intros l Hl. apply In_nth_error in Hl as [i Hi]. apply (G i l Hi).
  - intros i j Hi Hj. destruct (nth_error_in_some m i) as [line El]; [lia|]. destruct (G i line El) as [Ll Gl].
    destruct (nth_error_in_some line j) as [b Hb]; [lia|]. rewrite <- (Gl j b Hb). unfold cell.
    rewrite (nth_error_nth _ _ [] El), (nth_error_nth _ _ false Hb). tauto.
Qed.
Lemma isolate_ok n m edge id : is_graph n m edge -> id < n ->
  exists m', isolate m id = Ok m' /\ is_graph n m' (fun i j => i <> id /\ j <> id /\ edge i j).
Proof.
  intros HG Hid. destruct (graph_cells n m edge HG) as [Hs Hc]. unfold isolate. replace (length m) with n by (destruct Hs; auto).
  destruct (for_seq (fun k m' => sq n m' /\ forall a c, a < n -> c < n -> cell m' a c = if ((a =? id) && (c <? k)) || ((c =? id) && (a <? k)) then false else cell m a c)
    (fun m i => let! m1 := mset m id i false in mset m1 i id false) n 0 m) as (m' & E & Hs' & Hc').
  - split; auto. intros a c Ha Hcc. replace (c <? 0) with false by auto. replace (a <? 0) with false by auto. rewrite !andb_false_r. auto.
  - intros k m1 Hk [S1 C1]. destruct (mset_ok n m1 id k false S1) as (m2 & E2 & S2 & C2); [lia|lia|]. rewrite E2. cbn [rbind].
    destruct (mset_ok n m2 k id false S2) as (m3 & E3 & S3 & C3); [lia|lia|]. rewrite E3. exists m3. split; auto. split; auto.
    intros a c Ha Hcc. rewrite C3, C2, C1 by auto.
    destruct (Nat.eqb_spec a k), (Nat.eqb_spec c id), (Nat.eqb_spec a id), (Nat.eqb_spec c k), (Nat.ltb_spec c k), (Nat.ltb_spec a k), (Nat.ltb_spec c (S k)), (Nat.ltb_spec a (S k)); cbn [andb orb]; auto; lia.
  - exists m'. split; auto. apply graph_of_cells; auto. intros i j Hi Hj. rewrite Hc' by auto. rewrite <- Hc by auto.
    destruct (Nat.eqb_spec i id), (Nat.eqb_spec j id), (Nat.ltb_spec i (0 + n)), (Nat.ltb_spec j (0 + n)); cbn [andb orb]; try lia; intuition congruence.
Qed.

Lemma neighbors_total n m edge id : is_graph n m edge -> id < n ->
  exists l, neighbors m id = Ok l /\ StronglySorted lt l /\ forall j, In j l <-> j < n /\ edge id j.
Proof.
  intros HG Hid. assert (exists l, neighbors m id = Ok l) as [l Hl].
  { unfold neighbors. destruct HG as [L _]. destruct m as [|x m0] eqn:Em; [eauto|]. rewrite <- Em in *.
    destruct (nth_error_in_some m id) as [line ->]; [lia|]. cbn. eauto. }
  exists l. split; auto. exact (neighbors_ok n m edge id l HG Hid Hl).
Qed.
