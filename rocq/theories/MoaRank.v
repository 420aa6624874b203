(** The fitnesses and diversities assigned by NSGA-II (C149). *)
From Coq Require Import List Arith Lia Bool ZArith QArith Lqa Permutation Sorted.
From Verif Require Import Outcome Lib OrderSpec OrderLemmas BoundsModel BoundsProofs ParetoModel ParetoSpec ParetoProofs RankModel RankSpec RankProofs RankSorted RankTwo RankFinal MoaTwo
  EvalModel EvalSpec DivSpec DivModel DivProofs BreedModel MoaModel MoaSpec.
Import ListNotations.
Close Scope Q_scope.
Open Scope nat_scope.

Lemma inject_lt a b : (a < b)%Z -> (inject_Z a < inject_Z b)%Q.
Proof. intros H. rewrite <- Zlt_Qlt. auto. Qed.
Lemma inject_le a b : (a <= b)%Z -> (inject_Z a <= inject_Z b)%Q.
Proof. intros H. rewrite <- Zle_Qle. auto. Qed.

(** ** fitnesses made from the numbers of the fronts *)
Section Orders.
Variable dirs : list bool.
Context {V : Type}.
Variable vc : V -> list Q.
Notation D := (fun a b : V => dominates dirs (vc b) (vc a)).
Lemma in_pairs (vs : list V) zs v f : length zs = length vs -> In (v, f) (combine (map vc vs) (map inject_Z zs)) ->
  exists i a z, nth_error vs i = Some a /\ nth_error zs i = Some z /\ v = vc a /\ f = inject_Z z.
Proof.
  intros L H. apply in_combine_nth in H as (i & H1 & H2). rewrite nth_error_map in H1, H2.
  destruct (nth_error vs i) as [a|] eqn:Ea; [|discriminate]. destruct (nth_error zs i) as [z|] eqn:Ez; [|discriminate]. exists i, a, z.
  cbn in H1, H2. split; auto. split; auto. split; congruence.
Qed.
Lemma pairs_in (vs : list V) zs i a z : nth_error vs i = Some a -> nth_error zs i = Some z -> In (vc a, inject_Z z) (combine (map vc vs) (map inject_Z zs)).
Proof. intros H1 H2. apply nth_error_In with i. apply combine_nth_error; rewrite nth_error_map; [rewrite H1|rewrite H2]; auto. Qed.
Lemma nth_same_length {X Y} (l : list X) (l' : list Y) i x : length l' = length l -> nth_error l i = Some x -> exists y, nth_error l' i = Some y.
Proof. intros L H. destruct (nth_error l' i) as [y|] eqn:E; eauto. apply nth_error_None in E. apply nth_error_lt in H. lia. Qed.

Lemma fronts_order (vs : list V) zs d : length zs = length vs ->
  (forall i z, nth_error zs i = Some z -> exists r, in_front_number D vs i r /\ z = (Z.of_nat d - Z.of_nat r)%Z) ->
  orders_fronts dirs (combine (map vc vs) (map inject_Z zs)).
Proof.
  intros L H. split.
  - intros v f w g H1 H2 Hd. exists w, g. split; auto. split; [apply equal_vectors_refl|].
    apply in_pairs in H1 as (i & a & z & A1 & A2 & -> & ->); auto. apply in_pairs in H2 as (j & b & y & B1 & B2 & -> & ->); auto.
    destruct (H i z A2) as (r & R1 & ->). destruct (H j y B2) as (s & S1 & ->). apply inject_lt.
    assert (s < r); [|lia]. apply (front_dom D vs i j r s); auto. exists a, b. auto.
  - intros v f H1 N. exists v, f. split; auto. split; [apply equal_vectors_refl|]. intros w g H2.
    apply in_pairs in H1 as (i & a & z & A1 & A2 & -> & ->); auto. apply in_pairs in H2 as (j & b & y & B1 & B2 & -> & ->); auto.
    destruct (H i z A2) as (r & R1 & ->). destruct (H j y B2) as (s & (S0 & _) & ->). apply inject_le.
    assert (r = 1); [|lia]. apply (front_unique D vs i); auto. split; [lia|]. split; [cbn; apply nth_error_lt in A1; auto|].
    cbn. intros (_ & k & Hk & a' & c & C1 & C2 & C3). assert (a' = a) as -> by congruence.
    destruct (nth_same_length vs zs k c L C2) as (u & Hu). apply (N (vc c) (inject_Z u)); auto. eapply pairs_in; eauto.
Qed.
Lemma stacked_order (vs : list V) zs (R : nat -> nat) d : length zs = length vs ->
  (forall i z, nth_error zs i = Some z -> z = (Z.of_nat d - Z.of_nat (R i))%Z /\ 0 < R i) ->
  (forall i a, nth_error vs i = Some a -> 1 < R i -> exists j b, nth_error vs j = Some b /\ S (R j) = R i /\ (dominates dirs (vc b) (vc a) \/ equal_vectors (vc a) (vc b))) ->
  (forall i j a b, nth_error vs i = Some a -> nth_error vs j = Some b -> dominates dirs (vc b) (vc a) -> R j < R i) ->
  orders_fronts dirs (combine (map vc vs) (map inject_Z zs)).
Proof.
  intros L H H1 H2. split.
  - intros v f w g I1 I2 Hd. exists w, g. split; auto. split; [apply equal_vectors_refl|].
    apply in_pairs in I1 as (i & a & z & A1 & A2 & -> & ->); auto. apply in_pairs in I2 as (j & b & y & B1 & B2 & -> & ->); auto.
    destruct (H i z A2) as (-> & _). destruct (H j y B2) as (-> & _). apply inject_lt. specialize (H2 i j a b A1 B1 Hd). lia.
  - intros v f I1 N. apply in_pairs in I1 as (i & a & z & A1 & A2 & -> & ->); auto.
    assert (K : forall k i a, R i = k -> nth_error vs i = Some a -> (forall w g, In (w, g) (combine (map vc vs) (map inject_Z zs)) -> ~ dominates dirs w (vc a)) ->
      exists j b, nth_error vs j = Some b /\ equal_vectors (vc a) (vc b) /\ R j = 1).
    { clear i a z A1 A2 N. induction k as [|k IH]; intros i a Ek Ha N.
      - exfalso. destruct (nth_same_length vs zs i a L Ha) as (u & Hu). destruct (H i u Hu). lia.
      - destruct k as [|k]; [exists i, a; split; auto; split; [apply equal_vectors_refl|auto]|].
        destruct (H1 i a Ha ltac:(lia)) as (j & b & Hb & Ej & [C|C]).
        + exfalso. destruct (nth_same_length vs zs j b L Hb) as (u & Hu). apply (N (vc b) (inject_Z u)); auto. eapply pairs_in; eauto.
        + destruct (IH j b ltac:(lia) Hb) as (j' & b' & B1 & B2 & B3).
          * intros w g Hw C'. apply (N w g Hw). apply (dominates_equal dirs w w (vc b) (vc a)); auto using equal_vectors_refl, equal_vectors_sym.
          * exists j', b'. split; auto. split; auto. eapply equal_vectors_trans; eauto. }
    destruct (K (R i) i a eq_refl A1 N) as (j & b & B1 & B2 & B3). destruct (nth_same_length vs zs j b L B1) as (u & Hu).
    exists (vc b), (inject_Z u). split; [eapply pairs_in; eauto|]. split; auto. intros w g Hw. apply in_pairs in Hw as (q & c & y & _ & Y & -> & ->); auto.
    destruct (H j u Hu) as [-> _]. destruct (H q y Y) as [-> Hq]. apply inject_le. lia.
Qed.
End Orders.

(** ** on the individuals *)
Section Assign.
Context {G : Type}.
Notation I := (indiv G worth).
Variable dirs : list bool.
Variable sort : forall T : Type, (T -> T -> bool) -> list T -> list T.
Hypothesis Hsort : std_sort_ok sort.
Variable inf : Q.

Definition seen (x : I) : G * list Q := (geno x, vec_of x).
Definition rank (x : I) : Q := match fit x with Some v => num (wfit v) | None => 0%Q end.
Definition has_fit (x : I) : Prop := exists v f, fit x = Some v /\ wfit v = Some f.
Definition sized_as (x : I) : Prop := exists v, fit x = Some v /\ length (vec v) = length dirs.

Lemma worths_ok (pop : list I) : Forall sized_as pop -> exists ws, worths pop = Ok ws /\ map (@Some worth) ws = map (@fit G worth) pop /\ map vec ws = map vec_of pop.
Proof.
  induction pop as [|x pop IH]; intros H; [exists []; auto|]. inversion_clear H as [|? ? (v & Hv & _) F]. destruct (IH F) as (ws & E & E1 & E2).
  exists (v :: ws). cbn [worths]. rewrite Hv, E. cbn. rewrite E1, E2, Hv. unfold vec_of. rewrite Hv. auto.
Qed.
Lemma set_fits_ok : forall (pop : list I) fs, length fs = length pop -> Forall sized_as pop ->
  map seen (set_fits pop fs) = map seen pop /\ Forall has_fit (set_fits pop fs) /\
  map (fun x => (vec_of x, rank x)) (set_fits pop fs) = combine (map vec_of pop) (map inject_Z fs).
Proof.
  induction pop as [|x pop IH]; intros [|f fs] L F; cbn in L; try discriminate; [repeat split; constructor|].
  inversion_clear F as [|? ? (v & Hv & Lv) F']. destruct (IH fs ltac:(lia) F') as (I1 & I2 & I3). cbn [set_fits map combine].
  unfold set_fit. rewrite Hv. split; [|split].
  - rewrite I1. unfold seen, vec_of. cbn. rewrite Hv. auto.
  - constructor; auto. eexists _, _. cbn. split; reflexivity.
  - rewrite I3. unfold vec_of, rank. cbn. rewrite Hv. auto.
Qed.
Lemma vec2_pair v : length v = 2 -> vec2 (pair_of v) = v.
Proof. destruct v as [|a [|b [|c v]]]; cbn; try discriminate. auto. Qed.
Lemma vec1_one v : length v = 1 -> [nth 0 v 0%Q] = v.
Proof. destruct v as [|a [|b v]]; cbn; try discriminate. auto. Qed.
Lemma nth_sized (pop : list I) i x : Forall sized_as pop -> nth_error pop i = Some x -> length (vec_of x) = length dirs.
Proof. intros F H. rewrite Forall_forall in F. destruct (F x (nth_error_In _ _ H)) as (v & Hv & Lv). unfold vec_of. rewrite Hv. auto. Qed.

Lemma depth_fitness_ok (pop : list I) : usable dirs -> pop <> [] -> Forall sized_as pop ->
  exists pop', depth_fitness dirs sort pop = Ok pop' /\ Permutation (map seen pop) (map seen pop') /\ Forall has_fit pop' /\
    orders_fronts dirs (map (fun x => (vec_of x, rank x)) pop').
Proof.
  intros [Hn Hu] Hp F. unfold depth_fitness. destruct (worths_ok pop F) as (ws & E & _ & Ev). rewrite E. cbn [rbind]. rewrite Ev.
  assert (Fl : Forall (fun v => length v = length dirs) (map vec_of pop)).
  { apply Forall_forall. intros v Hv. apply in_map_iff in Hv as (x & <- & Hx). apply In_nth_error in Hx as [i Hi]. eapply nth_sized; eauto. }
  assert (Hv : map vec_of pop <> []) by (destruct pop; [tauto|discriminate]).
  destruct dirs as [|m1 [|m2 [|m3 ds]]] eqn:Ed; [tauto|..].
  - (* one objective *)
    destruct (one_fitness sort Hsort (fun x : I => nth 0 (vec_of x) 0%Q) m1 pop Hp) as (d & pop' & zs & E1 & P & L & _ & H). rewrite E1. cbn [rbind].
    assert (F' : Forall sized_as pop') by (eapply Permutation_Forall; eauto).
    destruct (set_fits_ok pop' zs L F') as (S1 & S2 & S3). eexists. split; [reflexivity|]. split; [rewrite S1; apply Permutation_map; auto|]. split; auto.
    rewrite S3. apply (fronts_order [m1] vec_of pop' zs d L). intros i z Hz. destruct (H i z Hz) as (r & Hr & Ez). exists r. split; auto.
    apply (front_number_iff (fun a b : I => dominates [m1] [nth 0 (vec_of b) 0%Q] [nth 0 (vec_of a) 0%Q])); auto. intros a b Ha Hb.
    apply In_nth_error in Ha as [ia Ha]. apply In_nth_error in Hb as [ib Hb]. pose proof (nth_sized _ _ _ F' Ha) as La. pose proof (nth_sized _ _ _ F' Hb) as Lb. rewrite Ed in La, Lb.
    rewrite (vec1_one (vec_of a)), (vec1_one (vec_of b)) by auto. tauto.
  - (* two *)
    assert (m2 = m1) as -> by (symmetry; apply Hu; auto). set (ps := map pair_of (map vec_of pop)).
    destruct (two_any sort Hsort m1 ps (map (fun _ => None) (map vec_of pop))) as (f' & E2 & L & R & R1 & R2 & R3); [unfold ps; rewrite !map_length; auto|].
    set (zs0 := map (fun i => Z.of_nat (R i)) (seq 0 (length ps))).
    assert (Ef : f' = map Some zs0).
    { apply nth_error_ext. intros i. unfold zs0. rewrite !nth_error_map. destruct (lt_dec i (length ps)) as [Hi|Hi].
      - rewrite (proj1 (R1 i Hi)), nth_error_seq' by auto. auto.
      - rewrite (proj2 (nth_error_None f' i)) by lia. rewrite (proj2 (nth_error_None (seq 0 (length ps)) i)) by (rewrite seq_length; lia). auto. }
    assert (Lp : length ps = length pop) by (unfold ps; rewrite !map_length; auto).
    destruct (invert_ok zs0) as (mx & Hmx & _ & Ei). { unfold zs0. destruct ps as [|p ps'] eqn:Eps; [destruct pop; [tauto|discriminate]|discriminate]. }
    unfold zs0 in Hmx. apply in_map_iff in Hmx as (ix & <- & _).
    unfold depth_two. fold ps. rewrite E2. cbn [rbind]. rewrite Ef, Ei. cbn [rbind]. set (zs := map (fun z => (Z.of_nat (R ix) - z)%Z) zs0).
    assert (Lz : length zs = length pop) by (unfold zs, zs0; rewrite !map_length, seq_length; auto). rewrite <- Ed in *.
    destruct (set_fits_ok pop zs Lz F) as (S1 & S2 & S3). eexists. split; [reflexivity|]. split; [rewrite S1; auto|]. split; auto.
    rewrite S3. assert (Lv : forall i v, nth_error (map vec_of pop) i = Some v -> vec2 (pair_of v) = v).
    { intros i v Hi. apply vec2_pair. rewrite Forall_forall in Fl. specialize (Fl v (nth_error_In _ _ Hi)). try rewrite Ed in Fl. auto. }
    assert (Eq : map vec_of pop = map (fun v => v) (map vec_of pop)) by (symmetry; apply map_id). rewrite Eq.
    apply (stacked_order dirs (fun v => v) (map vec_of pop) zs R (R ix)); [rewrite map_length; auto|..].
    + intros i z Hz. unfold zs, zs0 in Hz. rewrite !nth_error_map in Hz. destruct (nth_error (seq 0 (length ps)) i) as [j|] eqn:Ej; [|discriminate].
      pose proof (nth_error_lt _ _ _ Ej) as Hi. rewrite seq_length in Hi. rewrite nth_error_seq' in Ej by auto. cbn in Ej, Hz. inversion Ej; subst j. inversion Hz; subst z. split; auto. apply R1. auto.
    + intros i a Ha Hr. destruct (R2 i (pair_of a)) as (j & b & B1 & B2 & B3); auto. { unfold ps. rewrite nth_error_map, Ha. auto. }
      unfold ps in B1. rewrite nth_error_map in B1. destruct (nth_error (map vec_of pop) j) as [b'|] eqn:Eb; [|discriminate]. cbn in B1. inversion B1; subst b.
      exists j, b'. split; auto. split; auto. rewrite (Lv i a Ha), (Lv j b' Eb) in B3. auto.
    + intros i j a b Ha Hb Hd. apply (R3 i j (pair_of a) (pair_of b)); [unfold ps; rewrite nth_error_map, Ha; auto|unfold ps; rewrite nth_error_map, Hb; auto|].
      rewrite (Lv i a Ha), (Lv j b Hb). auto.
  - (* more *)
    rewrite <- Ed in *.
    assert (Ip : forall a b, In a (map vec_of pop) -> In b (map vec_of pop) -> (pareto 0 dirs a b = true <-> dominates dirs b a)).
    { rewrite Forall_forall in Fl. intros a b Ha Hb. apply pareto_exact; auto. }
    destruct (many_ok (list Q) (pareto 0 dirs) (map vec_of pop) (map (fun _ => None) (map vec_of pop)) Hv) as (d & zs & E3 & L & _ & H).
    + rewrite !map_length. auto.
    + rewrite Forall_forall in Fl. intros a Ha. apply pareto_irrefl; auto. discriminate.
    + rewrite Forall_forall in Fl. intros a b c Ha Hb Hc. apply pareto_trans; auto.
    + rewrite Ed in E3 |- *. rewrite E3. cbn [rbind]. rewrite <- Ed. rewrite map_length in L. destruct (set_fits_ok pop zs L F) as (S1 & S2 & S3).
      eexists. split; [reflexivity|]. split; [rewrite S1; auto|]. split; auto. rewrite S3.
      assert (Eq : map vec_of pop = map (fun v => v) (map vec_of pop)) by (symmetry; apply map_id). rewrite Eq.
      apply (fronts_order dirs (fun v => v) (map vec_of pop) zs d); [rewrite map_length; auto|]. intros i z Hz. destruct (H i z Hz) as (r & Hr & Ez). exists r. split; auto.
      apply (front_number_iff _ _ (map vec_of pop) Ip); auto.
Qed.

(** ** diversities *)
Definition same_but (x x' : I) : Prop := seen x' = seen x /\ rank x' = rank x /\ (has_fit x -> has_fit x').
Definition has_div (x : I) : Prop := exists v d, fit x = Some v /\ wdiv v = Some d.
Lemma fits_ok (pop : list I) ws : map (@Some worth) ws = map (@fit G worth) pop -> Forall has_fit pop -> exists fs, fits ws = Ok fs /\ fs = map rank pop.
Proof.
  revert pop. induction ws as [|v ws IH]; intros [|x pop] E F; cbn in E; try discriminate; [exists []; auto|]. inversion E as [[E1 E2]]. inversion_clear F as [|? ? (v' & f & H1 & H2) F'].
  destruct (IH pop E2 F') as (fs & Ef & ->). assert (v' = v) as -> by congruence. exists (f :: map rank pop). cbn [fits]. rewrite H2, Ef. cbn. split; auto. f_equal. unfold rank. rewrite H1, H2. auto.
Qed.
Lemma set_divs_ok : forall run (pop : list I), (forall k d, In (k, d) run -> k < length pop /\ d <> NotANumber) -> Forall has_fit pop ->
  exists pop', set_divs inf run pop = Ok pop' /\ length pop' = length pop /\
  forall i x, nth_error pop i = Some x -> exists x', nth_error pop' i = Some x' /\ same_but x x' /\ (has_div x \/ In i (map fst run) -> has_div x').
Proof.
  induction run as [|(k, d) run IH]; intros pop H F.
  - exists pop. split; auto. split; auto. intros i x Hx. exists x. split; auto. split; [split; [|split]; auto|]. intros [C|[]]; auto.
  - cbn [set_divs]. destruct (H k d (or_introl eq_refl)) as [Hk Hd]. destruct (nth_error pop k) as [x|] eqn:Ex; [|apply nth_error_None in Ex; lia]. cbn [of_opt rbind].
    rewrite Forall_forall in F. destruct (F x (nth_error_In _ _ Ex)) as (v & f & H1 & H2).
    assert (exists q, set_div inf d x = Ok (Ind (geno x) (Some (Worth (vec v) (wfit v) (Some q))))) as (q & Eq). { unfold set_div. rewrite H1. destruct d; [eexists; reflexivity|eexists; reflexivity|tauto]. }
    rewrite Eq. cbn [rbind]. rewrite upd_set by auto. cbn [of_opt rbind]. set (x1 := Ind (geno x) (Some (Worth (vec v) (wfit v) (Some q)))) in *.
    assert (S1 : same_but x x1). { split; [|split]; [unfold seen, vec_of; cbn; rewrite H1; auto|unfold rank; cbn; rewrite H1; auto|]. intros _. exists (Worth (vec v) (wfit v) (Some q)), f. auto. }
    assert (F1 : Forall has_fit (set pop k x1)).
    { apply Forall_forall. intros y Hy. apply In_nth_error in Hy as [i Hi]. rewrite nth_error_set in Hi. destruct ((i =? k) && (k <? length pop)) eqn:C; [inversion Hi; subst y; apply S1; eexists _, _; eauto|]. apply F. eapply nth_error_In; eauto. }
    destruct (IH (set pop k x1)) as (pop' & E & L & P); auto. { intros k' d' Hin. rewrite set_length. apply H. right. auto. }
    exists pop'. split; auto. rewrite set_length in L. split; auto. intros i y Hy. destruct (Nat.eq_dec i k) as [->|Hne].
    + assert (y = x) as -> by congruence. destruct (P k x1) as (x' & P1 & (A1 & A2 & A3) & P3); [apply nth_error_set_eq; auto|]. exists x'. split; auto. destruct S1 as (B1 & B2 & B3). split; [split; [congruence|split; [congruence|auto]]|].
      intros _. apply P3. left. exists (Worth (vec v) (wfit v) (Some q)), q. auto.
    + destruct (P i y) as (x' & P1 & P2 & P3); [rewrite nth_error_set_neq; auto|]. exists x'. split; auto. split; auto. intros [C|[C|C]]; [auto|cbn in C; lia|apply P3; auto].
Qed.
Lemma crowding_diversity_ok (pop : list I) : Forall sized_as pop -> Forall has_fit pop ->
  exists pop', crowding_diversity dirs sort inf pop = Ok pop' /\ map seen pop' = map seen pop /\ map rank pop' = map rank pop /\ Forall has_fit pop' /\ Forall has_div pop'.
Proof.
  intros F1 F2. unfold crowding_diversity. destruct (worths_ok pop F1) as (ws & E & E1 & _). rewrite E. cbn [rbind]. destruct (fits_ok pop ws E1 F2) as (fs & Ef & _). rewrite Ef. cbn [rbind].
  destruct (front_by_front_ok nat (fun i k => nth i (vec (nth k ws (Worth [] None None))) 0%Q) (fun k => nth k fs 0%Q) sort Hsort (length dirs) (seq 0 (length pop)) (seq_NoDup _ _)) as (run & Er & P & C).
  rewrite Er. cbn [rbind]. destruct (set_divs_ok run pop) as (pop' & Es & L & H); auto.
  - intros k d Hin. assert (Hk : In k (seq 0 (length pop))) by (eapply Permutation_in; [apply Permutation_sym; exact P|apply in_map_iff; exists (k, d); auto]).
    split; [apply in_seq in Hk; lia|]. intros ->. destruct (C (nth k fs 0%Q)) as [C1 C2].
    assert (Hf : In k (filter (fun x => Qeq_bool (nth x fs 0%Q) (nth k fs 0%Q)) (seq 0 (length pop)))) by (apply filter_In; split; auto; apply Qeq_bool_iff; reflexivity).
    destruct (le_lt_dec (length (filter (fun x => Qeq_bool (nth x fs 0%Q) (nth k fs 0%Q)) (seq 0 (length pop)))) 2) as [Hle|Hgt]; [specialize (C1 Hle k _ Hf Hin); discriminate|].
    destruct (C2 Hgt) as (arr & _ & B). destruct (B k _ Hf Hin) as [[_ D]|[_ (gs & q & _ & _ & D & _)]]; discriminate.
  - exists pop'. split; auto. assert (N : forall i x, nth_error pop i = Some x -> exists x', nth_error pop' i = Some x' /\ same_but x x' /\ has_div x').
    { intros i x Hx. destruct (H i x Hx) as (x' & H1 & H2 & H3). exists x'. split; auto. split; auto. apply H3. right. eapply Permutation_in; [exact P|]. apply in_seq. apply nth_error_lt in Hx. lia. }
    assert (M : forall i x', nth_error pop' i = Some x' -> exists x, nth_error pop i = Some x /\ same_but x x' /\ has_div x').
    { intros i x' Hx. destruct (nth_error pop i) as [x|] eqn:Ex; [|apply nth_error_None in Ex; apply nth_error_lt in Hx; lia]. destruct (N i x Ex) as (y & Hy & Hs & Hd). exists x. split; auto. assert (y = x') as -> by congruence. auto. }
    assert (T : forall {B} (f : I -> B), (forall x x', same_but x x' -> f x' = f x) -> map f pop' = map f pop).
    { intros B f Hf. apply nth_error_ext. intros i. rewrite !nth_error_map. destruct (nth_error pop i) as [x|] eqn:Ex.
      - destruct (N i x Ex) as (x' & -> & Hs & _). cbn. f_equal. auto.
      - rewrite (proj2 (nth_error_None pop' i)); auto. apply nth_error_None in Ex. lia. }
    split; [apply T; intros x x' Hs; apply Hs|]. split; [apply T; intros x x' Hs; apply Hs|]. split; apply Forall_forall; intros x' Hx'; apply In_nth_error in Hx' as [i Hi]; destruct (M i x' Hi) as (x & Hx & (_ & _ & Hs) & Hd); auto.
    apply Hs. rewrite Forall_forall in F2. apply F2. eapply nth_error_In; eauto.
Qed.
End Assign.
