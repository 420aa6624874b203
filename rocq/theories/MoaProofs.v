(** Runs of NSGA-II and of moeoEasyEA (C149). *)
From Coq Require Import List Arith Lia Bool ZArith QArith Lqa Permutation Sorted.
From Verif Require Import Outcome Lib OrderSpec OrderLemmas BoundsModel BoundsProofs ParetoModel ParetoSpec ParetoProofs ReplModel ReplProofs BreedModel AlgoSpec MoaModel MoaSpec MoaRank.
Import ListNotations.
Close Scope Q_scope.
Open Scope nat_scope.

Section Elitist.
Context {G W : Type}.
Notation I := (indiv G worth).
Variable value : G -> list Q.
Variable dirs : list bool.
Variable sort : forall T : Type, (T -> T -> bool) -> list T -> list T.
Hypothesis Hsort : std_sort_ok sort.
Variable inf : Q.
Hypothesis Hsize : forall g, length (value g) = length dirs.
Hypothesis Hdirs : usable dirs.

Lemma measured_sized x : measured value x -> sized_as dirs x.
Proof. intros (v & H1 & H2). exists v. rewrite H2, Hsize. auto. Qed.
Lemma measured_vec x : measured value x -> vec_of x = value (geno x).
Proof. intros (v & H1 & H2). unfold vec_of. rewrite H1. auto. Qed.
Lemma better_rank (a b : I) : (rank a < rank b)%Q -> better a b = true.
Proof.
  intros H. assert (E : forall x : I, mfit (shown x) = rank x) by (intros x; unfold shown, rank; destruct (fit x); auto).
  unfold better, fit_then_div. rewrite !E. destruct (Qeq_bool (rank a) (rank b)) eqn:C; [apply Qeq_bool_iff in C; lra|].
  unfold qlt. apply negb_true_iff, not_true_iff_false. rewrite Qle_bool_iff. lra.
Qed.
Lemma better_swo : strict_weak_order (fun a b : I => better b a).
Proof.
  destruct (fit_then_div_swo unit) as (I1 & T1 & N1). split; [|split].
  - intros a. apply I1.
  - intros a b c H1 H2. unfold better in *. eapply T1; eauto.
  - intros a b c H1 H2. unfold better in *. eapply N1; eauto.
Qed.

Lemma in_pair (l : list I) v f : In (v, f) (map (fun x => (vec_of x, rank x)) l) -> exists x, In x l /\ vec_of x = v /\ rank x = f.
Proof. intros H. apply in_map_iff in H as (x & E & Hx). inversion E; subst. eauto. Qed.
Lemma pairs_eq (l l' : list I) : map seen l' = map seen l -> map rank l' = map rank l ->
  map (fun x => (vec_of x, rank x)) l' = map (fun x => (vec_of x, rank x)) l.
Proof.
  revert l. induction l' as [|x' l' IH]; intros [|x l] E1 E2; cbn in *; try discriminate; auto. inversion E1. inversion E2. f_equal; auto.
Qed.

Lemma keep_best_ok (par off : list I) (w : W) : Forall (measured value) (par ++ off) -> par ++ off <> [] ->
  exists next, keep_best dirs sort inf par off w = Ok (next, [], w) /\ elitist_step value dirs par off next /\ Forall (comparable value) next.
Proof.
  intros F Hn. unfold keep_best. set (all := par ++ off) in *.
  assert (Fs : Forall (sized_as dirs) all) by (eapply Forall_impl; [|exact F]; apply measured_sized).
  destruct (depth_fitness_ok dirs sort Hsort all Hdirs Hn Fs) as (m0 & E0 & P0 & H0 & O0). rewrite E0. cbn [rbind].
  assert (Fv : forall x, In x m0 -> vec_of x = value (geno x) /\ length (vec_of x) = length dirs).
  { intros x Hx. assert (Hin : In (seen x) (map seen all)) by (eapply Permutation_in; [apply Permutation_sym; exact P0|apply in_map; auto]).
    apply in_map_iff in Hin as (y & Ey & Hy). rewrite Forall_forall in F. pose proof (measured_vec y (F y Hy)) as V. pose proof (f_equal fst Ey) as A1; pose proof (f_equal snd Ey) as A2; cbn [seen fst snd] in A1, A2. rewrite <- A1. split; [congruence|]. rewrite <- A2, V. apply Hsize. }
  assert (Fs0 : Forall (sized_as dirs) m0).
  { apply Forall_forall. intros x Hx. rewrite Forall_forall in H0. destruct (H0 x Hx) as (v & f & H1 & _). exists v. split; auto. destruct (Fv x Hx) as [_ L]. unfold vec_of in L. rewrite H1 in L. auto. }
  destruct (crowding_diversity_ok dirs sort Hsort inf m0 Fs0 H0) as (m & E1 & S1 & R1 & H1 & D1). rewrite E1. cbn [rbind].
  assert (Pm : Permutation (map seen all) (map seen m)) by (rewrite S1; auto).
  assert (Om : orders_fronts dirs (map (fun x => (vec_of x, rank x)) m)) by (rewrite (pairs_eq m0 m); auto).
  assert (Vm : forall x, In x m -> vec_of x = value (geno x)).
  { intros x Hx. assert (Hin : In (seen x) (map seen m0)) by (rewrite <- S1; apply in_map; auto). apply in_map_iff in Hin as (y & Ey & Hy). destruct (Fv y Hy) as [V _]. pose proof (f_equal fst Ey) as A1; pose proof (f_equal snd Ey) as A2; cbn [seen fst snd] in A1, A2. rewrite <- A1, <- A2. auto. }
  assert (Fw : forallb has_worth m = true).
  { apply forallb_forall. intros x Hx. rewrite Forall_forall in H1, D1. destruct (H1 x Hx) as (v & f & A1 & A2). destruct (D1 x Hx) as (v' & d & B1 & B2). assert (v' = v) as -> by congruence.
    unfold has_worth. rewrite A1. destruct v as [vv vf vd]; cbn in *. subst. auto. }
  rewrite Fw. eexists. split; [reflexivity|].
  assert (Lm : length m = length all) by (apply Permutation_length in Pm; rewrite !map_length in Pm; auto).
  pose proof (Hsort I (fun a b => better b a) m better_swo) as Hs.
  assert (Hk : length par <= length m) by (rewrite Lm; unfold all; rewrite app_length; lia).
  destruct (sorted_best_n better m _ (length par) Hs Hk) as (Lk & dropped & Pd & Best). set (next := firstn (length par) (sort I (fun a b => better b a) m)) in *.
  assert (Hnm : forall z, In z next -> In z m) by (intros z Hz; eapply Permutation_in; [apply Permutation_sym; exact Pd|apply in_app_iff; auto]).
  assert (Hm : forall z, In z m -> In z next \/ In z dropped) by (intros z Hz; apply in_app_iff; eapply Permutation_in; [exact Pd|auto]).
  assert (To : forall x, In x all -> exists z, In z m /\ geno z = geno x).
  { intros x Hx. assert (Hin : In (seen x) (map seen m)) by (eapply Permutation_in; [exact Pm|apply in_map; auto]). apply in_map_iff in Hin as (z & Ez & Hz). exists z. split; auto. unfold seen in Ez. inversion Ez. auto. }
  assert (From : forall z, In z m -> exists x, In x all /\ geno z = geno x).
  { intros z Hz. assert (Hin : In (seen z) (map seen all)) by (eapply Permutation_in; [apply Permutation_sym; exact Pm|apply in_map; auto]). apply in_map_iff in Hin as (x & Ex & Hx). exists x. split; auto. unfold seen in Ex. inversion Ex. auto. }
  assert (Pair : forall z, In z m -> In (value (geno z), rank z) (map (fun x => (vec_of x, rank x)) m)) by (intros z Hz; rewrite <- Vm by auto; apply in_map_iff; exists z; auto).
  destruct Om as [O1 O2]. split.
  - split; [auto|]. split; [|split].
    + exists (map (@geno G worth) dropped). rewrite <- map_app. etransitivity; [|apply Permutation_map; exact Pd].
      assert (Eg : forall l : list I, map (@geno G worth) l = map fst (map seen l)) by (intros l; rewrite map_map; auto). fold all. rewrite !Eg. apply Permutation_map. auto.
    + intros x y Hx Hy Hb. destruct (To x Hx) as (x' & Hx' & Ex). destruct (O1 _ _ _ _ (Pair y (Hnm y Hy)) (Pair x' Hx')) as (w' & g' & Hw & He & Hlt); [unfold beats in Hb; rewrite Ex; auto|].
      apply in_pair in Hw as (z & Hz & Ev & Er). exists z. rewrite Ex in He. rewrite <- Ev, Vm in He by auto. split; auto.
      destruct (Hm z Hz) as [|Hd]; auto. exfalso.  specialize (Best y z Hy Hd). rewrite better_rank in Best; [discriminate|]. rewrite Er. auto.
    + intros x Hx Hnd. destruct (To x Hx) as (x' & Hx' & Ex). destruct (O2 _ _ (Pair x' Hx')) as (v' & f' & Hv & He & Hmax).
      { intros v g Hin. apply in_pair in Hin as (y & Hy & Ey & _). destruct (From y Hy) as (y0 & Hy0 & Eg). rewrite Ex. intros D. apply (Hnd y0 Hy0). unfold beats. rewrite <- Eg, <- Vm by auto. rewrite Ey. auto. }
      apply in_pair in Hv as (z & Hz & Ev & Er). rewrite Ex in He. rewrite <- Ev, Vm in He by auto. destruct (Hm z Hz) as [|Hd]; [left; eauto|]. right.
      intros y k Hy Hk' D. destruct (To y Hy) as (y' & Hy' & Ey). unfold beats in D. rewrite <- Ey in D. destruct (O1 _ _ _ _ (Pair k (Hnm k Hk')) (Pair y' Hy') D) as (w' & g' & Hw & _ & Hlt).
      specialize (Hmax _ _ Hw). specialize (Best k z Hk' Hd). rewrite better_rank in Best; [discriminate|]. rewrite Er. lra.
  - apply Forall_forall. intros x Hx. pose proof (Hnm x Hx) as Hxm. rewrite Forall_forall in H1, D1. destruct (H1 x Hxm) as (v & f & A1 & A2). destruct (D1 x Hxm) as (v' & d & B1 & B2). assert (v' = v) as -> by congruence.
    exists v, f, d. split; auto. split; auto. pose proof (Vm x Hxm) as V. unfold vec_of in V. rewrite A1 in V. auto.
Qed.

Lemma comparable_measured x : comparable value x -> measured value x.
Proof. intros (v & f & d & H1 & H2 & _). exists v. auto. Qed.

(** ** the runs *)
Variable pop_eval : list I -> list I -> W -> res (list I * list I * W).
Variable breed : list I -> list I -> W -> res (list I * W).
Variable cont : list I -> W -> res (bool * W).
Hypothesis Hpe : measures value pop_eval.

Definition gen_ok (g : generation I) : Prop :=
  Forall (measured value) (g_parents g) /\ Forall (measured value) (g_offspring g) /\
  elitist_step value dirs (g_parents g) (g_offspring g) (g_next g) /\ Forall (comparable value) (g_next g).

Section Partial.
Hypothesis Hbr : breeds value (comparable value) breed.
Lemma nsga_loop_ok : forall fuel pop w fin h w', Forall (comparable value) pop -> pop <> [] ->
  nsga_loop pop_eval breed (keep_best dirs sort inf) cont fuel pop [] w = Ok (fin, h, w') ->
  follows (map (@geno G worth) pop) h /\ Forall gen_ok h /\ (exists h0 g, h = h0 ++ [g] /\ g_next g = fin) /\ stops_at_first_no cont (map g_next h).
Proof.
  induction fuel as [|fuel IH]; intros pop w fin h w' F Hn H; cbn [nsga_loop] in H; [discriminate|].
  apply rbind_ok in H as ([off1 w1] & E1 & H). apply rbind_ok in H as ([[pop2 off2] w2] & E2 & H).
  assert (Fm : Forall (measured value) pop) by (eapply Forall_impl; [|exact F]; apply comparable_measured).
  destruct (Hpe _ _ _ _ _ _ Fm (Hbr _ _ _ _ F E1) E2) as (M1 & M2 & G1 & _).
  assert (Hn2 : pop2 ++ off2 <> []) by (destruct pop2; [destruct pop; [tauto|discriminate]|discriminate]).
  destruct (keep_best_ok pop2 off2 w2) as (next & E3 & St & Fc); auto; [apply Forall_app; auto|]. rewrite E3 in H. cbn [rbind] in H.
  apply rbind_ok in H as ([b w4] & E4 & H).
  assert (Gk : gen_ok (Gen pop2 off2 next)) by (split; [|split; [|split]]; auto). destruct b.
  - apply rbind_ok in H as ([[r hh] w5] & E5 & H). inversion H; subst.
    assert (Hn3 : next <> []) by (destruct St as (L & _); destruct next; [destruct pop2; [destruct pop; [tauto|discriminate]|discriminate]|discriminate]).
    destruct (IH next w4 fin hh w' Fc Hn3 E5) as (I1 & I2 & (h0 & g & -> & Ef) & I4). split; [|split; [|split]].
    + cbn [follows g_parents g_next]. rewrite G1. split; auto.
    + constructor; auto.
    + exists (Gen pop2 off2 next :: h0), g. split; auto.
    + intros [|i] p Hp; cbn [map nth_error] in Hp.
      * inversion Hp; subst. exists w2, w4. cbn [length map g_next]. rewrite E4. f_equal. f_equal. rewrite map_app, app_length. symmetry. apply Nat.ltb_lt. cbn [length map]. lia.
      * destruct (I4 i p Hp) as (v & v' & Ev). exists v, v'. rewrite Ev. f_equal.
  - inversion H; subst. split; [|split; [|split]].
    + cbn [follows g_parents g_next]. rewrite G1. split; auto.
    + constructor; auto.
    + exists [], (Gen pop2 off2 fin). auto.
    + intros [|[|i]] p Hp; cbn [map nth_error] in Hp; inversion Hp; subst. exists w2, w'. rewrite E4. auto.
Qed.

Lemma nsga2_ok fuel pop w fin h w' : Forall (not_wrong value) pop -> pop <> [] ->
  nsga2 dirs sort inf pop_eval breed cont fuel pop w = Ok (fin, h, w') ->
  follows (map (@geno G worth) pop) h /\ Forall gen_ok h /\ (exists h0 g, h = h0 ++ [g] /\ g_next g = fin) /\ stops_at_first_no cont (map g_next h).
Proof.
  intros F Hn H. unfold nsga2, nsga in H. apply rbind_ok in H as ([[par1 pop1] w1] & E1 & H).
  destruct (Hpe [] pop w _ _ _ (Forall_nil _) F E1) as (_ & M & _ & G1).
  assert (Hn1 : pop1 <> []) by (destruct pop1; [destruct pop; [tauto|discriminate]|discriminate]).
  apply rbind_ok in H as ([pop2 w2] & E2 & H). apply rbind_ok in E2 as (p2 & E2 & E2'). inversion E2'; subst p2 w2.
  destruct (depth_fitness_ok dirs sort Hsort pop1 Hdirs Hn1) as (m0 & E0 & P0 & H0 & O0); [eapply Forall_impl; [|exact M]; apply measured_sized|].
  assert (m0 = pop2) as -> by congruence.
  apply rbind_ok in H as ([pop3 w3] & E3 & H). apply rbind_ok in E3 as (p3 & E3 & E3'). inversion E3'; subst p3 w3.
  assert (Fv : forall x, In x pop2 -> vec_of x = value (geno x)).
  { intros x Hx. assert (Hin : In (seen x) (map seen pop1)) by (eapply Permutation_in; [apply Permutation_sym; exact P0|apply in_map; auto]).
    apply in_map_iff in Hin as (y & Ey & Hy). rewrite Forall_forall in M. pose proof (measured_vec y (M y Hy)) as V. pose proof (f_equal fst Ey) as A1; pose proof (f_equal snd Ey) as A2; cbn [seen fst snd] in A1, A2. rewrite <- A1. congruence. }
  assert (Fs : Forall (sized_as dirs) pop2).
  { apply Forall_forall. intros x Hx. rewrite Forall_forall in H0. destruct (H0 x Hx) as (v & f & H1 & _). exists v. split; auto. pose proof (Fv x Hx) as L. unfold vec_of in L. rewrite H1 in L. rewrite L. apply Hsize. }
  destruct (crowding_diversity_ok dirs sort Hsort inf pop2 Fs H0) as (m & E4 & S1 & R1 & H1 & D1). assert (m = pop3) as -> by congruence.
  assert (Fc : Forall (comparable value) pop3).
  { apply Forall_forall. intros x Hx. rewrite Forall_forall in H1, D1. destruct (H1 x Hx) as (v & f & A1 & A2). destruct (D1 x Hx) as (v' & d & B1 & B2). assert (v' = v) as -> by congruence.
    exists v, f, d. split; auto. split; auto. assert (Hin : In (seen x) (map seen pop2)) by (rewrite <- S1; apply in_map; auto). apply in_map_iff in Hin as (y & Ey & Hy). pose proof (Fv y Hy) as V.
    pose proof (f_equal fst Ey) as B3; pose proof (f_equal snd Ey) as B4; cbn [seen fst snd] in B3, B4. rewrite <- B3, <- V, B4. unfold vec_of. rewrite A1. auto. }
  assert (Eg : forall l : list I, map (@geno G worth) l = map fst (map seen l)) by (intros l; rewrite map_map; auto).
  assert (Pg : Permutation (map (@geno G worth) pop) (map (@geno G worth) pop3)) by (rewrite <- G1, !Eg, S1; apply Permutation_map; auto).
  assert (Hn3 : pop3 <> []) by (apply Permutation_length in Pg; rewrite !map_length in Pg; destruct pop3; [destruct pop; [tauto|discriminate]|discriminate]).
  destruct (nsga_loop_ok fuel pop3 w1 fin h w' Fc Hn3 H) as (I1 & I2 & I3 & I4). split; [|auto].
  destruct h as [|g h]; [exact Logic.I|]. cbn [follows] in I1 |- *. destruct I1 as [I1 I1']. split; auto. etransitivity; eauto.
Qed.

End Partial.

(** nothing goes wrong as long as the components answer *)
Section Total.
Hypothesis Hbr : breeds value (comparable value) breed.
Hypothesis Tpe : forall par off w, Forall (measured value) par -> Forall (not_wrong value) off -> exists r, pop_eval par off w = Ok r.
Hypothesis Tbr : forall pop w, Forall (comparable value) pop -> pop <> [] -> exists r, breed pop [] w = Ok r.
Hypothesis Tco : forall pop w, exists r, cont pop w = Ok r.
Lemma nsga_loop_total : forall fuel pop w, Forall (comparable value) pop -> pop <> [] ->
  let r := nsga_loop pop_eval breed (keep_best dirs sort inf) cont fuel pop [] w in r = NoDraw \/ exists o, r = Ok o.
Proof.
  induction fuel as [|fuel IH]; intros pop w F Hn; cbn zeta; cbn [nsga_loop]; [auto|].
  destruct (Tbr pop w F Hn) as [[off1 w1] E1]. rewrite E1. cbn [rbind].
  assert (Fm : Forall (measured value) pop) by (eapply Forall_impl; [|exact F]; apply comparable_measured).
  destruct (Tpe pop off1 w1 Fm (Hbr _ _ _ _ F E1)) as [[[pop2 off2] w2] E2]. rewrite E2. cbn [rbind].
  destruct (Hpe _ _ _ _ _ _ Fm (Hbr _ _ _ _ F E1) E2) as (M1 & M2 & G1 & _).
  assert (Hn2 : pop2 <> []) by (destruct pop2; [destruct pop; [tauto|discriminate]|discriminate]).
  destruct (keep_best_ok pop2 off2 w2) as (next & E3 & St & Fc); auto; [apply Forall_app; auto|destruct pop2; [tauto|discriminate]|]. rewrite E3. cbn [rbind].
  destruct (Tco next w2) as [[b w4] E4]. rewrite E4. cbn [rbind]. destruct b; [|right; eauto].
  assert (Hn3 : next <> []) by (destruct St as (L & _); destruct next; [destruct pop2; [tauto|discriminate]|discriminate]).
  destruct (IH next w4 Fc Hn3) as [E|[[[r hh] w5] E]]; rewrite E; cbn [rbind]; eauto.
Qed.
Lemma nsga2_total fuel pop w : Forall (not_wrong value) pop -> pop <> [] ->
  let r := nsga2 dirs sort inf pop_eval breed cont fuel pop w in r = NoDraw \/ exists o, r = Ok o.
Proof.
  intros F Hn. cbn zeta. unfold nsga2, nsga. destruct (Tpe [] pop w (Forall_nil _) F) as [[[par1 pop1] w1] E1]. rewrite E1. cbn [rbind].
  destruct (Hpe [] pop w _ _ _ (Forall_nil _) F E1) as (_ & M & _ & G1).
  assert (Hn1 : pop1 <> []) by (destruct pop1; [destruct pop; [tauto|discriminate]|discriminate]).
  destruct (keep_best_ok [] pop1 w1) as (next & E3 & _); auto.
  destruct (depth_fitness_ok dirs sort Hsort pop1 Hdirs Hn1) as (m0 & E0 & P0 & H0 & O0); [eapply Forall_impl; [|exact M]; apply measured_sized|]. rewrite E0. cbn [rbind].
  assert (Fv : forall x, In x m0 -> vec_of x = value (geno x)).
  { intros x Hx. assert (Hin : In (seen x) (map seen pop1)) by (eapply Permutation_in; [apply Permutation_sym; exact P0|apply in_map; auto]).
    apply in_map_iff in Hin as (y & Ey & Hy). rewrite Forall_forall in M. pose proof (measured_vec y (M y Hy)) as V. pose proof (f_equal fst Ey) as A1; pose proof (f_equal snd Ey) as A2; cbn [seen fst snd] in A1, A2. rewrite <- A1. congruence. }
  assert (Fs : Forall (sized_as dirs) m0).
  { apply Forall_forall. intros x Hx. rewrite Forall_forall in H0. destruct (H0 x Hx) as (v & f & H1 & _). exists v. split; auto. pose proof (Fv x Hx) as L. unfold vec_of in L. rewrite H1 in L. rewrite L. apply Hsize. }
  destruct (crowding_diversity_ok dirs sort Hsort inf m0 Fs H0) as (m & E4 & S1 & R1 & H1 & D1). rewrite E4. cbn [rbind].
  assert (Lm : length m = length pop1) by (apply (f_equal (@length _)) in S1; rewrite !map_length in S1; apply Permutation_length in P0; rewrite !map_length in P0; lia).
  apply nsga_loop_total; [|destruct m; [destruct pop1; [tauto|discriminate]|discriminate]].
  apply Forall_forall. intros x Hx. rewrite Forall_forall in H1, D1. destruct (H1 x Hx) as (v & f & A1 & A2). destruct (D1 x Hx) as (v' & d & B1 & B2). assert (v' = v) as -> by congruence.
  exists v, f, d. split; auto. split; auto. assert (Hin : In (seen x) (map seen m0)) by (rewrite <- S1; apply in_map; auto). apply in_map_iff in Hin as (y & Ey & Hy). pose proof (Fv y Hy) as V.
  pose proof (f_equal fst Ey) as B3; pose proof (f_equal snd Ey) as B4; cbn [seen fst snd] in B3, B4. rewrite <- B3, <- V, B4. unfold vec_of. rewrite A1. auto.
Qed.
End Total.
End Elitist.

(** ** moeoEasyEA *)
Section Easy.
Context {G W : Type}.
Notation I := (indiv G worth).
Variable value : G -> list Q.
Variable pop_eval : list I -> list I -> W -> res (list I * list I * W).
Variable breed : list I -> list I -> W -> res (list I * W).
Variable replace : list I -> list I -> W -> res (list I * list I * W).
Variables fitness diversity : list I -> W -> res (list I * W).
Variable cont : list I -> W -> res (bool * W).
Hypothesis Hpe : measures value pop_eval.
Hypothesis Hbr : breeds value (measured value) breed.
Hypothesis Hre : replaces value replace.
Hypothesis Hfi : assigns value fitness.
Hypothesis Hdi : assigns value diversity.

Definition easy_gen (n : nat) (g : generation I) : Prop :=
  Forall (measured value) (g_parents g) /\ Forall (measured value) (g_offspring g) /\ Forall (measured value) (g_next g) /\
  length (g_parents g) = n /\ length (g_next g) = n /\ (forall x, In x (g_next g) -> exists y, In y (g_parents g ++ g_offspring g) /\ geno y = geno x).

Lemma easy_loop_ok : forall fuel always first pop w fin h w', Forall (measured value) pop ->
  easy_loop pop_eval breed replace fitness diversity cont fuel always first pop w = Ok (fin, h, w') ->
  follows (map (@geno G worth) pop) h /\ Forall (easy_gen (length pop)) h /\ (exists h0 g, h = h0 ++ [g] /\ g_next g = fin) /\ stops_at_first_no cont (map g_next h).
Proof.
  induction fuel as [|fuel IH]; intros always first pop w fin h w' F H; cbn [easy_loop] in H; [discriminate|].
  apply rbind_ok in H as ([pop1 w1] & E1 & H).
  assert (A1 : Forall (measured value) pop1 /\ Permutation (map (@geno G worth) pop) (map (@geno G worth) pop1)).
  { destruct (always || first).
    - apply rbind_ok in E1 as ([p v] & E1 & E1'). destruct (Hfi _ _ _ _ F E1) as [B1 B2]. destruct (Hdi _ _ _ _ B1 E1') as [B3 B4]. split; auto. etransitivity; eauto.
    - inversion E1; subst. auto. }
  destruct A1 as [A1 A2]. apply rbind_ok in H as ([off1 w2] & E2 & H). apply rbind_ok in H as ([[pop2 off2] w3] & E3 & H).
  destruct (Hpe _ _ _ _ _ _ A1 (Hbr _ _ _ _ A1 E2) E3) as (M1 & M2 & G1 & _).
  apply rbind_ok in H as ([[pop3 off3] w4] & E4 & H). destruct (Hre _ _ _ _ _ _ (proj2 (Forall_app _ _ _) (conj M1 M2)) E4) as [R1 R2].
  destruct (Nat.eqb_spec (length pop3) (length pop)) as [L|]; [|discriminate]. cbn [negb] in H.
  apply rbind_ok in H as ([b w5] & E5 & H).
  assert (Lp : length pop2 = length pop) by (apply (f_equal (@length _)) in G1; rewrite !map_length in G1; apply Permutation_length in A2; rewrite !map_length in A2; lia).
  assert (Gk : easy_gen (length pop) (Gen pop2 off2 pop3)) by (repeat (split; auto)). destruct b.
  - apply rbind_ok in H as ([[r hh] w6] & E6 & H). inversion H; subst.
    destruct (IH always false pop3 w5 fin hh w' R1 E6) as (I1 & I2 & (h0 & g & -> & Ef) & I4). split; [|split; [|split]].
    + cbn [follows g_parents g_next]. rewrite G1. split; auto.
    + constructor; auto. rewrite <- L. auto.
    + exists (Gen pop2 off2 pop3 :: h0), g. split; auto.
    + intros [|i] p Hp; cbn [map nth_error] in Hp.
      * inversion Hp; subst. exists w4, w5. cbn [length map g_next]. rewrite E5. f_equal. f_equal. rewrite map_app, app_length. symmetry. apply Nat.ltb_lt. cbn [length map]. lia.
      * destruct (I4 i p Hp) as (v & v' & Ev). exists v, v'. rewrite Ev. f_equal.
  - inversion H; subst. split; [|split; [|split]].
    + cbn [follows g_parents g_next]. rewrite G1. split; auto.
    + constructor; auto.
    + exists [], (Gen pop2 off2 fin). auto.
    + intros [|[|i]] p Hp; cbn [map nth_error] in Hp; inversion Hp; subst. exists w4, w'. rewrite E5. auto.
Qed.
Lemma easy_ok fuel always pop w fin h w' : Forall (not_wrong value) pop ->
  easy pop_eval breed replace fitness diversity cont fuel always pop w = Ok (fin, h, w') ->
  follows (map (@geno G worth) pop) h /\ Forall (easy_gen (length pop)) h /\ (exists h0 g, h = h0 ++ [g] /\ g_next g = fin) /\ stops_at_first_no cont (map g_next h).
Proof.
  intros F H. unfold easy in H. apply rbind_ok in H as ([[par1 pop1] w1] & E1 & H). destruct (Hpe [] pop w _ _ _ (Forall_nil _) F E1) as (_ & M & _ & G1).
  apply easy_loop_ok in H; auto. rewrite G1 in H. apply (f_equal (@length _)) in G1. rewrite !map_length in G1. rewrite G1 in H. auto.
Qed.
End Easy.
