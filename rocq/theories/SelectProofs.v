From Coq Require Import List Arith Lia Bool ZArith QArith Qround Lqa Permutation Sorted.
From Verif Require Import Lib Outcome OrderSpec OrderLemmas PopModel PopSpec PopProofs PopOps SelectModel SelectSpec.
Import ListNotations.
Close Scope Q_scope.
Open Scope nat_scope.

(** *** C11 *)
Lemma hm_count_spec c n :
  ((0 < c)%Z -> hm_call (hm_of_int c) n = Ok (Z.to_nat c)) /\
  ((c < 0)%Z -> (Z.of_nat n < - c)%Z -> hm_call (hm_of_int c) n = Throw) /\
  ((c < 0)%Z -> (- c <= Z.of_nat n)%Z -> hm_call (hm_of_int c) n = Ok (n - Z.to_nat (- c))).
Proof.
  unfold hm_call, hm_of_int; cbn [hm_count hm_rate]. repeat split; intros.
  - destruct (Z.eqb_spec c 0); [lia|]. destruct (Z.ltb_spec c 0); [lia|]. auto.
  - destruct (Z.eqb_spec c 0); [lia|]. destruct (Z.ltb_spec c 0); [|lia].
    destruct (Nat.ltb_spec n (Z.to_nat (- c))); [auto|lia].
  - destruct (Z.eqb_spec c 0); [lia|]. destruct (Z.ltb_spec c 0); [|lia].
    destruct (Nat.ltb_spec n (Z.to_nat (- c))); [lia|auto].
Qed.

Lemma hm_rate_spec r n : (0 <= r)%Q ->
  exists h k, hm_of_rate r = Ok h /\ hm_call h n = Ok k /\
    (r * inject_Z (Z.of_nat n) <= inject_Z (Z.of_nat k) < r * inject_Z (Z.of_nat n) + 1)%Q /\
    ((r <= 1)%Q -> k <= n).
Proof.
  intros Hr. unfold hm_of_rate. apply Qle_bool_iff in Hr as Hb. rewrite Hb.
  exists (HowMany r 0). unfold hm_call; cbn [hm_count hm_rate]. simpl (0 =? 0)%Z. cbv iota.
  set (q := (r * inject_Z (Z.of_nat n))%Q).
  assert (Hq : (0 <= q)%Q).
  { unfold q. apply Qmult_le_0_compat; auto. unfold Qle, inject_Z; simpl; lia. }
  assert (Hc0 : (0 <= Qceiling q)%Z).
  { change 0%Z with (Qceiling 0). apply Qceiling_resp_le. auto. }
  destruct (Z.ltb_spec (Qceiling q) 0); [lia|].
  exists (Z.to_nat (Qceiling q)). split; auto. split; auto.
  rewrite Z2Nat.id by auto. split; [split|].
  - apply Qle_ceiling.
  - pose proof (Qceiling_lt q) as HL. unfold Z.sub in HL. rewrite inject_Z_plus in HL.
    change (inject_Z (- (1))) with (-(1))%Q in HL. clear - HL. clearbody q. lra.
  - intros H1. apply Nat2Z.inj_le. rewrite Z2Nat.id by auto.
    assert (H2 : (q <= inject_Z (Z.of_nat n))%Q).
    { unfold q. rewrite <- (Qmult_1_l (inject_Z (Z.of_nat n))) at 2.
      apply Qmult_le_compat_r; auto. unfold Qle, inject_Z; simpl; lia. }
    apply Qceiling_resp_le in H2. rewrite Qceiling_Z in H2. auto.
Qed.

Lemma hm_neg_rate_spec r n : (-(1) <= r)%Q -> (r < 0)%Q ->
  hm_of_rate r = hm_of_rate (1 + r)%Q /\
  exists h k, hm_of_rate r = Ok h /\ hm_call h n = Ok k /\ k <= n.
Proof.
  intros H1 H0. assert (E : hm_of_rate r = hm_of_rate (1 + r)%Q).
  { unfold hm_of_rate.
    assert (Hb : Qle_bool 0 r = false) by (apply not_true_iff_false; rewrite Qle_bool_iff; lra).
    assert (Hc : Qle_bool 0 (1 + r) = true) by (apply Qle_bool_iff; lra).
    rewrite Hb, Hc. auto. }
  split; auto. rewrite E.
  destruct (hm_rate_spec (1 + r)%Q n ltac:(lra)) as (h & k & Hh & Hk & _ & Hle).
  exists h, k. split; auto. split; auto. apply Hle. lra.
Qed.

Lemma hm_neg_count_spec c n : (0 < c <= Z.of_nat n)%Z ->
  exists k k', hm_call (hm_of_int c) n = Ok k /\ hm_call (hm_neg (hm_of_int c)) n = Ok k' /\ k + k' = n.
Proof.
  intros H. destruct (hm_count_spec c n) as (H1 & _).
  assert (E : hm_neg (hm_of_int c) = hm_of_int (- c)).
  { unfold hm_neg, hm_of_int; cbn [hm_count hm_rate]. destruct (Z.eqb_spec c 0); [lia|auto]. }
  destruct (hm_count_spec (- c) n) as (_ & _ & H3).
  exists (Z.to_nat c), (n - Z.to_nat c). rewrite E, H1, H3 by lia.
  rewrite Z.opp_involutive. repeat split; auto. lia.
Qed.

Lemma hm_neg_rate_opposite r n : (0 <= r <= 1)%Q ->
  exists h k, hm_of_rate r = Ok h /\ hm_call (hm_neg h) n = Ok k /\
    ((1 - r) * inject_Z (Z.of_nat n) <= inject_Z (Z.of_nat k) < (1 - r) * inject_Z (Z.of_nat n) + 1)%Q /\ k <= n.
Proof.
  intros [H0 H1]. destruct (hm_rate_spec (1 - r)%Q n ltac:(lra)) as (h & k & Hh & Hk & Hb & Hle).
  exists (HowMany r 0), k. split; [unfold hm_of_rate; apply Qle_bool_iff in H0; rewrite H0; auto|].
  assert (hm_neg (HowMany r 0) = h) as ->.
  { unfold hm_of_rate in Hh. assert (Hc : Qle_bool 0 (1 - r) = true) by (apply Qle_bool_iff; lra).
    rewrite Hc in Hh. inversion Hh. unfold hm_neg. cbn [hm_count hm_rate Z.eqb]. auto. }
  split; auto. split; auto. apply Hle. lra.
Qed.

Section ManyProofs.
Context {A S : Type}.
Variable sel : selector A S.
Variable ready : S -> list A -> Prop.
Hypothesis Hsel : selector_contract sel ready.

Lemma select_n_spec n : forall s src ds, ready s src -> src <> [] ->
  select_n sel n s src ds = NoDraw \/
  exists xs s' ds', select_n sel n s src ds = Ok (xs, s', ds') /\ length xs = n /\
    (forall x, In x xs -> In x src) /\ ready s' src.
Proof.
  induction n as [|n IH]; intros s src ds Hr Hne; cbn [select_n].
  - right. exists [], s, ds. repeat split; auto. intros x [].
  - destruct Hsel as [_ Hcall].
    destruct (Hcall s src ds Hr Hne) as [E|(x & s1 & ds1 & E & Hin & Hr1)]; rewrite E; cbn [rbind]; auto.
    destruct (IH s1 src ds1 Hr1 Hne) as [E2|(xs & s2 & ds2 & E2 & Hl & Hxs & Hr2)]; rewrite E2; cbn [rbind]; auto.
    right. exists (x :: xs), s2, ds2. split; auto. split; [simpl; auto|]. split; auto.
    intros y [<-|Hy]; auto.
Qed.

Lemma setup_select_n_spec n s src ds xs s' ds' : src <> [] ->
  setup_select_n sel n s src ds = Ok (xs, s', ds') ->
  length xs = n /\ (forall x, In x xs -> In x src) /\ ready s' src.
Proof.
  intros Hne H. unfold setup_select_n in H. apply rbind_ok in H as ((s1 & ds1) & E & H).
  destruct Hsel as [Hset _]. apply Hset in E.
  destruct (select_n_spec n s1 src ds1 E Hne) as [E2|(xs' & s2 & ds2 & E2 & Hl & Hxs & Hr2)];
    rewrite E2 in H; inversion H; subst; auto.
Qed.

(** a selection only fails because its setup fails or the draws run out *)
Lemma setup_select_n_fails n s src ds : src <> [] ->
  (setup_select_n sel n s src ds = UB -> sel_setup sel s src ds = UB) /\
  (setup_select_n sel n s src ds = Throw -> sel_setup sel s src ds = Throw).
Proof.
  intros Hne. unfold setup_select_n. destruct Hsel as [Hset _].
  destruct (sel_setup sel s src ds) as [[s1 ds1]| | |] eqn:E; cbn [rbind]; try (split; intros; congruence).
  apply Hset in E. destruct (select_n_spec n s1 src ds1 E Hne) as [E2|(xs' & s2 & ds2 & E2 & _)];
    rewrite E2; split; discriminate.
Qed.

Lemma select_many_spec h s src ds xs s' ds' : src <> [] ->
  select_many sel h s src ds = Ok (xs, s', ds') ->
  exists k, hm_call h (length src) = Ok k /\ length xs = k /\ forall x, In x xs -> In x src.
Proof.
  intros Hne H. unfold select_many in H. apply rbind_ok in H as (k & E & H).
  apply setup_select_n_spec in H as (H1 & H2 & _); auto. eauto.
Qed.

Lemma select_number_spec n s src ds xs s' ds' : src <> [] ->
  select_number sel n s src ds = Ok (xs, s', ds') ->
  length xs = n /\ forall x, In x xs -> In x src.
Proof.
  intros Hne H. apply setup_select_n_spec in H as (H1 & H2 & _); auto.
Qed.

Lemma select_perc_spec rate s src ds xs s' ds' : src <> [] -> (0 <= rate)%Q ->
  select_perc sel rate s src ds = Ok (xs, s', ds') ->
  (inject_Z (Z.of_nat (length xs)) <= rate * inject_Z (Z.of_nat (length src)) < inject_Z (Z.of_nat (length xs)) + 1)%Q
  /\ forall x, In x xs -> In x src.
Proof.
  intros Hne Hrate H. unfold select_perc in H.
  destruct (Z.ltb_spec (Qfloor (rate * inject_Z (Z.of_nat (length src)))) 0); [discriminate|].
  apply setup_select_n_spec in H as (H1 & H2 & _); auto. rewrite H1, Z2Nat.id by auto.
  split; auto. split; [apply Qfloor_le|].
  pose proof (Qlt_floor (rate * inject_Z (Z.of_nat (length src)))) as HL.
  rewrite inject_Z_plus in HL. exact HL.
Qed.
End ManyProofs.

Lemma copies_nth {A} (src : list A) k : forall i, i < k * length src ->
  nth_error (copies k src) i = nth_error src (i mod length src).
Proof.
  induction k as [|k IH]; intros i Hi; simpl in Hi; [lia|].
  assert (length src <> 0) by lia. cbn [copies].
  destruct (Nat.lt_ge_cases i (length src)).
  - rewrite nth_error_app1 by auto. rewrite Nat.mod_small; auto.
  - rewrite nth_error_app2 by auto. rewrite IH by lia. f_equal.
    replace i with (i - length src + 1 * length src) at 2 by lia. rewrite Nat.mod_add; auto.
Qed.
Lemma copies_length {A} (src : list A) k : length (copies k src) = k * length src.
Proof. induction k; simpl; auto. rewrite app_length. lia. Qed.

Lemma det_select_spec {A} h (src : list A) t : src <> [] -> hm_call h (length src) = Ok t ->
  exists out, det_select h src = Ok out /\ length out = Nat.max 1 t /\
    forall i, i < length out -> nth_error out i = nth_error src (i mod length src).
Proof.
  intros Hne Ht. unfold det_select. rewrite Ht. cbn [rbind].
  assert (Hlen : length src <> 0) by (destruct src; simpl; congruence).
  destruct (Nat.eqb_spec (length src) 0); [lia|].
  set (target := if t =? 0 then 1 else t).
  assert (Htg : target = Nat.max 1 t) by (unfold target; destruct (Nat.eqb_spec t 0); lia).
  rewrite <- Htg. clearbody target.
  pose proof (Nat.div_mod target (length src) Hlen) as Hdm.
  pose proof (Nat.mod_upper_bound target (length src) Hlen) as Hm.
  eexists; split; [reflexivity|].
  assert (E : (if length src <=? target then copies (target / length src) src else [])
              = copies (target / length src) src).
  { destruct (Nat.leb_spec (length src) target); auto. rewrite Nat.div_small by lia. auto. }
  rewrite E. rewrite app_length, copies_length, firstn_length_le by lia. split; [lia|].
  intros i Hi. destruct (Nat.lt_ge_cases i (target / length src * length src)).
  - rewrite nth_error_app1 by (rewrite copies_length; auto). apply copies_nth; auto.
  - rewrite nth_error_app2 by (rewrite copies_length; auto). rewrite copies_length.
    rewrite firstn_nth_error by lia. f_equal.
    set (q := target / length src) in *.
    replace i with ((i - q * length src) + q * length src) at 2 by lia.
    rewrite Nat.mod_add by auto. rewrite Nat.mod_small; lia.
Qed.

Lemma ends_pass_exhausted s n : ends_pass s n <-> exhausted (sq_current s) n = true.
Proof.
  unfold ends_pass, exhausted. destruct (sq_current s); [symmetry; apply Nat.leb_le|tauto].
Qed.

Section OrderedProofs.
Variable A : Type.
Variable ltb : A -> A -> bool.
Variable sort : forall T : Type, (T -> T -> bool) -> list T -> list T.
Variable nth_el : forall T : Type, (T -> T -> bool) -> nat -> list T -> list T.
Variable shuf : list nat -> list A -> list A * list nat.
Variable shufp : list nat -> list nat -> list nat * list nat.
Hypothesis Hord : strict_weak_order ltb.
Hypothesis Hsort : std_sort_ok sort.
Hypothesis Hnth : std_nth_ok nth_el.
Hypothesis Hshuf : forall ds l, Permutation l (fst (shuf ds l)).
Hypothesis Hshufp : forall ds l, Permutation l (fst (shufp ds l)).

Lemma length_pos (pop : list A) : pop <> [] -> 0 < length pop.
Proof. destruct pop; simpl; [congruence|lia]. Qed.

Lemma random_select_contract : selector_contract (random_select A) (fun _ _ => True).
Proof.
  split; auto. intros s pop ds _ Hne. cbn [random_select sel_call]. unfold draw.
  destruct ds as [|d ds]; cbn [rbind]; auto. right.
  destruct (nth_error_in_some pop (d mod length pop)) as [x Hx].
  { apply Nat.mod_upper_bound. apply length_pos in Hne. lia. }
  rewrite Hx. cbn [of_opt rbind]. exists x, s, ds. repeat split; auto. eapply nth_error_In; eauto.
Qed.

Lemma det_loop_best pop : pop <> [] -> forall rounds best ds b0,
  nth_error pop best = Some b0 ->
  det_tourn_loop A ltb pop rounds best ds = NoDraw \/
  exists i x, det_tourn_loop A ltb pop rounds best ds = Ok (i, skipn rounds ds) /\
    nth_error pop i = Some x /\ (i = best \/ In i (contestants pop rounds ds)) /\
    ltb x b0 = false /\ rounds <= length ds /\
    forall c y, In c (contestants pop rounds ds) -> nth_error pop c = Some y -> ltb x y = false.
Proof.
  intros Hne. induction rounds as [|r IH]; intros best ds b0 Hb; cbn [det_tourn_loop].
  - right. exists best, b0. repeat split; auto; try apply (swo_irrefl ltb Hord); try (simpl; lia).
    all: try (intros c y []).
  - unfold draw. destruct ds as [|d ds]; cbn [rbind]; auto. rewrite Hb. cbn [of_opt rbind].
    destruct (nth_error_in_some pop (d mod length pop)) as [y Hy].
    { apply Nat.mod_upper_bound. apply length_pos in Hne. lia. }
    rewrite Hy. cbn [of_opt rbind].
    destruct (ltb b0 y) eqn:Eb.
    + destruct (IH (d mod length pop) ds y Hy) as [E|(i & x & E & Hx & Hi & Hxy & Hlen & Hall)]; auto.
      right. exists i, x. unfold contestants in *. cbn [firstn map skipn].
      repeat split; auto.
      * right. destruct Hi as [->|Hi]; [left; auto|right; auto].
      * destruct (ltb x b0) eqn:Exb; auto. rewrite (swo_trans _ Hord _ _ _ Exb Eb) in Hxy. discriminate.
      * simpl; lia.
      * intros c z [<-|Hc] Hz; [congruence|]. eapply Hall; eauto.
    + destruct (IH best ds b0 Hb) as [E|(i & x & E & Hx & Hi & Hxy & Hlen & Hall)]; auto.
      right. exists i, x. unfold contestants in *. cbn [firstn map skipn].
      repeat split; auto.
      * destruct Hi as [->|Hi]; [left; auto|right; right; auto].
      * simpl; lia.
      * intros c z [<-|Hc] Hz; [|eapply Hall; eauto].
        assert (z = y) by congruence. subst. apply (swo_ntrans _ Hord _ b0 _); auto.
Qed.

Lemma det_tournament_spec pop t ds : pop <> [] -> 1 <= t -> t <= length ds ->
  exists i x, det_tournament A ltb pop t ds = Ok (i, skipn t ds) /\
    nth_error pop i = Some x /\ In i (contestants pop t ds) /\
    forall c y, In c (contestants pop t ds) -> nth_error pop c = Some y -> ltb x y = false.
Proof.
  intros Hne Ht Hl. unfold det_tournament, draw. destruct ds as [|d ds]; [simpl in Hl; lia|].
  cbn [rbind].
  destruct (nth_error_in_some pop (d mod length pop)) as [y Hy].
  { apply Nat.mod_upper_bound. apply length_pos in Hne. lia. }
  destruct t as [|t]; [lia|]. replace (S t - 1) with t by lia.
  destruct (det_loop_best pop Hne t (d mod length pop) ds y Hy)
    as [E|(i & x & E & Hx & Hi & Hxy & Hlen & Hall)].
  - exfalso. clear - E Hl Hne Hy. simpl in Hl.
    revert E. generalize (d mod length pop) as b, y, Hy. clear Hy y d.
    revert ds Hl. induction t as [|t IH]; intros ds Hl b y Hy E; cbn [det_tourn_loop] in E; [discriminate|].
    destruct ds as [|d ds]; simpl in Hl; [lia|]. unfold draw in E. cbn [rbind] in E. rewrite Hy in E.
    cbn [of_opt rbind] in E.
    destruct (nth_error_in_some pop (d mod length pop)) as [z Hz].
    { apply Nat.mod_upper_bound. apply length_pos in Hne. lia. }
    rewrite Hz in E. cbn [of_opt rbind] in E. destruct (ltb y z); eapply IH in E; eauto; lia.
  - exists i, x. cbn [skipn]. repeat split; auto.
    + unfold contestants in *. cbn [firstn map]. destruct Hi as [->|Hi]; [left; auto|right; auto].
    + intros c z Hc Hz. unfold contestants in Hc. cbn [firstn map] in Hc. destruct Hc as [<-|Hc].
      * assert (z = y) by congruence. subst; auto.
      * eapply Hall; eauto.
Qed.

Lemma det_tournament_draws pop t ds : pop <> [] -> 1 <= t -> length ds < t ->
  det_tournament A ltb pop t ds = NoDraw.
Proof.
  intros Hne Ht Hl. unfold det_tournament, draw. destruct ds as [|d ds]; cbn [rbind]; auto.
  destruct t as [|t]; [lia|]. replace (S t - 1) with t by lia. simpl in Hl.
  destruct (nth_error_in_some pop (d mod length pop)) as [y Hy].
  { apply Nat.mod_upper_bound. apply length_pos in Hne. lia. }
  destruct (det_loop_best pop Hne t (d mod length pop) ds y Hy) as [E|(i & x & _ & _ & _ & _ & Hlen & _)]; auto.
  lia.
Qed.

Lemma det_tournament_select_contract t : selector_contract (det_tournament_select A ltb t) (fun _ _ => True).
Proof.
  split; auto. intros s pop ds _ Hne. cbn [det_tournament_select sel_call].
  set (t' := if t <? 2 then 2 else t).
  assert (1 <= t') by (unfold t'; destruct (Nat.ltb_spec t 2); lia).
  destruct (Nat.lt_ge_cases (length ds) t').
  - left. rewrite det_tournament_draws; auto.
  - right. destruct (det_tournament_spec pop t' ds) as (i & x & E & Hx & _); auto.
    rewrite E. cbn [rbind]. rewrite Hx. cbn [of_opt rbind]. exists x, s, (skipn t' ds).
    repeat split; auto. eapply nth_error_In; eauto.
Qed.

Lemma inv_det_spec pop ds : forall rounds worst i ds' w0,
  nth_error pop worst = Some w0 ->
  inv_det_loop A ltb pop rounds worst ds = Ok (i, ds') ->
  exists used x, ds = used ++ ds' /\ nth_error pop i = Some x /\
    (i = worst \/ In i (map (fun d => d mod length pop) used)) /\
    ltb w0 x = false /\ rounds <= length used /\
    forall d y, In d used -> nth_error pop (d mod length pop) = Some y -> ltb y x = false.
Proof.
  induction ds as [|d ds IH]; intros rounds worst i ds' w0 Hw E; destruct rounds as [|r]; simpl in E.
  1,3: inversion E; subst; exists [], w0; repeat split; auto;
       [apply (swo_irrefl ltb Hord)|intros d0 y []].
  - discriminate.
  - destruct (Nat.eqb_spec (d mod length pop) worst) as [Eq|Ne].
    + apply (IH _ _ _ _ w0 Hw) in E as (used & x & -> & Hx & Hi & Hwx & Hr & Hall).
      exists (d :: used), x. repeat split; auto.
      * simpl. tauto.
      * simpl; lia.
      * intros d0 y [<-|Hd] Hy; [|eapply Hall; eauto]. rewrite Eq in Hy. congruence.
    + destruct (nth_error pop worst) as [w|] eqn:Ew; [|discriminate]. inversion Hw; subst w.
      destruct (nth_error pop (d mod length pop)) as [z|] eqn:Ez; [|discriminate].
      destruct (ltb z w0) eqn:Ezw.
      * apply (IH _ _ _ _ z Ez) in E as (used & x & -> & Hx & Hi & Hwx & Hr & Hall).
        exists (d :: used), x. repeat split; auto.
        -- simpl. destruct Hi as [->|Hi]; auto.
        -- destruct (ltb w0 x) eqn:Ewx; auto. rewrite (swo_trans _ Hord _ _ _ Ezw Ewx) in Hwx. discriminate.
        -- simpl; lia.
        -- intros d0 y [<-|Hd] Hy; [|eapply Hall; eauto]. congruence.
      * apply (IH _ _ _ _ w0 Ew) in E as (used & x & -> & Hx & Hi & Hwx & Hr & Hall).
        exists (d :: used), x. repeat split; auto.
        -- simpl. tauto.
        -- simpl; lia.
        -- intros d0 y [<-|Hd] Hy; [|eapply Hall; eauto].
           assert (y = z) by congruence. subst. apply (swo_ntrans _ Hord _ w0 _); auto.
Qed.

Lemma inv_det_tournament_spec pop t ds i ds' : pop <> [] ->
  inv_det_tournament A ltb pop t ds = Ok (i, ds') ->
  exists used x, ds = used ++ ds' /\ t <= length used /\ nth_error pop i = Some x /\
    In i (map (fun d => d mod length pop) used) /\
    forall d y, In d used -> nth_error pop (d mod length pop) = Some y -> ltb y x = false.
Proof.
  intros Hne E. unfold inv_det_tournament, draw in E. destruct ds as [|d ds]; cbn [rbind] in E; [discriminate|].
  destruct (nth_error_in_some pop (d mod length pop)) as [w0 Hw].
  { apply Nat.mod_upper_bound. apply length_pos in Hne. lia. }
  destruct (inv_det_spec _ _ _ _ _ _ w0 Hw E) as (used & x & Hds & Hx & Hi & Hwx & Hr & Hall). subst ds.
  exists (d :: used), x. repeat split; auto.
  - simpl. lia.
  - simpl. destruct Hi as [->|Hi]; auto.
  - intros d0 y [<-|Hd] Hy; [|eapply Hall; eauto]. assert (y = w0) by congruence. subst; auto.
Qed.

Ltac stoch_fin :=
  repeat match goal with
  | |- _ /\ _ => split
  | |- _ -> _ => intros
  | H : _ \/ _ |- _ => destruct H
  end; auto; congruence.

Lemma stoch_tournament_spec pop certain d1 d2 d3 ds : pop <> [] ->
  exists a1 a2 i x, nth_error pop (d1 mod length pop) = Some a1 /\ nth_error pop (d2 mod length pop) = Some a2 /\
    stoch_tournament A ltb pop certain (d1 :: d2 :: d3 :: ds) = Ok (i, ds) /\ nth_error pop i = Some x /\
    (i = d1 mod length pop \/ i = d2 mod length pop) /\
    (certain = true \/ Nat.odd d3 = true -> ltb x a1 = false /\ ltb x a2 = false) /\
    (certain = false -> Nat.odd d3 = false -> ltb a1 x = false /\ ltb a2 x = false).
Proof.
  intros Hne. unfold stoch_tournament, draw, draw_flip. cbn [rbind].
  destruct (nth_error_in_some pop (d1 mod length pop)) as [a1 H1].
  { apply Nat.mod_upper_bound. apply length_pos in Hne. lia. }
  destruct (nth_error_in_some pop (d2 mod length pop)) as [a2 H2].
  { apply Nat.mod_upper_bound. apply length_pos in Hne. lia. }
  rewrite H1, H2. cbn [of_opt rbind].
  pose proof (swo_irrefl ltb Hord) as Hirr. pose proof (swo_asym ltb Hord) as Hasym.
  destruct (ltb a1 a2) eqn:E, certain, (Nat.odd d3); cbn [orb];
    first [ solve [exists a1, a2, (d1 mod length pop), a1; stoch_fin]
          | solve [exists a1, a2, (d2 mod length pop), a2; stoch_fin] ].
Qed.

Lemma inv_stoch_tournament_spec pop certain d1 d2 d3 ds : pop <> [] ->
  exists a1 a2 i x, nth_error pop (d1 mod length pop) = Some a1 /\ nth_error pop (d2 mod length pop) = Some a2 /\
    inv_stoch_tournament A ltb pop certain (d1 :: d2 :: d3 :: ds) = Ok (i, ds) /\ nth_error pop i = Some x /\
    (i = d1 mod length pop \/ i = d2 mod length pop) /\
    (certain = true \/ Nat.odd d3 = true -> ltb a1 x = false /\ ltb a2 x = false) /\
    (certain = false -> Nat.odd d3 = false -> ltb x a1 = false /\ ltb x a2 = false).
Proof.
  intros Hne. unfold inv_stoch_tournament, draw, draw_flip. cbn [rbind].
  destruct (nth_error_in_some pop (d1 mod length pop)) as [a1 H1].
  { apply Nat.mod_upper_bound. apply length_pos in Hne. lia. }
  destruct (nth_error_in_some pop (d2 mod length pop)) as [a2 H2].
  { apply Nat.mod_upper_bound. apply length_pos in Hne. lia. }
  rewrite H1, H2. cbn [of_opt rbind].
  pose proof (swo_irrefl ltb Hord) as Hirr. pose proof (swo_asym ltb Hord) as Hasym.
  destruct (ltb a1 a2) eqn:E, certain, (Nat.odd d3); cbn [orb];
    first [ solve [exists a1, a2, (d1 mod length pop), a1; stoch_fin]
          | solve [exists a1, a2, (d2 mod length pop), a2; stoch_fin] ].
Qed.

Lemma stoch_select_contract c : selector_contract (stoch_tournament_select A ltb c) (fun _ _ => True).
Proof.
  split; auto. intros s pop ds _ Hne. cbn [stoch_tournament_select sel_call].
  destruct ds as [|d1 [|d2 [|d3 ds]]]; try (left; reflexivity).
  right. destruct (stoch_tournament_spec pop c d1 d2 d3 ds Hne) as (a1 & a2 & i & x & _ & _ & E & Hx & _).
  rewrite E. cbn [rbind]. rewrite Hx. cbn [of_opt rbind].
  exists x, s, ds. repeat split; auto. eapply nth_error_In; eauto.
Qed.

Lemma best_select_contract : selector_contract (best_select A ltb) (fun _ _ => True).
Proof.
  split; auto. intros s pop ds _ Hne. cbn [best_select sel_call]. right.
  destruct (it_best_total A ltb pop Hne) as [i Hi].
  destruct (best_element A ltb pop) as [v| | |] eqn:E; cbn [rbind].
  - exists v, s, ds. repeat split; auto. apply (best_element_ok A ltb) in E; auto. apply E.
  - exfalso. unfold best_element in E. rewrite Hi in E. destruct (nth_error pop i); discriminate.
  - exfalso. pose proof (it_best_spec A ltb Hord pop i Hi) as Hs. unfold best_element in E. rewrite Hi in E.
    destruct Hs as (x & Hx & _). rewrite Hx in E. discriminate.
  - exfalso. unfold best_element in E. rewrite Hi in E. destruct (nth_error pop i); discriminate.
Qed.

Lemma no_select_contract : selector_contract (no_select A) (fun _ _ => True).
Proof.
  split; auto. intros s pop ds _ Hne. cbn [no_select sel_call]. right.
  set (c := if length pop <=? s then 0 else s).
  destruct (nth_error_in_some pop c) as [x Hx].
  { apply length_pos in Hne. unfold c. destruct (Nat.leb_spec (length pop) s); lia. }
  rewrite Hx. cbn [of_opt rbind]. exists x, (S c), ds. repeat split; auto. eapply nth_error_In; eauto.
Qed.

(** *** sequential selection *)
Lemma deref_perm (pop : list A) ptrs : Permutation (seq 0 (length pop)) ptrs ->
  exists xs, map (nth_error pop) ptrs = map Some xs /\ Permutation pop xs.
Proof.
  intros HP. assert (E : map (nth_error pop) (seq 0 (length pop)) = map Some pop).
  { apply nth_error_ext. intros k. rewrite !nth_error_map.
    destruct (Nat.lt_ge_cases k (length pop)).
    - rewrite nth_error_seq' by auto. simpl. destruct (nth_error_in_some pop k H) as [x ->]. auto.
    - rewrite (nth_error_ge (seq _ _)) by (rewrite seq_length; auto).
      rewrite (nth_error_ge pop) by auto. auto. }
  apply (Permutation_map (nth_error pop)) in HP. rewrite E in HP.
  apply Permutation_sym, Permutation_map_inv in HP as (xs & Hxs & HP).
  exists xs. auto.
Qed.

Lemma combine_seq_nth (pop : list A) : forall s p, In p (combine (seq s (length pop)) pop) ->
  s <= fst p /\ nth_error pop (fst p - s) = Some (snd p).
Proof.
  induction pop as [|x pop IH]; intros s p Hp; simpl in Hp; [tauto|].
  destruct Hp as [<-|Hp].
  - cbn [fst snd]. rewrite Nat.sub_diag. auto.
  - apply IH in Hp as [H1 H2]. split; [lia|].
    replace (fst p - s) with (S (fst p - S s)) by lia. auto.
Qed.

Lemma sort_ptrs_spec (pop : list A) :
  Permutation (seq 0 (length pop)) (sort_ptrs A ltb sort pop) /\
  exists xs, map (nth_error pop) (sort_ptrs A ltb sort pop) = map Some xs /\ Permutation pop xs /\
    best_to_worst ltb xs.
Proof.
  unfold sort_ptrs.
  set (cmp := fun a b : nat * A => ltb (snd b) (snd a)).
  assert (Hswo : strict_weak_order cmp).
  { apply (swo_preimage snd (fun a b => ltb b a)). apply swo_flip; auto. }
  destruct (Hsort (nat * A)%type cmp (combine (seq 0 (length pop)) pop) Hswo) as [HP HS].
  set (L := sort (nat * A)%type cmp _) in *. clearbody L.
  assert (Hfst : forall (l1 : list nat) (l2 : list A), length l1 = length l2 -> map fst (combine l1 l2) = l1).
  { induction l1; intros [|y l2]; simpl; intros; try congruence. f_equal; auto. }
  assert (HP1 : Permutation (seq 0 (length pop)) (map fst L)).
  { apply (Permutation_map fst) in HP. rewrite Hfst in HP by apply seq_length. auto. }
  split; auto. exists (map snd L).
  assert (HL : forall p, In p L -> nth_error pop (fst p) = Some (snd p)).
  { intros p Hp. apply Permutation_sym in HP. apply (Permutation_in _ HP) in Hp.
    apply combine_seq_nth in Hp as [_ Hp]. rewrite Nat.sub_0_r in Hp. auto. }
  assert (E : map (nth_error pop) (map fst L) = map Some (map snd L)).
  { rewrite !map_map. apply map_ext_in. auto. }
  split; auto. split.
  - destruct (deref_perm pop _ HP1) as (xs & Hxs & HPx). rewrite E in Hxs.
    assert (map snd L = xs).
    { clear - Hxs. revert xs Hxs. generalize (map snd L) as l.
      induction l as [|a l IH]; intros [|b xs] H; simpl in H; try congruence.
      inversion H; subst. f_equal; auto. }
    subst xs. auto.
  - unfold best_to_worst. clear - HS. induction HS as [|a l HS IH HF]; simpl; constructor; auto.
    rewrite Forall_forall in *. intros x Hx. apply in_map_iff in Hx as (p & <- & Hp). apply HF in Hp.
    exact Hp.
Qed.

(** consuming the rest of a pass *)
Lemma seq_pass setup (pop : list A) ptrs xs : map (nth_error pop) ptrs = map Some xs ->
  length ptrs = length pop ->
  forall k c ds, c + k <= length pop ->
  select_n (Selector (fun _ => setup) (seq_next A setup)) k (SeqSt (Some c) ptrs) pop ds =
    Ok (firstn k (skipn c xs), SeqSt (Some (c + k)) ptrs, ds).
Proof.
  intros E Hl. assert (Hlx : length xs = length pop).
  { apply (f_equal (@length _)) in E. rewrite !map_length in E. lia. }
  assert (Hn : forall c, nth_error (map (nth_error pop) ptrs) c = nth_error (map Some xs) c) by (intros; rewrite E; auto).
  induction k as [|k IH]; intros c ds Hc; cbn [select_n sel_call].
  - rewrite Nat.add_0_r. auto.
  - unfold seq_next. cbn [sq_current exhausted]. destruct (Nat.leb_spec (length pop) c); [lia|]. cbn [rbind sq_current sq_ptrs].
    specialize (Hn c). rewrite !nth_error_map in Hn.
    destruct (nth_error_in_some ptrs c) as [p Hp]; [lia|].
    destruct (nth_error_in_some xs c) as [x Hx]; [lia|].
    rewrite Hp, Hx in Hn. simpl in Hn. inversion Hn as [Hpx]. rewrite Hp. cbn [of_opt rbind].
    rewrite Hpx. cbn [of_opt rbind]. rewrite IH by lia. cbn [rbind].
    replace (S c + k) with (c + S k) by lia. repeat f_equal.
    clear - Hx. revert c Hx. induction xs as [|a xs IHx]; intros [|c] Hx; simpl in *; try discriminate.
    + inversion Hx; subst. auto.
    + rewrite IHx; auto.
Qed.

Lemma select_n_app {S} (sel : selector A S) a b : forall s pop ds xs s1 ds1,
  select_n sel a s pop ds = Ok (xs, s1, ds1) ->
  select_n sel (a + b) s pop ds =
    (let! (ys, s2, ds2) := select_n sel b s1 pop ds1 in Ok (xs ++ ys, s2, ds2)).
Proof.
  induction a as [|a IH]; intros s pop ds xs s1 ds1 H; cbn [select_n Nat.add] in *.
  - inversion H; subst. destruct (select_n sel b s1 pop ds1) as [[[? ?] ?]| | |]; auto.
  - apply rbind_ok in H as (((x & s') & ds') & E & H). rewrite E. cbn [rbind].
    apply rbind_ok in H as (((ys & s'') & ds'') & E2 & H). inversion H; subst.
    rewrite (IH _ _ _ _ _ _ E2). destruct (select_n sel b s1 pop ds1) as [[[? ?] ?]| | |]; auto.
Qed.

(** a whole pass, starting with a setup *)
Definition pass_setup (setup : list A -> list nat -> res (seq_state * list nat)) (pop : list A)
    (P : list A -> Prop) : Prop :=
  forall ds, exists ptrs ds' xs, setup pop ds = Ok (SeqSt (Some 0) ptrs, ds') /\
    length ptrs = length pop /\ map (nth_error pop) ptrs = map Some xs /\ Permutation pop xs /\ P xs.

Lemma seq_one_pass setup pop P : pop <> [] -> pass_setup setup pop P ->
  forall s ds, ends_pass s (length pop) ->
  exists xs s' ds', select_n (Selector (fun _ => setup) (seq_next A setup)) (length pop) s pop ds = Ok (xs, s', ds') /\
    Permutation pop xs /\ P xs /\ ends_pass s' (length pop).
Proof.
  intros Hne Hp s ds He. destruct (Hp ds) as (ptrs & ds' & xs & Es & Hl & Em & HP & HPx).
  exists xs, (SeqSt (Some (length pop)) ptrs), ds'.
  pose proof (length_pos pop Hne) as Hpos.
  split.
  - pose proof (seq_pass setup pop ptrs xs Em Hl (length pop) 0 ds' ltac:(lia)) as Hpass.
    cbn [Nat.add] in Hpass. rewrite skipn_O, firstn_all2 in Hpass by (rewrite (Permutation_length HP); auto).
    rewrite <- Hpass. clear Hpass.
    destruct (length pop) as [|n] eqn:En; [lia|]. cbn [select_n sel_call].
    unfold seq_next at 1 3. rewrite En. cbn [exhausted]. apply ends_pass_exhausted in He. rewrite He, Es. cbn [rbind sq_current exhausted].
    change (S n <=? 0) with false. cbv iota. cbn [rbind sq_current sq_ptrs]. reflexivity.
  - repeat split; auto. unfold ends_pass; simpl; lia.
Qed.

Lemma seq_passes setup pop P : pop <> [] -> pass_setup setup pop P ->
  forall k s ds, ends_pass s (length pop) ->
  exists blocks s' ds',
    select_n (Selector (fun _ => setup) (seq_next A setup)) (k * length pop) s pop ds = Ok (concat blocks, s', ds') /\
    length blocks = k /\ Forall (fun b => Permutation pop b /\ P b) blocks /\ ends_pass s' (length pop).
Proof.
  intros Hne Hp. induction k as [|k IH]; intros s ds He.
  - exists [], s, ds. repeat split; auto.
  - destruct (seq_one_pass setup pop P Hne Hp s ds He) as (xs & s1 & ds1 & E1 & HP & HPx & He1).
    destruct (IH s1 ds1 He1) as (bl & s2 & ds2 & E2 & Hl & HF & He2).
    exists (xs :: bl), s2, ds2. cbn [Nat.mul concat length].
    rewrite (select_n_app _ _ _ _ _ _ _ _ _ E1), E2. cbn [rbind].
    split; [reflexivity|]. split; [simpl; congruence|]. split; auto.
Qed.

(** a partial pass: no individual is given two turns before the pass is over *)
Lemma seq_partial setup pop P : pop <> [] -> pass_setup setup pop P ->
  forall k s ds, k <= length pop -> ends_pass s (length pop) ->
  exists xs s' ds' rest,
    select_n (Selector (fun _ => setup) (seq_next A setup)) k s pop ds = Ok (xs, s', ds') /\
    length xs = k /\ Permutation pop (xs ++ rest).
Proof.
  intros Hne Hp k s ds Hk He. destruct k as [|k].
  - exists [], s, ds, pop. auto.
  - destruct (Hp ds) as (ptrs & ds' & xs & Es & Hl & Em & HP & HPx).
    pose proof (seq_pass setup pop ptrs xs Em Hl (S k) 0 ds' ltac:(lia)) as Hpass.
    exists (firstn (S k) xs), (SeqSt (Some (S k)) ptrs), ds', (skipn (S k) xs). repeat split.
    + rewrite skipn_O in Hpass. cbn [Nat.add] in Hpass. rewrite <- Hpass.
      cbn [select_n sel_call]. unfold seq_next at 1 3. apply ends_pass_exhausted in He. rewrite He, Es.
      cbn [rbind sq_current exhausted]. destruct (Nat.leb_spec (length pop) 0); [lia|]. reflexivity.
    + rewrite firstn_length, <- (Permutation_length HP). lia.
    + rewrite firstn_skipn. auto.
Qed.

Lemma seq_setup_ordered pop : pass_setup (seq_setup A ltb sort shufp true) pop (best_to_worst ltb).
Proof.
  intros ds. destruct (sort_ptrs_spec pop) as (HP & xs & Em & HPx & HS).
  exists (sort_ptrs A ltb sort pop), ds, xs. repeat split; auto.
  rewrite <- (Permutation_length HP). apply seq_length.
Qed.

Lemma seq_setup_shuffled pop : pass_setup (seq_setup A ltb sort shufp false) pop (fun _ => True).
Proof.
  intros ds. unfold seq_setup. pose proof (Hshufp ds (seq 0 (length pop))) as HP.
  destruct (shufp ds (seq 0 (length pop))) as [ptrs ds'] eqn:E. cbn [fst] in HP.
  destruct (deref_perm pop ptrs HP) as (xs & Em & HPx).
  exists ptrs, ds', xs. repeat split; auto. rewrite <- (Permutation_length HP). apply seq_length.
Qed.

Lemma seq_setup_any o pop : pass_setup (seq_setup A ltb sort shufp o) pop
  (fun b => o = true -> best_to_worst ltb b).
Proof.
  destruct o; intros ds.
  - destruct (seq_setup_ordered pop ds) as (p & d & x & H1 & H2 & H3 & H4 & H5). exists p, d, x. auto 6.
  - destruct (seq_setup_shuffled pop ds) as (p & d & x & H1 & H2 & H3 & H4 & H5). exists p, d, x.
    repeat split; auto. discriminate.
Qed.

Lemma sequential_passes o pop : pop <> [] -> forall k s ds, ends_pass s (length pop) ->
  exists blocks s' ds',
    select_n (sequential_select A ltb sort shufp o) (k * length pop) s pop ds = Ok (concat blocks, s', ds') /\
    length blocks = k /\
    Forall (fun b => Permutation pop b /\ (o = true -> best_to_worst ltb b)) blocks /\
    ends_pass s' (length pop).
Proof.
  intros Hne. exact (seq_passes (seq_setup A ltb sort shufp o) pop _ Hne (seq_setup_any o pop)).
Qed.

Lemma find_best_spec pop : forall ptrs i ibest best xs pre,
  map (nth_error pop) ptrs = map Some xs ->
  length pre = i -> nth_error pre ibest = Some best ->
  (forall y, In y pre -> ltb best y = false) ->
  exists r x, find_best A ltb pop ptrs i ibest best = Ok r /\ nth_error (pre ++ xs) r = Some x /\
    forall y, In y (pre ++ xs) -> ltb x y = false.
Proof.
  induction ptrs as [|p ptrs IH]; intros i ibest best xs pre E Hl Hb Hbest; destruct xs as [|x xs]; simpl in E; try discriminate; cbn [find_best].
  - exists ibest, best. rewrite app_nil_r. auto.
  - inversion E as [[E1 E2]]. rewrite E1. cbn [of_opt rbind].
    replace (pre ++ x :: xs) with ((pre ++ [x]) ++ xs) by (rewrite <- app_assoc; auto).
    destruct (ltb best x) eqn:Eb.
    + apply (IH (S i) i x xs (pre ++ [x])); auto.
      * rewrite app_length; simpl; lia.
      * rewrite nth_error_app2 by lia. rewrite Hl, Nat.sub_diag. auto.
      * intros y Hy. apply in_app_iff in Hy as [Hy|[<-|[]]]; [|apply (swo_irrefl ltb Hord)].
        apply Hbest in Hy. destruct (ltb x y) eqn:Exy; auto.
        rewrite (swo_trans _ Hord _ _ _ Eb Exy) in Hy. discriminate.
    + apply (IH (S i) ibest best xs (pre ++ [x])); auto.
      * rewrite app_length; simpl; lia.
      * rewrite nth_error_app1; auto. apply nth_error_lt in Hb. auto.
      * intros y Hy. apply in_app_iff in Hy as [Hy|[<-|[]]]; auto.
Qed.

Lemma elite_seq_setup_pass pop : 2 <= length pop ->
  pass_setup (elite_seq_setup A ltb shufp) pop (starts_with_best ltb).
Proof.
  intros Hn ds. unfold elite_seq_setup. pose proof (Hshufp ds (seq 0 (length pop))) as HP.
  destruct (shufp ds (seq 0 (length pop))) as [ptrs ds'] eqn:E. cbn [fst] in HP.
  destruct (deref_perm pop ptrs HP) as (xs & Em & HPx).
  assert (Hlp : length ptrs = length pop) by (rewrite <- (Permutation_length HP); apply seq_length).
  destruct ptrs as [|p0 rest]; [simpl in Hlp; lia|].
  destruct xs as [|x0 xs]; [discriminate|]. simpl in Em. inversion Em as [[E0 Em']].
  destruct (Nat.eqb_spec (length pop) 1); [lia|]. rewrite E0. cbn [of_opt rbind].
  destruct (find_best_spec pop rest 1 0 x0 xs [x0] Em' eq_refl eq_refl) as (r & b & Er & Hb & Hbest).
  { intros y [<-|[]]. apply (swo_irrefl ltb Hord). }
  rewrite Er. cbn [rbind]. cbn [app] in Hb, Hbest.
  assert (Hr : r < length (p0 :: rest)).
  { apply nth_error_lt in Hb. rewrite Hlp. rewrite (Permutation_length HPx). auto. }
  destruct (swap_at_total (p0 :: rest) 0 r ltac:(simpl; lia) Hr) as [ptrs' Es]. rewrite Es. cbn [of_opt rbind].
  pose proof (swap_at_perm _ _ _ _ Es) as HP2.
  assert (HP' : Permutation (seq 0 (length pop)) ptrs') by (eapply Permutation_trans; [exact HP|first [exact HP2|apply Permutation_sym; exact HP2]]).
  destruct (deref_perm pop ptrs' HP') as (xs' & Em2 & HPx').
  exists ptrs', ds', xs'. repeat split; auto.
  - rewrite <- (Permutation_length HP'). apply seq_length.
  - assert (H0 : nth_error ptrs' 0 = nth_error (p0 :: rest) r).
    { rewrite (swap_at_nth_error _ _ _ _ Es). destruct (Nat.eqb_spec 0 r); [subst|]; auto. }
    assert (Hx : nth_error (map (nth_error pop) (p0 :: rest)) r = nth_error (map Some (x0 :: xs)) r).
    { cbn [map]. rewrite E0, Em'. auto. }
    rewrite !nth_error_map in Hx. rewrite Hb in Hx. rewrite <- H0 in Hx.
    destruct ptrs' as [|q0 ptrs']; [discriminate|]. destruct xs' as [|y0 xs']; [discriminate|].
    assert (Eq : nth_error pop q0 = Some y0) by (cbn [map] in Em2; congruence).
    simpl in Hx. rewrite Eq in Hx. assert (y0 = b) by congruence. subst y0.
    split; [left; auto|]. intros y Hy. apply Hbest.
    eapply Permutation_in; [|exact Hy].
    eapply Permutation_trans; [apply Permutation_sym; exact HPx'|exact HPx].
Qed.

Lemma elite_sequential_passes pop : 2 <= length pop -> forall k s ds, ends_pass s (length pop) ->
  exists blocks s' ds',
    select_n (elite_sequential_select A ltb shufp) (k * length pop) s pop ds = Ok (concat blocks, s', ds') /\
    length blocks = k /\
    Forall (fun b => Permutation pop b /\ starts_with_best ltb b) blocks /\
    ends_pass s' (length pop).
Proof.
  intros Hn. assert (Hne : pop <> []) by (destruct pop; simpl in Hn; [lia|discriminate]).
  exact (seq_passes (elite_seq_setup A ltb shufp) pop _ Hne (elite_seq_setup_pass pop Hn)).
Qed.

Lemma elite_sequential_one x ds s : ends_pass s 1 ->
  sel_call (elite_sequential_select A ltb shufp) s [x] ds = Throw.
Proof.
  intros He. cbn [elite_sequential_select sel_call]. unfold seq_next. cbn [length]. apply ends_pass_exhausted in He. rewrite He.
  unfold elite_seq_setup. cbn [length seq].
  pose proof (Hshufp ds [0]) as HP. destruct (shufp ds [0]) as [ptrs ds'].
  cbn [fst] in HP. apply Permutation_length in HP. destruct ptrs; [discriminate|]. reflexivity.
Qed.

(** *** truncated selections *)
Lemma truncated_many_spec {S} (sel : selector A S) ready hg hf s src ds xs s' ds' :
  selector_contract sel ready -> src <> [] ->
  truncated_select_many A ltb sort shuf sel hg hf s src ds = Ok (xs, s', ds') ->
  exists target fertile kept, hm_call hg (length src) = Ok target /\ hm_call hf (length src) = Ok fertile /\
    best_n ltb src fertile kept /\ (0 < fertile -> length xs = target /\ forall x, In x xs -> In x kept).
Proof.
  intros Hsel Hne H. unfold truncated_select_many in H.
  apply rbind_ok in H as (target & Et & H). apply rbind_ok in H as (fertile & Ef & H).
  destruct (Nat.eqb_spec fertile (length src)).
  - subst. exists target, (length src), src. repeat split; auto.
    + apply best_n_refl.
    + eapply setup_select_n_spec in H as (Hl & _); eauto.
    + eapply setup_select_n_spec in H as (_ & Hin & _); eauto.
  - destruct (Nat.ltb_spec (length src) fertile); [discriminate|].
    pose proof (Hshuf ds (firstn fertile (pop_sort A ltb sort src))) as HP.
    destruct (shuf ds (firstn fertile (pop_sort A ltb sort src))) as [tmp ds1]. cbn [fst] in HP.
    exists target, fertile, (firstn fertile (pop_sort A ltb sort src)).
    assert (HB : best_n ltb src fertile (firstn fertile (pop_sort A ltb sort src))).
    { apply (sorted_best_n ltb); auto. apply Hsort. apply cmp2_swo; auto. }
    repeat split; auto; try apply HB.
    + assert (Hnt : tmp <> []).
      { destruct HB as [HBl _]. intros ->. apply Permutation_length in HP. rewrite HBl in HP. simpl in HP. lia. }
      eapply setup_select_n_spec in H as (Hl & _); eauto.
    + assert (Hnt : tmp <> []).
      { destruct HB as [HBl _]. intros ->. apply Permutation_length in HP. rewrite HBl in HP. simpl in HP. lia. }
      eapply setup_select_n_spec in H as (_ & Hin & _); eauto.
      intros x Hx. apply Hin in Hx. eapply Permutation_in; [apply Permutation_sym; exact HP|auto].
Qed.

Lemma truncated_one_spec {S} (sel : selector A S) ready hf st src ds st1 ds1 x st2 ds2 n xs :
  selector_contract sel ready -> src <> [] ->
  sel_setup (truncated_select_one A ltb nth_el sel hf) st src ds = Ok (st1, ds1) ->
  snd st1 <> [] ->
  select_n (truncated_select_one A ltb nth_el sel hf) n st1 x ds1 = Ok (xs, st2, ds2) ->
  exists fertile kept, hm_call hf (length src) = Ok fertile /\ best_n ltb src fertile kept /\
    length xs = n /\ forall y, In y xs -> In y kept.
Proof.
  intros Hsel Hne Hset Hne1 Hcall.
  cbn [truncated_select_one sel_setup] in Hset.
  apply rbind_ok in Hset as (fertile & Ef & Hset). exists fertile, (snd st1). split; auto.
  assert (HB : best_n ltb src fertile (snd st1) /\ ready (fst st1) (snd st1)).
  { destruct (Nat.eqb_spec fertile (length src)) as [Eq|Nq].
    - apply rbind_ok in Hset as ((s' & ds') & E & Hset). inversion Hset; subst. cbn [fst snd].
      split; [apply best_n_refl|]. destruct Hsel as [Hs _]. eapply Hs; eauto.
    - apply rbind_ok in Hset as (r & Er & Hset).
      apply rbind_ok in Hset as ((s' & ds') & E & Hset). inversion Hset; subst. cbn [fst snd].
      split; [|destruct Hsel as [Hs _]; eapply Hs; eauto].
      unfold pop_nth_element in Er. destruct (Nat.ltb_spec (length src) fertile); [discriminate|].
      assert (Er' : r = nth_el A (fun a b => ltb b a) fertile src) by (destruct src; congruence).
      subst r. apply (nth_partitioned_best_n ltb); auto. apply Hnth; auto. apply swo_flip; auto. }
  destruct HB as [HB Hr]. split; auto.
  clear Hset Ef HB. revert st1 ds1 xs st2 ds2 Hcall Hne1 Hr.
  induction n as [|n IH]; intros st1 ds1 xs st2 ds2 Hcall Hne1 Hr; cbn [select_n] in Hcall.
  - inversion Hcall; subst. split; auto. intros y [].
  - apply rbind_ok in Hcall as (((y & s1) & d1) & E & Hcall).
    apply rbind_ok in Hcall as (((ys & s2) & d2) & E2 & Hcall). inversion Hcall; subst.
    cbn [truncated_select_one sel_call] in E.
    apply rbind_ok in E as (((y' & s') & ds') & E & E'). inversion E'; subst.
    destruct Hsel as [_ Hc]. destruct (Hc (fst st1) (snd st1) ds1 Hr Hne1) as [E3|(z & s3 & d3 & E3 & Hin & Hr3)];
      rewrite E3 in E; inversion E; subst.
    destruct (IH _ _ _ _ _ E2) as [Hl Hys]; auto.
    split; [simpl; lia|]. intros w [<-|Hw]; auto.
Qed.

(** *** ranking *)
Lemma assign_worths_spec f ptrs : forall i w, NoDup ptrs -> (forall p, In p ptrs -> p < length w) ->
  exists w', assign_worths f ptrs i w = Some w' /\ length w' = length w /\
    (forall k p, nth_error ptrs k = Some p -> nth_error w' p = Some (f (i + k))) /\
    (forall p, ~ In p ptrs -> nth_error w' p = nth_error w p).
Proof.
  induction ptrs as [|p ptrs IH]; intros i w Hnd Hlt; cbn [assign_worths].
  - exists w. repeat split; auto. intros [|k] p H; discriminate.
  - inversion Hnd; subst. rewrite upd_set by (apply Hlt; left; auto). cbn [obind].
    destruct (IH (S i) (set w p (f i))) as (w' & E & Hl & Hk & Ho); auto.
    { intros q Hq. rewrite set_length. apply Hlt. right; auto. }
    exists w'. split; auto. split; [rewrite Hl; apply set_length|]. split.
    + intros [|k] q Hq; simpl in Hq.
      * inversion Hq; subst q. rewrite Ho by auto. rewrite nth_error_set_eq by (apply Hlt; left; auto).
        rewrite Nat.add_0_r; auto.
      * replace (i + S k) with (S i + k) by lia. auto.
    + intros q Hq. rewrite Ho by (intros F; apply Hq; right; auto).
      apply nth_error_set_neq. intros ->. apply Hq; left; auto.
Qed.

(** rank of each position: inverse of the pointer list *)
Lemma inverse_perm ptrs n : Permutation (seq 0 n) ptrs ->
  exists ranks, length ranks = n /\ Permutation ranks (seq 0 n) /\
    forall k p, nth_error ptrs k = Some p <-> nth_error ranks p = Some k /\ p < n.
Proof.
  intros HP. assert (Hnd : NoDup ptrs) by (eapply Permutation_NoDup; [exact HP|apply seq_NoDup]).
  assert (Hlen : length ptrs = n) by (rewrite <- (Permutation_length HP); apply seq_length).
  set (find := fix find (l : list nat) (p : nat) := match l with [] => 0 | x :: r => if x =? p then 0 else S (find r p) end).
  assert (Hfind : forall l p, In p l -> nth_error l (find l p) = Some p).
  { induction l as [|x l IH]; intros p Hp; [destruct Hp|]. destruct Hp as [->|Hp]; simpl.
    - rewrite Nat.eqb_refl. auto.
    - destruct (Nat.eqb_spec x p); [subst; auto|simpl; auto]. }
  exists (map (find ptrs) (seq 0 n)).
  assert (Hin : forall p, In p ptrs <-> p < n).
  { intros p. split; intros H.
    - apply (Permutation_in _ (Permutation_sym HP)) in H. apply in_seq in H. lia.
    - apply (Permutation_in _ HP). apply in_seq. lia. }
  assert (Hiff : forall k p, nth_error ptrs k = Some p <-> nth_error (map (find ptrs) (seq 0 n)) p = Some k /\ p < n).
  { intros k p. split.
    - intros H. assert (Hp : In p ptrs) by (eapply nth_error_In; eauto).
      pose proof (proj1 (Hin p) Hp) as Hlt. split; auto.
      rewrite nth_error_map, nth_error_seq' by auto. simpl. f_equal.
      apply (NoDup_nth_error_inj ptrs _ _ p); auto.
    - intros [H Hlt]. rewrite nth_error_map, nth_error_seq' in H by auto. simpl in H. inversion H; subst.
      apply Hfind. apply Hin; auto. }
  split; [rewrite map_length, seq_length; auto|]. split; auto.
  apply Permutation_sym. apply NoDup_Permutation_bis.
  - apply seq_NoDup.
  - rewrite map_length. auto.
  - intros k Hk. apply in_seq in Hk. destruct (nth_error_in_some ptrs k) as [p Hp]; [lia|].
    apply Hiff in Hp as [Hp _]. eapply nth_error_In; eauto.
Qed.

Lemma sort_ptrs_ranking (pop : list A) :
  exists ranks, ranking_of ltb pop ranks /\ length ranks = length pop /\
    forall k p, nth_error (sort_ptrs A ltb sort pop) k = Some p <-> nth_error ranks p = Some k /\ p < length pop.
Proof.
  destruct (sort_ptrs_spec pop) as (HP & xs & Em & HPx & HS).
  destruct (inverse_perm _ _ HP) as (ranks & Hl & HPr & Hiff).
  exists ranks. split; [|auto]. split; auto.
  intros i j a b ri rj Ha Hb Hri Hrj Hlt.
  assert (Hi : i < length pop) by (eapply nth_error_lt; eauto).
  assert (Hj : j < length pop) by (eapply nth_error_lt; eauto).
  pose proof (proj2 (Hiff ri i) (conj Hri Hi)) as Pi. pose proof (proj2 (Hiff rj j) (conj Hrj Hj)) as Pj.
  assert (Hx : forall k p z, nth_error (sort_ptrs A ltb sort pop) k = Some p -> nth_error pop p = Some z -> nth_error xs k = Some z).
  { intros k p z Hk Hz. assert (F : nth_error (map (nth_error pop) (sort_ptrs A ltb sort pop)) k = nth_error (map Some xs) k) by (rewrite Em; auto).
    rewrite !nth_error_map, Hk in F. simpl in F. rewrite Hz in F. destruct (nth_error xs k); inversion F; auto. }
  pose proof (Hx _ _ _ Pi Ha) as Xi. pose proof (Hx _ _ _ Pj Hb) as Xj.
  destruct (Nat.lt_trichotomy ri rj) as [H|[H|H]]; auto; exfalso.
  - pose proof (StronglySorted_nth _ _ _ _ _ _ HS H Xi Xj) as F. simpl in F. congruence.
  - subst. assert (a = b) by congruence. subst. rewrite (swo_irrefl ltb Hord) in Hlt. discriminate.
Qed.

Lemma ranking_gen (f : nat -> Q) (pop : list A) :
  exists ranks w, ranking_of ltb pop ranks /\
    assign_worths f (sort_ptrs A ltb sort pop) 0 (repeat 0%Q (length pop)) = Some w /\
    w = map f ranks.
Proof.
  destruct (sort_ptrs_ranking pop) as (ranks & Hr & Hl & Hiff).
  destruct (sort_ptrs_spec pop) as (HP & _).
  destruct (assign_worths_spec f (sort_ptrs A ltb sort pop) 0 (repeat 0%Q (length pop))) as (w & E & Hlw & Hk & _).
  { eapply Permutation_NoDup; [exact HP|apply seq_NoDup]. }
  { intros p Hp. rewrite repeat_length. apply (Permutation_in _ (Permutation_sym HP)) in Hp. apply in_seq in Hp. lia. }
  exists ranks, w. split; auto. split; auto.
  rewrite repeat_length in Hlw.
  apply nth_error_ext. intros p. rewrite nth_error_map.
  destruct (Nat.lt_ge_cases p (length pop)).
  - destruct (nth_error_in_some ranks p) as [k Hrk]; [lia|]. rewrite Hrk. simpl.
    apply (Hk k p). apply Hiff. auto.
  - rewrite !nth_error_ge by lia. auto.
Qed.
End OrderedProofs.
