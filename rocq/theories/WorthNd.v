(** Non-dominated sorting: niching of fronts and three objectives or more (C122). *)
From Coq Require Import List Arith Lia Bool ZArith QArith Lqa Qround Permutation Sorted.
From Verif Require Import Outcome Lib OrderSpec OrderLemmas BoundsModel BoundsProofs RankModel RankSpec RankProofs SelectModel WorthModel WorthSpec.
From Coq Require Import List.
Import ListNotations.
Close Scope Q_scope.

Lemma max_element_ok l : l <> [] -> exists m, max_element l = Ok m /\ In m l /\ forall x, In x l -> (x <= m)%Q.
Proof.
  destruct l as [|a l]; [congruence|]. intros _. unfold max_element. eexists. split; [reflexivity|].
  revert a. induction l as [|b l IH]; intros a; cbn [fold_left].
  - split; [left; auto|]. intros x [->|[]]. lra.
  - destruct (qltb a b) eqn:E.
    + apply qltb_lt in E. destruct (IH b) as [I1 I2]. split; [right; exact I1|]. intros x [->|Hx]; [|auto]. specialize (I2 b (or_introl eq_refl)). lra.
    + apply qltb_ge in E. destruct (IH a) as [I1 I2]. split; [destruct I1 as [I1|I1]; [left; exact I1|right; right; exact I1]|].
      intros x [->|[->|Hx]]; [apply I2; left; auto|specialize (I2 a (or_introl eq_refl)); lra|apply I2; right; auto].
Qed.
Lemma resized_length {X} (d : X) l n : length (resized d l n) = n.
Proof. unfold resized. rewrite app_length, firstn_length, repeat_length. lia. Qed.

Section Niche.
Variable niche : list nat -> res (list Q).
Lemma put_front_ok index m : forall fr nc value, length nc = length fr -> NoDup fr -> (forall i, In i fr -> i < length value) ->
  exists value', put_front index m fr nc value = Ok value' /\ length value' = length value /\
  (forall i, ~ In i fr -> nth_error value' i = nth_error value i) /\
  (forall a i c, nth_error fr a = Some i -> nth_error nc a = Some c -> nth_error value' i = Some (qn index + c / (m + 1))%Q).
Proof.
  induction fr as [|i fr IH]; intros [|c nc] value L N H; cbn in L; try discriminate.
  - exists value. cbn. repeat split; auto. intros [|a]; discriminate.
  - inversion N as [|? ? N1 N2]; subst. cbn [put_front]. rewrite upd_set by (apply H; left; auto). cbn [of_opt rbind].
    destruct (IH nc (set value i (qn index + c / (m + 1))%Q)) as (v' & E & L' & H1 & H2); auto.
    { intros j Hj. rewrite set_length. apply H. right; auto. }
    exists v'. split; [exact E|]. split; [rewrite L', set_length; auto|]. split.
    + intros j Hj. rewrite H1 by (intros C; apply Hj; right; auto). apply nth_error_set_neq. intros ->. apply Hj. left; auto.
    + intros [|a] j cj Hj Hc; cbn in Hj, Hc; [|eauto]. injection Hj as <-. injection Hc as <-. rewrite H1 by auto. apply nth_error_set_eq. apply H. left; auto.
Qed.
(** front number [k] (from 0) got its ranks *)
Definition graded (k : nat) (fr : list nat) (value : list Q) : Prop :=
  exists nc m, niche fr = Ok nc /\ length nc = length fr /\ Forall (fun c => 0 <= c)%Q nc /\ (forall c, In c nc -> (c <= m)%Q) /\ (0 <= m)%Q /\
  forall a i c, nth_error fr a = Some i -> nth_error nc a = Some c -> nth_error value i = Some (qn k + c / (m + 1))%Q.
Variable n : nat.
(** the penalty of one front *)
Definition penal (fr : list nat) : Prop := exists nc, niche fr = Ok nc /\ length nc = length fr /\ Forall (fun c => 0 <= c)%Q nc.
Lemma niche_front_ok k fr value : length value = n -> fr <> [] -> NoDup fr -> (forall i, In i fr -> i < n) -> penal fr ->
  exists value', niche_front niche k fr value = Ok value' /\ length value' = n /\ (forall i, ~ In i fr -> nth_error value' i = nth_error value i) /\ graded k fr value'.
Proof.
  intros L Ne ND H (nc & E & Ln & F). unfold niche_front. rewrite E. cbn [rbind]. rewrite Ln, Nat.eqb_refl. cbn [negb].
  destruct (max_element_ok nc) as (m & Em & Im & Hm); [destruct nc, fr; cbn in *; congruence|]. rewrite Em. cbn [rbind].
  destruct (put_front_ok k m fr nc value) as (v' & Ev & Lv & H1 & H2); auto. { intros i Hi. rewrite L. auto. }
  exists v'. split; [exact Ev|]. split; [congruence|]. split; [exact H1|]. exists nc, m. repeat split; auto. rewrite Forall_forall in F. auto.
Qed.
Lemma graded_kept k fr value value' : graded k fr value -> (forall i, In i fr -> nth_error value' i = nth_error value i) -> graded k fr value'.
Proof. intros (nc & m & E & L & F & M & P & H) K. exists nc, m. repeat split; auto. intros a i c Ha Hc. rewrite K by (eapply nth_error_In; eauto). eauto. Qed.
Lemma niche_fronts_ok : forall fronts base value, length value = n -> NoDup (concat fronts) -> (forall i, In i (concat fronts) -> i < n) -> Forall (fun fr => fr <> [] -> penal fr) fronts ->
  exists value', niche_fronts niche base fronts value = Ok value' /\ length value' = n /\ (forall i, ~ In i (concat fronts) -> nth_error value' i = nth_error value i) /\
  forall k fr, nth_error fronts k = Some fr -> fr <> [] -> graded (base + k) fr value'.
Proof.
  induction fronts as [|fr fronts IH]; intros base value L ND H Fp; cbn [niche_fronts concat] in *.
  - exists value. repeat split; auto. intros [|k]; discriminate.
  - assert (ND1 : NoDup fr /\ NoDup (concat fronts) /\ forall i, In i fr -> ~ In i (concat fronts)).
    { clear - ND. induction fr as [|a fr IH]; cbn in *; [repeat split; auto; constructor|]. inversion ND as [|? ? N1 N2]; subst. destruct (IH N2) as (I1 & I2 & I3).
      rewrite in_app_iff in N1. split; [constructor; tauto|]. split; [exact I2|]. intros i [->|Hi]; [tauto|auto]. }
    apply Forall_cons_iff in Fp as [P1 P2]. destruct ND1 as (N1 & N2 & N3). destruct fr as [|a fr'] eqn:Ef.
    + destruct (IH (S base) value L N2) as (v' & E & L' & H1 & H2); [intros i Hi; apply H; exact Hi|exact P2|].
      exists v'. split; [exact E|]. split; [exact L'|]. split; [exact H1|]. intros [|k] f Hk Hf; cbn in Hk; [congruence|]. replace (base + S k) with (S base + k) by lia. eauto.
    + rewrite <- Ef in *. destruct (niche_front_ok base fr value L) as (v1 & E1 & L1 & K1 & G1); [rewrite Ef; discriminate|exact N1|intros i Hi; apply H, in_or_app; auto|apply P1; rewrite Ef; discriminate|].
      rewrite E1. cbn [rbind]. destruct (IH (S base) v1 L1 N2) as (v' & E & L' & H1 & H2); [intros i Hi; apply H, in_or_app; auto|exact P2|].
      exists v'. split; [exact E|]. split; [exact L'|]. split.
      * intros i Hi. rewrite in_app_iff in Hi. rewrite H1 by tauto. apply K1. tauto.
      * intros [|k] f Hk Hf; cbn in Hk.
        -- injection Hk as <-. rewrite Nat.add_0_r. apply (graded_kept _ _ v1); auto.
        -- replace (base + S k) with (S base + k) by lia. eauto.
Qed.
(** from the ranks to the worths *)
Lemma worths_ok fronts value : length value = n -> 0 < n -> (forall i, i < n -> exists k fr, nth_error fronts k = Some fr /\ In i fr) ->
  (forall k fr, nth_error fronts k = Some fr -> fr <> [] -> graded k fr value) ->
  exists ws, rank_to_worth value = Ok ws /\ length ws = n /\ worths_by_front niche fronts ws.
Proof.
  intros L Pn All G. unfold rank_to_worth. destruct (max_element_ok value) as (m & Em & Im & Hm); [destruct value; cbn in *; [lia|discriminate]|].
  rewrite Em. cbn [rbind]. eexists. split; [reflexivity|]. split; [rewrite map_length; auto|].
  exists (Qceiling m). intros k fr Hk Hf. destruct (G k fr Hk Hf) as (nc & mx & E & Ln & F & M & P & H). exists nc. split; [exact E|]. split; [exact Ln|]. rewrite Forall_forall in F.
  assert (V : forall a i c, nth_error fr a = Some i -> nth_error nc a = Some c -> exists v, nth_error value i = Some v /\ (v == inject_Z (Z.of_nat k) + c / (mx + 1))%Q).
  { intros a i c Ha Hc. eexists. split; [eapply H; eauto|]. reflexivity. }
  assert (Fr : forall c, In c nc -> (0 <= c / (mx + 1) < 1)%Q).
  { intros c Hc. specialize (F c Hc). specialize (M c Hc). split; [apply Qle_shift_div_l; lra|apply Qlt_shift_div_r; lra]. }
  assert (At : forall a i, nth_error fr a = Some i -> exists c, nth_error nc a = Some c).
  { intros a i Ha. destruct (nth_error nc a) as [c|] eqn:Ec; [eauto|]. apply nth_error_None in Ec. apply nth_error_lt in Ha. lia. }
  assert (C := Qle_ceiling m). split.
  - intros i Hi. apply In_nth_error in Hi as (a & Ha). destruct (At a i Ha) as (c & Hc). destruct (V a i c Ha Hc) as (v & Hv & Ev).
    exists (inject_Z (Qceiling m) - v)%Q. rewrite nth_error_map', Hv. split; [reflexivity|].
    specialize (Hm v (nth_error_In _ _ Hv)). specialize (Fr c (nth_error_In _ _ Hc)). rewrite Ev in *.
    replace (Qceiling m - Z.of_nat k - 1)%Z with (Qceiling m + - Z.of_nat k + -1)%Z by lia. replace (Qceiling m - Z.of_nat k)%Z with (Qceiling m + - Z.of_nat k)%Z by lia.
    rewrite !inject_Z_plus, !inject_Z_opp. set (q := (c / (mx + 1))%Q) in *. set (kk := inject_Z (Z.of_nat k)) in *. change (inject_Z (-1)) with (- (1))%Q. split; [lra|]. split; lra.
  - intros a b i j ca cb wi wj Ha Hb Hca Hcb Hwi Hwj. destruct (V a i ca Ha Hca) as (vi & Hvi & Ei). destruct (V b j cb Hb Hcb) as (vj & Hvj & Ej).
    rewrite nth_error_map', Hvi in Hwi. rewrite nth_error_map', Hvj in Hwj. cbn in Hwi, Hwj. injection Hwi as <-. injection Hwj as <-. rewrite Ei, Ej.
    assert (I : (0 < / (mx + 1))%Q) by (apply Qinv_lt_0_compat; lra). unfold Qdiv.
    assert (K : (ca < cb <-> ca * / (mx + 1) < cb * / (mx + 1))%Q).
    { split; intros X; [apply Qmult_lt_compat_r; auto|]. apply Qmult_lt_r in X; auto. }
    rewrite K. split; intros X; lra.
Qed.
End Niche.

(** ** three objectives or more *)
Section Many.
Context {V : Type}.
Variables (dominated : V -> V -> bool) (vs : list V).
Notation size := (length vs).
Notation D := (fun a b => dominated a b = true).
Lemma visit_all_drop c : forall qs n f next, nd_visit_all (n, next) qs = match visit_all c (n, f, next) qs with Ok (n', f', next') => Ok (n', next') | Throw => Throw | UB => UB | NoDraw => NoDraw end.
Proof.
  induction qs as [|q qs IH]; intros n f next; cbn [nd_visit_all visit_all]; [reflexivity|]. unfold nd_visit, visit. destruct (nth_error n q) as [k|]; cbn [of_opt rbind]; [|reflexivity].
  destruct k as [|k]; [reflexivity|]. cbn [rbind]. destruct (k =? 0); cbn [rbind]; apply IH.
Qed.
Lemma visit_front_drop c : forall ps n f next, nd_visit_front dominated vs (n, next) ps =
  match visit_front V dominated vs c (n, f, next) ps with Ok (n', f', next') => Ok (n', next') | Throw => Throw | UB => UB | NoDraw => NoDraw end.
Proof.
  induction ps as [|p ps IH]; intros n f next; cbn [nd_visit_front visit_front]; [reflexivity|]. rewrite (visit_all_drop c _ n f next).
  destruct (visit_all c (n, f, next) (dominated_by V dominated vs p)) as [[[n' f'] next']| | |]; cbn [rbind]; try reflexivity. apply IH.
Qed.
Variable niche : list nat -> res (list Q).
Notation survb := (survb V dominated vs).
Notation cnt := (cnt V dominated vs).
Lemma nd_loop_ok : forall fuel c front, count size (survb c) < fuel -> NoDup front -> (forall i, In i front <-> survb c i = true /\ survb (S c) i = false) ->
  exists fronts, (forall k i, (exists fr, nth_error fronts k = Some fr /\ In i fr) <-> survb (c + k) i = true /\ survb (S (c + k)) i = false) /\ Forall (@NoDup nat) fronts /\
  forall value, nd_loop niche dominated vs fuel c front (map (cnt (survb c)) (seq 0 size)) value = niche_fronts niche c fronts value.
Proof.
  induction fuel as [|fuel IH]; intros c front Hf Hnd Hfr; [lia|]. destruct front as [|p0 front0] eqn:Ef; [|rewrite <- Ef in *].
  - exists []. split; [|split; [constructor|reflexivity]]. intros k i. split; [intros (fr & C & _); destruct k; discriminate|]. intros [S1 S2]. exfalso.
    assert (Eq : forall j, survb (S c) j = survb c j).
    { intros j. destruct (survb c j) eqn:T1, (survb (S c) j) eqn:T2; auto; exfalso; [apply (proj2 (Hfr j)); auto|]. apply survb_pred in T2. congruence. }
    assert (G : forall k j, survb (c + k) j = survb c j).
    { induction k0 as [|k0 IHk]; intros j; [rewrite Nat.add_0_r; auto|]. rewrite Nat.add_succ_r. cbn [RankProofs.survb].
      transitivity ((j <? size) && (0 <? cnt (survb c) j)); [f_equal; f_equal; apply count_ext; intros x _; rewrite IHk; auto|]. rewrite <- (Eq j). reflexivity. }
    rewrite <- Nat.add_succ_r, !G in *. congruence.
  - assert (Hfin : forall p, In p front -> p < size /\ survb c p = true) by (intros p Hp; apply Hfr in Hp as [Hp _]; split; auto; eapply survb_lt; eauto).
    destruct (visit_front_spec V dominated vs 0 front (survb c) (fun _ => None) [] Hnd Hfin) as (new & E & ND & Hnew). cbn [app] in E.
    assert (Al : forall i, minus (survb c) front i = survb (S c) i).
    { intros i. unfold minus. destruct (survb (S c) i) eqn:Sv.
      - rewrite (survb_pred _ _ _ _ _ Sv). cbn. apply negb_true_iff, mem_false. rewrite Hfr. intros [_ C]. congruence.
      - destruct (survb c i) eqn:S1; auto. cbn. apply negb_false_iff, mem_In'. apply Hfr. auto. }
    assert (Ac : forall q, cnt (minus (survb c) front) q = cnt (survb (S c)) q) by (intros q; apply count_ext; intros i _; rewrite Al; auto).
    assert (Hnew' : forall q, In q new <-> survb (S c) q = true /\ survb (S (S c)) q = false).
    { intros q. rewrite Hnew, Ac. cbn [RankProofs.survb]. rewrite andb_true_iff, andb_false_iff, !Nat.ltb_lt, !Nat.ltb_ge. lia. }
    destruct (IH (S c) new) as (fronts & F1 & F2 & F3); auto.
    { assert (Hp : In p0 front) by (rewrite Ef; left; auto). assert (count size (survb (S c)) < count size (survb c)); [|lia].
      apply (count_lt size _ _ p0); [intros i _ Hi; apply survb_pred in Hi; auto|apply Hfin; auto|apply Hfr; auto|apply Hfr; auto]. }
    exists (front :: fronts). split; [|split; [constructor; auto|]].
    + intros [|k] i.
      * rewrite Nat.add_0_r. cbn [nth_error]. rewrite <- Hfr. split; [intros (fr & X & Y); congruence|eauto].
      * rewrite !Nat.add_succ_r. cbn [nth_error]. exact (F1 k i).
    + intros value. rewrite Ef at 1. cbn [nd_loop]. rewrite <- Ef. rewrite (visit_front_drop 0 front _ (map (fun _ => None) (seq 0 size)) []), E.
      assert (X : niche_fronts niche c (front :: fronts) value = (let! value' := niche_front niche c front value in niche_fronts niche (S c) fronts value')) by (rewrite Ef; reflexivity).
      rewrite X. destruct (niche_front niche c front value) as [v1| | |]; cbn [rbind]; auto. rewrite <- F3. f_equal. apply map_ext_in. intros i _. apply Ac.
Qed.
Hypothesis irr : forall a, In a vs -> dominated a a = false.
Hypothesis trans : forall a b c, In a vs -> In b vs -> In c vs -> dominated a b = true -> dominated b c = true -> dominated a c = true.
Lemma cmp_asym i j : cmp_at V dominated vs i j = true -> cmp_at V dominated vs j i = false.
Proof.
  unfold cmp_at. destruct (nth_error vs i) as [a|] eqn:Ea; [|discriminate]. destruct (nth_error vs j) as [b|] eqn:Eb; [|discriminate]. intros H.
  apply nth_error_In in Ea, Eb. destruct (dominated b a) eqn:E; auto. rewrite <- (irr a Ea). symmetry. eapply trans; eauto.
Qed.
Lemma cmp_trans i j k : cmp_at V dominated vs i j = true -> cmp_at V dominated vs j k = true -> cmp_at V dominated vs i k = true.
Proof.
  unfold cmp_at. destruct (nth_error vs i) as [a|] eqn:Ea; [|discriminate]. destruct (nth_error vs j) as [b|] eqn:Eb; [|discriminate].
  destruct (nth_error vs k) as [c|] eqn:Ec; [|discriminate]. apply nth_error_In in Ea, Eb, Ec. eauto.
Qed.
Lemma in_a_front i : i < size -> exists k, in_front_number D vs i (S k).
Proof.
  intros Hi. destruct (mObjectives_all V dominated vs cmp_asym cmp_trans (fun _ => None)) as (R & _ & H). specialize (H i Hi). exists (R i - 1).
  destruct H as (H1 & H). replace (S (R i - 1)) with (R i) by lia. split; auto.
Qed.
End Many.
(** lists of fronts have no repetition *)
Lemma concat_nodup : forall (fronts : list (list nat)), Forall (@NoDup nat) fronts ->
  (forall k k' i fr fr', nth_error fronts k = Some fr -> nth_error fronts k' = Some fr' -> In i fr -> In i fr' -> k = k') -> NoDup (concat fronts).
Proof.
  induction fronts as [|fr fronts IH]; intros F H; cbn; [constructor|]. inversion F; subst.
  assert (N : NoDup (concat fronts)) by (apply IH; auto; intros k k' i f f' A B C E; assert (X := H (S k) (S k') i f f' A B C E); lia).
  assert (Dj : forall i, In i fr -> ~ In i (concat fronts)).
  { intros i Hi C. apply in_concat in C as (f & Hf & Hc). apply In_nth_error in Hf as (k & Hk). specialize (H 0 (S k) i fr f eq_refl Hk Hi Hc). lia. }
  clear - H2 N Dj. induction fr as [|a fr IH]; cbn; auto. inversion H2; subst. constructor.
  - rewrite in_app_iff. intros [C|C]; [auto|]. apply (Dj a); [left; auto|auto].
  - apply IH; auto. intros i Hi. apply Dj. right; auto.
Qed.
Lemma the_fronts_nodup {V} (D : V -> V -> Prop) vs fronts : the_fronts D vs fronts -> NoDup (concat fronts) /\ forall i, In i (concat fronts) -> i < length vs.
Proof.
  intros (H & F & _). split.
  - apply concat_nodup; auto. intros k k' i fr fr' A B C E. assert (X := proj1 (H k i) (ex_intro _ fr (conj A C))). assert (Y := proj1 (H k' i) (ex_intro _ fr' (conj B E))).
    assert (Z := front_unique _ _ _ _ _ X Y). lia.
  - intros i Hi. apply in_concat in Hi as (fr & Hf & Hi). apply In_nth_error in Hf as (k & Hk). assert (X := proj1 (H k i) (ex_intro _ fr (conj Hk Hi))).
    destruct X as (_ & X & _). eapply surv_lt; eauto.
Qed.
Lemma penalises_fronts {V} (D : V -> V -> Prop) vs fronts niche : the_fronts D vs fronts -> penalises D vs niche -> Forall (fun fr => fr <> [] -> penal niche fr) fronts.
Proof.
  intros (H & F & _) P. apply Forall_forall. intros fr Hf Ne. apply In_nth_error in Hf as (k & Hk). apply (P k fr); auto.
  - eapply Forall_forall in F; [exact F|]. eapply nth_error_In; eauto.
  - intros i. rewrite <- H. split; [eauto|]. intros (fr' & E & Hi). congruence.
Qed.
Lemma good_penalises {V} (D : V -> V -> Prop) vs niche : good_niche (length vs) niche -> penalises D vs niche.
Proof. intros G k fr Ne ND H. apply G; auto. intros i Hi. apply H in Hi as (_ & X & _). eapply surv_lt; eauto. Qed.
Lemma many_worths {V} (dominated : V -> V -> bool) vs niche value : vs <> [] -> penalises (fun a b => dominated a b = true) vs niche ->
  (forall a, In a vs -> dominated a a = false) ->
  (forall a b c, In a vs -> In b vs -> In c vs -> dominated a b = true -> dominated b c = true -> dominated a c = true) ->
  exists fronts ws, nd_many niche dominated vs value = Ok ws /\ length ws = length vs /\
  the_fronts (fun a b => dominated a b = true) vs fronts /\ worths_by_front niche fronts ws.
Proof.
  intros Ne Hn irr trans. set (size := length vs). assert (Ps : 0 < size) by (unfold size; destruct vs; cbn; [congruence|lia]).
  assert (As := cmp_asym dominated vs irr trans).
  assert (Hff : forall i, In i (first_front V dominated vs) <-> survb V dominated vs 0 i = true /\ survb V dominated vs 1 i = false).
  { intros i. unfold first_front. rewrite filter_In, in_seq, Nat.eqb_eq, (dominators_cnt V dominated vs As). cbn [survb].
    rewrite Nat.ltb_lt, andb_false_iff, !Nat.ltb_ge. lia. }
  destruct (nd_loop_ok dominated vs niche (S size) 0 (first_front V dominated vs)) as (fronts & F1 & F2 & F3).
  { assert (B := count_bound size (survb V dominated vs 0)). unfold size in *. lia. } { apply NoDup_filter, seq_NoDup. } { exact Hff. }
  assert (TF : the_fronts (fun a b => dominated a b = true) vs fronts).
  { assert (Iff : forall k i, (exists fr, nth_error fronts k = Some fr /\ In i fr) <-> in_front_number (fun a b => dominated a b = true) vs i (S k)).
    2: { split; [exact Iff|]. split; [exact F2|]. intros i Hi. destruct (in_a_front dominated vs irr trans i Hi) as (k & Hk). apply Iff in Hk as (fr & Hk & Hi'). exists fr. split; [eapply nth_error_In; eauto|exact Hi']. }
    intros k i. rewrite F1. symmetry. rewrite front_b by lia. replace (S k - 1) with k by lia. reflexivity. }
  destruct (the_fronts_nodup _ _ _ TF) as [ND Lt].
  assert (Pn : Forall (fun fr => fr <> [] -> penal niche fr) fronts) by (eapply penalises_fronts; eauto).
  destruct (niche_fronts_ok niche size fronts 0 (resized 0%Q value size) (resized_length _ _ _) ND Lt Pn) as (v' & E & L & _ & G).
  destruct (worths_ok niche size fronts v' L Ps) as (ws & Ew & Lw & W).
  { intros i Hi. destruct TF as (_ & _ & All). destruct (All i Hi) as (fr & Hf & Hi'). apply In_nth_error in Hf as (k & Hk). eauto. }
  { exact G. }
  exists fronts, ws. split; [|auto]. unfold nd_many. fold size.
  replace (map (dominators V dominated vs) (seq 0 size)) with (map (cnt V dominated vs (survb V dominated vs 0)) (seq 0 size)) by (apply map_ext_in; intros i _; symmetry; apply dominators_cnt; exact As).
  unfold size in *. rewrite F3, E. cbn [rbind]. exact Ew.
Qed.
