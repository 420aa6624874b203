(** Proofs about the continuators on the hypervolume. *)
From Coq Require Import List Arith Lia Bool ZArith QArith Lqa.
From Verif Require Import Lib Outcome ReplModel ReplProofs HvModel HvSpec HvProofs HvMetric WatModel WatSpec.
From Coq Require Import List.
Import ListNotations.
Close Scope Q_scope.
Open Scope nat_scope.

(** ** equal volumes *)
Lemma equal_volumes k P R v w : covers k P R -> is_hypervolume k P v -> is_hypervolume k R w -> (exists g, on_grid g k (P ++ R)) ->
  (forall q i x, In q R -> i < k -> nth_error q i = Some x -> (0 < x)%Q) -> (v == w)%Q -> covers k R P.
Proof.
  intros C [_ A] [_ B] [g G] Pos Evw.
  assert (GP : on_grid g k P) by (apply (grid_incl g k (P ++ R)); auto; intros x; rewrite in_app_iff; auto).
  assert (GR : on_grid g k R) by (apply (grid_incl g k (P ++ R)); auto; intros x; rewrite in_app_iff; auto).
  destruct (A g GP) as (L & N & HL & E). destruct (B g GR) as (L' & N' & HL' & E').
  assert (Inc : incl L L'). { intros c Hc. apply HL'. apply HL in Hc. eapply inside_covers; eauto; [apply G|]. eapply grid_wf; eauto. }
  assert (Len : length L = length L'). { apply natQ_eq. rewrite <- E, <- E', Evw. reflexivity. }
  assert (Inc' : incl L' L) by (apply NoDup_length_incl; auto; lia).
  intros q Hq. pose proof (grid_wf _ _ _ GR q Hq) as Lq.
  assert (Cell : exists c, length c = k /\ forall i a x, nth_error c i = Some a -> nth_error q i = Some x -> (x * natQ g == natQ a + 1)%Q).
  { assert (Ht : forall j, j <= k -> exists c, length c = j /\ forall i a x, nth_error c i = Some a -> nth_error q i = Some x -> (x * natQ g == natQ a + 1)%Q).
    { induction j as [|j IH]; intros Hj; [exists []; split; auto; intros [|i] a x H; discriminate|]. destruct IH as (c & Lc & Hc); [lia|].
      destruct (proj2 GR q j Hq) as (x & m & Ex & Em); [lia|]. pose proof (Pos q j x Hq ltac:(lia) Ex) as Px. pose proof (natQ_pos g (proj1 G)) as Pg.
      assert (0 < m). { apply natQ_lt. change (natQ 0) with 0%Q. rewrite <- Em. nra. }
      exists (c ++ [m - 1]). split; [rewrite app_length; cbn; lia|]. intros i a y Ha Hy. destruct (Nat.lt_ge_cases i (length c)) as [Hi|Hi].
      - rewrite nth_error_app1 in Ha by auto. eauto.
      - rewrite nth_error_app2 in Ha by auto. destruct (i - length c) as [|[|z]] eqn:Ez; cbn in Ha; try discriminate. injection Ha as <-. assert (i = j) as -> by lia.
        assert (y = x) as -> by congruence. rewrite Em, <- natQ_S. replace (S (m - 1)) with m by lia. reflexivity. }
    apply (Ht k); auto. }
  destruct Cell as (c & Lc & Hc).
  assert (In c L). { apply Inc', HL'. split; auto. exists q. split; auto. intros i a x Ha Hx. rewrite (Hc i a x Ha Hx). lra. }
  apply HL in H as (_ & p & Hp & Hin). exists p. split; auto. intros i x y Hi Hx Hy. destruct (nth_error_in_some c i) as [a Ha]; [lia|].
  specialize (Hin i a x Ha Hx). specialize (Hc i a y Ha Hy). pose proof (natQ_pos g (proj1 G)) as Pg. nra.
Qed.
Lemma same_volumes k P R v w : covers k P R -> covers k R P -> is_hypervolume k P v -> is_hypervolume k R w -> (exists g, on_grid g k (P ++ R)) -> (v == w)%Q.
Proof.
  intros C1 C2 V1 V2 [g G]. apply Qle_antisym; [apply (hypervolume_mono k P R); eauto|]. apply (hypervolume_mono k R P); auto. exists g. eapply grid_incl; eauto. intros x; rewrite !in_app_iff; tauto.
Qed.

(** ** seen from a reference point, the order is that of the objectives *)
Lemma seen_order dirs ref bounds p q p' q' : length ref = length dirs -> length bounds = length dirs -> length dirs <= length p -> length dirs <= length q -> proper bounds ->
  seen_from dirs ref bounds p p' -> seen_from dirs ref bounds q q' -> (ge (length dirs) p' q' <-> at_least dirs p q).
Proof.
  intros Hr Hb Lp Lq Pr Sp Sq. split; intros H.
  - intros i d x y Hd Hx Hy. assert (Hi : i < length dirs) by (apply nth_error_lt in Hd; auto).
    destruct (seen_at dirs ref bounds p p' i) as (d1 & r1 & mn1 & mx1 & x1 & y1 & A1 & A2 & A3 & A4 & A5 & A6); auto.
    destruct (seen_at dirs ref bounds q q' i) as (d2 & r2 & mn2 & mx2 & x2 & y2 & B1 & B2 & B3 & B4 & B5 & B6); auto.
    assert (d1 = d) as -> by congruence. assert (d2 = d) as -> by congruence. assert (r2 = r1) as -> by congruence. rewrite A3 in B3. injection B3 as <- <-.
    assert (x1 = x) as -> by congruence. assert (x2 = y) as -> by congruence. specialize (H i y1 y2 Hi A5 B5). rewrite A6, B6 in H. cbv zeta in H.
    pose proof (Pr (mn1, mx1) (nth_error_In _ _ A3)) as Pm. cbn in Pm.
    assert (Dx : (x == (x - mn1) / (mx1 - mn1) * (mx1 - mn1) + mn1)%Q) by (field; lra). assert (Dy : (y == (y - mn1) / (mx1 - mn1) * (mx1 - mn1) + mn1)%Q) by (field; lra).
    set (s := ((x - mn1) / (mx1 - mn1))%Q) in *. set (t := ((y - mn1) / (mx1 - mn1))%Q) in *. destruct d; rewrite Dx, Dy; nra.
  - intros i y1 y2 Hi Hy1 Hy2.
    destruct (seen_at dirs ref bounds p p' i) as (d & r1 & mn1 & mx1 & x1 & y1' & A1 & A2 & A3 & A4 & A5 & A6); auto.
    destruct (seen_at dirs ref bounds q q' i) as (d2 & r2 & mn2 & mx2 & x2 & y2' & B1 & B2 & B3 & B4 & B5 & B6); auto.
    assert (y1' = y1) as -> by congruence. assert (y2' = y2) as -> by congruence. assert (d2 = d) as -> by congruence. assert (r2 = r1) as -> by congruence. rewrite A3 in B3. injection B3 as <- <-.
    specialize (H i d x1 x2 A1 A4 B4). rewrite A6, B6. cbv zeta. pose proof (Pr (mn1, mx1) (nth_error_In _ _ A3)) as Pm. cbn in Pm.
    assert (Dx : (x1 == (x1 - mn1) / (mx1 - mn1) * (mx1 - mn1) + mn1)%Q) by (field; lra). assert (Dy : (x2 == (x2 - mn1) / (mx1 - mn1) * (mx1 - mn1) + mn1)%Q) by (field; lra).
    set (s := ((x1 - mn1) / (mx1 - mn1))%Q) in *. set (t := ((x2 - mn1) / (mx1 - mn1))%Q) in *. destruct d; rewrite Dx, Dy in H; nra.
Qed.
Definition positive_from (dirs : list bool) (ref : list Q) (bounds : list (Q * Q)) (p : point) : Prop :=
  forall i d r mn mx x, nth_error dirs i = Some d -> nth_error ref i = Some r -> nth_error bounds i = Some (mn, mx) -> nth_error p i = Some x ->
     (0 < let t := (x - mn) / (mx - mn) in if d then r - t else t - r)%Q.
(** the two metrics for given bounds and reference point *)
Lemma stops_iff (dirs : list bool) (ref : list Q) (bounds : list (Q * Q)) (archive target : list point) : 2 <= length dirs -> length ref = length dirs -> length bounds = length dirs ->
  (forall p, In p (archive ++ target) -> length dirs <= length p /\ positive_from dirs ref bounds p) -> proper bounds ->
  exists a b, hv_metric dirs false 0 ref bounds archive = Ok a /\ hv_metric dirs false 0 ref bounds target = Ok b /\
    (reaches dirs target archive -> ((a == b)%Q <-> reaches dirs archive target)) /\
    (reaches dirs archive target -> (b <= a)%Q).
Proof.
  intros Hk Hr Hb Hp Pr.
  assert (H1 : forall p, In p archive -> length dirs <= length p /\ positive_from dirs ref bounds p) by (intros p H; apply Hp, in_app_iff; auto).
  assert (H2 : forall p, In p target -> length dirs <= length p /\ positive_from dirs ref bounds p) by (intros p H; apply Hp, in_app_iff; auto).
  destruct (front_volume dirs ref bounds archive) as (f1 & a & F1' & E1 & C1 & S1 & O1 & V1); auto; [intros p H; apply H1; auto| |].
  { intros p i d r mn mx x Ip A1 A2 A3 A4. apply Qlt_le_weak. destruct (H1 p Ip) as [_ Q1]. exact (Q1 i d r mn mx x A1 A2 A3 A4). }
  destruct (front_volume dirs ref bounds target) as (f2 & b & F2' & E2 & C2 & S2 & O2 & V2); auto; [intros p H; apply H2; auto| |].
  { intros p i d r mn mx x Ip A1 A2 A3 A4. apply Qlt_le_weak. destruct (H2 p Ip) as [_ Q1]. exact (Q1 i d r mn mx x A1 A2 A3 A4). }
  exists a, b. unfold hv_metric. change (Qle_bool 1 0) with false. cbv iota. cbn [rbind]. rewrite E1, E2. cbn [rbind]. rewrite C1, C2. cbn [rbind].
  split; [reflexivity|]. split; [reflexivity|].
  assert (Cov : forall s t fs ft, Forall2 (seen_from dirs ref bounds) s fs -> Forall2 (seen_from dirs ref bounds) t ft -> (forall p, In p s -> length dirs <= length p) -> (forall p, In p t -> length dirs <= length p) ->
            (covers (length dirs) ft fs <-> reaches dirs s t)).
  { intros s t fs ft Ss St Ls Lt. split; intros H.
    - intros q Hq. destruct (Forall2_In_l _ _ _ St q Hq) as (q' & Iq' & Sq). destruct (H q' Iq') as (p' & Ip' & Hge). destruct (Forall2_In_r _ _ _ Ss p' Ip') as (p & Ip & Sp).
      exists p. split; auto. apply (seen_order dirs ref bounds p q p' q'); auto.
    - intros q' Hq'. destruct (Forall2_In_r _ _ _ St q' Hq') as (q & Iq & Sq). destruct (H q Iq) as (p & Ip & Hal). destruct (Forall2_In_l _ _ _ Ss p Ip) as (p' & Ip' & Sp).
      exists p'. split; auto. apply (seen_order dirs ref bounds p q p' q'); auto. }
  assert (G : exists g, on_grid g (length dirs) (f1 ++ f2)). { apply grid_exists. intros p i Hp' Hi. apply in_app_iff in Hp' as [H|H]; auto. }
  assert (L1 : forall p, In p archive -> length dirs <= length p) by (intros p H; apply H1; auto). assert (L2 : forall p, In p target -> length dirs <= length p) by (intros p H; apply H2; auto).
  split.
  - intros Ht. apply (Cov target archive f2 f1) in Ht; auto. split.
    + intros Eab. apply (Cov archive target f1 f2); auto. eapply equal_volumes; eauto. intros q' i x Hq' Hi Hx. destruct (Forall2_In_r _ _ _ S2 q' Hq') as (q & Iq & Sq).
      destruct (seen_at dirs ref bounds q q' i) as (d & r & mn & mx & u & y & A1 & A2 & A3 & A4 & A5 & A6); auto. assert (y = x) as -> by congruence. rewrite A6. destruct (H2 q Iq) as [_ Q1]. exact (Q1 i d r mn mx u A1 A2 A3 A4).
    + intros Ha. apply (Cov archive target f1 f2) in Ha; auto. apply (same_volumes (length dirs) f1 f2); auto.
  - intros Ha. apply (Cov archive target f1 f2) in Ha; auto. apply (hypervolume_mono (length dirs) f2 f1); auto. destruct G as [g G]. exists g. eapply grid_incl; eauto. intros x; rewrite !in_app_iff; tauto.
Qed.

(** ** the bounds of two sets *)
Lemma setup2_ok s1 s2 i : s1 <> [] -> s2 <> [] -> (forall p, In p (s1 ++ s2) -> i < length p) ->
  exists mn mx, setup2 s1 s2 i = Ok (mn, mx) /\ (mn < mx)%Q /\ (forall p x, In p (s1 ++ s2) -> nth_error p i = Some x -> (mn <= x <= mx)%Q).
Proof.
  intros N1 N2 Hl. destruct s1 as [|p r]; [congruence|]. destruct s2 as [|q r2]; [congruence|]. unfold setup2.
  destruct (nth_error_in_some p i) as [x Hx]; [apply Hl; cbn; auto|]. rewrite Hx. cbn [of_opt rbind].
  destruct (bounds_of_ok i r x x) as (a & b & E & A1 & A2 & _ & _ & A5); [lra|intros p' Hp'; apply Hl; cbn; rewrite in_app_iff; auto|]. rewrite E. cbn [rbind].
  destruct (bounds_of_ok i (q :: r2) a b) as (a' & b' & E' & B1 & B2 & _ & _ & B5); [lra|intros p' Hp'; apply Hl; apply in_app_iff; auto|]. rewrite E'. cbn [rbind].
  assert (All : forall p' y, In p' ((p :: r) ++ q :: r2) -> nth_error p' i = Some y -> (a' <= y <= b')%Q).
  { intros p' y Hp' Hy. apply in_app_iff in Hp' as [[<-|Hp']|Hp']; [assert (y = x) as -> by congruence; lra|specialize (A5 p' y Hp' Hy); lra|apply (B5 p' y Hp' Hy)]. }
  destruct (Qeq_bool a' b') eqn:Eq.
  - apply Qeq_bool_iff in Eq. eexists. eexists. split; [reflexivity|]. unfold tiny. split; [lra|]. intros p' y Hp' Hy. specialize (All p' y Hp' Hy). lra.
  - assert (~ (a' == b')%Q) by (intros H; apply Qeq_bool_iff in H; congruence). eexists. eexists. split; [reflexivity|]. split; [lra|]. exact All.
Qed.
Lemma hyp_continue_normalised (dirs : list bool) rho ref (archive target : list point) : 2 <= length dirs -> (1 < rho)%Q -> archive <> [] -> target <> [] ->
  (forall p, In p (archive ++ target) -> length dirs <= length p) ->
  exists go, hyp_continue dirs true rho ref target archive = Ok go /\ (reaches dirs target archive -> (go = false <-> reaches dirs archive target)).
Proof.
  intros Hk Hrho N1 N2 Hp.
  destruct (for_all_ok (setup2 archive target) (fun i b => (fst b < snd b)%Q /\ forall p x, In p (archive ++ target) -> nth_error p i = Some x -> (fst b <= x <= snd b)%Q) (seq 0 (length dirs))) as (bounds & Eb & Fb).
  { intros i Hi. apply in_seq in Hi. destruct (setup2_ok archive target i) as (mn & mx & E & H1 & H2); auto; [intros p H; specialize (Hp p H); lia|]. exists (mn, mx). auto. }
  pose proof (HvMetric.Forall2_len _ _ _ Fb) as Lb. rewrite seq_length in Lb.
  assert (Sp : forall i mn mx, nth_error bounds i = Some (mn, mx) -> (mn < mx)%Q /\ forall p x, In p (archive ++ target) -> nth_error p i = Some x -> (mn <= x <= mx)%Q).
  { intros i mn mx Hi. assert (Hi' : i < length dirs) by (apply nth_error_lt in Hi; lia). pose proof (HvMetric.Forall2_nth _ _ _ Fb i i (mn, mx)) as S'. cbn in S'. apply S'; auto. rewrite nth_error_seq' by auto. f_equal; lia. }
  set (ref' := map (fun d : bool => if d then rho else 1 - rho)%Q dirs).
  assert (Er : map (fun db : bool * (Q * Q) => ref_of true rho (fst db) (snd db)) (combine dirs bounds) = ref').
  { unfold ref'. clear -Lb. revert bounds Lb. induction dirs as [|d dirs IH]; intros [|b bounds] L; auto; try discriminate. cbn. f_equal. apply IH. cbn in L; lia. }
  destruct (stops_iff dirs ref' bounds archive target) as (a & b & Ea & Eb' & H & _); auto.
  - unfold ref'. apply map_length.
  - intros p Ip. split; auto. intros i d r mn mx x A1 A2 A3 A4. destruct (Sp i mn mx A3) as (Lt & Al). specialize (Al p x Ip A4).
    unfold ref' in A2. rewrite nth_error_map', A1 in A2. cbn in A2.
    assert (T : (0 <= (x - mn) / (mx - mn) <= 1)%Q). { split; [apply Qle_shift_div_l; lra|apply Qle_shift_div_r; lra]. }
    cbv zeta. destruct d; injection A2 as <-; lra.
  - intros [mn mx] Hb. apply In_nth_error in Hb as [i Hi]. apply Sp in Hi. apply Hi.
  - unfold hyp_continue, hv_between. assert (Qle_bool 1 rho = true) as -> by (apply Qle_bool_iff; lra). cbv iota. rewrite Eb. cbn [rbind]. rewrite Er, Ea. cbn [rbind]. rewrite Eb'. cbn [rbind].
    eexists. split; [reflexivity|]. intros Ht. rewrite <- (H Ht). rewrite negb_false_iff, Qeq_bool_iff. split; intros; lra.
Qed.
Lemma hyp_continue_reference (dirs : list bool) rho ref (archive target : list point) : 2 <= length dirs -> (rho < 1)%Q -> length ref = length dirs ->
  (forall p, In p (archive ++ target) -> length dirs <= length p /\ ahead_of dirs ref p) ->
  exists go, hyp_continue dirs false rho ref target archive = Ok go /\ (reaches dirs target archive -> (go = false <-> reaches dirs archive target)).
Proof.
  intros Hk Hrho Hr Hp. destruct (stops_iff dirs ref (repeat (0, 1)%Q (length dirs)) archive target) as (a & b & Ea & Eb & H & _); auto; [apply repeat_length| |apply unit_proper|].
  - intros p Ip. destruct (Hp p Ip) as [Lp Ap]. split; auto. intros i d r mn mx x A1 A2 A3 A4. apply repeat_at in A3. injection A3 as -> ->. specialize (Ap i d r x A1 A2 A4). cbv zeta. destruct d; rewrite unit_scale; lra.
  - unfold hyp_continue, hv_between. destruct (Qle_bool 1 rho) eqn:E; [apply Qle_bool_iff in E; lra|]. cbn [rbind]. rewrite Ea. cbn [rbind]. rewrite Eb. cbn [rbind].
    eexists. split; [reflexivity|]. intros Ht. rewrite <- (H Ht). rewrite negb_false_iff, Qeq_bool_iff. split; intros; lra.
Qed.

(** ** the target *)
Lemma for_all_nth {T} (f : nat -> res T) l xs : for_all_objectives f l = Ok xs -> length xs = length l /\ forall i j, nth_error l i = Some j -> exists x, nth_error xs i = Some x /\ f j = Ok x.
Proof.
  revert xs. induction l as [|j l IH]; intros xs H; cbn in H; [injection H as <-; split; auto; intros [|i] j Hj; discriminate|].
  apply rbind_ok in H as (x & Ex & H). apply rbind_ok in H as (r & Er & H). injection H as <-. destruct (IH r Er) as [L N]. split; [cbn; lia|].
  intros [|i] j' Hj; cbn in Hj; [injection Hj as <-; exists x; auto|]. apply (N i j' Hj).
Qed.
Lemma targets_ok n vec : 0 < n -> exists t, targets n vec = Ok t /\ length t = length vec / n /\
  forall i, i < length vec / n -> exists p, nth_error t i = Some p /\ length p = n /\ forall j, j < n -> nth_error p j = nth_error vec (i * n + j).
Proof.
  intros Hn. unfold targets.
  destruct (for_all_ok (fun i => for_all_objectives (fun j => of_opt (nth_error vec (i * n + j))) (seq 0 n)) (fun i p => length p = n /\ forall j, j < n -> nth_error p j = nth_error vec (i * n + j)) (seq 0 (length vec / n))) as (t & E & F).
  - intros i Hi. apply in_seq in Hi. destruct (for_all_ok (fun j => of_opt (nth_error vec (i * n + j))) (fun j x => nth_error vec (i * n + j) = Some x) (seq 0 n)) as (p & Ep & Fp).
    + intros j Hj. apply in_seq in Hj. destruct (nth_error_in_some vec (i * n + j)) as [x Hx]. { pose proof (Nat.div_mod (length vec) n ltac:(lia)). nia. } rewrite Hx. exists x. auto.
    + exists p. split; auto. pose proof (HvMetric.Forall2_len _ _ _ Fp) as Lp. rewrite seq_length in Lp. split; auto. intros j Hj. destruct (nth_error_in_some p j) as [x Hx]; [lia|].
      pose proof (HvMetric.Forall2_nth _ _ _ Fp j j x) as H. cbn in H. rewrite Hx. symmetry. apply H; auto. rewrite nth_error_seq' by lia. f_equal; lia.
  - exists t. split; auto. pose proof (HvMetric.Forall2_len _ _ _ F) as Lt. rewrite seq_length in Lt. split; auto. intros i Hi. destruct (nth_error_in_some t i) as [p Hp]; [lia|]. exists p. split; auto.
    pose proof (HvMetric.Forall2_nth _ _ _ F i i p) as H. cbn in H. apply H; auto. rewrite nth_error_seq' by lia. f_equal; lia.
Qed.
