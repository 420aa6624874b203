(** From every reachable state, the progressive scheduler can still finish (C29). *)
From Coq Require Import List Arith Lia Bool Permutation.
From Verif Require Import Outcome Lib SchedModel SchedSpec SchedProofs SchedProg.
Import ListNotations.

Definition reach (n : nat) (s s' : state) : Prop := exists sched, exec n sched s = Some s'.
Lemma reach_refl n s : reach n s s.
Proof. exists []. reflexivity. Qed.
Lemma exec_app n a : forall s b, exec n (a ++ b) s = obind (exec n a s) (exec n b).
Proof. induction a as [|who a IH]; intros s b; cbn [app exec]; auto. destruct (step n who s); cbn [obind]; auto. Qed.
Lemma reach_trans n s1 s2 s3 : reach n s1 s2 -> reach n s2 s3 -> reach n s1 s3.
Proof. intros (a & Ha) (b & Hb). exists (a ++ b). rewrite exec_app, Ha. exact Hb. Qed.
Lemma reach_step n who s s' : step n who s = Some s' -> reach n s s'.
Proof. intros H. exists [who]. cbn [exec]. rewrite H. reflexivity. Qed.
Lemma reach_inv n s s' : inv n s -> reach n s s' -> inv n s'.
Proof. intros Hi (a & Ha). eapply exec_inv; eauto. Qed.

(** ** one worker alone *)
Definition wstep (dn : bool) (w : worker) : option (worker * list nat) :=
  let pc p := Some (Wk (package w) (planning w) (mutex w) p, []) in
  match wpc w with
  | WIdle | WEnd => None
  | WTest => if negb dn then pc WLock else pc WTest2
  | WTest2 => if is_nil (package w) then pc WEnd else pc WLock
  | WLock => match mutex w with Free => Some (Wk (package w) (planning w) Worker (WRun 0), []) | _ => None end
  | WRun k => match nth_error (package w) k with
              | Some x => Some (Wk (package w) (planning w) (mutex w) (WRun (S k)), [x])
              | None => pc WClear
              end
  | WClear => Some (Wk [] (planning w) (mutex w) WUnlock, [])
  | WUnlock => Some (Wk (package w) (planning w) Free WTest, [])
  end.
Inductive wreach (dn : bool) : worker -> worker -> Prop :=
| wr_refl w : wreach dn w w
| wr_step w w1 l w2 : wstep dn w = Some (w1, l) -> wreach dn w1 w2 -> wreach dn w w2.
Lemma wreach_trans dn a b c : wreach dn a b -> wreach dn b c -> wreach dn a c.
Proof. induction 1; auto. intros. econstructor; eauto. Qed.
Definition put (s : state) (i : nat) (w : worker) (ap : list nat) : state := St (counter s) (dpc s) (done s) (set (workers s) i w) ap.
Lemma worker_step_local i s w w' l : nth_error (workers s) i = Some w -> wstep (done s) w = Some (w', l) ->
  worker_step i s = Some (put s i w' (applied s ++ l)).
Proof.
  intros Hw H. unfold worker_step, wstep, put in *. rewrite Hw. cbn [obind].
  destruct (wpc w); try discriminate.
  - destruct (negb (done s)); inversion H; subst; rewrite app_nil_r; auto.
  - destruct (is_nil (package w)); inversion H; subst; rewrite app_nil_r; auto.
  - destruct (mutex w); inversion H; subst; rewrite app_nil_r; auto.
  - destruct (nth_error (package w) k) as [x|]; inversion H; subst; rewrite ?app_nil_r; auto.
  - inversion H; subst; rewrite app_nil_r; auto.
  - inversion H; subst; rewrite app_nil_r; auto.
Qed.
Lemma set_set {A} (l : list A) i x y : set (set l i x) i y = set l i y.
Proof.
  apply nth_error_ext. intros j. rewrite !nth_error_set, set_length. destruct ((j =? i) && (i <? length l)) eqn:E; auto.
Qed.
Lemma wreach_lift n w w' : forall s i, nth_error (workers s) i = Some w -> wreach (done s) w w' ->
  exists ap, reach n s (put s i w' ap).
Proof.
  intros s i Hw H. remember (done s) as dn. revert s Hw Heqdn. induction H as [w|w w1 l w2 H1 H2 IH]; intros s Hw Hdn.
  - exists (applied s). exists []. cbn [exec]. unfold put. rewrite set_same by auto. destruct s; reflexivity.
  - subst dn. pose proof (worker_step_local i s w w1 l Hw H1) as E.
    destruct (IH (put s i w1 (applied s ++ l))) as [ap Hr].
    + cbn. apply nth_error_set_eq. eapply nth_error_lt; eauto.
    + reflexivity.
    + exists ap. eapply reach_trans; [apply (reach_step n (Some i)); exact E|].
      unfold put in *. cbn in *. rewrite set_set in Hr. exact Hr.
Qed.
(** a worker in its critical section leaves it with an empty package *)
Lemma wreach_run dn p pl m : forall k j, k + j = length p -> wreach dn (Wk p pl m (WRun k)) (Wk p pl m WClear).
Proof.
  intros k j. revert k. induction j as [|j IH]; intros k H.
  - eapply wr_step; [|apply wr_refl]. unfold wstep; cbn [wpc package]. rewrite nth_error_ge by lia. reflexivity.
  - destruct (nth_error_in_some p k) as [x Hx]; [lia|]. eapply wr_step; [|apply (IH (S k)); lia].
    unfold wstep; cbn [wpc package]. rewrite Hx. reflexivity.
Qed.
Lemma wreach_section dn w : in_section (wpc w) -> (forall k, wpc w = WRun k -> k <= length (package w)) -> (wpc w = WUnlock -> package w = []) ->
  wreach dn w (Wk [] (planning w) Free WTest).
Proof.
  destruct w as [p pl m pc]. cbn. intros Hs Hr Hu.
  assert (U : forall m, wreach dn (Wk [] pl m WUnlock) (Wk [] pl Free WTest)).
  { intros m0. eapply wr_step; [reflexivity|apply wr_refl]. }
  assert (C : wreach dn (Wk p pl m WClear) (Wk [] pl Free WTest)).
  { eapply wr_step; [reflexivity|]. apply U. }
  destruct pc; cbn in Hs; try tauto.
  - eapply wreach_trans; [|exact C]. specialize (Hr k eq_refl). apply wreach_run with (length p - k). lia.
  - rewrite Hu by auto. apply U.
Qed.
Lemma wreach_round dn w : mutex w = Free -> wpc w = WLock -> wreach dn w (Wk [] (planning w) Free WTest).
Proof.
  intros Hm Hp. eapply wr_step; [unfold wstep; rewrite Hp, Hm; reflexivity|].
  apply (wreach_section dn (Wk (package w) (planning w) Worker (WRun 0))); cbn; auto; [|discriminate].
  intros k H. assert (k = 0) by congruence. lia.
Qed.
Lemma wreach_clear w : mutex w <> Dispatcher -> wpc w <> WIdle -> wpc w <> WEnd -> wpc w <> WTest2 ->
  (mutex w = Worker <-> in_section (wpc w)) -> (forall k, wpc w = WRun k -> k <= length (package w)) -> (wpc w = WUnlock -> package w = []) ->
  wreach false w (Wk [] (planning w) Free WTest).
Proof.
  intros Hm H1 H2 H3 Hs Hr Hu. destruct (wpc w) eqn:E; try congruence.
  - eapply wr_step; [unfold wstep; rewrite E; reflexivity|]. 
    assert (mutex w = Free) as F by (destruct (mutex w); auto; [congruence|]; exfalso; apply Hs; auto).
    apply (wreach_round false (Wk (package w) (planning w) (mutex w) WLock)); auto.
  - apply wreach_round; auto. destruct (mutex w); auto; [congruence|]; exfalso; apply Hs; auto.
  - apply wreach_section; rewrite E; cbn; auto.
  - apply wreach_section; rewrite E; cbn; auto.
  - apply wreach_section; rewrite E; cbn; auto.
Qed.
Lemma wreach_finish w : mutex w <> Dispatcher -> wpc w <> WIdle ->
  (mutex w = Worker <-> in_section (wpc w)) -> (forall k, wpc w = WRun k -> k <= length (package w)) -> (wpc w = WUnlock -> package w = []) ->
  exists w', wreach true w w' /\ wpc w' = WEnd.
Proof.
  intros Hm H1 Hs Hr Hu.
  assert (T : forall pl, wreach true (Wk [] pl Free WTest) (Wk [] pl Free WEnd)).
  { intros pl. eapply wr_step; [reflexivity|]. eapply wr_step; [reflexivity|]. apply wr_refl. }
  assert (L : forall w, mutex w = Free -> wpc w = WLock -> wreach true w (Wk [] (planning w) Free WEnd)).
  { intros v F E. eapply wreach_trans; [apply wreach_round; auto|apply T]. }
  assert (T2 : forall p pl, exists w', wreach true (Wk p pl Free WTest2) w' /\ wpc w' = WEnd).
  { intros [|x p] pl.
    - eexists. split; [eapply wr_step; [reflexivity|apply wr_refl]|reflexivity].
    - eexists. split; [eapply wr_step; [reflexivity|]; apply L; reflexivity|reflexivity]. }
  destruct (wpc w) eqn:E; try congruence.
  - assert (mutex w = Free) as F by (destruct (mutex w); auto; [congruence|]; exfalso; apply Hs; auto).
    destruct (T2 (package w) (planning w)) as (w' & R & W). exists w'. split; auto.
    eapply wr_step; [unfold wstep; rewrite E; reflexivity|]. rewrite F. exact R.
  - assert (mutex w = Free) as F by (destruct (mutex w); auto; [congruence|]; exfalso; apply Hs; auto).
    destruct w as [p pl m pc]. cbn in *. subst. apply T2.
  - assert (mutex w = Free) as F by (destruct (mutex w); auto; [congruence|]; exfalso; apply Hs; auto).
    eexists. split; [apply L; auto|reflexivity].
  - eexists. split; [eapply wreach_trans; [apply wreach_section; rewrite E; cbn; auto|apply T]|reflexivity].
  - eexists. split; [eapply wreach_trans; [apply wreach_section; rewrite E; cbn; auto|apply T]|reflexivity].
  - eexists. split; [eapply wreach_trans; [apply wreach_section; rewrite E; cbn; auto|apply T]|reflexivity].
  - exists w. split; [apply wr_refl|auto].
Qed.

(** ** the dispatcher *)
Definition nw (s : state) : nat := length (workers s).
(** the dispatcher moves on alone *)
Lemma disp n s s' : dispatcher_step n s = Some s' -> reach n s s'.
Proof. intros H. apply (reach_step n None). exact H. Qed.

Definition same_size (s s' : state) : Prop := length (workers s') = length (workers s).
Lemma filling n : forall i j s, inv n s -> dpc s = DFill i j ->
  exists s', reach n s s' /\ dpc s' = DFor (S i) /\ length (workers s') = length (workers s) /\ counter s <= counter s' /\
    (counter s < n -> j = 0 -> counter s < counter s').
Proof.
  intros i j s. remember (n - counter s) as m. revert j s Heqm. induction m as [m IH] using lt_wf_ind. intros j s Hm Hi Hd.
  pose proof Hi as [I1 I2 I3 I4]. rewrite Hd in I4. cbn in I4. destruct I4 as [Hdn Hl].
  destruct (nth_error_in_some (workers s) i Hl) as [w Hw].
  destruct ((j <? planning w) && (counter s <? n)) eqn:Et.
  - assert (E : dispatcher_step n s = Some (St (S (counter s)) (DFill i (S j)) (done s) (set (workers s) i (Wk (package w ++ [counter s]) (planning w) (mutex w) (wpc w))) (applied s))).
    { unfold dispatcher_step, with_worker. rewrite Hd, Hw. cbn [obind]. rewrite Et. reflexivity. }
    apply andb_true_iff in Et as [_ Et]. apply Nat.ltb_lt in Et.
    destruct (IH (n - S (counter s)) ltac:(lia) (S j) (St (S (counter s)) (DFill i (S j)) (done s) (set (workers s) i (Wk (package w ++ [counter s]) (planning w) (mutex w) (wpc w))) (applied s)))
      as (s' & R & D & L & C & _); auto.
    + eapply dispatcher_inv; eauto.
    + exists s'. split; [eapply reach_trans; [apply disp; exact E|exact R]|]. cbn in *. rewrite set_length in L.
      repeat split; auto; lia.
  - assert (E : dispatcher_step n s = Some (St (counter s) (DUnlock i) (done s) (set (workers s) i (Wk (package w) (planning w * 2) (mutex w) (wpc w))) (applied s))).
    { unfold dispatcher_step, with_worker. rewrite Hd, Hw. cbn [obind]. rewrite Et. reflexivity. }
    set (s1 := St _ _ _ _ _) in E.
    assert (E2 : dispatcher_step n s1 = Some (St (counter s) (DFor (S i)) (done s) (set (workers s1) i (Wk (package w) (planning w * 2) Free (wpc w))) (applied s))).
    { unfold dispatcher_step, with_worker. cbn [dpc s1 workers]. rewrite nth_error_set_eq by auto. reflexivity. }
    eexists. split; [eapply reach_trans; [apply disp; exact E|apply disp; exact E2]|]. cbn. rewrite !set_length.
    repeat split; auto. intros Hc ->. exfalso.
    destruct (I3 i w Hw) as [A B C D P F G J K]. assert (0 < planning w).
    { apply P. rewrite C. intros (k & E1 & _). congruence. }
    apply andb_false_iff in Et as [Et|Et]; apply Nat.ltb_ge in Et; lia.
Qed.
(** from the loop over packages with work left, the counter can advance *)
Lemma for_progress n s i : inv n s -> dpc s = DFor i -> i < length (workers s) -> counter s < n ->
  exists s', reach n s s' /\ dpc s' = DFor (S i) /\ length (workers s') = length (workers s) /\ counter s < counter s'.
Proof.
  intros Hi Hd Hl Hc. pose proof Hi as [I1 I2 I3 I4]. rewrite Hd in I4. cbn in I4.
  destruct (nth_error_in_some (workers s) i Hl) as [w Hw]. destruct (I3 i w Hw) as [A B C D P F G J K].
  assert (NI : wpc w <> WIdle) by (intros X; apply C in X as (k & E1 & _); congruence).
  assert (R1 : wreach (done s) w (Wk [] (planning w) Free WTest)).
  { rewrite I4. apply wreach_clear; auto.
    - intros X. apply A in X. rewrite Hd in X. exact X.
    - intros X. apply K in X as [X _]. congruence.
    - intros X. apply F in X. congruence. }
  destruct (wreach_lift n w _ s i Hw R1) as [ap R]. set (s1 := put s i (Wk [] (planning w) Free WTest) ap) in *.
  assert (Hi1 : inv n s1) by (eapply reach_inv; eauto).
  assert (Hw1 : nth_error (workers s1) i = Some (Wk [] (planning w) Free WTest)) by (cbn; apply nth_error_set_eq; auto).
  assert (E2 : dispatcher_step n s1 = Some (St (counter s) (DLock i) (done s) (workers s1) ap)).
  { unfold dispatcher_step. replace (dpc s1) with (DFor i) by (cbn; auto). rewrite Hw1.
    replace (i <? length (workers s1)) with true by (cbn; rewrite set_length; symmetry; apply Nat.ltb_lt; auto).
    cbn [obind package is_nil andb]. replace (counter s1 <? n) with true by (cbn; symmetry; apply Nat.ltb_lt; auto). reflexivity. }
  set (s2 := St (counter s) (DLock i) (done s) (workers s1) ap) in *.
  assert (E3 : dispatcher_step n s2 = Some (St (counter s) (DFill i 0) (done s) (set (workers s1) i (Wk [] (planning w) Dispatcher WTest)) ap)).
  { unfold dispatcher_step, with_worker. cbn [dpc s2 workers]. rewrite Hw1. reflexivity. }
  set (s3 := St _ _ _ _ _) in E3.
  assert (Hi3 : inv n s3) by (eapply dispatcher_inv; [|exact E3]; eapply dispatcher_inv; eauto).
  destruct (filling n i 0 s3 Hi3 eq_refl) as (s' & R' & D' & L' & C1 & C2).
  exists s'. split; [|split; auto; split].
  - eapply reach_trans; [exact R|]. eapply reach_trans; [apply disp; exact E2|]. eapply reach_trans; [apply disp; exact E3|exact R'].
  - rewrite L'. cbn. rewrite !set_length. auto.
  - apply C2; auto.
Qed.
(** without work left, the loop over packages ends *)
Lemma for_end n : forall m s i, inv n s -> dpc s = DFor i -> m = length (workers s) - i -> counter s = n ->
  exists s', reach n s s' /\ dpc s' = DLoop /\ length (workers s') = length (workers s) /\ counter s' = n.
Proof.
  induction m as [|m IH]; intros s i Hi Hd Hm Hc.
  - assert (E : dispatcher_step n s = Some (St (counter s) DLoop (done s) (workers s) (applied s))).
    { unfold dispatcher_step. rewrite Hd. destruct (Nat.ltb_spec i (length (workers s))); [lia|reflexivity]. }
    eexists. split; [apply disp; exact E|]. auto.
  - assert (Hl : i < length (workers s)) by lia. destruct (nth_error_in_some (workers s) i Hl) as [w Hw].
    assert (E : dispatcher_step n s = Some (St (counter s) (DFor (S i)) (done s) (workers s) (applied s))).
    { unfold dispatcher_step. rewrite Hd, Hw. destruct (Nat.ltb_spec i (length (workers s))); [|lia]. cbn [obind].
      replace (counter s <? n) with false by (symmetry; apply Nat.ltb_ge; lia). rewrite andb_false_r. reflexivity. }
    destruct (IH (St (counter s) (DFor (S i)) (done s) (workers s) (applied s)) (S i)) as (s' & R & X); auto.
    + eapply dispatcher_inv; eauto.
    + cbn. lia.
    + exists s'. split; [eapply reach_trans; [apply disp; exact E|exact R]|exact X].
Qed.
Lemma loop_to_done n : forall m s, inv n s -> (dpc s = DLoop \/ exists i, dpc s = DFor i) -> 0 < length (workers s) ->
  m = n - counter s -> exists s', reach n s s' /\ dpc s' = DDone /\ length (workers s') = length (workers s).
Proof.
  induction m as [m IH] using lt_wf_ind. intros s Hi Hd Hw Hm.
  assert (Hle : counter s <= n) by (destruct Hi; auto).
  assert (Loop : forall s, inv n s -> dpc s = DLoop -> counter s = n -> exists s', reach n s s' /\ dpc s' = DDone /\ length (workers s') = length (workers s)).
  { intros t _ Ht Hn. eexists. split; [apply disp; unfold dispatcher_step; rewrite Ht|].
    - destruct (Nat.ltb_spec (counter t) n); [lia|reflexivity].
    - auto. }
  assert (For : forall s i, inv n s -> dpc s = DFor i -> counter s = n -> exists s', reach n s s' /\ dpc s' = DDone /\ length (workers s') = length (workers s)).
  { intros t i Ht Hf Hn. destruct (for_end n _ t i Ht Hf eq_refl Hn) as (t1 & R & D & L & C).
    destruct (Loop t1) as (t2 & R2 & D2 & L2); auto; [eapply reach_inv; eauto|]. exists t2. split; [eapply reach_trans; eauto|]. split; auto. lia. }
  destruct (Nat.eq_dec (counter s) n) as [Hn|Hn].
  - destruct Hd as [Hd|[i Hd]]; [apply Loop; auto|eapply For; eauto].
  - assert (Hc : counter s < n) by lia.
    assert (Adv : forall t i, inv n t -> dpc t = DFor i -> i < length (workers t) -> counter t = counter s -> 0 < length (workers t) ->
      exists s', reach n t s' /\ dpc s' = DDone /\ length (workers s') = length (workers t)).
    { intros t i Ht Hf Hl Hct Hpos. destruct (for_progress n t i Ht Hf Hl ltac:(lia)) as (t1 & R & D & L & C).
      assert (Ht1 : inv n t1) by (eapply reach_inv; eauto). assert (counter t1 <= n) by (destruct Ht1; auto).
      destruct (IH (n - counter t1) ltac:(lia) t1) as (t2 & R2 & D2 & L2); eauto; [lia|].
      exists t2. split; [eapply reach_trans; eauto|]. split; auto. lia. }
    assert (FromLoop : forall t, inv n t -> dpc t = DLoop -> counter t = counter s -> 0 < length (workers t) ->
      exists s', reach n t s' /\ dpc s' = DDone /\ length (workers s') = length (workers t)).
    { intros t Ht Hf Hct Hpos.
      assert (E : dispatcher_step n t = Some (St (counter t) (DFor 0) (done t) (workers t) (applied t))).
      { unfold dispatcher_step. rewrite Hf. destruct (Nat.ltb_spec (counter t) n); [reflexivity|lia]. }
      destruct (Adv (St (counter t) (DFor 0) (done t) (workers t) (applied t)) 0) as (t2 & R2 & D2 & L2); auto.
      - eapply dispatcher_inv; eauto.
      - exists t2. split; [eapply reach_trans; [apply disp; exact E|exact R2]|]. auto. }
    destruct Hd as [Hd|[i Hd]]; [apply FromLoop; auto|].
    destruct (Nat.ltb_spec i (length (workers s))) as [Hl|Hl]; [eapply Adv; eauto|].
    assert (E : dispatcher_step n s = Some (St (counter s) DLoop (done s) (workers s) (applied s))).
    { unfold dispatcher_step. rewrite Hd. destruct (Nat.ltb_spec i (length (workers s))); [lia|reflexivity]. }
    destruct (FromLoop (St (counter s) DLoop (done s) (workers s) (applied s))) as (t2 & R2 & D2 & L2); auto.
    + eapply dispatcher_inv; eauto.
    + exists t2. split; [eapply reach_trans; [apply disp; exact E|exact R2]|]. auto.
Qed.
Lemma join_end n : forall m s i, inv n s -> dpc s = DJoin i -> m = length (workers s) - i -> exists s', reach n s s' /\ dpc s' = DEnd.
Proof.
  induction m as [|m IH]; intros s i Hi Hd Hm.
  - eexists. split; [apply disp; unfold dispatcher_step; rewrite Hd; destruct (Nat.ltb_spec i (length (workers s))); [lia|reflexivity]|reflexivity].
  - assert (Hl : i < length (workers s)) by lia. destruct (nth_error_in_some (workers s) i Hl) as [w Hw].
    pose proof Hi as [I1 I2 I3 I4]. rewrite Hd in I4. cbn in I4. destruct I4 as (Hdn & _ & _).
    destruct (I3 i w Hw) as [A B C D P F G J K].
    destruct (wreach_finish w) as (w' & R & Wp); auto.
    { intros X. apply A in X. rewrite Hd in X. exact X. }
    { intros X. apply C in X as (k & E1 & _). congruence. }
    rewrite <- Hdn in R. destruct (wreach_lift n w w' s i Hw R) as [ap R']. set (s1 := put s i w' ap) in *.
    assert (E : dispatcher_step n s1 = Some (St (counter s) (DJoin (S i)) (done s) (workers s1) ap)).
    { unfold dispatcher_step. replace (dpc s1) with (DJoin i) by (cbn; auto).
      replace (i <? length (workers s1)) with true by (cbn; rewrite set_length; symmetry; apply Nat.ltb_lt; auto).
      cbn [workers s1 put]. rewrite nth_error_set_eq by auto. cbn [obind]. rewrite Wp. reflexivity. }
    destruct (IH (St (counter s) (DJoin (S i)) (done s) (workers s1) ap) (S i)) as (s' & R2 & D2); auto.
    + eapply dispatcher_inv; [|exact E]. eapply reach_inv; eauto.
    + cbn. rewrite set_length. lia.
    + exists s'. split; auto. eapply reach_trans; [exact R'|]. eapply reach_trans; [apply disp; exact E|exact R2].
Qed.
Lemma start_end n : forall m s i, inv n s -> dpc s = DStart i -> m = length (workers s) - i ->
  exists s', reach n s s' /\ dpc s' = DLoop /\ length (workers s') = length (workers s).
Proof.
  induction m as [|m IH]; intros s i Hi Hd Hm.
  - eexists. split; [apply disp; unfold dispatcher_step; rewrite Hd; destruct (Nat.ltb_spec i (length (workers s))); [lia|reflexivity]|auto].
  - assert (Hl : i < length (workers s)) by lia. destruct (nth_error_in_some (workers s) i Hl) as [w Hw].
    assert (E : dispatcher_step n s = Some (St (counter s) (DStart (S i)) (done s) (set (workers s) i (Wk (package w) 2 (mutex w) WTest)) (applied s))).
    { unfold dispatcher_step, with_worker. rewrite Hd, Hw. destruct (Nat.ltb_spec i (length (workers s))); [reflexivity|lia]. }
    destruct (IH (St (counter s) (DStart (S i)) (done s) (set (workers s) i (Wk (package w) 2 (mutex w) WTest)) (applied s)) (S i)) as (s' & R2 & D2 & L2); auto.
    + eapply dispatcher_inv; eauto.
    + cbn. rewrite set_length. lia.
    + exists s'. split; [eapply reach_trans; [apply disp; exact E|exact R2]|]. split; auto. cbn in L2. rewrite set_length in L2. auto.
Qed.
Lemma can_finish n s : inv n s -> 0 < length (workers s) -> exists s', reach n s s' /\ dpc s' = DEnd.
Proof.
  intros Hi Hw.
  assert (FromDone : forall s, inv n s -> dpc s = DDone -> exists s', reach n s s' /\ dpc s' = DEnd).
  { intros t Ht Hd. assert (E : dispatcher_step n t = Some (St (counter t) (DJoin 0) true (workers t) (applied t))) by (unfold dispatcher_step; rewrite Hd; reflexivity).
    destruct (join_end n (length (workers t) - 0) (St (counter t) (DJoin 0) true (workers t) (applied t)) 0) as (s' & R & D); auto.
    - eapply dispatcher_inv; eauto.
    - exists s'. split; auto. eapply reach_trans; [apply disp; exact E|exact R]. }
  assert (FromLoop : forall s, inv n s -> (dpc s = DLoop \/ exists i, dpc s = DFor i) -> 0 < length (workers s) -> exists s', reach n s s' /\ dpc s' = DEnd).
  { intros t Ht Hd Hp. destruct (loop_to_done n _ t Ht Hd Hp eq_refl) as (t1 & R & D & L).
    destruct (FromDone t1) as (t2 & R2 & D2); auto; [eapply reach_inv; eauto|]. exists t2. split; auto. eapply reach_trans; eauto. }
  assert (FromFill : forall s i j, inv n s -> dpc s = DFill i j -> 0 < length (workers s) -> exists s', reach n s s' /\ dpc s' = DEnd).
  { intros t i j Ht Hd Hp. destruct (filling n i j t Ht Hd) as (t1 & R & D & L & _).
    destruct (FromLoop t1) as (t2 & R2 & D2); auto; [eapply reach_inv; eauto|eauto|lia|]. exists t2. split; auto. eapply reach_trans; eauto. }
  destruct (dpc s) as [i| |i|i|i j|i| |i|] eqn:Ed.
  - destruct (start_end n _ s i Hi Ed eq_refl) as (t1 & R & D & L).
    destruct (FromLoop t1) as (t2 & R2 & D2); auto; [eapply reach_inv; eauto|lia|]. exists t2. split; auto. eapply reach_trans; eauto.
  - apply FromLoop; auto.
  - apply FromLoop; eauto.
  - pose proof Hi as [I1 I2 I3 I4]. rewrite Ed in I4. cbn in I4. destruct I4 as (Hdn & Hl & Hc).
    destruct (nth_error_in_some (workers s) i Hl) as [w Hwi]. destruct (I3 i w Hwi) as [A B C D P F G J K].
    assert (R1 : wreach (done s) w (Wk [] (planning w) Free WTest)).
    { rewrite Hdn. apply wreach_clear; auto.
      - intros X. apply A in X. rewrite Ed in X. exact X.
      - intros X. apply C in X as (k & E1 & _). congruence.
      - intros X. apply K in X as [X _]. congruence.
      - intros X. apply F in X. congruence. }
    destruct (wreach_lift n w _ s i Hwi R1) as [ap R]. set (s1 := put s i (Wk [] (planning w) Free WTest) ap) in *.
    assert (E3 : dispatcher_step n s1 = Some (St (counter s) (DFill i 0) (done s) (set (workers s1) i (Wk [] (planning w) Dispatcher WTest)) ap)).
    { unfold dispatcher_step, with_worker. replace (dpc s1) with (DLock i) by (cbn; auto). cbn [workers s1 put].
      rewrite nth_error_set_eq by auto. reflexivity. }
    destruct (FromFill _ i 0 (dispatcher_inv n s1 _ (reach_inv n s s1 Hi R) E3) eq_refl) as (t2 & R2 & D2).
    { cbn. rewrite !set_length. auto. }
    exists t2. split; auto. eapply reach_trans; [exact R|]. eapply reach_trans; [apply disp; exact E3|exact R2].
  - eapply FromFill; eauto.
  - pose proof Hi as [I1 I2 I3 I4]. rewrite Ed in I4. cbn in I4. destruct I4 as (Hdn & Hl).
    destruct (nth_error_in_some (workers s) i Hl) as [w Hwi].
    assert (E : dispatcher_step n s = Some (St (counter s) (DFor (S i)) (done s) (set (workers s) i (Wk (package w) (planning w) Free (wpc w))) (applied s))).
    { unfold dispatcher_step, with_worker. rewrite Ed, Hwi. reflexivity. }
    destruct (FromLoop _ (dispatcher_inv n s _ Hi E)) as (t2 & R2 & D2).
    + right. eexists. reflexivity.
    + cbn. rewrite set_length. auto.
    + exists t2. split; auto. eapply reach_trans; [apply disp; exact E|exact R2].
  - apply FromDone; auto.
  - eapply join_end; eauto.
  - exists s. split; [apply reach_refl|auto].
Qed.
Lemma step_length n who s s' : step n who s = Some s' -> length (workers s') = length (workers s).
Proof.
  destruct who as [i|]; cbn [step].
  - unfold worker_step. destruct (nth_error (workers s) i) as [w|]; [|discriminate]. cbn [obind].
    destruct (wpc w); try discriminate;
      repeat match goal with |- context [if ?b then _ else _] => destruct b | |- context [match ?b with _ => _ end = Some _] => destruct b end;
      try discriminate; intros H; inversion H; cbn; rewrite ?set_length; auto.
  - assert (W : forall i f, with_worker s i f = Some s' -> length (workers s') = length (workers s)).
    { intros i f H. unfold with_worker in H. destruct (nth_error (workers s) i) as [w|]; [|discriminate]. cbn [obind] in H.
      destruct (f w) as [[[? ?] ?]|]; [|discriminate]. cbn [obind] in H. inversion H. cbn. apply set_length. }
    unfold dispatcher_step. destruct (dpc s); try (intros H; eapply W; exact H);
      try (destruct (_ <? _)); try (intros H; eapply W; exact H); try discriminate; try (intros H; inversion H; reflexivity).
    + destruct (nth_error (workers s) i) as [w|]; [|discriminate]. cbn [obind]. destruct (is_nil (package w) && _); intros H; inversion H; reflexivity.
    + destruct (nth_error (workers s) i) as [w|]; [|discriminate]. cbn [obind]. destruct (wpc w); try discriminate. intros H; inversion H; reflexivity.
Qed.
Lemma exec_length n sched : forall s s', exec n sched s = Some s' -> length (workers s') = length (workers s).
Proof.
  induction sched as [|who sched IH]; intros s s' H; cbn [exec] in H; [congruence|].
  apply obind_some in H as (s1 & H1 & H). apply IH in H. apply step_length in H1. lia.
Qed.
