(** Proofs about the progressive scheduler (C29): an invariant of all interleavings, and
    that every reachable state can still finish. *)
From Coq Require Import List Arith Lia Bool Permutation.
From Verif Require Import Outcome Lib SchedModel SchedSpec SchedProofs.
Import ListNotations.

(** positions of a worker's package still to be processed *)
Definition pending (w : worker) : list nat :=
  match wpc w with WRun k => skipn k (package w) | WClear => [] | _ => package w end.
Definition pend (ws : list worker) : list nat := concat (map pending ws).
Definition holds (d : dispatcher_pc) (i : nat) : Prop :=
  match d with DFill k _ | DUnlock k => k = i | _ => False end.
Definition in_section (p : worker_pc) : Prop :=
  match p with WRun _ | WClear | WUnlock => True | _ => False end.
Record wok (d : dispatcher_pc) (dn : bool) (i : nat) (w : worker) : Prop := Wok {
  wok_d : mutex w = Dispatcher <-> holds d i;
  wok_w : mutex w = Worker <-> in_section (wpc w);
  wok_idle : wpc w = WIdle <-> exists j, d = DStart j /\ j <= i;
  wok_idle_pkg : wpc w = WIdle -> package w = [];
  wok_plan : wpc w <> WIdle -> 0 < planning w;
  wok_test2 : wpc w = WTest2 -> dn = true;
  wok_run : forall k, wpc w = WRun k -> k <= length (package w);
  wok_unlock : wpc w = WUnlock -> package w = [];
  wok_end : wpc w = WEnd -> dn = true /\ package w = [] }.
Definition dok (n c : nat) (dn : bool) (ws : list worker) (d : dispatcher_pc) : Prop :=
  match d with
  | DStart j => dn = false
  | DLoop | DFor _ => dn = false
  | DLock i => dn = false /\ i < length ws /\ c < n
  | DFill i _ | DUnlock i => dn = false /\ i < length ws
  | DDone => dn = false /\ c = n
  | DJoin j => dn = true /\ c = n /\ forall i w, i < j -> nth_error ws i = Some w -> wpc w = WEnd
  | DEnd => dn = true /\ c = n /\ forall i w, nth_error ws i = Some w -> wpc w = WEnd
  end.
Record inv (n : nat) (s : state) : Prop := Inv {
  inv_cnt : counter s <= n;
  inv_perm : Permutation (applied s ++ pend (workers s)) (seq 0 (counter s));
  inv_ws : forall i w, nth_error (workers s) i = Some w -> wok (dpc s) (done s) i w;
  inv_d : dok n (counter s) (done s) (workers s) (dpc s) }.

Lemma pend_split ws i w : nth_error ws i = Some w ->
  exists rest, Permutation (pend ws) (pending w ++ rest) /\
  forall w', Permutation (pend (set ws i w')) (pending w' ++ rest).
Proof.
  intros H. destruct (set_split ws i w w H) as (l1 & l2 & E & L & _).
  exists (pend (l1 ++ l2)). split.
  - rewrite E at 1. unfold pend. rewrite !map_app, !concat_app. cbn [map concat]. apply Permutation_app_swap_app.
  - intros w'. destruct (set_split ws i w' w H) as (m1 & m2 & E' & L' & E2).
    assert (m1 = l1 /\ m2 = l2) as [-> ->].
    { rewrite E in E'. apply app_inv_head_iff in E' || idtac.
      assert (Hl : length l1 = length m1) by lia. clear - E' Hl. revert m1 E' Hl.
      induction l1 as [|a l1 IH]; intros [|b m1] E Hl; cbn in *; try lia.
      - split; auto. congruence.
      - assert (a = b) as -> by congruence. destruct (IH m1) as [-> ->]; auto; congruence. }
    rewrite E2. unfold pend. rewrite !map_app, !concat_app. cbn [map concat]. apply Permutation_app_swap_app.
Qed.
Lemma ws_set d dn d' dn' ws i w' :
  (forall j w, nth_error ws j = Some w -> wok d dn j w) ->
  wok d' dn' i w' ->
  (forall j w, j <> i -> nth_error ws j = Some w -> wok d dn j w -> wok d' dn' j w) ->
  forall j w, nth_error (set ws i w') j = Some w -> wok d' dn' j w.
Proof.
  intros H Hi Ho j w Hj. rewrite nth_error_set in Hj. destruct (Nat.eqb_spec j i) as [->|Hn]; cbn [andb] in Hj.
  - destruct (i <? length ws) eqn:E; [congruence|]. apply Nat.ltb_ge in E. apply nth_error_lt in Hj. lia.
  - eauto.
Qed.
Lemma init_inv n plans : inv n (init plans).
Proof.
  split; cbn; auto; try lia.
  - rewrite map_map. induction plans; auto.
  - intros i w H. rewrite nth_error_map in H. destruct (nth_error plans i); [|discriminate].
    assert (w = Wk [] n0 Free WIdle) as -> by (cbn in H; congruence).
    split; cbn; try (split; intros; try discriminate; tauto); try discriminate; auto.
    + split; [eexists; split; auto; lia|auto].
    + congruence.
Qed.

Ltac fin := cbn in *; try discriminate; try tauto; try lia; try congruence; eauto.
(** changing the program counter of the dispatcher only *)
Lemma wok_goto d d' dn i w : wok d dn i w -> (holds d i <-> holds d' i) ->
  ((exists j, d = DStart j /\ j <= i) <-> (exists j, d' = DStart j /\ j <= i)) -> wok d' dn i w.
Proof.
  intros [A B C D E F G H I] Hh Hs. split; auto; [rewrite A; exact Hh|rewrite C; exact Hs].
Qed.
Lemma no_start (d : dispatcher_pc) i : (forall j, d <> DStart j) -> ~ exists j, d = DStart j /\ j <= i.
Proof. intros H (j & E & _). exact (H j E). Qed.
(** a change in one worker that leaves the pending work as it is *)
Lemma inv_step_w n s i w w' d' : inv n s -> nth_error (workers s) i = Some w ->
  pending w' = pending w -> wok d' (done s) i w' ->
  (forall j w, j <> i -> nth_error (workers s) j = Some w -> wok (dpc s) (done s) j w -> wok d' (done s) j w) ->
  dok n (counter s) (done s) (set (workers s) i w') d' ->
  inv n (St (counter s) d' (done s) (set (workers s) i w') (applied s)).
Proof.
  intros [I1 I2 I3 I4] Hw Hp Hk Ho Hd. split; cbn [counter dpc done workers applied]; auto.
  - destruct (pend_split _ _ _ Hw) as (rest & P1 & P2). rewrite P2, Hp, <- P1. exact I2.
  - eapply ws_set; eauto.
Qed.
Lemma inv_goto n s d' : inv n s ->
  (forall i w, nth_error (workers s) i = Some w -> (holds (dpc s) i <-> holds d' i) /\
     ((exists j, dpc s = DStart j /\ j <= i) <-> (exists j, d' = DStart j /\ j <= i))) ->
  dok n (counter s) (done s) (workers s) d' -> inv n (St (counter s) d' (done s) (workers s) (applied s)).
Proof.
  intros [I1 I2 I3 I4] H Hd. split; cbn [counter dpc done workers applied]; auto.
  intros i w Hw. destruct (H i w Hw). eapply wok_goto; eauto.
Qed.

Lemma dispatcher_inv n s s' : inv n s -> dispatcher_step n s = Some s' -> inv n s'.
Proof.
  intros Hi H. pose proof Hi as [I1 I2 I3 I4]. unfold dispatcher_step in H. destruct (dpc s) as [i| |i|i|i j|i| |i|] eqn:Ed; cbn [dok] in I4.
  - (* DStart *)
    destruct (Nat.ltb_spec i (length (workers s))) as [Hl|Hl].
    + unfold with_worker in H. destruct (nth_error (workers s) i) as [w|] eqn:Ew; [|discriminate]. cbn [obind] in H.
      assert (s' = St (counter s) (DStart (S i)) (done s) (set (workers s) i (Wk (package w) 2 (mutex w) WTest)) (applied s)) as -> by congruence.
      destruct (I3 i w Ew) as [A B C D E F G J K].
      assert (Wi : wpc w = WIdle) by (apply C; eauto).
      apply inv_step_w with (w := w); auto.
      * unfold pending; cbn. rewrite Wi. auto.
      * split; fin.
        -- rewrite B, Wi. fin.
        -- split; [discriminate|]. intros (j & E1 & E2). assert (j = S i) by congruence. lia.
      * rewrite Ed. intros j w' Hn Hw' Hk. eapply wok_goto; eauto; fin. split; intros (k & E1 & E2).
        -- exists (S i). split; auto. assert (k = i) by congruence. lia.
        -- exists i. split; auto. assert (k = S i) by congruence. lia.
    + assert (s' = St (counter s) DLoop (done s) (workers s) (applied s)) as -> by congruence.
      apply inv_goto; auto. rewrite Ed. intros j w Hw. apply nth_error_lt in Hw. split; fin.
      split; intros (k & E1 & E2); [assert (k = i) by congruence; lia|discriminate].
  - (* DLoop *)
    destruct (Nat.ltb_spec (counter s) n) as [Hl|Hl].
    + assert (s' = St (counter s) (DFor 0) (done s) (workers s) (applied s)) as -> by congruence.
      apply inv_goto; auto. rewrite Ed. intros j w Hw. split; fin. split; intros (k & E1 & E2); discriminate.
    + assert (s' = St (counter s) DDone (done s) (workers s) (applied s)) as -> by congruence.
      apply inv_goto; auto. 2:{ cbn. split; auto. lia. }
      rewrite Ed. intros j w Hw. split; fin. split; intros (k & E1 & E2); discriminate.
  - (* DFor *)
    destruct (Nat.ltb_spec i (length (workers s))) as [Hl|Hl].
    + destruct (nth_error (workers s) i) as [w|] eqn:Ew; [|discriminate]. cbn [obind] in H.
      destruct (is_nil (package w) && (counter s <? n)) eqn:Et.
      * assert (s' = St (counter s) (DLock i) (done s) (workers s) (applied s)) as -> by congruence.
        apply andb_true_iff in Et as [_ Et]. apply Nat.ltb_lt in Et.
        apply inv_goto; auto. 2:{ cbn. auto. }
        rewrite Ed. intros j w' Hw'. split; fin. split; intros (k & E1 & E2); discriminate.
      * assert (s' = St (counter s) (DFor (S i)) (done s) (workers s) (applied s)) as -> by congruence.
        apply inv_goto; auto.
        rewrite Ed. intros j w' Hw'. split; fin. split; intros (k & E1 & E2); discriminate.
    + assert (s' = St (counter s) DLoop (done s) (workers s) (applied s)) as -> by congruence.
      apply inv_goto; auto.
      rewrite Ed. intros j w' Hw'. split; fin. split; intros (k & E1 & E2); discriminate.
  - (* DLock *)
    unfold with_worker in H. destruct (nth_error (workers s) i) as [w|] eqn:Ew; [|discriminate]. cbn [obind] in H.
    destruct (mutex w) eqn:Em; try discriminate. cbn [obind] in H.
    assert (s' = St (counter s) (DFill i 0) (done s) (set (workers s) i (Wk (package w) (planning w) Dispatcher (wpc w))) (applied s)) as -> by congruence.
    destruct (I3 i w Ew) as [A B C D E F G J K]. rewrite Em in *.
    apply inv_step_w with (w := w); auto.
    + split; cbn; auto.
      * tauto.
      * rewrite <- B. split; discriminate.
      * rewrite C. split; intros (k & E1 & E2); discriminate.
    + rewrite Ed. intros j w' Hn Hw' Hk. eapply wok_goto; eauto; cbn; [split; [tauto|congruence]|].
      split; intros (k & E1 & E2); discriminate.
    + cbn. rewrite set_length. tauto.
  - (* DFill *)
    unfold with_worker in H. destruct (nth_error (workers s) i) as [w|] eqn:Ew; [|discriminate]. cbn [obind] in H.
    destruct (I3 i w Ew) as [A B C D E F G J K]. destruct I4 as [Hdn Hl].
    assert (Em : mutex w = Dispatcher) by (apply A; reflexivity).
    assert (Hns : ~ in_section (wpc w)) by (rewrite <- B, Em; discriminate).
    destruct ((j <? planning w) && (counter s <? n)) eqn:Et; cbn [obind] in H.
    + assert (s' = St (S (counter s)) (DFill i (S j)) (done s) (set (workers s) i (Wk (package w ++ [counter s]) (planning w) (mutex w) (wpc w))) (applied s)) as -> by congruence.
      apply andb_true_iff in Et as [_ Et]. apply Nat.ltb_lt in Et.
      assert (Pw : pending w = package w) by (unfold pending; destruct (wpc w); cbn in Hns; tauto).
      assert (Pw' : pending (Wk (package w ++ [counter s]) (planning w) (mutex w) (wpc w)) = package w ++ [counter s]).
      { unfold pending; cbn. destruct (wpc w); cbn in Hns; tauto. }
      split; cbn [counter dpc done workers applied]; auto.
      * destruct (pend_split _ _ _ Ew) as (rest & P1 & P2). rewrite P2, Pw'.
        rewrite seq_S. cbn [Nat.add]. rewrite <- I2. rewrite P1, Pw, <- !app_assoc. do 2 apply Permutation_app_head.
        apply (Permutation_app_comm [counter s] rest).
      * eapply ws_set; [exact I3| |].
        -- split; cbn; auto.
           ++ rewrite C. split; intros (k & E1 & E2); discriminate.
           ++ intros X. apply C in X as (k & E1 & _). discriminate.
           ++ intros k X. rewrite app_length. apply G in X. lia.
           ++ intros X. rewrite X in Hns. cbn in Hns. tauto.
           ++ intros X. apply K in X as [X _]. congruence.
        -- intros k w' Hn Hw' Hk. eapply wok_goto; eauto; cbn; [tauto|].
           split; intros (k' & E1 & E2); discriminate.
      * cbn. rewrite set_length. tauto.
    + assert (s' = St (counter s) (DUnlock i) (done s) (set (workers s) i (Wk (package w) (planning w * 2) (mutex w) (wpc w))) (applied s)) as -> by congruence.
      apply inv_step_w with (w := w); auto.
      * split; cbn; auto.
        -- rewrite C. split; intros (k & E1 & E2); discriminate.
        -- intros X. specialize (E X). lia.
      * rewrite Ed. intros k w' Hn Hw' Hk. eapply wok_goto; eauto; cbn; [tauto|].
        split; intros (k' & E1 & E2); discriminate.
      * cbn. rewrite set_length. tauto.
  - (* DUnlock *)
    unfold with_worker in H. destruct (nth_error (workers s) i) as [w|] eqn:Ew; [|discriminate]. cbn [obind] in H.
    assert (s' = St (counter s) (DFor (S i)) (done s) (set (workers s) i (Wk (package w) (planning w) Free (wpc w))) (applied s)) as -> by congruence.
    destruct (I3 i w Ew) as [A B C D E F G J K]. destruct I4 as [Hdn Hl].
    assert (Em : mutex w = Dispatcher) by (apply A; reflexivity).
    apply inv_step_w with (w := w); auto.
    + split; cbn; auto.
      * split; [discriminate|tauto].
      * rewrite <- B, Em. split; discriminate.
      * rewrite C. split; intros (k & E1 & E2); discriminate.
    + rewrite Ed. intros k w' Hn Hw' Hk. eapply wok_goto; eauto; cbn; [split; [congruence|tauto]|].
      split; intros (k' & E1 & E2); discriminate.
  - (* DDone *)
    assert (s' = St (counter s) (DJoin 0) true (workers s) (applied s)) as -> by congruence.
    destruct I4 as [Hdn Hc]. split; cbn [counter dpc done workers applied]; auto.
    + intros i w Hw. destruct (I3 i w Hw) as [A B C D E F G J K]. split; auto.
      * rewrite C. split; intros (k' & E1 & E2); discriminate.
      * intros X. apply K in X as [X _]. congruence.
    + cbn. split; auto. split; auto. intros; lia.
  - (* DJoin *)
    destruct (Nat.ltb_spec i (length (workers s))) as [Hl|Hl].
    + destruct (nth_error (workers s) i) as [w|] eqn:Ew; [|discriminate]. cbn [obind] in H.
      destruct (wpc w) eqn:Ep; try discriminate.
      assert (s' = St (counter s) (DJoin (S i)) (done s) (workers s) (applied s)) as -> by congruence.
      apply inv_goto; auto.
      * rewrite Ed. intros j w' Hw'. split; fin. split; intros (k & E1 & E2); discriminate.
      * destruct I4 as (X & Y & Z). cbn. split; auto. split; auto. intros j w' Hj Hw'.
        destruct (Nat.eq_dec j i) as [->|]; [congruence|]. apply (Z j); auto. lia.
    + assert (s' = St (counter s) DEnd (done s) (workers s) (applied s)) as -> by congruence.
      apply inv_goto; auto.
      * rewrite Ed. intros j w' Hw'. split; fin. split; intros (k & E1 & E2); discriminate.
      * destruct I4 as (X & Y & Z). cbn. split; auto. split; auto. intros j w' Hw'. apply (Z j); auto.
        apply nth_error_lt in Hw'. lia.
  - discriminate.
Qed.

Lemma dok_worker n c dn ws d i w w' : nth_error ws i = Some w -> wpc w <> WEnd -> dok n c dn ws d -> dok n c dn (set ws i w') d.
Proof.
  intros Hw Hp H. destruct d; cbn in *; rewrite ?set_length; auto.
  - destruct H as (X & Y & Z). split; auto. split; auto. intros j v Hj Hv. rewrite nth_error_set in Hv.
    destruct (Nat.eqb_spec j i) as [->|]; cbn [andb] in Hv; [|eauto].
    exfalso. apply Hp. apply (Z i); auto.
  - destruct H as (X & Y & Z). exfalso. apply Hp. apply (Z i); auto.
Qed.
Ltac wk A B NI := split; cbn; try first [ exact A | exact B | solve [intros; discriminate]
  | solve [split; [discriminate|intros X; exfalso; apply NI; [congruence|exact X]]] | solve [auto] | solve [split; [discriminate|tauto]] | solve [split; auto]
  | solve [intros; match goal with E : _ <> WIdle -> 0 < planning _ |- _ => apply E; discriminate end] ].
Lemma worker_inv n i s s' : inv n s -> worker_step i s = Some s' -> inv n s'.
Proof.
  intros Hi H. pose proof Hi as [I1 I2 I3 I4]. unfold worker_step in H.
  destruct (nth_error (workers s) i) as [w|] eqn:Ew; [|discriminate]. cbn [obind] in H.
  destruct (I3 i w Ew) as [A B C D E F G J K].
  assert (Other : forall j w0, j <> i -> nth_error (workers s) j = Some w0 -> wok (dpc s) (done s) j w0 -> wok (dpc s) (done s) j w0) by auto.
  assert (NI : wpc w <> WIdle -> ~ exists j, dpc s = DStart j /\ j <= i) by (intros X Y; apply X, C; exact Y).
  destruct (wpc w) eqn:Ep; try discriminate.
  - destruct (negb (done s)) eqn:En; assert (s' = _) as -> by (symmetry; injection H; intros X; exact X); clear H;
      (apply inv_step_w with (w := w); auto; [unfold pending; cbn; rewrite Ep; auto| |apply dok_worker with w; auto; congruence]).
    + wk A B NI.
    + wk A B NI. intros _. destruct (done s); auto.
  - destruct (is_nil (package w)) eqn:En; assert (s' = _) as -> by (symmetry; injection H; intros X; exact X); clear H;
      (apply inv_step_w with (w := w); auto; [unfold pending; cbn; rewrite Ep; auto| |apply dok_worker with w; auto; congruence]).
    + wk A B NI. intros _. split; auto. destruct (package w); auto; discriminate.
    + wk A B NI.
  - destruct (mutex w) eqn:Em; try discriminate. assert (s' = _) as -> by (symmetry; injection H; intros X; exact X); clear H.
    apply inv_step_w with (w := w); auto; [unfold pending; cbn; rewrite Ep; auto| |apply dok_worker with w; auto; congruence].
    wk A B NI.
    + rewrite <- A. split; discriminate.
    + intros k X. assert (k = 0) by congruence. lia.
  - destruct (nth_error (package w) k) as [x|] eqn:Ek; assert (s' = _) as -> by (symmetry; injection H; intros X; exact X); clear H.
    + assert (Hkl : k < length (package w)) by (eapply nth_error_lt; eauto).
      assert (Sk : skipn k (package w) = x :: skipn (S k) (package w)).
      { clear - Ek. revert k Ek. induction (package w) as [|y l IH]; intros [|k] Ek; cbn in *; try discriminate; [congruence|]. rewrite IH; auto. }
      split; cbn [counter dpc done workers applied]; auto.
      * destruct (pend_split _ _ _ Ew) as (rest & P1 & P2). rewrite P2. rewrite P1 in I2. unfold pending in *. rewrite Ep in I2. cbn [wpc package].
        rewrite Sk in I2. rewrite <- app_assoc. exact I2.
      * eapply ws_set; [exact I3| |auto]. wk A B NI.
        intros k0 X. assert (k0 = S k) by congruence. lia.
      * apply dok_worker with w; auto; congruence.
    + apply nth_error_None in Ek. apply inv_step_w with (w := w); auto; [| |apply dok_worker with w; auto; congruence].
      * unfold pending; cbn. rewrite Ep. symmetry. apply skipn_all2. auto.
      * wk A B NI.
  - assert (s' = _) as -> by (symmetry; injection H; intros X; exact X); clear H.
    apply inv_step_w with (w := w); auto; [unfold pending; cbn; rewrite Ep; auto| |apply dok_worker with w; auto; congruence].
    wk A B NI.
  - assert (s' = _) as -> by (symmetry; injection H; intros X; exact X); clear H.
    apply inv_step_w with (w := w); auto; [unfold pending; cbn; rewrite Ep; auto| |apply dok_worker with w; auto; congruence].
    assert (Em : mutex w = Worker) by (apply B; exact I).
    wk A B NI. rewrite <- A, Em. split; discriminate.
Qed.
Lemma exec_inv n sched : forall s s', inv n s -> exec n sched s = Some s' -> inv n s'.
Proof.
  induction sched as [|who sched IH]; intros s s' Hi H; cbn [exec] in H; [congruence|].
  apply obind_some in H as (s1 & H1 & H). apply (IH s1); auto. destruct who; [eapply worker_inv|eapply dispatcher_inv]; eauto.
Qed.
Lemma end_all_done n s : inv n s -> dpc s = DEnd ->
  each_once n (applied s) /\ Forall (fun w => package w = [] /\ mutex w = Free) (workers s).
Proof.
  intros [I1 I2 I3 I4] Hd. rewrite Hd in I4. cbn in I4. destruct I4 as (_ & Hc & He).
  assert (Hall : Forall (fun w => package w = [] /\ mutex w = Free) (workers s)).
  { apply Forall_forall. intros w Hw. apply In_nth_error in Hw as [i Hi]. destruct (I3 i w Hi) as [A B C D E F G J K].
    specialize (He i w Hi). split; [apply K; auto|]. rewrite Hd, He in *. cbn in A, B. destruct (mutex w); auto; exfalso; [apply A|apply B]; auto. }
  split; auto. unfold each_once. rewrite <- Hc, <- I2.
  replace (pend (workers s)) with (@nil nat); [rewrite app_nil_r; auto|].
  unfold pend. symmetry. clear - Hall He. induction (workers s) as [|w ws IH]; auto. cbn [map concat].
  inversion Hall as [|? ? [Hp _] Hf]; subst. rewrite <- IH; auto.
  - unfold pending. rewrite (He 0 w eq_refl), Hp. auto.
  - intros i v Hv. apply (He (S i)). auto.
Qed.
Lemma never_twice n s : inv n s -> NoDup (applied s) /\ forall x, In x (applied s) -> x < n.
Proof.
  intros [I1 I2 I3 I4]. assert (Hn : NoDup (applied s ++ pend (workers s))).
  { eapply Permutation_NoDup; [symmetry; exact I2|apply seq_NoDup]. }
  split.
  - clear - Hn. induction (applied s) as [|x l IH]; constructor; inversion Hn; subst; auto.
    intros Hx. apply H1. apply in_or_app. auto.
  - intros x Hx. assert (In x (seq 0 (counter s))) by (apply (Permutation_in _ I2), in_or_app; auto).
    apply in_seq in H. lia.
Qed.
