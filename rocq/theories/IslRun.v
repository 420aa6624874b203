From Coq Require Import List Arith Bool Lia Permutation Sorted.
From Verif Require Import Lib Outcome TopoModel TopoSpec TopoProofs IslModel IslProofs.
From Coq Require Import List.
Import ListNotations.

Section Run.
Context {X Pop : Type}.
Variable integrate : Pop -> list X -> Pop.
Variable evaluate : X -> X.
Variables (n : nat) (edge : nat -> nat -> Prop).
Notation state := (state X Pop).
Notation island := (island X Pop).
Notation msg := (msg X).
Notation step := (step integrate evaluate).
Notation run := (run integrate evaluate).
Notation seen := (seen evaluate).
Notation inv := (inv evaluate n edge).
Notation see := (see evaluate).
Implicit Types s : state.

Definition key (d : nat * msg) : nat * nat := (fst d, id (snd d)).
Lemma key_see d : key (see d) = key d.
Proof. destruct d; auto. Qed.
Lemma spread_key (m : msg) ns : map key (spread m ns) = map (fun j => (j, id m)) ns.
Proof. destruct ns as [|j ns]; cbn; auto. f_equal. rewrite map_map. auto. Qed.
Lemma in_deliveries (r : list (msg * list nat)) d : In d (deliveries r) -> exists m ns, In (m, ns) r /\ In d (spread m ns).
Proof. unfold deliveries. intros H. apply in_flat_map in H as ([m ns] & H1 & H2). eauto. Qed.
Lemma in_spread (m : msg) ns j m' : In (j, m') (spread m ns) -> In j ns /\ id m' = id m /\ from m' = from m /\ (content m' = content m \/ content m' = []).
Proof.
  destruct ns as [|i ns]; [intros []|]. cbn [spread]. intros [H|H].
  - injection H as <- <-. repeat split; auto. left; auto.
  - apply in_map_iff in H as (k & H & Hk). injection H as <- <-. cbn. repeat split; auto.
Qed.
Lemma deliveries_keys (r : list (msg * list nat)) : map key (deliveries r) = flat_map (fun e => map (fun j => (j, id (fst e))) (snd e)) r.
Proof. induction r as [|[m ns] r IH]; auto. unfold deliveries in *. cbn [flat_map fst snd]. rewrite map_app, spread_key, IH. auto. Qed.
Lemma nodup_app {T} (l r : list T) : NoDup l -> NoDup r -> (forall x, In x l -> ~ In x r) -> NoDup (l ++ r).
Proof.
  induction l as [|x l IH]; intros Hl Hr D; cbn; auto. inversion Hl; subst. constructor.
  - intros K. apply in_app_or in K as [K|K]; auto. apply (D x); auto. left; auto.
  - apply IH; auto. intros y Hy. apply D. right; auto.
Qed.
Lemma nodup_app_l {T} (l r : list T) : NoDup (l ++ r) -> NoDup l.
Proof. induction l as [|x l IH]; cbn; intros H; constructor; inversion H; subst; auto. intros K. apply H2. apply in_or_app; auto. Qed.
Lemma nodup_app_r {T} (l r : list T) : NoDup (l ++ r) -> NoDup r.
Proof. induction l as [|x l IH]; cbn; intros H; auto. inversion H; auto. Qed.
Lemma keys_nodup (r : list (msg * list nat)) : NoDup (map (fun e => id (fst e)) r) -> (forall m ns, In (m, ns) r -> NoDup ns) -> NoDup (map key (deliveries r)).
Proof.
  rewrite deliveries_keys. induction r as [|[m ns] r IH]; intros H1 H2; cbn; [constructor|]. cbn in H1. inversion H1; subst. apply nodup_app.
  - apply FinFun.Injective_map_NoDup; [intros a b K; congruence|]. eapply H2. left; eauto.
  - apply IH; auto. intros; eapply H2; right; eauto.
  - intros [j k] Ha Hb. apply in_map_iff in Ha as (j0 & K & _). injection K as -> <-.
    apply in_flat_map in Hb as ([m' ns'] & Hb & K). cbn in K. apply in_map_iff in K as (j1 & K & _). injection K as -> K.
    apply H3. apply in_map_iff. exists (m', ns'). auto.
Qed.
Lemma sent_nodup s : inv s -> NoDup (map id (sent s)).
Proof. intros I. rewrite (i_ids _ _ _ _ I). apply seq_NoDup. Qed.
Lemma routed_nodup s : inv s -> NoDup (map (fun e => id (fst e)) (routed s)).
Proof.
  intros I. assert (N := sent_nodup s I). assert (P := Permutation_map id (i_sent _ _ _ _ I)). rewrite P, !map_app in N.
  apply nodup_app_r, nodup_app_r in N. rewrite map_map in N. auto.
Qed.
Lemma got_in s j m : inv s -> In (j, m) (got s) -> exists m0 ns, In (m0, ns) (routed s) /\ In j ns /\ id m = id m0 /\ from m = from m0 /\
  (content m = map evaluate (content m0) \/ content m = []).
Proof.
  intros I H. assert (K : In (j, m) (map see (deliveries (routed s)))).
  { eapply Permutation_in; [apply Permutation_sym, (i_got _ _ _ _ I)|]. apply in_or_app; auto. }
  apply in_map_iff in K as ([j0 m0] & E & K). cbn in E. injection E as -> <-. apply in_deliveries in K as (m1 & ns & K1 & K2).
  apply in_spread in K2 as (K2 & K3 & K4 & K5). exists m1, ns. cbn. repeat split; auto. destruct K5 as [-> | ->]; auto.
Qed.
Lemma got_once s : inv s -> NoDup (map key (got s)).
Proof.
  intros I. assert (N : NoDup (map key (deliveries (routed s)))).
  { apply keys_nodup; [apply routed_nodup; auto|]. intros m ns H. apply (i_routed _ _ _ _ I m ns H). }
  assert (P := Permutation_map key (i_got _ _ _ _ I)). rewrite map_map in P.
  rewrite (map_ext _ key) in P by (intros; apply key_see). rewrite P, map_app in N. apply nodup_app_r in N. auto.
Qed.
Lemma down_in s j m : inv s -> In (j, m) (downs s) -> j < n.
Proof.
  intros I H. assert (K : In (see (j, m)) (map see (deliveries (routed s)))).
  { eapply Permutation_in; [apply Permutation_sym, (i_got _ _ _ _ I)|]. apply in_or_app; left. apply in_map. apply in_or_app; auto. }
  apply in_map_iff in K as ([j0 m0] & E & K). cbn in E. injection E as -> _. apply in_deliveries in K as (m1 & ns & K1 & K2).
  apply in_spread in K2 as (K2 & _). apply (i_routed _ _ _ _ I m1 ns K1). auto.
Qed.

(** no deadlock *)
Definition leads s (Q : state -> Prop) : Prop := exists ls s', run ls s = Some s' /\ inv s' /\ Q s'.
Lemma run_app l1 : forall l2 s, run (l1 ++ l2) s = obind (run l1 s) (run l2).
Proof. induction l1 as [|l l1 IH]; intros l2 s; cbn; auto. destruct (step l s); cbn; auto. Qed.
Lemma leads_here s (Q : state -> Prop) : inv s -> Q s -> leads s Q.
Proof. intros I H. exists [], s. auto. Qed.
Lemma leads_trans s (P Q : state -> Prop) : leads s P -> (forall s', inv s' -> P s' -> leads s' Q) -> leads s Q.
Proof.
  intros (l1 & s1 & R1 & I1 & H1) H. destruct (H s1 I1 H1) as (l2 & s2 & R2 & I2 & H2). exists (l1 ++ l2), s2.
  rewrite run_app, R1. auto.
Qed.
Lemma leads_step s l s' (Q : state -> Prop) : inv s -> step l s = Some s' -> (inv s' -> leads s' Q) -> leads s Q.
Proof.
  intros I H K. assert (I' : inv s') by (eapply step_inv; eauto). destruct (K I') as (ls & s2 & R & I2 & H2).
  exists (l :: ls), s2. cbn [IslModel.run]. rewrite H. auto.
Qed.

Definition all_exited s : Prop := forall a, In a (isl s) -> doing a = Exited.
Definition weight (a : island) : nat := (match doing a with Running => 2 | Stopped => 1 | Exited => 0 end) + length (outgoing a).
Lemma sum_set (l : list island) i a b : nth_error l i = Some a -> list_sum (map weight (set l i b)) + weight a = list_sum (map weight l) + weight b.
Proof.
  revert i. induction l as [|c l IH]; intros [|i] H; cbn in *; try discriminate.
  - injection H as ->. change (list_sum (weight b :: map weight l)) with (weight b + list_sum (map weight l)). unfold list_sum. lia.
  - specialize (IH i H). unfold list_sum in *. cbn. lia.
Qed.
Lemma exits s : inv s -> leads s (fun s' => all_exited s' /\ at_ s' = at_ s).
Proof.
  remember (list_sum (map weight (isl s))) as w eqn:Ew. revert s Ew. induction w as [w IH] using lt_wf_ind. intros s -> I.
  destruct (forallb has_exited (isl s)) eqn:F.
  - apply leads_here; auto. split; auto. intros a Ha. rewrite forallb_forall in F. specialize (F a Ha). unfold has_exited in F. destruct (doing a); auto; discriminate.
  - assert (E : exists i a, nth_error (isl s) i = Some a /\ doing a <> Exited).
    { clear -F. induction (isl s) as [|a l IHl]; [discriminate|]. cbn in F. destruct (has_exited a) eqn:Ha.
      - destruct (IHl F) as (i & b & H1 & H2). exists (S i), b. auto.
      - exists 0, a. split; auto. unfold has_exited in Ha. destruct (doing a); congruence. }
    destruct E as (i & a & Hi & Ha).
    assert (G : forall l s', step l s = Some s' -> list_sum (map weight (isl s')) < list_sum (map weight (isl s)) -> at_ s' = at_ s ->
       leads s (fun s' => all_exited s' /\ at_ s' = at_ s)).
    { intros l s' Hs Hw Hp. eapply leads_step; eauto. intros I'. rewrite <- Hp. eapply IH; eauto. }
    destruct (doing a) eqn:D; [| |congruence].
    + eapply (G (Stop i)); [cbn; rewrite Hi; cbn; unfold is_running; rewrite D; reflexivity| |reflexivity]. cbn [with_island isl].
      match goal with |- context [set (isl s) i ?b] => assert (K := sum_set (isl s) i a b Hi); assert (weight a = S (weight b)) by (unfold weight; cbn; rewrite D; cbn; lia) end. lia.
    + destruct (outgoing a) as [|m r] eqn:O.
      * eapply (G (Exit i)); [cbn; rewrite Hi; cbn; rewrite D, O; reflexivity| |reflexivity]. cbn [with_island isl].
        match goal with |- context [set (isl s) i ?b] => assert (K := sum_set (isl s) i a b Hi); assert (weight a = S (weight b)) by (unfold weight; cbn; rewrite D, O; cbn; lia) end. lia.
      * eapply (G (Up i 0)); [cbn; rewrite Hi; cbn; rewrite O; cbn; reflexivity| |reflexivity]. cbn [isl].
        match goal with |- context [set (isl s) i ?b] => assert (K := sum_set (isl s) i a b Hi); assert (weight a = S (weight b)) by (unfold weight; cbn; rewrite D, O; cbn; lia) end. lia.
Qed.

Lemma polls k : forall s i, inv s -> all_exited s -> at_ s = Poll i -> n - i = k ->
  leads s (fun s' => all_exited s' /\ at_ s' = Send /\ (forall j, act s j = false -> act s' j = false) /\ forall j, i <= j -> act s' j = false).
Proof.
  induction k as [|k IH]; intros s i I A P K.
  - eapply (leads_step s Main); [auto| |].
    + cbn. unfold main. rewrite P. destruct (nth_error (isl s) i) eqn:Ei; [|reflexivity].
      exfalso. apply nth_error_lt in Ei. rewrite (i_isl _ _ _ _ I) in Ei. lia.
    + intros I'. apply leads_here; auto. repeat split; auto. intros j Hj. unfold act. apply nth_overflow. cbn [goto active]. rewrite (i_act _ _ _ _ I). lia.
  - assert (Hi : i < n) by lia.
    destruct (nth_error (isl s) i) as [a|] eqn:Ei; [|apply nth_error_None in Ei; rewrite (i_isl _ _ _ _ I) in Ei; lia].
    destruct (nth_error (active s) i) as [b|] eqn:Eb; [|apply nth_error_None in Eb; rewrite (i_act _ _ _ _ I) in Eb; lia].
    assert (Da : is_running a = false). { unfold is_running. rewrite (A a) by (eapply nth_error_In; eauto). auto. }
    assert (Ab : act s i = b) by (unfold act; eapply nth_error_nth; eauto).
    destruct b.
    + destruct (isolate_ok n (topo s) _ i (i_graph _ _ _ _ I) Hi) as (t & Et & _).
      eapply (leads_step s Main); [auto| |].
      * cbn. unfold main. rewrite P, Ei, Eb, Da. cbn [andb negb]. rewrite Et. reflexivity.
      * intros I'. eapply leads_trans; [eapply (IH _ (S i)); auto; try (cbn; lia); intros c Hc; apply A; auto|].
        intros s' Is' (Q1 & Q2 & Q3 & Q4). apply leads_here; auto.
        assert (Q0 : forall j, nth j (set (active s) i false) false = if j =? i then false else act s j) by (intros j; apply act_set; rewrite (i_act _ _ _ _ I); auto).
        split; auto. split; auto. split.
        -- intros j Hj. apply Q3. unfold act. cbn [active]. rewrite Q0. rewrite Hj. destruct (j =? i); auto.
        -- intros j Hj. destruct (Nat.eq_dec j i) as [->|Nj]; [|apply Q4; lia]. apply Q3. unfold act. cbn [active]. rewrite Q0, Nat.eqb_refl. auto.
    + eapply (leads_step s Main); [auto| |].
      * cbn. unfold main. rewrite P, Ei, Eb. cbn [andb negb]. reflexivity.
      * intros I'. eapply leads_trans; [eapply (IH _ (S i)); auto; try (cbn; lia); intros c Hc; apply A; auto|].
        intros s' Is' (Q1 & Q2 & Q3 & Q4). apply leads_here; auto. split; auto. split; auto. split.
        -- intros j Hj. apply Q3. auto.
        -- intros j Hj. destruct (Nat.eq_dec j i) as [->|Nj]; [apply Q3; auto|apply Q4; lia].
Qed.
Lemma send_total s p : inv s -> exists s', send s p = Some s' /\ isl s' = isl s /\ active s' = active s /\ at_ s' = p /\ length (emigrants s') = length (emigrants s) - 1.
Proof.
  intros I. unfold send. destruct (emigrants s) as [|m r] eqn:E; [eexists; split; [reflexivity|auto]|].
  assert (Hm : In m (sent s)) by (eapply emigrant_in; eauto; rewrite E; left; auto).
  destruct (neighbors_total n (topo s) _ (from m) (i_graph _ _ _ _ I) (i_from _ _ _ _ I m Hm)) as (ns & En & _). rewrite En.
  eexists; split; [reflexivity|]. cbn. repeat split; auto. lia.
Qed.
Lemma sends s : inv s -> all_exited s -> at_ s = Send -> leads s (fun s' => all_exited s' /\ at_ s' = Test /\ active s' = active s).
Proof.
  intros I A P. destruct (send_total s Test I) as (s' & H & H1 & H2 & H3 & _). eapply (leads_step s Main); [auto|cbn; unfold main; rewrite P; exact H|].
  intros I'. apply leads_here; auto. unfold all_exited. rewrite H1. auto.
Qed.
Lemma to_join s : inv s -> all_exited s -> late (at_ s) = false -> leads s (fun s' => all_exited s' /\ at_ s' = Join).
Proof.
  assert (T0 : forall s, inv s -> all_exited s -> at_ s = Test -> (forall j, act s j = false) -> leads s (fun s' => all_exited s' /\ at_ s' = Join)).
  { intros s0 I A P Z. eapply (leads_step s0 Main); [auto|cbn; unfold main; rewrite P; reflexivity|]. intros I'. apply leads_here; auto. split; auto. cbn.
    destruct (existsb (fun b => b) (active s0)) eqn:E; auto. exfalso. apply existsb_exists in E as (b & Hb & ->).
    apply In_nth_error in Hb as (j & Hb). specialize (Z j). unfold act in Z. rewrite (nth_error_nth _ _ _ Hb) in Z. discriminate. }
  assert (S0 : forall s, inv s -> all_exited s -> at_ s = Send -> (forall j, act s j = false) -> leads s (fun s' => all_exited s' /\ at_ s' = Join)).
  { intros s0 I A P Z. eapply leads_trans; [apply sends; auto|]. intros s1 I1 (A1 & P1 & E1). apply T0; auto. intros j. unfold act. rewrite E1. apply Z. }
  assert (P0 : forall s, inv s -> all_exited s -> at_ s = Poll 0 -> leads s (fun s' => all_exited s' /\ at_ s' = Join)).
  { intros s0 I A P. eapply leads_trans; [eapply (polls n s0 0); auto; lia|]. intros s1 I1 (A1 & P1 & _ & Z). apply S0; auto. intros j. apply Z. lia. }
  assert (T1 : forall s, inv s -> all_exited s -> at_ s = Test -> leads s (fun s' => all_exited s' /\ at_ s' = Join)).
  { intros s0 I A P. eapply (leads_step s0 Main); [auto|cbn; unfold main; rewrite P; reflexivity|]. intros I'.
    destruct (existsb (fun b => b) (active s0)); [apply P0; auto|apply leads_here; auto; split; auto]. }
  assert (S1 : forall s, inv s -> all_exited s -> at_ s = Send -> leads s (fun s' => all_exited s' /\ at_ s' = Join)).
  { intros s0 I A P. eapply leads_trans; [apply sends; auto|]. intros s1 I1 (A1 & P1 & E1). apply T1; auto. }
  intros I A L. destruct (at_ s) as [|i| | | | | |] eqn:P; try discriminate; auto.
  eapply leads_trans; [eapply (polls (n - i) s i); auto|]. intros s1 I1 (A1 & P1 & _). apply S1; auto.
Qed.
Lemma downs_out k : forall s, inv s -> length (downs s) = k -> leads s (fun s' => all_exited s -> all_exited s' /\ at_ s' = at_ s /\ downs s' = []).
Proof.
  induction k as [|k IH]; intros s I K.
  - apply leads_here; auto. intros A. repeat split; auto. destruct (downs s); auto; discriminate.
  - destruct (downs s) as [|[j m] r] eqn:D; [discriminate|].
    assert (Hj : j < n) by (eapply (down_in s j m); auto; rewrite D; left; auto).
    destruct (nth_error (isl s) j) as [a|] eqn:Ej; [|apply nth_error_None in Ej; rewrite (i_isl _ _ _ _ I) in Ej; lia].
    eapply (leads_step s (Down 0)); [auto|cbn; rewrite D; cbn; rewrite Ej; cbn; reflexivity|]. intros I'.
    eapply leads_trans; [apply IH; [auto|cbn in *; lia]|]. intros s1 I1 H. apply leads_here; auto. intros A. apply H.
    intros c Hc. cbn [isl] in Hc. apply in_set in Hc as [->|Hc]; auto. cbn. apply A. eapply nth_error_In; eauto.
Qed.
Lemma drains k : forall s, inv s -> at_ s = Drain -> length (emigrants s) = k -> leads s (fun s' => exists todo, at_ s' = Final todo).
Proof.
  induction k as [|k IH]; intros s I P K.
  - eapply (leads_step s Main); [auto|cbn; unfold main; rewrite P; destruct (emigrants s); [reflexivity|discriminate]|].
    intros I'. apply leads_here; auto. eexists; reflexivity.
  - destruct (send_total s Drain I) as (s' & H & H1 & H2 & H3 & H4).
    eapply (leads_step s Main); [auto|cbn; unfold main; rewrite P; destruct (emigrants s); [discriminate|exact H]|].
    intros I'. apply IH; auto. lia.
Qed.
Lemma filter_le {T} (f : T -> bool) l : length (filter f l) <= length l.
Proof. induction l as [|x l IH]; cbn; auto. destruct (f x); cbn; lia. Qed.
Lemma finals k : forall s todo, inv s -> at_ s = Final todo -> length todo <= k -> leads s (fun s' => at_ s' = Done).
Proof.
  induction k as [|k IH]; intros s todo I P K.
  - destruct todo; [|cbn in K; lia]. eapply (leads_step s Main); [auto|cbn; unfold main; rewrite P; reflexivity|]. intros. apply leads_here; auto.
  - destruct todo as [|i todo].
    + eapply (leads_step s Main); [auto|cbn; unfold main; rewrite P; reflexivity|]. intros. apply leads_here; auto.
    + assert (Hi : i < n) by (apply (i_todo _ _ _ _ I); rewrite P; left; auto).
      destruct (nth_error (isl s) i) as [a|] eqn:Ei; [|apply nth_error_None in Ei; rewrite (i_isl _ _ _ _ I) in Ei; lia].
      eapply (leads_step s (Last i)); [auto| |].
      * cbn [IslModel.step]. rewrite P. cbn [existsb]. rewrite Nat.eqb_refl. cbn [orb]. rewrite Ei. cbn [obind]. reflexivity.
      * intros I'. eapply IH; [auto|reflexivity|]. cbn [filter]. rewrite Nat.eqb_refl. cbn [negb].
        assert (L := filter_le (fun j => negb (j =? i)) todo). cbn in K. lia.
Qed.
Theorem ends s : inv s -> leads s (fun s' => at_ s' = Done).
Proof.
  intros I.
  assert (F : forall s, inv s -> (exists todo, at_ s = Final todo) -> leads s (fun s' => at_ s' = Done)).
  { intros s0 I0 (todo & P). eapply (finals (length todo)); eauto. }
  assert (D : forall s, inv s -> at_ s = Drain -> leads s (fun s' => at_ s' = Done)).
  { intros s0 I0 P. eapply leads_trans; [eapply drains; eauto|]. intros. apply F; auto. }
  assert (W : forall s, inv s -> at_ s = Wait -> leads s (fun s' => at_ s' = Done)).
  { intros s0 I0 P. eapply leads_trans; [apply (downs_out (length (downs s0))); auto|]. intros s1 I1 H.
    destruct H as (_ & P1 & E1); [intros a Ha; apply (i_join _ _ _ _ I0); [rewrite P; auto|auto]|].
    eapply (leads_step s1 Main); [auto|cbn; unfold main; rewrite P1, P, E1; reflexivity|]. intros. apply D; auto. }
  assert (J : forall s, inv s -> all_exited s -> at_ s = Join -> leads s (fun s' => at_ s' = Done)).
  { intros s0 I0 A P. eapply (leads_step s0 Main); [auto| |].
    - cbn. unfold main. rewrite P. destruct (forallb has_exited (isl s0)) eqn:E; [reflexivity|]. exfalso.
      assert (forallb has_exited (isl s0) = true); [|congruence]. apply forallb_forall. intros a Ha. unfold has_exited. rewrite (A a Ha). auto.
    - intros. apply W; auto. }
  eapply leads_trans; [apply exits; auto|]. intros s1 I1 (A & P). destruct (at_ s) as [|i| | | | |todo|] eqn:Es.
  1-3: eapply leads_trans; [apply to_join; auto; rewrite P; auto|]; intros s2 I2 (A2 & P2); apply J; auto.
  - apply J; auto.
  - apply W; auto.
  - apply D; auto.
  - apply F; eauto.
  - apply leads_here; auto.
Qed.
End Run.
