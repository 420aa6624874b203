(** The star topology runs like a linear topology of one neighborhood *)
From Coq Require Import List Arith Bool Lia Permutation.
From Verif Require Import Lib Outcome OrderSpec OrderLemmas PsoModel PsoSpec PsoProofs PsoSetup PsoRun PsoMore PsvModel.
From Coq Require Import List.
Import ListNotations.

Section Star.
Context {A V F : Type} (lt : F -> F -> bool).
Hypothesis swo : strict_weak_order lt.
Context {W : Type}.
Variable velocity : list (hood A V F) -> particle A V F -> nat -> W -> res (list V * W).
Variable flight : particle A V F -> W -> res (list A * W).
Variable eval : list A -> F.
Variable init_velocity : particle A V F -> W -> res (list V * W).
Notation particle := (particle A V F).
Notation hood := (hood A V F).
Notation swarm := (swarm A V F W).
Notation over := (over A V F W).
Notation settled := (settled lt eval).
Implicit Types s : swarm.

(** the velocity, left as it is when there is not exactly one neighborhood *)
Definition guarded (hs : list hood) (p : particle) (k : nat) (w : W) : res (list V * W) :=
  match hs with [_] => velocity hs p k w | _ => Ok (vel p, w) end.
Definition one n s : Prop := exists h, hoods s = [h] /\ members h = seq 0 n.

Lemma over_ext (P : swarm -> Prop) stepA stepB ks : (forall s k, P s -> In k ks -> stepA s k = stepB s k) ->
  (forall s k s', P s -> stepB s k = Ok s' -> P s') -> forall s, P s -> over stepA ks s = over stepB ks s.
Proof.
  intros E K. induction ks as [|k ks IH]; intros s I; cbn [PsoModel.over]; auto.
  rewrite E by (cbn; auto). destruct (stepB s k) as [s1| | |] eqn:Es; cbn [rbind]; auto.
  apply IH; [intros; apply E; cbn; auto|]. eapply K; eauto.
Qed.
Lemma one_members n s s' : same_members s s' -> one n s -> one n s'.
Proof.
  intros M (h & E & Em). unfold same_members in M. rewrite E in M. cbn in M.
  destruct (hoods s') as [|h' [|]] eqn:Eh; try discriminate. cbn in M. injection M as M. exists h'. split; auto. congruence.
Qed.
Lemma update_same n s k : one n s -> k < n ->
  step_update A V F W (star_update lt) s k = step_update A V F W (linear_update A V F lt) s k.
Proof.
  intros (h & E & Em) K. unfold step_update, star_update, linear_update.
  assert (R : retrieve A V F (hoods s) k = 0).
  { rewrite E. cbn [retrieve]. assert (C : contains A V F h k = true); [|rewrite C; auto].
    unfold contains. rewrite Em. apply existsb_exists. exists k. split; [apply in_seq; lia|]. apply Nat.eqb_refl. }
  rewrite R. auto.
Qed.
Lemma velocity_same n s k : one n s -> step_velocity A V F W velocity s k = step_velocity A V F W guarded s k.
Proof. intros (h & E & _). unfold step_velocity, guarded. rewrite E. auto. Qed.

Lemma async_same n s : one n s -> length (pop s) = n ->
  async_turn A V F W velocity flight eval (star_update lt) s = async_turn A V F W guarded flight eval (linear_update A V F lt) s.
Proof.
  intros O L. unfold async_turn. rewrite L. apply over_ext with (P := one n); auto.
  - intros s1 k O1 K. apply in_seq in K. rewrite (velocity_same n) by auto.
    destruct (step_velocity A V F W guarded s1 k) as [s2| | |] eqn:E1; cbn [rbind]; auto.
    destruct (step_flight A V F W flight s2 k) as [s3| | |] eqn:E2; cbn [rbind]; auto.
    destruct (step_eval A V F W eval s3 k) as [s4| | |] eqn:E3; cbn [rbind]; auto.
    apply (update_same n); [|lia].
    eapply one_members; [eapply eval_members; eauto|]. eapply one_members; [eapply flight_members; eauto|].
    eapply one_members; [eapply velocity_members; eauto|]. auto.
  - intros s1 k s' O1 H. inv_res.
    eapply one_members; [eapply update_members; eauto|].
    eapply one_members; [eapply eval_members; eauto|]. eapply one_members; [eapply flight_members; eauto|].
    eapply one_members; [eapply velocity_members; eauto|]. auto.
Qed.
Lemma sync_same n s : one n s -> length (pop s) = n ->
  sync_turn A V F W velocity flight eval (star_update lt) s = sync_turn A V F W guarded flight eval (linear_update A V F lt) s.
Proof.
  intros O L. unfold sync_turn. rewrite L.
  rewrite (over_ext (one n) (step_velocity A V F W velocity) (step_velocity A V F W guarded)); auto.
  2: { intros. apply (velocity_same n); auto. }
  2: { intros s1 k s' O1 H. eapply one_members; [eapply velocity_members; eauto|auto]. }
  destruct (over (step_velocity A V F W guarded) (seq 0 n) s) as [s2| | |] eqn:E1; cbn [rbind]; auto.
  destruct (over (step_flight A V F W flight) (seq 0 n) s2) as [s3| | |] eqn:E2; cbn [rbind]; auto.
  destruct (over (step_eval A V F W eval) (seq 0 n) s3) as [s4| | |] eqn:E3; cbn [rbind]; auto.
  apply over_ext with (P := one n).
  - intros s1 k O1 K. apply in_seq in K. apply (update_same n); auto. lia.
  - intros s1 k s' O1 H. eapply one_members; [eapply update_members; eauto|auto].
  - eapply one_members; [eapply over_members; [|eauto]; intros; eapply eval_members; eauto|].
    eapply one_members; [eapply over_members; [|eauto]; intros; eapply flight_members; eauto|].
    eapply one_members; [eapply over_members; [|eauto]; intros; eapply velocity_members; eauto|]. auto.
Qed.
Lemma turns_same n (turnA turnB : swarm -> res swarm) :
  (forall s, one n s -> length (pop s) = n -> turnA s = turnB s) -> turn_ok lt eval turnB ->
  (forall s s', turnB s = Ok s' -> same_members s s') ->
  forall answers s, settled n s -> one n s -> turns A V F W turnA answers s = turns A V F W turnB answers s.
Proof.
  intros E T M. induction answers as [|b r IH]; intros s St O; cbn [turns]; rewrite E; auto; try apply St.
  destruct (turnB s) as [s1| | |] eqn:E1; cbn [rbind]; auto. destruct b; auto. apply IH.
  - eapply T; eauto.
  - eapply one_members; eauto.
Qed.

(** *** the setup *)
Lemma largest_ok (pop : list particle) : forall m, (forall p, In p pop -> scored eval p) -> scored eval m ->
  exists b, largest lt m pop = Ok b /\ (b = m \/ In b pop) /\ lt (eval (pos b)) (eval (pos m)) = false /\
    forall p, In p pop -> lt (eval (pos b)) (eval (pos p)) = false.
Proof.
  induction pop as [|p r IH]; intros m S0 Sm; cbn [largest].
  - exists m. split; auto. split; auto. split; [apply (swo_irrefl lt swo)|intros p []].
  - assert (Sp := S0 p (or_introl eq_refl)). unfold fitness. rewrite Sm, Sp. cbn [rbind].
    destruct (lt (eval (pos m)) (eval (pos p))) eqn:E.
    + destruct (IH p) as (b & Eb & Ib & B1 & B2); auto. { intros; apply S0; right; auto. }
      exists b. split; auto. split; [destruct Ib as [->|Ib]; cbn; auto|].
      assert (X : lt (eval (pos b)) (eval (pos m)) = false).
      { eapply (swo_ntrans lt swo); [apply B1|]. apply (swo_asym lt swo). auto. }
      split; auto. intros q [<-|Hq]; auto.
    + destruct (IH m) as (b & Eb & Ib & B1 & B2); auto. { intros; apply S0; right; auto. }
      exists b. split; auto. split; [destruct Ib as [->|Ib]; cbn; auto|]. split; auto.
      intros q [<-|Hq]; auto. eapply (swo_ntrans lt swo); [apply B1|]. auto.
Qed.
Lemma star_setup_ok (pop : list particle) : pop <> [] -> (forall p, In p pop -> scored eval p) ->
  exists b, star_setup lt pop = Ok [Hood (seq 0 (length pop)) b] /\ In b pop /\
    forall p, In p pop -> lt (eval (pos b)) (eval (pos p)) = false.
Proof.
  intros N S0. unfold star_setup, best_element. destruct pop as [|p r]; [congruence|].
  destruct (largest_ok r p) as (b & Eb & Ib & B1 & B2); [intros; apply S0; right; auto|apply S0; left; auto|].
  rewrite Eb. cbn [rbind]. exists b. split; auto. split; [destruct Ib as [->|Ib]; cbn; auto|].
  intros q [<-|Hq]; auto.
Qed.
Notation initialise := (initialise A V F W eval (star_setup lt) init_velocity).

Lemma star_initialise_ok s s' : log s = [] -> pop s <> [] -> initialise s = Ok s' ->
  settled (length (pop s)) s' /\ map fst (log s') = seq 0 (length (pop s)) /\ points s (log s') /\ one (length (pop s)) s'.
Proof.
  intros L0 Sn H. unfold PsoModel.initialise in H. set (n := length (pop s)) in *.
  apply rbind_ok in H as (s1 & H1 & H). apply rbind_ok in H as (s2 & H2 & H). apply rbind_ok in H as (s3 & H3 & H).
  apply rbind_ok in H as (hs & Hs & H). injection H as <-. cbn [pop hoods log].
  assert (N1 := eval_length eval _ _ _ H1). fold n in N1.
  destruct (eval_over eval _ _ _ H1) as (Ps & Fr & l & Ll & Lm & Pt). rewrite L0 in Ll. cbn in Ll.
  assert (P2 := over_points _ _ (init_velocity_points init_velocity) _ _ H2).
  assert (P3 := over_points _ _ (fun s k s' h => proj1 (init_best_points s k s' h)) _ _ H3).
  destruct (same_points_trans _ _ _ P2 P3) as (N3 & L3 & _ & Q). rewrite N1 in N3.
  assert (Sc : forall k p, nth_error (pop s3) k = Some p ->
    scored eval p /\ best p = eval (pos p) /\ bpos p = pos p /\ history l k = [pos p]).
  { intros k p Hp. assert (K : k < n) by (rewrite <- N3; eapply nth_error_lt; eauto).
    assert (X := Q k). rewrite Hp in X. destruct (nth_error (pop s1) k) as [p1|] eqn:E1; [|discriminate]. cbn in X. injection X as X1 X2.
    assert (F1 := Fr k (or_introl (proj2 (in_seq n 0 k) (conj (Nat.le_0_l k) K))) p1 E1).
    assert (Sp : scored eval p) by (unfold scored; congruence).
    destruct (init_best_over _ _ _ H3 k p) as (v & Ev & Eb & Ep); auto.
    { left. apply in_seq. lia. }
    repeat split; auto.
    - unfold scored in Sp. congruence.
    - apply points_history; [rewrite Lm; apply seq_NoDup|].
      assert (Ik : In k (map fst l)) by (rewrite Lm; apply in_seq; lia). apply in_map_iff in Ik as ([k' x] & Ek & Ik).
      cbn in Ek. subst k'. assert (Y := Pt _ Ik). cbn in Y. rewrite <- Ps in Y. unfold posn in Y. rewrite E1 in Y. cbn in Y. congruence. }
  assert (Ne : pop s3 <> []). { intros E. apply Sn. apply length_zero_iff_nil. fold n. rewrite <- N3, E. auto. }
  destruct (star_setup_ok (pop s3) Ne) as (b & Es & Ib & Mx).
  { intros p Hp. apply In_nth_error in Hp as (k & Hp). apply (Sc _ _ Hp). }
  rewrite Hs in Es. injection Es as ->. rewrite N3.
  assert (L3' : log s3 = l) by congruence. rewrite L3'.
  split; [|split; [auto|split; [auto|exists (Hood (seq 0 n) b); auto]]].
  split.
  - split; [auto|]. cbn [pop hoods log]. split; [|split].
    + intros k p Hp. destruct (Sc _ _ Hp) as (S1 & S2 & S3 & S4). rewrite S4. split; [|congruence].
      rewrite S3. exists [], []. repeat split; auto; intros y [].
    + intros h [<-|[]]. apply In_nth_error in Ib as (k & Ek). destruct (Sc _ _ Ek) as (S1 & S2 & S3 & S4). unfold hoodok. cbn [members lbest].
      split; [|split; [|auto]].
      * exists k. rewrite S4. split; [apply in_seq; assert (X := nth_error_lt _ _ _ Ek); lia|left; auto].
      * intros j y Hj Hy. apply in_seq in Hj. destruct (some_nth (pop s3) j) as (q & Eq); [lia|].
        destruct (Sc _ _ Eq) as (_ & _ & _ & T4). rewrite T4 in Hy. destruct Hy as [<-|[]]. apply Mx. eapply nth_error_In; eauto.
    + cbn. rewrite app_nil_r. apply Permutation_refl.
  - intros k p Hp. cbn [pop log] in *. destruct (Sc _ _ Hp) as (S1 & S2 & S3 & S4). split; auto. exists []. auto.
Qed.
Variable d : nat.
Lemma star_initialise_total s : init_works init_velocity d -> log s = [] -> pop s <> [] -> all_placed d s ->
  exists s', initialise s = Ok s' /\ all_sized d s'.
Proof.
  intros Iw L0 Sn Pl. set (n := length (pop s)) in *.
  assert (K : forall k, In k (seq 0 n) -> k < n) by (intros k Hk; apply in_seq in Hk; lia).
  assert (X : exists s', initialise s = Ok s' /\ all_placed d s' /\ forall p, In p (pop s') -> length (vel p) = d).
  { unfold PsoModel.initialise. fold n.
    destruct (eval_over_total eval 1 Nat.lt_0_1 d (seq 0 n) s) as (s1 & E1 & P1); auto. rewrite E1. cbn [rbind].
    assert (N1 := eval_length eval _ _ _ E1). fold n in N1.
    destruct (eval_over eval _ _ _ E1) as (_ & Fr & _).
    destruct (init_velocity_total init_velocity 1 Nat.lt_0_1 d (seq 0 n) Iw s1) as (s2 & E2 & P2 & V2); auto. { intros. rewrite N1. auto. }
    rewrite E2. cbn [rbind]. destruct (over_points _ _ (init_velocity_points init_velocity) _ _ E2) as (N2 & _ & _ & Q2).
    destruct (init_best_total eval 1 Nat.lt_0_1 d (seq 0 n) s2) as (s3 & E3 & P3 & V3); auto.
    - intros. rewrite N2, N1. auto.
    - intros k p Hp. specialize (Q2 k). rewrite Hp in Q2. destruct (nth_error (pop s1) k) as [p1|] eqn:Ep; [|discriminate].
      cbn in Q2. injection Q2 as Q1 Q2. rewrite Q1, Q2. apply (Fr k); auto. left. apply in_seq.
      assert (k < length (pop s1)) by (eapply nth_error_lt; eauto). lia.
    - intros p Hp. apply In_nth_error in Hp as (k & Hp). apply (V2 k p); auto. left. apply in_seq.
      assert (k < length (pop s2)) by (eapply nth_error_lt; eauto). lia.
    - rewrite E3. cbn [rbind]. destruct (over_points _ _ (fun s k s' h => proj1 (init_best_points s k s' h)) _ _ E3) as (N3 & _ & _ & Q3).
      destruct (star_setup_ok (pop s3)) as (b & Es & _).
      { intros E. apply Sn. apply length_zero_iff_nil. fold n. rewrite <- N1, <- N2, <- N3, E. auto. }
      { intros p Hp. apply In_nth_error in Hp as (k & Hp). specialize (Q3 k). rewrite Hp in Q3.
        destruct (nth_error (pop s2) k) as [p2|] eqn:Ep2; [|discriminate]. cbn in Q3. injection Q3 as Q31 Q32.
        specialize (Q2 k). rewrite Ep2 in Q2. destruct (nth_error (pop s1) k) as [p1|] eqn:Ep1; [|discriminate]. cbn in Q2. injection Q2 as Q21 Q22.
        unfold scored. rewrite Q31, Q32, Q21, Q22. apply (Fr k); auto. left. apply in_seq.
        assert (k < length (pop s1)) by (eapply nth_error_lt; eauto). lia. }
      rewrite Es. cbn [rbind]. eexists. split; [reflexivity|]. auto. }
  destruct X as (s' & E & P & Vl). exists s'. split; auto.
  destruct (star_initialise_ok s s' L0 Sn E) as ((I & Cu) & Lm & Pt & _).
  assert (In_len : forall k x, In x (history (log s') k) -> length x = d).
  { intros k x Hx. unfold history in Hx. apply in_map_iff in Hx as (e & <- & He). apply filter_In in He as [He _].
    specialize (Pt e He). unfold posn in Pt. destruct (nth_error (pop s) (fst e)) as [p|] eqn:Ep; [|discriminate].
    cbn in Pt. injection Pt as <-. apply Pl. eapply nth_error_In; eauto. }
  destruct I as (_ & M & Hh & _). split.
  - intros p Hp. split; [apply P; auto|]. split; [auto|]. apply In_nth_error in Hp as (k & Hp). destruct (M k p Hp) as [B _]. apply fbest_in in B. eauto.
  - intros h H'. destruct (Hh h H') as ((k & _ & Ik) & _). eauto.
Qed.
(** a velocity that works with one neighborhood *)
Definition star_velocity_works : Prop := forall h p k w, sized d p -> length (pos (lbest h)) = d ->
  exists v w', velocity [h] p k w = Ok (v, w') /\ length v = d.
Lemma guarded_works : star_velocity_works -> velocity_works lt guarded d.
Proof.
  intros Vw hs p k w Sp Hh _ _. unfold guarded. destruct hs as [|h [|h' r]].
  - exists (vel p), w. split; auto. apply Sp.
  - apply Vw; auto. apply Hh. left; auto.
  - exists (vel p), w. split; auto. apply Sp.
Qed.
End Star.
