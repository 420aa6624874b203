(** Whole runs of the swarm: initialisation, turns, and why nothing fails *)
From Coq Require Import List Arith Bool Lia Permutation.
From Verif Require Import Lib Outcome OrderSpec OrderLemmas PsoModel PsoSpec PsoProofs PsoSetup.
From Coq Require Import List.
Import ListNotations.

Section Run.
Context {A V F : Type} (lt : F -> F -> bool).
Hypothesis swo : strict_weak_order lt.
Context {W : Type}.
Variable velocity : list (hood A V F) -> particle A V F -> nat -> W -> res (list V * W).
Variable flight : particle A V F -> W -> res (list A * W).
Variable eval : list A -> F.
Variable init_velocity : particle A V F -> W -> res (list V * W).
Variable size : nat.
Hypothesis size_pos : 0 < size.

Notation particle := (particle A V F).
Notation hood := (hood A V F).
Notation swarm := (swarm A V F W).
Notation update := (linear_update A V F lt).
Notation step_velocity := (step_velocity A V F W velocity).
Notation step_init_velocity := (step_init_velocity A V F W init_velocity).
Notation step_init_best := (step_init_best A V F W).
Notation step_flight := (step_flight A V F W flight).
Notation step_eval := (step_eval A V F W eval).
Notation step_update := (step_update A V F W update).
Notation over := (over A V F W).
Notation setup := (linear_setup A V F lt size).
Notation initialise := (initialise A V F W eval setup init_velocity).
Notation inv := (inv lt eval).
Notation settled := (settled lt eval).
Implicit Types s : swarm.

(** initial steps: the population keeps its length, its positions and its fitnesses *)
Definition same_points s s' : Prop := length (pop s') = length (pop s) /\ log s' = log s /\ hoods s' = hoods s /\
  forall j, option_map (fun p => (pos p, fit p)) (nth_error (pop s') j) = option_map (fun p => (pos p, fit p)) (nth_error (pop s) j).
Lemma set_points s k p p' w : nth_error (pop s) k = Some p -> pos p' = pos p -> fit p' = fit p ->
  same_points s (Swarm (set (pop s) k p') (hoods s) w (log s)).
Proof.
  intros Hp E1 E2. unfold same_points. cbn [pop log hoods]. rewrite set_length. repeat split; auto.
  intros j. destruct (Nat.eq_dec j k) as [->|N].
  - rewrite nth_error_set_eq by (eapply nth_error_lt; eauto). rewrite Hp. cbn. congruence.
  - rewrite nth_error_set_neq by auto. auto.
Qed.
Lemma init_velocity_points s k s' : step_init_velocity s k = Ok s' -> same_points s s'.
Proof.
  intros H. apply rbind_ok in H as (p & Hp & H). apply of_opt_ok in Hp. apply rbind_ok in H as ([v w] & _ & H). injection H as <-.
  eapply set_points; eauto.
Qed.
Definition first_memory (p : particle) : Prop := exists v, fit p = Some v /\ best p = v /\ bpos p = pos p.
Lemma init_best_points s k s' : step_init_best s k = Ok s' -> same_points s s' /\
  (forall p, nth_error (pop s') k = Some p -> first_memory p) /\
  forall j, j <> k -> nth_error (pop s') j = nth_error (pop s) j.
Proof.
  intros H. apply rbind_ok in H as (p & Hp & H). apply of_opt_ok in Hp. apply rbind_ok in H as (v & Hv & H). injection H as <-.
  unfold fitness in Hv. destruct (fit p) eqn:Ef; [|discriminate]. injection Hv as ->.
  split; [eapply set_points; eauto|]. cbn [pop]. split.
  - intros q. rewrite nth_error_set_eq by (eapply nth_error_lt; eauto). intros E; injection E as <-. exists v; auto.
  - intros j N. apply nth_error_set_neq; auto.
Qed.
Lemma same_points_trans s1 s2 s3 : same_points s1 s2 -> same_points s2 s3 -> same_points s1 s3.
Proof. intros (A1 & A2 & A3 & A4) (B1 & B2 & B3 & B4). repeat split; try congruence. Qed.
Lemma same_points_refl s : same_points s s.
Proof. repeat split; auto. Qed.
Lemma over_points step ks : (forall s k s', step s k = Ok s' -> same_points s s') ->
  forall s s', over step ks s = Ok s' -> same_points s s'.
Proof.
  intros St. induction ks as [|k ks IH]; intros s s' H; cbn [PsoModel.over] in H.
  - injection H as <-. apply same_points_refl.
  - apply rbind_ok in H as (s1 & H1 & H). eapply same_points_trans; eauto.
Qed.
Lemma init_best_over ks : forall s s', over step_init_best ks s = Ok s' ->
  forall k p, In k ks \/ (forall p, nth_error (pop s) k = Some p -> first_memory p) -> nth_error (pop s') k = Some p -> first_memory p.
Proof.
  induction ks as [|j ks IH]; intros s s' H k p Hk Hp; cbn [PsoModel.over] in H.
  - injection H as <-. destruct Hk as [[]|Hk]; auto.
  - apply rbind_ok in H as (s1 & H1 & H). apply init_best_points in H1 as (_ & Fm & Ot).
    apply (IH s1 s' H k p); auto. destruct (Nat.eq_dec k j) as [->|N]; [right; auto|].
    destruct Hk as [[->|Hk]|Hk]; [congruence|left; auto|right]. rewrite Ot; auto.
Qed.
Lemma eval_length ks : forall s s', over step_eval ks s = Ok s' -> length (pop s') = length (pop s).
Proof.
  induction ks as [|k ks IH]; intros s s' H; cbn [PsoModel.over] in H.
  - injection H as <-. auto.
  - apply rbind_ok in H as (s1 & H1 & H). apply IH in H. apply eval_one in H1 as (p & R). rewrite H. apply R.
Qed.

Lemma Forall2_nth {X Y} (R : X -> Y -> Prop) l l' : Forall2 R l l' -> forall i y, nth_error l' i = Some y -> exists x, nth_error l i = Some x /\ R x y.
Proof. induction 1; intros [|i] z E; try discriminate; cbn in *; [injection E as <-; eauto|eauto]. Qed.
Lemma Forall2_len {X Y} (R : X -> Y -> Prop) l l' : Forall2 R l l' -> length l' = length l.
Proof. induction 1; cbn; auto. Qed.
Lemma Forall2_map {X Y Z} (f : X -> Z) (g : Y -> Z) (R : X -> Y -> Prop) l l' : (forall x y, R x y -> g y = f x) -> Forall2 R l l' -> map g l' = map f l.
Proof. intros E. induction 1; cbn; auto. f_equal; auto. Qed.

Lemma initialise_ok s s' : log s = [] -> size < length (pop s) -> initialise s = Ok s' ->
  settled (length (pop s)) s' /\ map fst (log s') = seq 0 (length (pop s)) /\ points s (log s') /\
  blocks size (length (pop s)) (map members (hoods s')).
Proof.
  intros L0 Sn H. unfold PsoModel.initialise in H. set (n := length (pop s)) in *.
  apply rbind_ok in H as (s1 & H1 & H). apply rbind_ok in H as (s2 & H2 & H). apply rbind_ok in H as (s3 & H3 & H).
  apply rbind_ok in H as (hs & Hs & H). injection H as <-. cbn [pop hoods log].
  assert (N1 := eval_length _ _ _ H1). fold n in N1.
  destruct (eval_over eval _ _ _ H1) as (Ps & Fr & l & Ll & Lm & Pt). rewrite L0 in Ll. cbn in Ll.
  assert (P2 := over_points _ _ init_velocity_points _ _ H2).
  assert (P3 := over_points _ _ (fun s k s' h => proj1 (init_best_points s k s' h)) _ _ H3).
  destruct (same_points_trans _ _ _ P2 P3) as (N3 & L3 & _ & Q). rewrite N1 in N3.
  assert (Sc : forall k p, nth_error (pop s3) k = Some p ->
    scored eval p /\ best p = eval (pos p) /\ bpos p = pos p /\ history l k = [pos p]).
  { intros k p Hp. assert (K : k < n) by (rewrite <- N3; eapply nth_error_lt; eauto).
    assert (X := Q k). rewrite Hp in X. destruct (nth_error (pop s1) k) as [p1|] eqn:E1; [|discriminate]. cbn in X. injection X as X1 X2.
    assert (F1 := Fr k (or_introl (proj2 (in_seq n 0 k) (conj (Nat.le_0_l k) K))) p1 E1).
    assert (Sp : scored eval p) by (unfold scored; congruence).
    destruct (init_best_over _ _ _ H3 k p) as (v & Ev & Eb & Ep); auto.
    { left. apply in_seq. lia. }
    repeat split; auto.
    - unfold scored in Sp. congruence.
    - apply points_history; [rewrite Lm; apply seq_NoDup|].
      assert (Ik : In k (map fst l)) by (rewrite Lm; apply in_seq; lia). apply in_map_iff in Ik as ([k' x] & Ek & Ik).
      cbn in Ek. subst k'. assert (Y := Pt _ Ik). cbn in Y. rewrite <- Ps in Y. unfold posn in Y. rewrite E1 in Y. cbn in Y. congruence. }
  destruct (linear_setup_ok lt swo eval size (pop s3) size_pos) as (hs' & Es & Fh).
  { rewrite N3. auto. }
  { intros p Hp. apply In_nth_error in Hp as (k & Hp). apply (Sc _ _ Hp). }
  rewrite Hs in Es. injection Es as <-. rewrite N3 in Fh.
  assert (Em : map members hs = map (block size n) (seq 0 (n / size))).
  { eapply Forall2_map; [|apply Fh]. intros i h [M _]. apply M. }
  assert (L3' : log s3 = l) by congruence. rewrite L3'.
  split; [|split; [auto|split; [auto|]]].
  - split.
    + split; [auto|]. cbn [pop hoods log]. split; [|split].
      * intros k p Hp. destruct (Sc _ _ Hp) as (S1 & S2 & S3 & S4). rewrite S4. split; [|congruence].
        rewrite S3. exists [], []. repeat split; auto; intros y [].
      * intros h Hh. apply In_nth_error in Hh as (i & Hh). destruct (Forall2_nth _ _ _ Fh _ _ Hh) as (i0 & _ & (M1 & (k & Ik & Ek) & M3) & Sh).
        destruct (Sc _ _ Ek) as (S1 & S2 & S3 & S4). split; [|split; [|auto]].
        -- exists k. rewrite M1, S4. split; auto. left; auto.
        -- intros j y Hj Hy. rewrite M1 in Hj. destruct (nth_error (pop s3) j) as [q|] eqn:Eq.
           ++ destruct (Sc _ _ Eq) as (_ & _ & _ & T4). rewrite T4 in Hy. destruct Hy as [<-|[]]. eauto.
           ++ exfalso. assert (In j (map fst l)). { unfold history in Hy. apply in_map_iff in Hy as ([j' x] & _ & Hy). apply filter_In in Hy as [Hy Ej].
                apply Nat.eqb_eq in Ej. cbn in Ej. subst j'. apply in_map_iff. exists (j, x). auto. }
              rewrite Lm in H. apply in_seq in H. apply nth_error_None in Eq. lia.
      * rewrite Em. apply block_concat; auto.
    + intros k p Hp. cbn [pop log] in *. destruct (Sc _ _ Hp) as (S1 & S2 & S3 & S4). split; auto. exists []. auto.
  - split; [|split].
    + rewrite Em. apply block_concat; auto.
    + rewrite Em, map_length, seq_length. auto.
    + intros i b Hb k. rewrite Em, nth_error_map' in Hb. destruct (nth_error (seq 0 (n / size)) i) as [i'|] eqn:Ei; [|discriminate].
      assert (Li := nth_error_lt _ _ _ Ei). rewrite seq_length in Li. rewrite nth_error_seq' in Ei by auto. injection Ei as <-.
      injection Hb as <-. apply block_in; auto.
Qed.

(** *** nothing fails *)
Variable d : nat.
Definition placed (p : particle) : Prop := length (pos p) = d.
Definition sized (p : particle) : Prop := length (pos p) = d /\ length (vel p) = d /\ length (bpos p) = d.
Definition all_sized s : Prop := (forall p, In p (pop s) -> sized p) /\ forall h, In h (hoods s) -> length (pos (lbest h)) = d.
(** what the user's functors owe *)
Definition velocity_works : Prop := forall hs p k w, sized p -> (forall h, In h hs -> length (pos (lbest h)) = d) ->
  (exists b, linear_best A V F hs k = Ok b) -> (exists g, global_best A V F lt hs = Ok g /\ In g (map lbest hs)) -> exists v w', velocity hs p k w = Ok (v, w') /\ length v = d.
Definition flight_works : Prop := forall p w, sized p -> exists x w', flight p w = Ok (x, w') /\ length x = d.
Definition init_works : Prop := forall p w, placed p -> exists v w', init_velocity p w = Ok (v, w') /\ length v = d.

Lemma set_all {X} (P : X -> Prop) l k x : (forall y, In y l -> P y) -> P x -> forall y, In y (set l k x) -> P y.
Proof.
  intros Hl Hx y Hy. apply In_nth_error in Hy as (j & Hj). rewrite nth_error_set in Hj.
  destruct ((j =? k) && (k <? length l))%bool; [injection Hj as <-; auto|]. apply Hl. eapply nth_error_In; eauto.
Qed.
Lemma inv_best acc n s k : inv acc n s -> k < n -> exists b, linear_best A V F (hoods s) k = Ok b.
Proof.
  intros (_ & _ & _ & P) K. destruct (retrieve_spec (hoods s) k) as (h & Hr & _).
  { assert (I : In k (concat (map members (hoods s)))).
    { eapply Permutation_in; [apply Permutation_sym, P|]. apply in_seq. lia. }
    apply in_concat in I as (l & Hl & I). apply in_map_iff in Hl as (h & <- & Hl). eauto. }
  unfold linear_best. rewrite Hr. cbn. eauto.
Qed.
Lemma global_loop_ok acc hs : forall g, (forall h, In h hs -> hoodok lt eval h acc) ->
  fit g = Some (eval (pos g)) -> best g = eval (pos g) ->
  exists b, global_loop A V F lt g hs = Ok b /\ (b = g \/ In b (map lbest hs)) /\
    lt (eval (pos b)) (eval (pos g)) = false /\ forall h, In h hs -> lt (eval (pos b)) (eval (pos (lbest h))) = false.
Proof.
  induction hs as [|h hs IH]; intros g Hh Fg Bg; cbn [global_loop].
  - exists g. split; auto. split; auto. split; [apply swo_irrefl; auto|intros ? []].
  - destruct (Hh h (or_introl eq_refl)) as (_ & _ & Fh & Bh & _).
    unfold best_of. rewrite Fg. cbn [rbind]. rewrite Fh. cbn [rbind]. rewrite Bg, Bh.
    assert (Hh' : forall h, In h hs -> hoodok lt eval h acc) by (intros; apply Hh; right; auto).
    destruct (lt (eval (pos g)) (eval (pos (lbest h)))) eqn:L.
    + destruct (IH (lbest h) Hh' Fh Bh) as (b & E & I & M & Mx). exists b. split; auto. split.
      * right. destruct I as [->|I]; [left; auto|right; auto].
      * split.
        -- destruct (lt (eval (pos b)) (eval (pos g))) eqn:L2; auto. rewrite <- M. symmetry. eapply swo_trans; eauto.
        -- intros h' [<-|H']; auto.
    + destruct (IH g Hh' Fg Bg) as (b & E & I & M & Mx). exists b. split; auto. split.
      * destruct I as [->|I]; [left; auto|right; right; auto].
      * split; auto. intros h' [<-|H']; auto. eapply swo_ntrans; eauto.
Qed.
Lemma global_best_ok acc hs : hs <> [] -> (forall h, In h hs -> hoodok lt eval h acc) ->
  exists b, global_best A V F lt hs = Ok b /\ In b (map lbest hs) /\
     forall h, In h hs -> lt (eval (pos b)) (eval (pos (lbest h))) = false.
Proof.
  intros N Hh. destruct hs as [|h hs]; [congruence|]. destruct (Hh h (or_introl eq_refl)) as (_ & _ & Fh & Bh & _).
  destruct (global_loop_ok acc hs (lbest h)) as (b & E & I & M & Mx); auto.
  { intros; apply Hh; right; auto. }
  exists b. split; [auto|]. split; [destruct I as [->|I]; [left|right]; auto|]. intros h' [<-|H']; auto.
Qed.
Lemma hoods_nonempty acc n s : inv acc n s -> 0 < n -> hoods s <> [].
Proof.
  intros (_ & _ & _ & P) Hn E. rewrite E in P. cbn in P. apply Permutation_length in P. rewrite seq_length in P. cbn in P. lia.
Qed.
Lemma velocity_total acc n s k : velocity_works -> inv acc n s -> all_sized s -> k < n ->
  exists s', step_velocity s k = Ok s' /\ all_sized s'.
Proof.
  intros Vw I [Sp Sh] K. unfold PsoModel.step_velocity. destruct (nth_error (pop s) k) as [p|] eqn:Ep.
  2: { apply nth_error_None in Ep. destruct I as (E & _). lia. }
  cbn [of_opt rbind]. destruct (global_best_ok acc (hoods s)) as (g & Eg & Ig & _).
  { eapply hoods_nonempty; eauto; lia. } { apply I. }
  destruct (Sp p (nth_error_In _ _ Ep)) as (P1 & P2 & P3).
  destruct (Vw (hoods s) p k (world s)) as (v & w & E & Lv); auto.
  { repeat split; auto. } { eapply inv_best; eauto. } { eauto. }
  rewrite E. cbn [rbind]. eexists. split; [reflexivity|]. split; auto. cbn [pop].
  apply set_all; auto. repeat split; auto.
Qed.
Lemma flight_total acc n s k : flight_works -> inv acc n s -> all_sized s -> k < n ->
  exists s', step_flight s k = Ok s' /\ all_sized s'.
Proof.
  intros Fw I [Sp Sh] K. unfold PsoModel.step_flight. destruct (nth_error (pop s) k) as [p|] eqn:Ep.
  2: { apply nth_error_None in Ep. destruct I as (E & _). lia. }
  destruct (Sp p (nth_error_In _ _ Ep)) as (P1 & P2 & P3).
  cbn [of_opt rbind]. destruct (Fw p (world s)) as (x & w & E & Lx); [repeat split; auto|].
  rewrite E. cbn [rbind]. eexists. split; [reflexivity|]. split; auto. cbn [pop].
  apply set_all; auto. repeat split; auto.
Qed.
Lemma eval_total s k : k < length (pop s) -> all_sized s -> exists s', step_eval s k = Ok s' /\ all_sized s'.
Proof.
  intros K [Sp Sh]. unfold PsoModel.step_eval. destruct (nth_error (pop s) k) as [p|] eqn:Ep.
  2: { apply nth_error_None in Ep. lia. }
  destruct (Sp p (nth_error_In _ _ Ep)) as (P1 & P2 & P3).
  cbn [of_opt rbind]. eexists. split; [reflexivity|]. split; auto. cbn [pop]. apply set_all; auto. repeat split; auto.
Qed.
Lemma update_total acc n s k : inv acc n s -> all_sized s -> fresh eval s k -> k < n ->
  exists s', step_update s k = Ok s' /\ all_sized s'.
Proof.
  intros I [Sp Sh] Fr K. unfold PsoModel.step_update. destruct (nth_error (pop s) k) as [p|] eqn:Ep.
  2: { apply nth_error_None in Ep. destruct I as (E & _). lia. }
  destruct (Sp p (nth_error_In _ _ Ep)) as (P1 & P2 & P3).
  cbn [of_opt rbind]. unfold linear_update, update_best, fitness, best_of. rewrite (Fr p Ep). cbn [rbind].
  assert (Es : length (bpos p) =? length (pos p) = true) by (apply Nat.eqb_eq; congruence). rewrite Es.
  destruct (inv_best _ _ _ _ I K) as (b & Hb). unfold linear_best in Hb. apply rbind_ok in Hb as (h & Hb & _).
  set (p' := if lt (best p) (eval (pos p)) then Particle (pos p) (vel p) (pos p) (fit p) (eval (pos p)) else p).
  assert (E' : (if lt (best p) (eval (pos p)) then Ok (Particle (pos p) (vel p) (pos p) (Some (eval (pos p))) (eval (pos p))) else Ok p) = Ok p').
  { unfold p'. rewrite (Fr p Ep). destruct (lt _ _); auto. }
  rewrite E'. cbn [rbind]. unfold update_hood. rewrite Hb. cbn [rbind]. unfold fitness.
  assert (F' : fit p' = Some (eval (pos p))) by (unfold p'; destruct (lt _ _); cbn; apply Fr; auto).
  assert (S' : sized p') by (unfold p'; destruct (lt _ _); repeat split; cbn; auto).
  rewrite F'. cbn [rbind]. apply of_opt_ok in Hb. assert (Ih := nth_error_In _ _ Hb).
  destruct I as (_ & _ & Hh & _). destruct (Hh h Ih) as (_ & _ & Fh & _). rewrite Fh. cbn [rbind].
  eexists. split; [reflexivity|]. split; cbn [pop hoods].
  - apply set_all; auto.
  - destruct (lt (eval (pos (lbest h))) (eval (pos p))); auto. apply set_all; auto. apply S'.
Qed.
Lemma over_total acc n step : (forall s k, inv acc n s -> all_sized s -> k < n -> exists s', step s k = Ok s' /\ all_sized s' /\ inv acc n s') ->
  forall ks s, (forall k, In k ks -> k < n) -> inv acc n s -> all_sized s -> exists s', over step ks s = Ok s' /\ all_sized s' /\ inv acc n s'.
Proof.
  intros St. induction ks as [|k ks IH]; intros s K I Sz; cbn [PsoModel.over].
  - eauto.
  - destruct (St s k I Sz (K k (or_introl eq_refl))) as (s1 & -> & Sz1 & I1). cbn [rbind]. apply IH; auto. intros; apply K; right; auto.
Qed.
Lemma update_over_total n ks : forall acc s, inv acc n s -> all_sized s -> (forall k, In k ks -> fresh eval s k /\ k < n) ->
  exists s', over step_update ks s = Ok s' /\ all_sized s'.
Proof.
  induction ks as [|k ks IH]; intros acc s I Sz Fr; cbn [PsoModel.over].
  - eauto.
  - destruct (Fr k (or_introl eq_refl)) as [Fk K].
    destruct (update_total acc n s k I Sz Fk K) as (s1 & E & Sz1). rewrite E. cbn [rbind].
    destruct (update_one lt swo eval acc n s k s1 I Fk E) as (x & _ & I1 & _ & _ & _ & F1).
    eapply IH; eauto. intros j Hj. destruct (Fr j (or_intror Hj)). split; auto.
Qed.
Definition turn_total (turn : swarm -> res swarm) : Prop := forall n s, settled n s -> all_sized s -> exists s', turn s = Ok s' /\ all_sized s'.
Lemma sync_total : velocity_works -> flight_works -> turn_total (sync_turn A V F W velocity flight eval update).
Proof.
  intros Vw Fw n s [I _] Sz. assert (E : length (pop s) = n) by apply I. unfold sync_turn. rewrite E.
  assert (K : forall k, In k (seq 0 n) -> k < n) by (intros k Hk; apply in_seq in Hk; lia).
  destruct (over_total (history (log s)) n step_velocity) with (ks := seq 0 n) (s := s) as (s1 & -> & Z1 & I1); auto.
  { intros s0 k I0 Z0 K0. destruct (velocity_total _ _ _ _ Vw I0 Z0 K0) as (s' & E' & Z'). exists s'. split; auto. split; auto. eapply velocity_inv; eauto. }
  cbn [rbind].
  destruct (over_total (history (log s)) n step_flight) with (ks := seq 0 n) (s := s1) as (s2 & -> & Z2 & I2); auto.
  { intros s0 k I0 Z0 K0. destruct (flight_total _ _ _ _ Fw I0 Z0 K0) as (s' & E' & Z'). exists s'. split; auto. split; auto. eapply flight_inv; eauto. }
  cbn [rbind].
  destruct (over_total (history (log s)) n step_eval) with (ks := seq 0 n) (s := s2) as (s3 & E3 & Z3 & I3); auto.
  { intros s0 k I0 Z0 K0. destruct (eval_total s0 k) as (s' & E' & Z'); auto. { destruct I0 as (-> & _); auto. }
    exists s'. split; auto. split; auto. eapply eval_inv; eauto. }
  rewrite E3. cbn [rbind]. destruct (eval_over eval _ _ _ E3) as (_ & Fr & _).
  eapply update_over_total; eauto.
Qed.
Lemma async_total : velocity_works -> flight_works -> turn_total (async_turn A V F W velocity flight eval update).
Proof.
  intros Vw Fw n s St Sz. assert (E : length (pop s) = n) by apply St. unfold async_turn. rewrite E.
  assert (K : forall k, In k (seq 0 n) -> k < n) by (intros k Hk; apply in_seq in Hk; lia).
  clear E. revert s St Sz K. generalize (seq 0 n) as ks. induction ks as [|k ks IH]; intros s St Sz K; cbn [PsoModel.over]; [eauto|].
  assert (Kk := K k (or_introl eq_refl)). assert (I := proj1 St).
  assert (X : exists s1, (let! s1 := step_velocity s k in let! s2 := step_flight s1 k in let! s3 := step_eval s2 k in step_update s3 k) = Ok s1 /\ all_sized s1).
  { destruct (velocity_total _ _ _ _ Vw I Sz Kk) as (s1 & E1 & Z1). rewrite E1. cbn [rbind]. assert (I1 := velocity_inv _ _ _ _ _ _ _ _ I E1).
    destruct (flight_total _ _ _ _ Fw I1 Z1 Kk) as (s2 & E2 & Z2). rewrite E2. cbn [rbind]. assert (I2 := flight_inv _ _ _ _ _ _ _ _ I1 E2).
    destruct (eval_total s2 k) as (s3 & E3 & Z3); auto. { destruct I2 as (-> & _); auto. } rewrite E3. cbn [rbind].
    assert (I3 := eval_inv _ _ _ _ _ _ _ I2 E3). apply eval_one in E3 as (p & _ & _ & _ & _ & _ & Fr & _).
    eapply update_total; eauto. }
  destruct X as (s1 & E1 & Z1). rewrite E1. cbn [rbind]. apply IH; auto.
  - eapply (async_one_ok lt swo velocity flight eval n s k); eauto.
  - intros; apply K; right; auto.
Qed.
Lemma turns_total turn n : turn_ok lt eval turn -> turn_total turn -> forall m rest s, settled n s -> all_sized s ->
  exists s', turns A V F W turn (repeat true m ++ false :: rest) s = Ok s'.
Proof.
  intros T Tt. induction m as [|m IH]; intros rest s I Z; cbn [repeat app turns]; destruct (Tt n s I Z) as (s1 & E & Z1); rewrite E; cbn [rbind]; [eauto|].
  apply IH; auto. eapply T; eauto.
Qed.

Definition all_placed s : Prop := forall p, In p (pop s) -> placed p.
Lemma eval_over_total ks : forall s, (forall k, In k ks -> k < length (pop s)) -> all_placed s ->
  exists s', over step_eval ks s = Ok s' /\ all_placed s'.
Proof.
  induction ks as [|k ks IH]; intros s K Pl; cbn [PsoModel.over]; [eauto|].
  unfold PsoModel.step_eval at 1. destruct (nth_error (pop s) k) as [p|] eqn:Ep.
  2: { apply nth_error_None in Ep. specialize (K k (or_introl eq_refl)). lia. }
  cbn [of_opt rbind]. apply IH; cbn [pop].
  - intros. rewrite set_length. apply K; right; auto.
  - unfold all_placed. cbn [pop]. apply set_all; auto. apply (Pl p). eapply nth_error_In; eauto.
Qed.
Lemma init_velocity_total ks : init_works -> forall s, (forall k, In k ks -> k < length (pop s)) -> all_placed s ->
  exists s', over step_init_velocity ks s = Ok s' /\ all_placed s' /\
   forall k p, In k ks \/ (forall p, nth_error (pop s) k = Some p -> length (vel p) = d) -> nth_error (pop s') k = Some p -> length (vel p) = d.
Proof.
  intros Iw. induction ks as [|k ks IH]; intros s K Pl; cbn [PsoModel.over].
  { exists s. split; auto. split; auto. intros k p [[]|H]; auto. }
  unfold PsoModel.step_init_velocity at 1. destruct (nth_error (pop s) k) as [p|] eqn:Ep.
  2: { apply nth_error_None in Ep. specialize (K k (or_introl eq_refl)). lia. }
  cbn [of_opt rbind]. assert (Pp : placed p) by (apply Pl; eapply nth_error_In; eauto).
  destruct (Iw p (world s) Pp) as (v & w & E & Lv). rewrite E. cbn [rbind].
  assert (Kl : k < length (pop s)) by (eapply nth_error_lt; eauto).
  edestruct IH as (s' & E' & Pl' & V'); [| |exists s'; split; [exact E'|split; [exact Pl'|]]].
  - cbn [pop]. intros. rewrite set_length. apply K; right; auto.
  - unfold all_placed. cbn [pop]. apply set_all; auto.
  - cbn [pop] in V'. intros j q Hj Hq. eapply V'; eauto. destruct (Nat.eq_dec j k) as [->|N].
    + right. intros r. rewrite nth_error_set_eq by auto. intros X; injection X as <-. auto.
    + destruct Hj as [[->|Hj]|Hj]; [congruence|left; auto|right]. rewrite nth_error_set_neq by auto. auto.
Qed.
Lemma init_best_total ks : forall s, (forall k, In k ks -> k < length (pop s)) -> (forall k, fresh eval s k) ->
  all_placed s -> (forall p, In p (pop s) -> length (vel p) = d) ->
  exists s', over step_init_best ks s = Ok s' /\ all_placed s' /\ (forall p, In p (pop s') -> length (vel p) = d).
Proof.
  induction ks as [|k ks IH]; intros s K Fr Pl Vl; cbn [PsoModel.over]; [eauto|].
  unfold PsoModel.step_init_best at 1. destruct (nth_error (pop s) k) as [p|] eqn:Ep.
  2: { apply nth_error_None in Ep. specialize (K k (or_introl eq_refl)). lia. }
  assert (Kl : k < length (pop s)) by (eapply nth_error_lt; eauto).
  cbn [of_opt rbind]. unfold fitness. rewrite (Fr k p Ep). cbn [rbind]. apply IH; cbn [pop].
  - intros. rewrite set_length. apply K; right; auto.
  - intros j q. cbn [pop]. destruct (Nat.eq_dec j k) as [->|N].
    + rewrite nth_error_set_eq by auto. intros X; injection X as <-. auto.
    + rewrite nth_error_set_neq by auto. apply Fr.
  - unfold all_placed. cbn [pop]. apply set_all; auto. apply (Pl p). eapply nth_error_In; eauto.
  - apply set_all; auto. cbn. apply (Vl p). eapply nth_error_In; eauto.
Qed.
Lemma initialise_total s : init_works -> log s = [] -> size < length (pop s) -> all_placed s ->
  exists s', initialise s = Ok s' /\ all_sized s'.
Proof.
  intros Iw L0 Sn Pl. set (n := length (pop s)) in *.
  assert (K : forall k, In k (seq 0 n) -> k < n) by (intros k Hk; apply in_seq in Hk; lia).
  assert (X : exists s', initialise s = Ok s' /\ all_placed s' /\ forall p, In p (pop s') -> length (vel p) = d).
  { unfold PsoModel.initialise. fold n.
    destruct (eval_over_total (seq 0 n) s) as (s1 & E1 & P1); auto. rewrite E1. cbn [rbind].
    assert (N1 := eval_length _ _ _ E1). fold n in N1.
    destruct (eval_over eval _ _ _ E1) as (_ & Fr & _).
    destruct (init_velocity_total (seq 0 n) Iw s1) as (s2 & E2 & P2 & V2); auto. { intros. rewrite N1. auto. }
    rewrite E2. cbn [rbind]. destruct (over_points _ _ init_velocity_points _ _ E2) as (N2 & _ & _ & Q2).
    destruct (init_best_total (seq 0 n) s2) as (s3 & E3 & P3 & V3); auto.
    - intros. rewrite N2, N1. auto.
    - intros k p Hp. specialize (Q2 k). rewrite Hp in Q2. destruct (nth_error (pop s1) k) as [p1|] eqn:Ep; [|discriminate].
      cbn in Q2. injection Q2 as Q1 Q2. rewrite Q1, Q2. apply (Fr k); auto. left. apply in_seq.
      assert (k < length (pop s1)) by (eapply nth_error_lt; eauto). lia.
    - intros p Hp. apply In_nth_error in Hp as (k & Hp). apply (V2 k p); auto. left. apply in_seq.
      assert (k < length (pop s2)) by (eapply nth_error_lt; eauto). lia.
    - rewrite E3. cbn [rbind]. destruct (over_points _ _ (fun s k s' h => proj1 (init_best_points s k s' h)) _ _ E3) as (N3 & _ & _ & Q3).
      destruct (linear_setup_ok lt swo eval size (pop s3) size_pos) as (hs & Es & Fh).
      { rewrite N3, N2, N1. auto. }
      { intros p Hp. apply In_nth_error in Hp as (k & Hp). specialize (Q3 k). rewrite Hp in Q3.
        destruct (nth_error (pop s2) k) as [p2|] eqn:Ep2; [|discriminate]. cbn in Q3. injection Q3 as Q31 Q32.
        specialize (Q2 k). rewrite Ep2 in Q2. destruct (nth_error (pop s1) k) as [p1|] eqn:Ep1; [|discriminate]. cbn in Q2. injection Q2 as Q21 Q22.
        unfold scored. rewrite Q31, Q32, Q21, Q22. apply (Fr k); auto. left. apply in_seq.
        assert (k < length (pop s1)) by (eapply nth_error_lt; eauto). lia. }
      rewrite Es. cbn [rbind]. eexists. split; [reflexivity|]. auto. }
  destruct X as (s' & E & P & Vl). exists s'. split; auto.
  destruct (initialise_ok s s' L0 Sn E) as ((I & Cu) & Lm & Pt & _).
  assert (In_len : forall k x, In x (history (log s') k) -> length x = d).
  { intros k x Hx. unfold history in Hx. apply in_map_iff in Hx as (e & <- & He). apply filter_In in He as [He _].
    specialize (Pt e He). unfold posn in Pt. destruct (nth_error (pop s) (fst e)) as [p|] eqn:Ep; [|discriminate].
    cbn in Pt. injection Pt as <-. apply Pl. eapply nth_error_In; eauto. }
  destruct I as (_ & M & Hh & _). split.
  - intros p Hp. split; [apply P; auto|]. split; [auto|]. apply In_nth_error in Hp as (k & Hp). destruct (M k p Hp) as [B _]. apply fbest_in in B. eauto.
  - intros h H'. destruct (Hh h H') as ((k & _ & Ik) & _). eauto.
Qed.
End Run.
