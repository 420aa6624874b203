(** C83, C84: the exchanges between islands. *)
From Coq Require Import List Arith Bool Lia Permutation Sorted.
From Verif Require Import Lib Outcome TopoModel TopoSpec TopoProofs IslModel IslSpec IslProofs IslRun.
From Coq Require Import List.
Import ListNotations.

(** [s] is reached by some schedule of the threads of the islands [pops] connected by the graph [edge] *)
Definition reached {X Pop} integrate evaluate (pops : list Pop) (edge : nat -> nat -> Prop) (ls : list (label X Pop)) (s : state X Pop) : Prop :=
  exists t, is_graph (length pops) t edge /\ run integrate evaluate ls (start pops t) = Some s.

Lemma reached_inv {X Pop} integrate evaluate pops edge (ls : list (label X Pop)) s : reached integrate evaluate pops edge ls s -> inv evaluate (length pops) edge s.
Proof. intros (t & G & R). eapply run_inv; [|exact R]. apply start_inv; auto. Qed.


(** a step of the scheduling thread keeps the populations, and either routes one message or none *)
Lemma main_effect {X Pop} (s s' : state X Pop) : main s = Some s' ->
  isl s' = isl s /\ sent s' = sent s /\ got s' = got s /\
  ((emigrants s' = emigrants s /\ routed s' = routed s /\ downs s' = downs s) \/
   exists m r ns, emigrants s = m :: r /\ neighbors (topo s) (from m) = Ok ns /\ emigrants s' = r /\ routed s' = routed s ++ [(m, ns)] /\ downs s' = downs s ++ spread m ns).
Proof.
  intros H. unfold main in H. assert (Z : forall p, send s p = Some s' -> isl s' = isl s /\ sent s' = sent s /\ got s' = got s /\
  ((emigrants s' = emigrants s /\ routed s' = routed s /\ downs s' = downs s) \/
   exists m r ns, emigrants s = m :: r /\ neighbors (topo s) (from m) = Ok ns /\ emigrants s' = r /\ routed s' = routed s ++ [(m, ns)] /\ downs s' = downs s ++ spread m ns)).
  { intros p K. unfold send in K. destruct (emigrants s) as [|m r] eqn:Ee; [injection K as <-; cbn; auto 12|].
    destruct (neighbors _ _) as [ns| | |] eqn:En; try discriminate. injection K as <-. cbn. repeat split; auto. right. exists m, r, ns. auto 12. }
  assert (G : forall p, isl (goto s p) = isl s /\ sent (goto s p) = sent s /\ got (goto s p) = got s /\ emigrants (goto s p) = emigrants s /\ routed (goto s p) = routed s /\ downs (goto s p) = downs s) by auto 12.
  destruct (at_ s) as [|i| | | | |[]|]; try discriminate; try (injection H as <-; auto 12; fail); eauto.
  - destruct (nth_error (isl s) i); [|injection H as <-; auto 12]. destruct (nth_error (active s) i) as [b|]; [|injection H as <-; auto 12].
    destruct (_ && _); [|injection H as <-; auto 12]. destruct (isolate _ _); try discriminate. injection H as <-. cbn. auto 12.
  - destruct (forallb _ _); [|discriminate]. injection H as <-. auto 12.
  - destruct (downs s) eqn:E; [|discriminate]. injection H as <-. cbn. rewrite E. auto 12.
  - destruct (emigrants s) eqn:E; [injection H as <-; cbn; rewrite E; auto 12|eauto].
Qed.
Ltac cases H s :=
  cbn [step] in H;
  repeat match type of H with
  | obind (nth_error (isl s) ?i) _ = _ => destruct (nth_error (isl s) i) as [?a|] eqn:?Ei; [|discriminate]; cbn [obind] in H
  | obind (nth_error (outgoing ?a) ?i) _ = _ => destruct (nth_error (outgoing a) i) as [?m|] eqn:?Em; [|discriminate]; cbn [obind] in H
  | obind (nth_error (downs s) ?i) _ = _ => destruct (nth_error (downs s) i) as [?d|] eqn:?Ed; [|discriminate]; cbn [obind] in H
  | (if is_running ?a then _ else _) = _ => destruct (is_running a) eqn:?R; [|discriminate]
  | match doing ?a with _ => _ end = _ => destruct (doing a) eqn:?D; try discriminate
  | match outgoing ?a with _ => _ end = _ => destruct (outgoing a) eqn:?O; [|discriminate]
  | match at_ s with _ => _ end = _ => destruct (at_ s) eqn:?P; try discriminate
  | (if existsb ?f ?l then _ else _) = _ => destruct (existsb f l) eqn:?Ex; [|discriminate]
  end.
(** the record [sent] is the list of the populations the islands sent *)
Lemma step_sent {X Pop} integrate evaluate l (s s' : state X Pop) : step integrate evaluate l s = Some s' ->
  map (fun m => (from m, content m)) (sent s') = map (fun m => (from m, content m)) (sent s) ++ emissions [l].
Proof.
  intros H. destruct l as [i p|i ms|i|i|i|i k|k| |i]; try (cases H s; injection H as <-; cbn; rewrite ?map_app, ?app_nil_r; auto; fail).
  cbn in H. apply main_effect in H as (_ & -> & _). rewrite app_nil_r. auto.
Qed.
Lemma run_sent {X Pop} integrate evaluate ls : forall s s' : state X Pop, run integrate evaluate ls s = Some s' ->
  map (fun m => (from m, content m)) (sent s') = map (fun m => (from m, content m)) (sent s) ++ emissions ls.
Proof.
  induction ls as [|l ls IH]; intros s s' H; cbn [run] in H; [injection H as <-; cbn; rewrite app_nil_r; auto|].
  destruct (step integrate evaluate l s) as [s1|] eqn:E; [|discriminate]. cbn [obind] in H. rewrite (IH _ _ H), (step_sent _ _ _ _ _ E), <- app_assoc.
  f_equal. unfold emissions. cbn [flat_map]. rewrite app_nil_r. auto.
Qed.
Lemma given_box {X} i j (l : list (msg X)) (f : msg X -> msg X) : given i (map (fun m => (j, f m)) l) = if j =? i then map (fun m => content (f m)) l else [].
Proof.
  unfold given. destruct (j =? i) eqn:E; induction l as [|m l IH]; cbn; auto.
  - rewrite E. cbn. f_equal. auto.
  - rewrite E. auto.
Qed.
Lemma fold_map {S T U} (f : S -> T -> S) (g : U -> T) l : forall p, fold_left f (map g l) p = fold_left (fun p u => f p (g u)) l p.
Proof. induction l as [|u l IH]; intros p; cbn; auto. Qed.

(** C83: each population an island integrates was sent by an island linked to it, and holds its migrants, evaluated, or nothing. *)
Theorem C83_from_a_neighbour : forall X Pop integrate evaluate (pops : list Pop) edge (ls : list (label X Pop)) s,
  reached integrate evaluate pops edge ls s -> forall j m, In (j, m) (got s) ->
  exists m0, In m0 (sent s) /\ id m = id m0 /\ from m = from m0 /\ from m < length pops /\ j < length pops /\ edge (from m) j /\
    (content m = map evaluate (content m0) \/ content m = []).
Proof.
  intros X Pop integrate evaluate pops edge ls s R j m H. apply reached_inv in R. destruct (got_in _ _ _ _ _ _ R H) as (m0 & ns & H1 & H2 & H3 & H4 & H5).
  assert (Hm := routed_in _ _ _ _ _ _ R H1). exists m0. rewrite H4. destruct (i_routed _ _ _ _ R m0 ns H1) as (_ & Q & _). destruct (Q j H2).
  repeat split; auto. apply (i_from _ _ _ _ R); auto.
Qed.
(** ... each island integrates a given message at most once ... *)
Theorem C83_at_most_once : forall X Pop integrate evaluate (pops : list Pop) edge (ls : list (label X Pop)) s,
  reached integrate evaluate pops edge ls s -> NoDup (map (fun d => (fst d, id (snd d))) (got s)).
Proof. intros X Pop integrate evaluate pops edge ls s R. apply reached_inv in R. apply (got_once _ _ _ _ R). Qed.
(** ... the messages are the populations the islands sent, numbered in order ... *)
Theorem C83_messages : forall X Pop integrate evaluate (pops : list Pop) edge (ls : list (label X Pop)) s,
  reached integrate evaluate pops edge ls s ->
  map (fun m => (from m, content m)) (sent s) = emissions ls /\ map id (sent s) = seq 0 (length (sent s)).
Proof.
  intros X Pop integrate evaluate pops edge ls s R. split; [|apply (i_ids _ _ _ _ (reached_inv _ _ _ _ _ _ R))].
  destruct R as (t & _ & R). apply run_sent in R. auto.
Qed.
(** ... and the integrations are what changes the population of an island, besides its own algorithm. *)
Theorem C83_populations : forall X Pop integrate evaluate l (s s' : state X Pop), step integrate evaluate l s = Some s' ->
  exists more, got s' = got s ++ more /\
  forall i a, nth_error (isl s) i = Some a -> exists b, nth_error (isl s') i = Some b /\ ipop b = integrated integrate (own l i (ipop a)) (given i more).
Proof.
  intros X Pop integrate evaluate l s s' H.
  assert (K : forall j (a b : island X Pop), nth_error (isl s) j = Some a ->
     forall i c, nth_error (isl s) i = Some c -> exists d, nth_error (set (isl s) j b) i = Some d /\ ipop d = if j =? i then ipop b else ipop c).
  { intros j a b Hj i c Hc. rewrite nth_error_set. apply nth_error_lt in Hj. apply Nat.ltb_lt in Hj. rewrite Hj, andb_true_r, (Nat.eqb_sym i j).
    destruct (j =? i); eauto. }
  assert (Rc : forall j a, nth_error (isl s) j = Some a -> exists more, got (receive integrate evaluate s j a) = got s ++ more /\
     forall i c, nth_error (isl s) i = Some c -> exists b, nth_error (isl (receive integrate evaluate s j a)) i = Some b /\ ipop b = integrated integrate (ipop c) (given i more)).
  { intros j a Hj. eexists. split; [reflexivity|]. intros i c Hc. cbn [receive isl]. destruct (K j a (Island (doing a)
       (fold_left (fun p m => integrate p (content (seen evaluate m))) (inbox a) (ipop a)) [] (outgoing a)) Hj i c Hc) as (d & D1 & D2).
    exists d. split; auto. rewrite D2, (given_box i j). destruct (Nat.eqb_spec j i) as [->|]; [|reflexivity].
    assert (a = c) by congruence. subst c. unfold integrated. rewrite fold_map. reflexivity. }
  destruct l as [i p|i ms|i|i|i|i k|k| |i].
  - cases H s. injection H as <-. exists []. split; [cbn; rewrite app_nil_r; auto|]. intros j c Hc.
    destruct (K i a (Island Running p (inbox a) (outgoing a)) Ei j c Hc) as (d & D1 & D2). exists d. split; auto.
  - cases H s. injection H as <-. exists []. split; [cbn; rewrite app_nil_r; auto|]. intros j c Hc.
    destruct (K i a (Island Running (ipop a) (inbox a) (outgoing a ++ [Msg (length (sent s)) i ms])) Ei j c Hc) as (d & D1 & D2). exists d. split; auto. rewrite D2.
    destruct (Nat.eqb_spec i j) as [->|]; auto. cbn. congruence.
  - cases H s. injection H as <-. apply Rc; auto.
  - cases H s. injection H as <-. exists []. split; [cbn; rewrite app_nil_r; auto|]. intros j c Hc.
    destruct (K i a (Island Stopped (ipop a) (inbox a) (outgoing a)) Ei j c Hc) as (d & D1 & D2). exists d. split; auto. rewrite D2.
    destruct (Nat.eqb_spec i j) as [->|]; auto. cbn. congruence.
  - cases H s. injection H as <-. exists []. split; [cbn; rewrite app_nil_r; auto|]. intros j c Hc.
    destruct (K i a (Island Exited (ipop a) (inbox a) []) Ei j c Hc) as (d & D1 & D2). exists d. split; auto. rewrite D2.
    destruct (Nat.eqb_spec i j) as [->|]; auto. cbn. congruence.
  - cases H s. injection H as <-. exists []. split; [cbn; rewrite app_nil_r; auto|]. intros j c Hc.
    destruct (K i a (Island (doing a) (ipop a) (inbox a) (take (outgoing a) k)) Ei j c Hc) as (d & D1 & D2). exists d. split; auto. rewrite D2.
    destruct (Nat.eqb_spec i j) as [->|]; auto. cbn. congruence.
  - cases H s. injection H as <-. exists []. split; [cbn; rewrite app_nil_r; auto|]. intros j c Hc.
    destruct (K (fst d) a (Island (doing a) (ipop a) (inbox a ++ [snd d]) (outgoing a)) Ei j c Hc) as (e & D1 & D2). exists e. split; auto. rewrite D2.
    destruct (Nat.eqb_spec (fst d) j) as [<-|]; auto. cbn. congruence.
  - cbn in H. apply main_effect in H as (E1 & _ & E3 & _). exists []. rewrite app_nil_r. split; auto. rewrite E1. intros j c Hc. exists c. auto.
  - cases H s. injection H as <-. apply Rc; auto.
Qed.
(** When the scheduler takes a message, it sends it to each island linked to the sender, unless one of the two was seen stopped; an island
    seen stopped is not running. *)
Theorem C83_routing : forall X Pop integrate evaluate (pops : list Pop) edge (ls : list (label X Pop)) s s' m r,
  reached integrate evaluate pops edge ls s -> at_ s = Send -> emigrants s = m :: r -> step integrate evaluate Main s = Some s' ->
  exists ns, routed s' = routed s ++ [(m, ns)] /\ emigrants s' = r /\ downs s' = downs s ++ spread m ns /\ StronglySorted lt ns /\
    (forall j, In j ns <-> j < length pops /\ edge (from m) j /\ nth (from m) (active s) false = true /\ nth j (active s) false = true) /\
    forall i a, nth_error (isl s) i = Some a -> nth i (active s) false = false -> doing a <> Running.
Proof.
  intros X Pop integrate evaluate pops edge ls s s' m r R P E H. apply reached_inv in R. cbn in H. unfold main in H. rewrite P in H. unfold send in H. rewrite E in H.
  destruct (neighbors _ _) as [ns| | |] eqn:En; try discriminate. injection H as <-. exists ns. cbn.
  assert (Im : In m (sent s)) by (eapply emigrant_in; eauto; rewrite E; left; auto).
  destruct (neighbors_total _ _ _ (from m) (i_graph _ _ _ _ R) (i_from _ _ _ _ R _ Im)) as (ns' & En' & Sn & Hn). assert (ns' = ns) by congruence. subst ns'.
  split; auto. split; auto. split; auto. split; auto. split; [|apply (i_stop _ _ _ _ R)]. intros j. rewrite Hn. unfold act. tauto.
Qed.
(** At the end every island's thread has returned, no message is left anywhere, each message has been taken once by the scheduler, and what was
    integrated is exactly what was sent out. *)
Theorem C83_finished : forall X Pop integrate evaluate (pops : list Pop) edge (ls : list (label X Pop)) s,
  reached integrate evaluate pops edge ls s -> at_ s = Done ->
  (forall a, In a (isl s) -> doing a = Exited /\ inbox a = [] /\ outgoing a = []) /\ emigrants s = [] /\ downs s = [] /\
  Permutation (sent s) (map fst (routed s)) /\
  Permutation (map (fun d => (fst d, id (snd d))) (got s)) (flat_map (fun e => map (fun j => (j, id (fst e))) (snd e)) (routed s)).
Proof.
  intros X Pop integrate evaluate pops edge ls s R P. apply reached_inv in R.
  assert (B : forall i a, nth_error (isl s) i = Some a -> inbox a = []).
  { intros i a Hi. destruct (i_last _ _ _ _ R i a Hi) as [K|K]; rewrite ?P in *; auto. destruct K. }
  assert (A : forall a, In a (isl s) -> doing a = Exited) by (apply (i_join _ _ _ _ R); rewrite P; auto).
  assert (O : forall a, In a (isl s) -> outgoing a = []) by (intros a Ha; apply (i_exit _ _ _ _ R); auto).
  assert (E1 : emigrants s = []) by (apply (i_drain _ _ _ _ R); rewrite P; auto).
  assert (E2 : downs s = []) by (apply (i_wait _ _ _ _ R); rewrite P; auto).
  split; [intros a Ha; repeat split; auto; apply In_nth_error in Ha as (i & Ha); eauto|]. split; auto. split; auto. split.
  - rewrite (i_sent _ _ _ _ R), E1. rewrite (flat_nil (out_at (isl s))); auto. intros i _. unfold out_at. destruct (nth_error (isl s) i) eqn:Ei; auto.
    apply O. eapply nth_error_In; eauto.
  - assert (G := Permutation_map key (i_got _ _ _ _ R)). rewrite E2, (flat_nil (box_at (isl s))) in G.
    + cbn [app map] in G. rewrite map_map, (map_ext _ key) in G by (intros; apply key_see). rewrite deliveries_keys in G. symmetry. exact G.
    + intros i _. unfold box_at. destruct (nth_error (isl s) i) eqn:Ei; auto. rewrite (B _ _ Ei). auto.
Qed.
(** No deadlock: whatever the threads did so far, they can go on to the end. *)
Theorem C83_no_deadlock : forall X Pop integrate evaluate (pops : list Pop) edge (ls : list (label X Pop)) s,
  reached integrate evaluate pops edge ls s -> exists more s', reached integrate evaluate pops edge (ls ++ more) s' /\ at_ s' = Done.
Proof.
  intros X Pop integrate evaluate pops edge ls s R. destruct (ends integrate evaluate _ _ s (reached_inv _ _ _ _ _ _ R)) as (more & s' & R' & _ & P).
  exists more, s'. split; auto. destruct R as (t & G & R). exists t. split; auto. rewrite run_app, R. auto.
Qed.

(** C84: the migrants of a message reach at most one island ... *)
Lemma spread_full {X} (m : msg X) ns j m' : In (j, m') (spread m ns) -> content m' <> [] -> nth_error ns 0 = Some j.
Proof.
  destruct ns as [|i ns]; [intros []|]. cbn. intros [H|H] K; [congruence|]. apply in_map_iff in H as (k & H & _). injection H as <- <-. cbn in K. congruence.
Qed.
Lemma entry_unique {X Pop} (evaluate : X -> X) n edge (s : state X Pop) m ns m' ns' : inv evaluate n edge s ->
  In (m, ns) (routed s) -> In (m', ns') (routed s) -> id m = id m' -> (m, ns) = (m', ns').
Proof.
  intros I H H' E. assert (N := routed_nodup _ _ _ _ I). apply In_nth_error in H as (i & H). apply In_nth_error in H' as (i' & H').
  assert (i = i'); [|congruence]. eapply (NoDup_nth_error_inj _ i i' (id m) N); rewrite nth_error_map; [rewrite H|rewrite H']; cbn; congruence.
Qed.
Lemma got_full {X Pop} (evaluate : X -> X) n edge (s : state X Pop) j m : inv evaluate n edge s -> In (j, m) (got s) -> content m <> [] ->
  exists m0 ns, In (m0, ns) (routed s) /\ id m = id m0 /\ nth_error ns 0 = Some j.
Proof.
  intros I H F. assert (K : In (j, m) (map (see evaluate) (deliveries (routed s)))).
  { eapply Permutation_in; [apply Permutation_sym, (i_got _ _ _ _ I)|]. apply in_or_app; auto. }
  apply in_map_iff in K as ([j0 m0] & E & K). cbn in E. injection E as -> <-. apply in_deliveries in K as (m1 & ns & K1 & K2).
  exists m1, ns. split; auto. split; [apply in_spread in K2; cbn; tauto|]. eapply spread_full; eauto. intros E. apply F. cbn. rewrite E. auto.
Qed.
Theorem C84_only_one_island : forall X Pop integrate evaluate (pops : list Pop) edge (ls : list (label X Pop)) s,
  reached integrate evaluate pops edge ls s -> forall j m j' m', In (j, m) (got s) -> In (j', m') (got s) ->
  id m = id m' -> content m <> [] -> content m' <> [] -> j = j'.
Proof.
  intros X Pop integrate evaluate pops edge ls s R j m j' m' H H' E F F'. apply reached_inv in R.
  destruct (got_full _ _ _ _ _ _ R H F) as (m0 & ns & A1 & A2 & A3). destruct (got_full _ _ _ _ _ _ R H' F') as (m1 & ns' & B1 & B2 & B3).
  assert (K := entry_unique _ _ _ _ _ _ _ _ R A1 B1). injection K as <- <-; congruence.
Qed.
(** ... and a message still in the scheduler's queue when it has seen all the islands stopped is integrated by none. *)
Lemma step_lost {X Pop} integrate evaluate n edge l (s s' : state X Pop) m : inv evaluate n edge s -> late (at_ s) = true ->
  In m (emigrants s) \/ In (m, []) (routed s) -> step integrate evaluate l s = Some s' -> late (at_ s') = true /\ (In m (emigrants s') \/ In (m, []) (routed s')).
Proof.
  intros I L H S. destruct l as [i p|i ms|i|i|i|i k|k| |i].
  1-7,9: cases S s; injection S as <-; cbn; auto; try (rewrite P in *); auto; rewrite in_app_iff; tauto.
  cbn in S. assert (S0 := S). apply main_effect in S as (_ & _ & _ & E). split.
  - unfold main in S0. assert (Z : forall p, send s p = Some s' -> at_ s' = p).
    { intros p K. unfold send in K. destruct (emigrants s); [injection K as <-; auto|]. destruct (neighbors _ _); try discriminate. injection K as <-. auto. }
    destruct (at_ s) as [|i| | | | |[]|]; try discriminate; try (injection S0 as <-; auto).
    + destruct (forallb _ _); [|discriminate]. injection S0 as <-. auto.
    + destruct (downs s); [|discriminate]. injection S0 as <-. auto.
    + destruct (emigrants s) eqn:Ee; [injection S0 as <-; auto|]. apply Z in S0. rewrite S0. auto.
  - destruct E as [(-> & -> & _)|(m0 & r & ns & E1 & E2 & -> & -> & _)]; auto.
    assert (Im : In m0 (sent s)) by (eapply emigrant_in; eauto; rewrite E1; left; auto).
    destruct (neighbors_total _ _ _ (from m0) (i_graph _ _ _ _ I) (i_from _ _ _ _ I _ Im)) as (ns' & En' & _ & Hn). assert (ns' = ns) by congruence. subst ns'.
    assert (ns = []). { destruct ns as [|j ns]; auto. exfalso. destruct (Hn j) as [K _]. destruct (K (or_introl eq_refl)) as (_ & _ & Z & _).
      rewrite (i_late _ _ _ _ I L) in Z. discriminate. } subst ns.
    rewrite E1 in H. destruct H as [[<-|H]|H]; auto; right; apply in_or_app; auto. right; left; auto.
Qed.
Theorem C84_queued_are_lost : forall X Pop integrate evaluate (pops : list Pop) edge (ls more : list (label X Pop)) s s',
  reached integrate evaluate pops edge ls s -> at_ s = Join \/ at_ s = Wait \/ at_ s = Drain ->
  run integrate evaluate more s = Some s' -> forall m, In m (emigrants s) -> forall j m', In (j, m') (got s') -> id m' <> id m.
Proof.
  intros X Pop integrate evaluate pops edge ls more s s' R P R' m Hm j m' Hg E. apply reached_inv in R.
  assert (L : late (at_ s) = true) by (destruct P as [-> | [-> | ->]]; auto).
  assert (Q : inv evaluate (length pops) edge s' /\ (In m (emigrants s') \/ In (m, []) (routed s'))).
  { assert (H : In m (emigrants s) \/ In (m, []) (routed s)) by auto. clear Hm P. revert s R R' L H. induction more as [|l more IH]; intros s R R' L H; cbn [run] in R'.
    - injection R' as <-. auto.
    - destruct (step integrate evaluate l s) as [s1|] eqn:S; [|discriminate]. cbn [obind] in R'.
      destruct (step_lost _ _ _ _ _ _ _ _ R L H S) as (L1 & H1). apply (IH s1); auto. exact (step_inv integrate evaluate _ _ _ _ _ R S). }
  destruct Q as (I & [Q|Q]); destruct (got_in _ _ _ _ _ _ I Hg) as (m0 & ns & K1 & K2 & K3 & _).
  - assert (N := sent_nodup _ _ _ _ I). assert (Pm := Permutation_map id (i_sent _ _ _ _ I)). rewrite Pm, !map_app in N. apply nodup_app_r in N.
    rewrite map_map in N. apply in_split in Q as (l1 & l2 & Q). rewrite Q, map_app in N. cbn in N. rewrite <- app_assoc in N. apply nodup_app_r in N. inversion N; subst.
    apply H1. apply in_or_app; right. apply in_map_iff. exists (m0, ns). cbn. split; auto. congruence.
  - assert (K := entry_unique _ _ _ _ _ _ _ _ I K1 Q). rewrite K3 in E. specialize (K E). injection K as -> ->. destruct K2.
Qed.

(** three islands: island 0 sends the individual 7 *)
Definition three : list (list nat) := [[1]; [2]; [3]].
Definition three_run : list (label nat (list nat)) :=
  [Emit 0 [7]; Up 0 0; Main; Main; Main; Main; Main; Main; Down 0; Down 0; Receive 2; Receive 1].
Lemma complete_three ls s : (exists t, complete 3 = Ok t /\ run (@app nat) S ls (start three t) = Some s) -> reached (@app nat) S three (fun i j => i <> j) ls s.
Proof. intros (t & H & R). destruct (complete_ok 3) as (t' & H' & G). assert (t' = t) by congruence. subst. exists t. auto. Qed.
Definition three_end : state nat (list nat) :=
  match complete 3 with Ok t => match run (@app nat) S three_run (start three t) with Some s => s | None => start three t end | _ => start three [] end.
Example C83_ex : reached (@app nat) S three (fun i j => i <> j) three_run three_end /\ got three_end = [(2, Msg 0 0 []); (1, Msg 0 0 [8])] /\
  map ipop (isl three_end) = [[1]; [2; 8]; [3]] /\ sent three_end = [Msg 0 0 [7]].
Proof. split; [|repeat split]. apply complete_three. eexists. split; vm_compute; reflexivity. Qed.
Example C83_routing_ex : exists t s s', complete 3 = Ok t /\ run (@app nat) S (firstn 7 three_run) (start three t) = Some s /\ at_ s = Send /\
  emigrants s = [Msg 0 0 [7]] /\ step (@app nat) S Main s = Some s' /\ routed s' = [(Msg 0 0 [7], [1; 2])].
Proof. do 3 eexists. split; [vm_compute; reflexivity|]. split; [vm_compute; reflexivity|]. vm_compute. auto 6. Qed.

(** Each neighbour should get the migrants: the second one gets nothing. *)
Theorem C84_every_neighbour_refuted : ~ forall X Pop integrate evaluate (pops : list Pop) edge (ls : list (label X Pop)) s,
  reached integrate evaluate pops edge ls s -> forall j m m0, In (j, m) (got s) -> In m0 (sent s) -> id m = id m0 -> content m = map evaluate (content m0).
Proof.
  intros H. destruct C83_ex as (R & G & _ & E). specialize (H _ _ _ _ _ _ _ _ R 2 (Msg 0 0 []) (Msg 0 0 [7])). rewrite G, E in H.
  specialize (H (or_introl eq_refl) (or_introl eq_refl) eq_refl). cbn in H. clear -H. discriminate.
Qed.
(** A population sent while all the islands run should reach an island: it reaches none when its sender stops first. *)
Definition lost_before : list (label nat (list nat)) := [Emit 0 [7]; Up 0 0].
Definition lost_after : list (label nat (list nat)) :=
  [Stop 0; Main; Main; Main; Main; Main; Main; Emit 1 [5]; Up 1 0; Receive 1; Receive 2; Stop 1; Stop 2; Main; Main; Main; Main; Main; Main; Main; Exit 0; Exit 1; Exit 2; Main; Main;
   Main; Last 2; Last 0; Last 1; Main].
Definition at_end (ls : list (label nat (list nat))) : state nat (list nat) :=
  match complete 3 with Ok t => match run (@app nat) S ls (start three t) with Some s => s | None => start three t end | _ => start three [] end.
Example C84_ex : reached (@app nat) S three (fun i j => i <> j) lost_before (at_end lost_before) /\
  reached (@app nat) S three (fun i j => i <> j) (lost_before ++ lost_after) (at_end (lost_before ++ lost_after)) /\
  at_ (at_end (lost_before ++ lost_after)) = Done /\ emigrants (at_end lost_before) = [Msg 0 0 [7]] /\ got (at_end (lost_before ++ lost_after)) = [] /\
  forallb is_running (isl (at_end lost_before)) = true.
Proof. split; [apply complete_three; eexists; split; vm_compute; reflexivity|]. split; [apply complete_three; eexists; split; vm_compute; reflexivity|]. vm_compute. auto 6. Qed.
Theorem C84_delivered_refuted : ~ forall X Pop integrate evaluate (pops : list Pop) edge (ls more : list (label X Pop)) s s',
  reached integrate evaluate pops edge ls s -> reached integrate evaluate pops edge (ls ++ more) s' -> at_ s' = Done ->
  forallb is_running (isl s) = true -> forall m j, In m (emigrants s) -> j < length pops -> edge (from m) j -> exists k m', In (k, m') (got s') /\ id m' = id m.
Proof.
  intros H. destruct C84_ex as (R & R' & D & E & G & A). specialize (H _ _ _ _ _ _ _ _ _ _ R R' D A (Msg 0 0 [7]) 1). rewrite E, G in H.
  destruct H as (k & m' & [] & _); [left; auto|vm_compute; auto|discriminate].
Qed.
(** the hypotheses of [C84_queued_are_lost]: a message that is still queued when the scheduler leaves its loop *)
Example C84_queued_ex : exists t s, complete 3 = Ok t /\
  run (@app nat) S [Emit 0 [7]; Stop 0; Stop 1; Stop 2; Main; Main; Main; Main; Main; Main; Main; Up 0 0] (start three t) = Some s /\ at_ s = Join /\ emigrants s = [Msg 0 0 [7]].
Proof. do 2 eexists. split; [vm_compute; reflexivity|]. split; [vm_compute; reflexivity|]. vm_compute. auto. Qed.
Print Assumptions C83_finished. Print Assumptions C83_no_deadlock. Print Assumptions C84_queued_are_lost.
Print Assumptions C83_from_a_neighbour.
Print Assumptions C83_at_most_once.
Print Assumptions C83_messages.
Print Assumptions C83_populations.
Print Assumptions C83_routing.
Print Assumptions C84_only_one_island.
Print Assumptions C84_every_neighbour_refuted.
Print Assumptions C84_delivered_refuted.
