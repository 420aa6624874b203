(** The samplings of mo: walks, random searches and clouds; the files. *)
From Coq Require Import Bool Arith QArith Lia.
From Verif Require Import Outcome Lib OrderSpec OrderLemmas NeighModel LsModel LsSpec LsProofs LsClimb LsNeutral StopModel StopSpec StopProofs PertModel PertSpec PertProofs MetaModel MetaSpec MetaProofs MetaAnneal
  StatModel StatSpec StatProofs StatNh NeighProofs SampModel SampSpec SampProofs SampRuns.
From Coq Require Import List.
Import ListNotations.
Close Scope Q_scope.
Open Scope nat_scope.

(** ** solutions drawn at random *)
Section Drawn.
Variables (G F : Type) (full : G -> F) (Sp : G -> Prop) (init : sol G F -> list nat -> res (sol G F * list nat)).
Hypothesis init_ok : initialises Sp full init.
Lemma drawn_good s ds l ds' : draws_from init (started full) s ds l ds' -> Forall (fun t => Sp (geno t) /\ evaluated full t) l.
Proof. induction 1 as [s ds|s ds s1 ds1 l ds2 Hi D IH]; constructor; auto. destruct (init_ok _ _ _ _ Hi). apply started_ok; auto. Qed.
Lemma search_good nb fuel s ds r : Sp (geno s) -> not_stale full s ->
  local_search full (random_search_of G F full init nb) true_cont fuel s 0 tt ds = Ok r ->
  (exists l, r_visited r = started full s :: l /\ draws_from init (started full) (started full s) ds l (r_draws r)) /\
  length (r_visited r) = Nat.max 2 nb /\ Forall (fun t => Sp (geno t) /\ evaluated full t) (r_visited r).
Proof.
  intros HS HN H. pose proof (rs_run _ _ true_cont nb fuel s tt ds r H) as (l & A & B & _ & _ & _ & L3).
  split; [eauto|]. split; [apply L3; eapply true_run_by_itself; exact H|]. rewrite A. constructor; [apply started_ok; auto|]. eapply drawn_good; eauto.
Qed.
End Drawn.

(** ** two columns, the second one from the neighborhoods *)
Section Cloud.
Variables (G F S I : Type) (full : G -> F) (Sp : G -> Prop) (init : sol G F -> list nat -> res (sol G F * list nat)) (blank : sol G F).
Variables (B X : Type) (f : sol G F -> option B -> S -> list nat -> res (B * S * list nat)) (fspec : sol G F -> B -> Prop) (Inv : S -> Prop).
Hypothesis f_ok : forall s o n ds b n' ds', Sp (geno s) -> evaluated full s -> Inv n -> f s o n ds = Ok (b, n', ds') -> fspec s b /\ Inv n'.
Notation good := (fun t : sol G F => Sp (geno t) /\ evaluated full t).
Lemma cloud_columns (e : explorer (sol G F) X) fuel x v0 o0 n0 d0 ds r w : Inv n0 ->
  cloud_sampling G F S full init blank f e fuel x (v0, Ok (o0, n0, d0)) ds = Ok r -> Forall good (r_visited r) -> snd (fst (fst (r_c r))) = Ok w ->
  exists bs, columns r = [map (fun t => inl (fit t)) (r_visited r); map (fun b => inr (Some b)) bs] /\ Forall2 fspec (r_visited r) bs.
Proof.
  intros HI H Hg Hw. unfold cloud_sampling in H. cbn [added fold_left fst snd app] in H. apply sampling_run in H as (s & ds1 & _ & _ & vs & Ov & Hc & Lv & Ev).
  rewrite Ev in Hw.
  assert (E1 : map (fun v : option F * res (option B * S * list nat) => @inl (option F) (option B) (fst v)) vs = map (fun t => inl (fit t)) (r_visited r)).
  { eapply observed_pure; [| |exact Ov]; intros a b b' K; turns K; reflexivity. }
  rewrite Hc. cbn [map m_read]. rewrite E1. clear E1 Hc.
  destruct Ov as (L & O1 & O2).
  assert (Sk : forall k s v v', nth_error (r_visited r) (Datatypes.S k) = Some s -> nth_error vs k = Some v -> nth_error vs (Datatypes.S k) = Some v' -> snd v' = nb_stat G F S f s (snd v)).
  { intros k s1 v v' H1 H2 H3. specialize (O2 _ _ _ _ H1 H2 H3). turns O2. reflexivity. }
  assert (S0 : forall s v, nth_error (r_visited r) 0 = Some s -> nth_error vs 0 = Some v -> snd v = nb_stat G F S f s (Ok (o0, n0, d0))).
  { intros s1 v H1 H2. specialize (O1 _ _ H1 H2). turns O1. reflexivity. }
  assert (Hok : forall d k v, k + d + 1 = length vs -> nth_error vs k = Some v -> exists w, snd v = Ok w).
  { induction d as [|d IH]; intros k v Hd Hv.
    - exists w. assert (last vs (v0, Ok (o0, n0, d0)) = v); [|subst; auto]. destruct vs as [|y vs]; [destruct k; discriminate|]. cbn [length] in Hd. rewrite last_in. replace k with (length vs) in Hv by lia. rewrite nth_last in Hv. congruence.
    - assert (Hk : Datatypes.S k < length vs) by lia. destruct (nth_error vs (Datatypes.S k)) as [v'|] eqn:Ev'; [|apply nth_error_None in Ev'; lia].
      destruct (nth_error (r_visited r) (Datatypes.S k)) as [s'|] eqn:Es'; [|apply nth_error_None in Es'; lia].
      destruct (IH (Datatypes.S k) v' ltac:(lia) Ev') as [w' Hw']. rewrite (Sk _ _ _ _ Es' Hv Ev') in Hw'. unfold nb_stat in Hw'. destruct (snd v); try discriminate. eauto. }
  assert (Fw : forall k s v, nth_error (r_visited r) k = Some s -> nth_error vs k = Some v -> exists b n ds, snd v = Ok (Some b, n, ds) /\ fspec s b /\ Inv n).
  { rewrite Forall_forall in Hg. induction k as [|k IH]; intros s1 v H1 H2.
    - destruct (Hok (length vs - 1) 0 v) as [w' Hw']; auto. { destruct vs; [discriminate|]. cbn. lia. }
      rewrite (S0 _ _ H1 H2) in Hw'. unfold nb_stat in Hw'. cbn [rbind] in Hw'. apply rbind_ok in Hw' as ([[b n] dd] & Hf & Hw'). destruct (Hg s1 (nth_error_In _ _ H1)) as [G1 G2].
      destruct (f_ok _ _ _ _ _ _ _ G1 G2 HI Hf) as [F1 F2]. exists b, n, dd. split; auto. rewrite (S0 _ _ H1 H2). unfold nb_stat. cbn [rbind]. rewrite Hf. reflexivity.
    - assert (Hk := nth_error_lt _ _ _ H2). destruct (nth_error vs k) as [v1|] eqn:Ev1; [|apply nth_error_None in Ev1; lia].
      destruct (nth_error (r_visited r) k) as [s0|] eqn:Es0; [|apply nth_error_None in Es0; lia]. destruct (IH _ _ eq_refl eq_refl) as (b0 & n1 & dd1 & Hv1 & _ & I1).
      destruct (Hok (length vs - 1 - Datatypes.S k) (Datatypes.S k) v) as [w' Hw']; auto. { lia. }
      rewrite (Sk _ _ _ _ H1 Ev1 H2), Hv1 in Hw'. unfold nb_stat in Hw'. cbn [rbind] in Hw'. apply rbind_ok in Hw' as ([[b n] dd] & Hf & Hw'). destruct (Hg s1 (nth_error_In _ _ H1)) as [G1 G2].
      destruct (f_ok _ _ _ _ _ _ _ G1 G2 I1 Hf) as [F1 F2]. exists b, n, dd. split; auto. rewrite (Sk _ _ _ _ H1 Ev1 H2), Hv1. unfold nb_stat. cbn [rbind]. rewrite Hf. reflexivity. }
  clear -Fw L. revert L Fw. generalize (r_visited r) as sols. induction vs as [|v vs IH]; intros [|s sols] L Fw; try discriminate.
  - exists []. split; auto.
  - destruct (Fw 0 s v eq_refl eq_refl) as (b & n & dd & Hv & Hb & _). destruct (IH sols ltac:(cbn in L; lia) (fun k => Fw (Datatypes.S k))) as (bs & E & Hbs).
    exists (b :: bs). split; [|constructor; auto]. injection E as E. cbn [map]. rewrite Hv, E. reflexivity.
Qed.
Lemma cloud_search (e : explorer (sol G F) X) fuel x v ds r : cloud_sampling G F S full init blank f e fuel x v ds = Ok r ->
  exists (s : sol G F) ds1, init blank ds = Ok (s, ds1) /\ local_search full (e : explorer (sol G F) X) true_cont fuel s x tt ds1 = Ok (plain r).
Proof. intros H. unfold cloud_sampling in H. cbn [added fold_left fst snd app] in H. apply sampling_run in H as (s & ds1 & Hi & Hl & _). eauto. Qed.
End Cloud.

(** ** what the statistics of the neighborhoods are *)
Section Nb.
Variables (G F S I : Type) (lt eq : F -> F -> bool) (Sp : G -> Prop) (nbrs : G -> list I) (has : G -> bool) (nh : G -> iterator S I).
Variables (Inv : S -> Prop) (Prog : G -> S -> Prop) (xfuel cost : nat).
Variables (full : G -> F) (neval : sol G F -> I -> res F) (move : I -> G -> res G) (no_fitness : F).
Hypothesis NH : neighborhood_ok Sp nbrs has nh Inv Prog xfuel cost.
Hypothesis MV : moves_ok Sp nbrs full neval move.
Lemma none_has g : Sp g -> has g = false -> nbrs g = [].
Proof. intros HS H. destruct (nbrs g) eqn:E; auto. exfalso. assert (has g = true) by (apply (nh_has _ _ _ _ _ _ _ _ NH g HS); rewrite E; discriminate). congruence. Qed.

(** the fitness of a neighbor *)
Notation one_spec := (a_neighbors_fitness nbrs move full no_fitness).
Lemma one_ok s o n ds b n' ds' : Sp (geno s) -> evaluated full s -> Inv n -> one_neighbor_stat G F S I has nh neval no_fitness s o n ds = Ok (b, n', ds') -> one_spec s b /\ Inv n'.
Proof.
  intros HS HE HI H. unfold one_neighbor_stat in H. destruct (has (geno s)) eqn:Eh.
  - apply rbind_ok in H as ([[p n1] ds1] & Hs & H). injection H as <- <- <-. destruct (start_spec G F S I Sp nbrs has nh Inv Prog xfuel cost full neval move NH MV s _ _ _ _ _ HS HE Eh HI Hs) as (_ & Hp & HP & _).
    split; [|exact (nh_inv _ _ _ _ _ _ _ _ NH _ _ HS HP)]. right. destruct (good_move G F I Sp nbrs full move s p Hp) as (g' & A & _ & B & _). eauto.
  - injection H as <- <- <-. split; auto. left. split; auto. apply none_has; auto.
Qed.

(** the best of the neighbors looked at: [seen] *)
Notation best_spec := (best_looked_at lt nbrs move full no_fitness).
Hypothesis LT : strict_weak_order lt.
Lemma best_ok kmax s o n ds b n' ds' : Sp (geno s) -> evaluated full s -> Inv n -> best_neighbor_stat G F S I lt has nh neval xfuel no_fitness kmax s o n ds = Ok (b, n', ds') -> best_spec kmax s b /\ Inv n'.
Proof.
  intros HS HE HI H. unfold best_neighbor_stat in H. destruct (has (geno s)) eqn:Eh.
  2: { injection H as <- <- <-. split; auto. left. split; auto. apply none_has; auto. }
  apply rbind_ok in H as ([[p n1] ds1] & Hs & H). apply rbind_ok in H as ([[a n2] ds2] & Hc & H). injection H as <- <- <-.
  destruct (start_spec G F S I Sp nbrs has nh Inv Prog xfuel cost full neval move NH MV s _ _ _ _ _ HS HE Eh HI Hs) as (Hi & Hp & HP & _).
  destruct LT as (IR & TR & NT).
  pose (Q := fun (a : I * F * nat) (seen : list I) => length seen = snd a /\ (kmax <> 0 -> length seen <= kmax) /\ incl seen (nbrs (geno s)) /\ (exists i g', In i seen /\ move i (geno s) = Ok g' /\ snd (fst a) = full g') /\
    (forall i g', In i seen -> move i (geno s) = Ok g' -> lt (snd (fst a)) (full g') = false)).
  destruct (scan_inv G F S I Sp nbrs has nh Inv Prog xfuel cost full neval move NH MV (fun a => negb ((kmax =? 0) || (snd a <? kmax))) (fun (a : I * F * nat) (p : I * F) => Ok (if lt (snd (fst a)) (snd p) then p else fst a, snd a + 1)) s Q HS HE) with (fuel := xfuel) (a := (p, 1)) (seen := [fst p]) (n := n1) (ds := ds1) (a' := a) (n' := n2) (ds' := ds2) as (xs & (Q1 & Q2 & Q3 & Q4 & Q5) & P2 & _ & Hstop & Hk); auto.
  - intros a0 seen i f a1 Hst (A1 & A2 & A3 & A4 & A5) Hg Ha. injection Ha as <-. destruct Hg as [G1 (g' & G2 & _ & G3)]. cbn [fst snd] in G1, G2, G3.
    unfold Q; rewrite app_length. cbn [length fst snd]. apply negb_false_iff in Hst. split; [lia|]. split.
    { intros Hk. apply orb_true_iff in Hst as [Hst|Hst]; [apply Nat.eqb_eq in Hst; lia|apply Nat.ltb_lt in Hst; lia]. }
    split; [intros j Hj; apply in_app_or in Hj as [Hj|[<-|[]]]; auto|]. split.
    + destruct (lt (snd (fst a0)) f); cbn [snd fst].
      * exists i, g'. split; [apply in_or_app; right; left; auto|auto].
      * destruct A4 as (i0 & g0 & B1 & B2 & B3). exists i0, g0. split; [apply in_or_app; auto|auto].
    + intros j h Hj Hm. destruct (lt (snd (fst a0)) f) eqn:El; cbn [snd fst]; apply in_app_or in Hj as [Hj|[<-|[]]].
      * specialize (A5 _ _ Hj Hm). destruct (lt f (full h)) eqn:E; auto. exfalso. rewrite (TR _ _ _ El E) in A5. discriminate.
      * rewrite Hm in G2. injection G2 as <-. rewrite <- G3. apply IR.
      * exact (A5 _ _ Hj Hm).
      * rewrite Hm in G2. injection G2 as <-. rewrite <- G3. apply El.
  - unfold Q. destruct Hp as [G1 (g' & G2 & _ & G3)]. cbn [fst snd length]. split; auto. split; [lia|]. split; [intros j [<-|[]]; auto|]. split.
    + exists (fst p), g'. split; [left; auto|auto].
    + intros j h [<-|[]] Hm. rewrite G2 in Hm. injection Hm as <-. rewrite <- G3. apply IR.
  - split; [|exact (nh_inv _ _ _ _ _ _ _ _ NH _ _ HS P2)]. right. exists ([fst p] ++ xs). split; [discriminate|]. split; auto. split; auto. split; auto.
    assert (All : i_cont (nh (geno s)) n2 = false -> incl (nbrs (geno s)) ([fst p] ++ xs)).
    { intros Hn. destruct (Hk 0 [] n2 ds2) as [k' Hk']; [cbn [continue]; rewrite Hn; reflexivity|]. rewrite app_nil_r in Hk'.
      exact (explore_all G F S I Sp nbrs has nh Inv Prog xfuel cost NH s _ _ p _ _ _ _ _ k' HS Eh HI Hi Hk'). }
    split.
    + intros ->. destruct Hstop as [Hst|Hn]; [discriminate Hst|]. auto.
    + intros Hz. split; auto. destruct Hstop as [Hst|Hn]; [|right; auto]. left. apply negb_true_iff, orb_false_iff in Hst as [_ Hst]. apply Nat.ltb_ge in Hst. specialize (Q2 Hz). lia.
Qed.

(** the number of neighbors of the same fitness *)
Variables (val : F -> Q) (as_fit : Q -> F) (sqrt : Q -> Q) (sort : forall T : Type, (T -> T -> bool) -> list T -> list T).
Hypothesis SO : std_sort_ok sort.
Hypothesis SQ : forall x y, (x == y -> sqrt x == sqrt y)%Q.
Notation degree_spec := (neutral_degree eq nbrs nh move full xfuel).
Lemma degree_ok s o n ds b n' ds' : Sp (geno s) -> evaluated full s -> Inv n -> neutral_degree_stat G F S I lt eq has nh neval xfuel val as_fit sqrt sort s o n ds = Ok (b, n', ds') -> degree_spec s b /\ Inv n'.
Proof.
  intros HS HE HI H. unfold neutral_degree_stat in H. apply rbind_ok in H as ([[[v0 w] n1] ds1] & Hn & H). unfold neighborhood_stat in Hn. destruct (has (geno s)) eqn:Eh.
  2: { injection Hn as <- <- <- <-. cbn [snd] in H. apply rbind_ok in H as (k & _ & H). injection H as <- <- <-. split; auto. intros Hne. destruct Hne. apply none_has; auto. }
  assert (Hn' := Hn). apply rbind_ok in Hn as ([[p n2] ds2] & Hs & Hn). apply rbind_ok in Hn as (a & Ha & Hn). apply rbind_ok in Hn as ([[a' n3] ds3] & Hc & Hn). apply rbind_ok in Hn as (r & Hr & Hn). injection Hn as <- <- <- <-. injection H as <- <- <-.
  destruct (start_spec G F S I Sp nbrs has nh Inv Prog xfuel cost full neval move NH MV s _ _ _ _ _ HS HE Eh HI Hs) as (Hi & Hp & HP & _).
  destruct (scan_spec G F S I Sp nbrs has nh Inv Prog xfuel cost neval NH (fun _ => false) _ s HS _ _ _ _ _ _ _ HP Hc) as (xs & X1 & X2 & _ & _ & [X3|X3]); [discriminate|].
  split; [|exact (nh_inv _ _ _ _ _ _ _ _ NH _ _ HS X2)]. intros _.
  assert (Ex : explore (nh (geno s)) xfuel n ds = Ok (fst p :: xs, n3, ds3)). { unfold explore. rewrite Hi. cbn [rbind]. rewrite X3. reflexivity. }
  assert (Hin : incl (fst p :: xs) (nbrs (geno s))). { intros j [<-|Hj]; auto. apply Hp. }
  assert (Hfs : forall l, incl l (nbrs (geno s)) -> exists fs, Forall2 (fun i f => neval s i = Ok f) l fs /\ Forall2 (fun i f => exists g', move i (geno s) = Ok g' /\ f = full g') l fs).
  { induction l as [|i l IH]; intros Hl; [exists []; split; constructor|]. destruct IH as (fs & I1 & I2); [intros j Hj; apply Hl; right; auto|].
    destruct (neval_good G F I Sp nbrs full neval move MV s i HS HE (Hl i (or_introl eq_refl))) as (f & Hf & [_ (g' & M1 & _ & M2)]). exists (f :: fs). split; constructor; eauto. }
  destruct (Hfs _ Hin) as (fs & F1 & F2).
  destruct (neighborhood_stat_ok G F S I lt eq has nh neval val as_fit sqrt sort LT SO SQ xfuel s (full (geno s)) (true, None) n ds _ _ _ fs Eh HE Ex F1) as (r' & Er & (_ & _ & _ & _ & _ & Ne & _)).
  unfold neighborhood_stat in Er. rewrite Eh in Er. rewrite Er in Hn'. injection Hn' as ->. 
  exists n, ds, (fst p :: xs), n3, ds3, fs. split; auto. split; [|auto]. exact (nh_all _ _ _ _ _ _ _ _ NH xfuel (geno s) n ds _ _ _ HS Eh HI Ex).
Qed.
End Nb.
