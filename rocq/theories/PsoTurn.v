(** What one turn does to each particle *)
From Coq Require Import List Arith Bool Lia.
From Verif Require Import Lib Outcome PsoModel.
Import ListNotations.

Section Turn.
Context {A V F : Type} (lt : F -> F -> bool) {W : Type}.
Variable velocity : list (hood A V F) -> particle A V F -> nat -> W -> res (list V * W).
Variable flight : particle A V F -> W -> res (list A * W).
Variable eval : list A -> F.
Notation swarm := (swarm A V F W).
Notation particle := (particle A V F).
Notation update := (linear_update A V F lt).
Notation over := (over A V F W).

Lemma over_each (R : nat -> particle -> particle -> Prop) (I : swarm -> Prop) (step : swarm -> nat -> res swarm) ks :
  (forall s k s', I s -> step s k = Ok s' -> I s' /\
     (forall j, j <> k -> nth_error (pop s') j = nth_error (pop s) j) /\ exists p p', nth_error (pop s) k = Some p /\ nth_error (pop s') k = Some p' /\ R k p p') ->
  NoDup ks -> forall s s', I s -> over step ks s = Ok s' -> I s' /\ (forall j, ~ In j ks -> nth_error (pop s') j = nth_error (pop s) j) /\
  forall k, In k ks -> exists p p', nth_error (pop s) k = Some p /\ nth_error (pop s') k = Some p' /\ R k p p'.
Proof.
  intros Hs. induction ks as [|k ks IH]; intros N s s' Is H; cbn [PsoModel.over] in H.
  - injection H as <-. split; auto. split; auto. intros k [].
  - apply rbind_ok in H as (s1 & H1 & H). inversion N as [|? ? N1 N2]; subst. destruct (Hs _ _ _ Is H1) as (I1 & O1 & p & p' & E1 & E2 & Rp).
    destruct (IH N2 _ _ I1 H) as (I2 & O2 & E). split; auto. split.
    + intros j Hj. rewrite O2 by (intros C; apply Hj; right; exact C). apply O1. intros ->. apply Hj. left. reflexivity.
    + intros j [<-|Hj].
      * exists p, p'. rewrite O2 by exact N1. auto.
      * destruct (E j Hj) as (q & q' & F1 & F2 & Rq). exists q, q'. rewrite <- O1 by (intros ->; contradiction). auto.
Qed.
Lemma over_each' (R : nat -> particle -> particle -> Prop) (I : swarm -> Prop) (step : swarm -> nat -> res swarm) ks s s' : NoDup ks -> over step ks s = Ok s' -> I s ->
  (forall s k s', I s -> step s k = Ok s' -> I s' /\
     (forall j, j <> k -> nth_error (pop s') j = nth_error (pop s) j) /\ exists p p', nth_error (pop s) k = Some p /\ nth_error (pop s') k = Some p' /\ R k p p') ->
  forall k, In k ks -> exists p p', nth_error (pop s) k = Some p /\ nth_error (pop s') k = Some p' /\ R k p p'.
Proof. intros N H Is Hs. exact (proj2 (proj2 (over_each R I step ks Hs N s s' Is H))). Qed.
Lemma set_at (s : list particle) k p p' : nth_error s k = Some p -> nth_error (set s k p') k = Some p' /\ forall j, j <> k -> nth_error (set s k p') j = nth_error s j.
Proof.
  intros H. split; [apply nth_error_set_eq; apply nth_error_Some; congruence|]. intros j Hj. apply nth_error_set_neq. auto.
Qed.
(** the particle flies with a velocity computed from what it was, which it keeps *)
Definition flown (hs : list (hood A V F)) (k : nat) (p p' : particle) : Prop :=
  exists v w1 w1' w2 w2', velocity hs p k w1 = Ok (v, w1') /\
    flight (Particle (pos p) v (bpos p) (fit p) (best p)) w2 = Ok (pos p', w2') /\ vel p' = v.

Definition r_vel (hs : list (hood A V F)) (k : nat) (p p' : particle) : Prop :=
  exists w w', velocity hs p k w = Ok (vel p', w') /\ p' = Particle (pos p) (vel p') (bpos p) (fit p) (best p).
Definition r_fly (_ : nat) (p p' : particle) : Prop := exists w w', flight p w = Ok (pos p', w') /\ vel p' = vel p.
Definition r_stay (_ : nat) (p p' : particle) : Prop := pos p' = pos p /\ vel p' = vel p.
Lemma vel_step s k s' : step_velocity A V F W velocity s k = Ok s' -> hoods s' = hoods s /\
  (forall j, j <> k -> nth_error (pop s') j = nth_error (pop s) j) /\ exists p p', nth_error (pop s) k = Some p /\ nth_error (pop s') k = Some p' /\ r_vel (hoods s) k p p'.
Proof.
  intros H. unfold step_velocity in H. apply rbind_ok in H as (p & Hp & H). apply of_opt_ok in Hp. apply rbind_ok in H as ([v w] & Hv & H). injection H as <-. cbn [hoods pop].
  destruct (set_at _ _ _ (Particle (pos p) v (bpos p) (fit p) (best p)) Hp) as [E O]. split; auto. split; auto.
  do 2 eexists. split; [exact Hp|]. split; [exact E|]. exists (world s), w. cbn. auto.
Qed.
Lemma fly_step s k s' : step_flight A V F W flight s k = Ok s' -> hoods s' = hoods s /\
  (forall j, j <> k -> nth_error (pop s') j = nth_error (pop s) j) /\ exists p p', nth_error (pop s) k = Some p /\ nth_error (pop s') k = Some p' /\ r_fly k p p'.
Proof.
  intros H. unfold step_flight in H. apply rbind_ok in H as (p & Hp & H). apply of_opt_ok in Hp. apply rbind_ok in H as ([x w] & Hv & H). injection H as <-. cbn [hoods pop].
  destruct (set_at _ _ _ (Particle x (vel p) (bpos p) None (best p)) Hp) as [E O]. split; auto. split; auto.
  do 2 eexists. split; [exact Hp|]. split; [exact E|]. exists (world s), w. cbn. auto.
Qed.
Lemma eval_step s k s' : step_eval A V F W eval s k = Ok s' -> hoods s' = hoods s /\
  (forall j, j <> k -> nth_error (pop s') j = nth_error (pop s) j) /\ exists p p', nth_error (pop s) k = Some p /\ nth_error (pop s') k = Some p' /\ r_stay k p p'.
Proof.
  intros H. unfold step_eval in H. apply rbind_ok in H as (p & Hp & H). apply of_opt_ok in Hp. injection H as <-. cbn [hoods pop].
  destruct (set_at _ _ _ (Particle (pos p) (vel p) (bpos p) (Some (eval (pos p))) (best p)) Hp) as [E O]. split; auto. split; auto.
  do 2 eexists. split; [exact Hp|]. split; [exact E|]. split; reflexivity.
Qed.
Lemma update_step s k s' : step_update A V F W update s k = Ok s' ->
  (forall j, j <> k -> nth_error (pop s') j = nth_error (pop s) j) /\ exists p p', nth_error (pop s) k = Some p /\ nth_error (pop s') k = Some p' /\ r_stay k p p'.
Proof.
  intros H. unfold step_update in H. apply rbind_ok in H as (p & Hp & H). apply of_opt_ok in Hp. apply rbind_ok in H as ([p' hs] & Hu & H). injection H as <-. cbn [pop].
  destruct (set_at _ _ _ p' Hp) as [E O]. split; auto. do 2 eexists. split; [exact Hp|]. split; [exact E|].
  unfold linear_update in Hu. apply rbind_ok in Hu as (q & Hq & Hu). apply rbind_ok in Hu as (hs' & _ & Hu). injection Hu as <- <-.
  unfold update_best in Hq. apply rbind_ok in Hq as (f & _ & Hq). apply rbind_ok in Hq as (b & _ & Hq).
  destruct (lt b f); [destruct (_ =? _); [|discriminate]|]; injection Hq as <-; split; reflexivity.
Qed.
Lemma flown_by hs k p p1 p2 p3 p4 : r_vel hs k p p1 -> r_fly k p1 p2 -> r_stay k p2 p3 -> r_stay k p3 p4 -> flown hs k p p4.
Proof.
  intros (w & w' & H1 & H2) (u & u' & H3 & H4) [H5 H6] [H7 H8].
  exists (vel p1), w, w', u, u'. rewrite H2 in H3. cbn [vel] in H3. rewrite H7, H5. split; auto. split; [|congruence]. rewrite H2 at 1. cbn [vel]. exact H3.
Qed.
Lemma async_flown s s' : async_turn A V F W velocity flight eval update s = Ok s' ->
  forall k p, nth_error (pop s) k = Some p -> exists p' hs, nth_error (pop s') k = Some p' /\ flown hs k p p'.
Proof.
  intros H k p Hp. unfold async_turn in H.
  assert (E := over_each' (fun k p p' => exists hs, flown hs k p p') (fun _ => True) _ _ s s' (seq_NoDup (length (pop s)) 0) H Logic.I).
  cbn beta in E. match type of E with ?P -> _ => assert (X : P) end.
  - intros a j b _ Hb. apply rbind_ok in Hb as (s1 & H1 & Hb). apply rbind_ok in Hb as (s2 & H2 & Hb). apply rbind_ok in Hb as (s3 & H3 & H4).
    apply vel_step in H1 as (_ & O1 & p0 & p1 & A1 & B1 & R1). apply fly_step in H2 as (_ & O2 & q1 & p2 & A2 & B2 & R2).
    apply eval_step in H3 as (_ & O3 & q2 & p3 & A3 & B3 & R3). apply update_step in H4 as (O4 & q3 & p4 & A4 & B4 & R4).
    rewrite B1 in A2. injection A2 as <-. rewrite B2 in A3. injection A3 as <-. rewrite B3 in A4. injection A4 as <-.
    split; auto. split; [intros i Hi; rewrite O4, O3, O2, O1; auto|]. exists p0, p4. split; auto. split; auto. eexists. eapply flown_by; eauto.
  - destruct (E X k) as (q & p' & F1 & F2 & hs & R). { apply in_seq. apply nth_error_lt in Hp. lia. }
    rewrite Hp in F1. injection F1 as <-. eauto.
Qed.
Lemma sync_flown s s' : sync_turn A V F W velocity flight eval update s = Ok s' ->
  forall k p, nth_error (pop s) k = Some p -> exists p', nth_error (pop s') k = Some p' /\ flown (hoods s) k p p'.
Proof.
  intros H k p Hp. unfold sync_turn in H. set (ks := seq 0 (length (pop s))) in H.
  assert (N : NoDup ks) by apply seq_NoDup. assert (K : In k ks) by (apply in_seq; apply nth_error_lt in Hp; lia).
  apply rbind_ok in H as (s1 & H1 & H). apply rbind_ok in H as (s2 & H2 & H). apply rbind_ok in H as (s3 & H3 & H4).
  assert (E1 := over_each' (r_vel (hoods s)) (fun a => hoods a = hoods s) _ _ s s1 N H1). cbn beta in E1. specialize (E1 ltac:(auto)). match type of E1 with ?P -> _ => assert (X : P) end.
  { intros a j b Ha Hb. apply vel_step in Hb as (Hb & O & Q). rewrite Ha in Q. split; [congruence|auto]. }
  specialize (E1 X). clear X.
  assert (E2 := over_each' r_fly (fun _ => True) _ _ s1 s2 N H2). cbn beta in E2. specialize (E2 ltac:(auto)). match type of E2 with ?P -> _ => assert (X : P) end.
  { intros a j b Ha Hb. apply fly_step in Hb as (Hb & O & Q). auto. }
  specialize (E2 X). clear X.
  assert (E3 := over_each' r_stay (fun _ => True) _ _ s2 s3 N H3). cbn beta in E3. specialize (E3 ltac:(auto)). match type of E3 with ?P -> _ => assert (X : P) end.
  { intros a j b Ha Hb. apply eval_step in Hb as (Hb & O & Q). auto. }
  specialize (E3 X). clear X.
  assert (E4 := over_each' r_stay (fun _ => True) _ _ s3 s' N H4). cbn beta in E4. specialize (E4 ltac:(auto)). match type of E4 with ?P -> _ => assert (X : P) end.
  { intros a j b Ha Hb. apply update_step in Hb as (O & Q). auto. }
  specialize (E4 X). clear X.
  destruct (E1 k K) as (q & p1 & A1 & B1 & R1). destruct (E2 k K) as (q1 & p2 & A2 & B2 & R2). destruct (E3 k K) as (q2 & p3 & A3 & B3 & R3). destruct (E4 k K) as (q3 & p4 & A4 & B4 & R4).
  rewrite Hp in A1. injection A1 as <-. rewrite B1 in A2. injection A2 as <-. rewrite B2 in A3. injection A3 as <-. rewrite B3 in A4. injection A4 as <-.
  exists p4. split; auto. eapply flown_by; eauto.
Qed.
End Turn.
