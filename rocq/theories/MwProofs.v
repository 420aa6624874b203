(** Proofs about the master-worker algorithms. *)
From Coq Require Import List Arith Bool Lia Permutation.
From Verif Require Import Lib Outcome BreedModel AlgoModel SchedModel SchedSpec SchedProofs SchedProg SchedProps PsoModel MwModel.
From Coq Require Import List.
Import ListNotations.
Open Scope nat_scope.

Lemma scheduled_once n order : scheduled n order -> each_once n order.
Proof.
  intros [(w & ps & H & Hi)|(plans & sched & s & H & Hd & ->)].
  - unfold each_once. rewrite (interleaving_perm ps order Hi). exact (linear_once _ _ _ H).
  - eapply C29_all_once; eauto.
Qed.

Section Ea.
Context {G F W : Type}.
Notation I := (indiv G F).
Lemma apply_pure (eval : I -> I) (pop : list I) (w : W) : apply_eval (fun x w => Ok (eval x, w)) pop w = Ok (map eval pop, w).
Proof. induction pop as [|x pop IH]; cbn; auto. rewrite IH. reflexivity. Qed.
Lemma mw_ea_loop_eq (eval : I -> I) sch breed replace cont : (forall g off, scheduled (length off) (sch g off)) -> forall fuel g (pop : list I) (w : W),
  mw_ea_loop eval sch breed replace cont fuel g pop w = ea_loop (pop_loop_eval (fun x w => Ok (eval x, w))) breed replace cont fuel pop w.
Proof.
  intros H. induction fuel as [|f IH]; intros g pop w; cbn [mw_ea_loop ea_loop]; auto. destruct (breed pop w) as [[off w1]| | |]; cbn [rbind]; auto. unfold pop_loop_eval at 1. rewrite apply_pure. cbn [rbind].
  rewrite apply_once by (apply scheduled_once, H). cbn [of_opt rbind]. destruct (replace pop (map eval off) w1) as [[pop2 w3]| | |]; cbn [rbind]; auto. destruct (negb _); auto. destruct (cont pop2 w3) as [[b w4]| | |]; cbn [rbind]; auto. destruct b; auto. rewrite IH. reflexivity.
Qed.
End Ea.

Section Swarm.
Variables (A V F W : Type).
Variable velocity : list (hood A V F) -> particle A V F -> nat -> W -> res (list V * W).
Variable flight : particle A V F -> W -> res (list A * W).
Variable eval : list A -> F.
Variable update : list (hood A V F) -> particle A V F -> nat -> res (particle A V F * list (hood A V F)).
Notation swarm := (swarm A V F W).
(** the same swarm, the calls of the evaluation being in another order *)
Definition same (s t : swarm) : Prop := pop s = pop t /\ hoods s = hoods t /\ world s = world t /\ Permutation (log s) (log t).
Definition agree (a b : res swarm) : Prop :=
  match a, b with Ok s, Ok t => same s t | Throw, Throw | UB, UB | NoDraw, NoDraw => True | _, _ => False end.
Definition keeps (step : swarm -> nat -> res swarm) : Prop :=
  (forall s t k, same s t -> agree (step s k) (step t k)) /\ (forall s k s', step s k = Ok s' -> length (pop s') = length (pop s)).
Lemma agree_bind a b (f g : swarm -> res swarm) : agree a b -> (forall s t, same s t -> a = Ok s -> b = Ok t -> agree (f s) (g t)) -> agree (rbind a f) (rbind b g).
Proof. destruct a, b; cbn; auto; try contradiction. Qed.
Lemma keeps_velocity : keeps (step_velocity A V F W velocity).
Proof.
  split.
  - intros [p h w l] [p' h' w' l'] k (E1 & E2 & E3 & P). cbn in *. subst. unfold step_velocity. cbn. destruct (nth_error p' k); cbn; auto. destruct (velocity h' p k w') as [[v w1]| | |]; cbn; auto. unfold same. cbn. auto.
  - intros s k s' H. unfold step_velocity in H. apply rbind_ok in H as (p & _ & H). apply rbind_ok in H as ([v w] & _ & H). injection H as <-. cbn. apply set_length.
Qed.
Lemma keeps_flight : keeps (step_flight A V F W flight).
Proof.
  split.
  - intros [p h w l] [p' h' w' l'] k (E1 & E2 & E3 & P). cbn in *. subst. unfold step_flight. cbn. destruct (nth_error p' k); cbn; auto. destruct (flight p w') as [[v w1]| | |]; cbn; auto. unfold same. cbn. auto.
  - intros s k s' H. unfold step_flight in H. apply rbind_ok in H as (p & _ & H). apply rbind_ok in H as ([v w] & _ & H). injection H as <-. cbn. apply set_length.
Qed.
Lemma keeps_update : keeps (step_update A V F W update).
Proof.
  split.
  - intros [p h w l] [p' h' w' l'] k (E1 & E2 & E3 & P). cbn in *. subst. unfold step_update. cbn. destruct (nth_error p' k); cbn; auto. destruct (update h' p k) as [[v w1]| | |]; cbn; auto. unfold same. cbn. auto.
  - intros s k s' H. unfold step_update in H. apply rbind_ok in H as (p & _ & H). apply rbind_ok in H as ([v w] & _ & H). injection H as <-. cbn. apply set_length.
Qed.
Lemma keeps_both : keeps (fun s k => let! s1 := step_velocity A V F W velocity s k in step_flight A V F W flight s1 k).
Proof.
  destruct keeps_velocity as [V1 V2], keeps_flight as [F1 F2]. split.
  - intros s t k H. apply agree_bind; [apply V1; auto|]. intros s1 t1 H1 _ _. apply F1. auto.
  - intros s k s' H. apply rbind_ok in H as (s1 & E1 & H). rewrite (F2 _ _ _ H). eauto.
Qed.
Lemma over_agree step : keeps step -> forall ks s t, same s t -> agree (over A V F W step ks s) (over A V F W step ks t).
Proof. intros [K1 K2]. induction ks as [|k ks IH]; intros s t H; cbn [over]; [exact H|]. apply agree_bind; [apply K1; auto|]. intros s1 t1 H1 _ _. apply IH. auto. Qed.
Lemma over_length step : keeps step -> forall ks s s', over A V F W step ks s = Ok s' -> length (pop s') = length (pop s).
Proof. intros [K1 K2]. induction ks as [|k ks IH]; intros s s' H; cbn [over] in H; [injection H as <-; auto|]. apply rbind_ok in H as (s1 & E1 & H). rewrite (IH _ _ H). eauto. Qed.
(** evaluating in any order *)
Definition evaluated (p : particle A V F) : particle A V F := Particle (pos p) (vel p) (bpos p) (Some (eval (pos p))) (best p).
Definition call (l : list (particle A V F)) (k : nat) : nat * list A := (k, match nth_error l k with Some p => pos p | None => [] end).
Lemma over_eval : forall order (s : swarm) q, apply_seq evaluated order (pop s) = Some q ->
  over A V F W (step_eval A V F W eval) order s = Ok (Swarm q (hoods s) (world s) (log s ++ map (call (pop s)) order)).
Proof.
  induction order as [|k order IH]; intros s q H; cbn [apply_seq over] in *.
  - injection H as <-. cbn. rewrite app_nil_r. destruct s; reflexivity.
  - unfold obind in H. destruct (apply_at evaluated (pop s) k) as [p1|] eqn:E; [|discriminate]. unfold apply_at, obind in E. destruct (nth_error (pop s) k) as [p|] eqn:Ek; [|discriminate]. unfold step_eval at 1. rewrite Ek. cbn [of_opt rbind].
    assert (K : k < length (pop s)) by (apply nth_error_Some; congruence). rewrite upd_set in E by auto. injection E as <-. rewrite (IH _ q) by exact H. cbn [hoods world log pop]. f_equal. f_equal. rewrite <- app_assoc. f_equal. cbn [map app]. unfold call at 2. rewrite Ek. f_equal.
    apply map_ext. intros j. unfold call. f_equal. destruct (Nat.eq_dec j k) as [->|N]; [rewrite nth_error_set_eq, Ek by auto; reflexivity|rewrite nth_error_set_neq by auto; reflexivity].
Qed.
Lemma eval_agree o1 o2 s t : same s t -> each_once (length (pop s)) o1 -> each_once (length (pop s)) o2 ->
  agree (over A V F W (step_eval A V F W eval) o1 s) (over A V F W (step_eval A V F W eval) o2 t).
Proof.
  intros (E1 & E2 & E3 & P) H1 H2. rewrite (over_eval o1 s (map evaluated (pop s))) by (apply apply_once; auto). rewrite (over_eval o2 t (map evaluated (pop t))) by (apply apply_once; rewrite <- E1; auto).
  cbn. unfold same. cbn. rewrite E1, E2, E3. repeat split; auto. apply Permutation_app; auto. apply Permutation_map. rewrite H1. symmetry. exact H2.
Qed.
Lemma seq_once n : each_once n (seq 0 n).
Proof. unfold each_once. reflexivity. Qed.
Lemma mw_sync_turn_agree o1 o2 s t : same s t -> each_once (length (pop s)) o1 -> each_once (length (pop s)) o2 ->
  agree (mw_sync_turn A V F W velocity flight eval update o1 s) (mw_sync_turn A V F W velocity flight eval update o2 t).
Proof.
  intros H H1 H2. unfold mw_sync_turn. cbv zeta. replace (length (pop t)) with (length (pop s)) by (destruct H as [-> _]; auto).
  apply agree_bind; [apply over_agree; auto; apply keeps_velocity|]. intros s1 t1 S1 E1 _. apply agree_bind; [apply over_agree; auto; apply keeps_flight|]. intros s2 t2 S2 E2 _.
  apply over_length in E1; [|apply keeps_velocity]. apply over_length in E2; [|apply keeps_flight]. apply agree_bind; [apply eval_agree; auto; rewrite E2, E1; auto|]. intros s3 t3 S3 _ _. apply over_agree; auto. apply keeps_update.
Qed.
Lemma mw_turn_agree o1 o2 s t : same s t -> each_once (length (pop s)) o1 -> each_once (length (pop s)) o2 ->
  agree (mw_turn A V F W velocity flight eval update o1 s) (mw_turn A V F W velocity flight eval update o2 t).
Proof.
  intros H H1 H2. unfold mw_turn. cbv zeta. replace (length (pop t)) with (length (pop s)) by (destruct H as [-> _]; auto).
  apply agree_bind; [apply over_agree; auto; apply keeps_both|]. intros s1 t1 S1 E1 _.
  apply over_length in E1; [|apply keeps_both]. apply agree_bind; [apply eval_agree; auto; rewrite E1; auto|]. intros s3 t3 S3 _ _. apply over_agree; auto. apply keeps_update.
Qed.
Lemma keeps_eval_length ks s s' : over A V F W (step_eval A V F W eval) ks s = Ok s' -> length (pop s') = length (pop s).
Proof.
  revert s. induction ks as [|k ks IH]; intros s H; cbn [over] in H; [injection H as <-; auto|]. apply rbind_ok in H as (s1 & E & H). rewrite (IH _ H). unfold step_eval in E. apply rbind_ok in E as (p & _ & E). injection E as <-. cbn. apply set_length.
Qed.
Lemma mw_sync_length o s s' : mw_sync_turn A V F W velocity flight eval update o s = Ok s' -> length (pop s') = length (pop s).
Proof.
  unfold mw_sync_turn. cbv zeta. intros H. apply rbind_ok in H as (s1 & E1 & H). apply rbind_ok in H as (s2 & E2 & H). apply rbind_ok in H as (s3 & E3 & H).
  rewrite (over_length _ keeps_update _ _ _ H), (keeps_eval_length _ _ _ E3), (over_length _ keeps_flight _ _ _ E2), (over_length _ keeps_velocity _ _ _ E1). auto.
Qed.
Lemma mw_turn_length o s s' : mw_turn A V F W velocity flight eval update o s = Ok s' -> length (pop s') = length (pop s).
Proof.
  unfold mw_turn. cbv zeta. intros H. apply rbind_ok in H as (s1 & E1 & H). apply rbind_ok in H as (s3 & E3 & H).
  rewrite (over_length _ keeps_update _ _ _ H), (keeps_eval_length _ _ _ E3), (over_length _ keeps_both _ _ _ E1). auto.
Qed.
(** two runs of the turns, with any orders *)
Lemma turns_agree (turn : list nat -> swarm -> res swarm) : (forall o1 o2 s t, same s t -> each_once (length (pop s)) o1 -> each_once (length (pop s)) o2 -> agree (turn o1 s) (turn o2 t)) ->
  (forall o s s', turn o s = Ok s' -> length (pop s') = length (pop s)) ->
  forall answers os1 os2 s t, length answers < length os1 -> length answers < length os2 -> Forall (each_once (length (pop s))) os1 -> Forall (each_once (length (pop s))) os2 -> same s t ->
  agree (mw_turns A V F W turn os1 answers s) (mw_turns A V F W turn os2 answers t).
Proof.
  intros Ag Le. induction answers as [|b answers IH]; intros [|o1 os1] [|o2 os2] s t L1 L2 F1 F2 H; cbn in L1, L2; try lia; inversion F1; inversion F2; subst; cbn [mw_turns].
  - apply agree_bind; auto. intros; exact Logic.I.
  - apply agree_bind; auto. intros s1 t1 S1 E1 _. destruct b; [|exact S1]. apply IH; auto; try lia; rewrite (Le _ _ _ E1); auto.
Qed.
(** the sequential algorithm is the one whose orders are the natural one *)
Lemma turns_natural (turn : list nat -> swarm -> res swarm) n : (forall o s s', turn o s = Ok s' -> length (pop s') = length (pop s)) ->
  forall answers s os, length (pop s) = n -> length answers < length os -> Forall (fun o => o = seq 0 n) os ->
  mw_turns A V F W turn os answers s = turns A V F W (fun s => turn (seq 0 (length (pop s))) s) answers s.
Proof.
  intros Le. induction answers as [|b answers IH]; intros s [|o os] Hs L Fo; cbn in L; try lia; inversion Fo; subst; cbn [mw_turns turns].
  - reflexivity.
  - destruct (turn (seq 0 (length (pop s))) s) as [s'| | |] eqn:E; cbn [rbind]; auto. destruct b; auto. apply IH; auto; try lia. rewrite <- (Le _ _ _ E). auto.
Qed.
End Swarm.

(** ** with flights that draw nothing, the master-worker eoEasyPSO is the synchronous one *)
Section Pure.
Variables (A V F W : Type).
Variable velocity : list (hood A V F) -> particle A V F -> nat -> W -> res (list V * W).
Variable fly : particle A V F -> list A.
Notation swarm := (swarm A V F W).
Notation step_v := (step_velocity A V F W velocity).
Notation step_f := (step_flight A V F W (fun p w => Ok (fly p, w))).
Lemma flight_total (s : swarm) k : k < length (pop s) -> exists s', step_f s k = Ok s' /\ length (pop s') = length (pop s).
Proof. intros H. unfold step_flight. destruct (nth_error_in_some (pop s) k H) as [p E]. rewrite E. cbn. eexists. split; [reflexivity|]. cbn. apply set_length. Qed.
Lemma set_swap {X} (l : list X) i j x y : i <> j -> set (set l i x) j y = set (set l j y) i x.
Proof.
  intros H. revert i j H. induction l as [|z l IH]; intros [|i] [|j] H; try congruence; auto. cbn. f_equal. apply IH. congruence.
Qed.
Lemma swap_steps (s : swarm) k j : k <> j -> k < length (pop s) -> (let! s1 := step_f s k in step_v s1 j) = (let! s1 := step_v s j in step_f s1 k).
Proof.
  intros N K. unfold step_flight, step_velocity. destruct (nth_error_in_some (pop s) k K) as [p E]. rewrite E. cbn [of_opt rbind pop hoods world log]. rewrite nth_error_set_neq by auto.
  destruct (nth_error (pop s) j) as [q|]; cbn [of_opt rbind]; auto. destruct (velocity (hoods s) q j (world s)) as [[v w]| | |]; cbn [rbind]; auto. cbn [pop hoods world log]. rewrite nth_error_set_neq by auto. rewrite E. cbn [of_opt rbind]. rewrite (set_swap _ k j) by auto. reflexivity.
Qed.
Lemma swap_over k : forall js (s : swarm), ~ In k js -> k < length (pop s) -> (let! s1 := step_f s k in over A V F W step_v js s1) = (let! s1 := over A V F W step_v js s in step_f s1 k).
Proof.
  induction js as [|j js IH]; intros s N K; cbn [over].
  - cbn [rbind]. destruct (step_f s k); reflexivity.
  - assert (Nj : k <> j) by (intros ->; apply N; cbn; auto). pose proof (swap_steps s k j Nj K) as Sw. destruct (flight_total s k K) as (s1 & E1 & L1). rewrite E1 in *. cbn [rbind] in *. rewrite Sw.
    destruct (step_v s j) as [s2| | |] eqn:E2; cbn [rbind]; auto. apply (IH s2); [intros H; apply N; cbn; auto|]. unfold step_velocity in E2. apply rbind_ok in E2 as (p & _ & E2). apply rbind_ok in E2 as ([v w] & _ & E2). injection E2 as <-. cbn. rewrite set_length. auto.
Qed.
Lemma velocity_length ks : forall (s s' : swarm), over A V F W step_v ks s = Ok s' -> length (pop s') = length (pop s).
Proof. intros s s'. apply over_length, keeps_velocity. Qed.
Lemma split_loops : forall ks (s : swarm), NoDup ks -> (forall k, In k ks -> k < length (pop s)) ->
  over A V F W (fun s k => let! s1 := step_v s k in step_f s1 k) ks s = (let! s1 := over A V F W step_v ks s in over A V F W step_f ks s1).
Proof.
  induction ks as [|k ks IH]; intros s N Hk; cbn [over]; [reflexivity|]. inversion N as [|? ? Nk N']; subst.
  destruct (step_v s k) as [s1| | |] eqn:E1; cbn [rbind]; auto. assert (L1 : length (pop s1) = length (pop s)) by (eapply (keeps_velocity A V F W velocity); eauto).
  assert (K1 : k < length (pop s1)) by (rewrite L1; apply Hk; cbn; auto). destruct (flight_total s1 k K1) as (s2 & E2 & L2). rewrite E2. cbn [rbind]. rewrite IH by (auto; intros j Hj; rewrite L2, L1; apply Hk; cbn; auto).
  pose proof (swap_over k ks s1 Nk K1) as Sw. rewrite E2 in Sw. cbn [rbind] in Sw. rewrite Sw. destruct (over A V F W step_v ks s1) as [s3| | |]; cbn [rbind]; auto.
Qed.
End Pure.
