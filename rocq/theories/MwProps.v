(** C181, C182: the master-worker algorithms. *)
From Coq Require Import List Arith Bool Lia Permutation.
From Verif Require Import Lib Outcome BreedModel AlgoModel SchedModel SchedSpec SchedProofs SchedProg SchedLive SchedProps PsoModel MwModel MwProofs.
From Coq Require Import List.
Import ListNotations.
Open Scope nat_scope.

(** ** C181 *)
(** the master-worker evolutionary algorithm computes exactly what the sequential one computes, generation by generation, whatever the workers do *)
Theorem C181_same_as_sequential {G F W : Type} (eval : indiv G F -> indiv G F) (sch : nat -> list (indiv G F) -> list nat) breed replace cont fuel pop (w : W) :
  (forall g off, scheduled (length off) (sch g off)) ->
  let pop_eval := pop_loop_eval (fun x w => Ok (eval x, w)) in
  mw_easy_ea eval sch pop_eval breed replace cont fuel pop w = easy_ea pop_eval breed replace cont fuel pop w.
Proof. intros H pe. unfold mw_easy_ea, easy_ea. destruct (pe [] pop w) as [[[p1 p2] w1]| | |]; cbn [rbind]; auto. apply mw_ea_loop_eq. auto. Qed.
(** such orders exist, for both policies and any positive number of workers *)
Theorem C181_orders_exist n workers : 0 < workers -> (exists ps order, linear_packages n workers = Ok ps /\ interleaving ps order /\ scheduled n order) /\
  (forall plans, length plans = workers -> exists sched s, exec n sched (init plans) = Some s /\ dpc s = DEnd /\ scheduled n (applied s)).
Proof.
  intros Hw. split.
  - destruct (C28_linear n workers Hw) as (ps & E & _). exists ps. assert (Il : exists order, interleaving ps order).
    { clear. assert (G : forall k (ls : list (list nat)), length (concat ls) = k -> exists order, interleaving ls order).
      { induction k as [|k IH]; intros ls L.
        - exists []. constructor. apply Forall_forall. intros l Hl. destruct l as [|x l]; auto. exfalso. apply in_split in Hl as (l1 & l2 & ->). rewrite concat_app, app_length in L. cbn in L. lia.
        - assert (E : exists ls1 x l ls2, ls = ls1 ++ (x :: l) :: ls2).
          { clear IH. induction ls as [|l ls IH]; [discriminate|]. destruct l as [|x l]; [|exists [], x, l, ls; auto]. destruct (IH L) as (ls1 & x & l & ls2 & ->). exists ([] :: ls1), x, l, ls2. auto. }
          destruct E as (ls1 & x & l & ls2 & ->). destruct (IH (ls1 ++ l :: ls2)) as [o Ho]. { rewrite concat_app, app_length in *. cbn in *. rewrite app_length in *. lia. } exists (x :: o). constructor. auto. }
      apply (G _ ps eq_refl). }
    destruct Il as [o Ho]. exists o. split; auto. split; auto. left. eauto.
  - intros plans L. destruct (C29_can_finish n plans [] (init plans)) as (sched & s & H & Hd); [destruct plans; cbn in L; [lia|discriminate]|reflexivity|]. exists sched, s. split; auto. split; auto. right. exists plans, sched, s. auto.
Qed.
(** the synchronous swarm is the sequential one up to the order of the evaluations *)
Theorem C181_synchronous_swarm {A V F W : Type} velocity flight eval update answers orders (s : swarm A V F W) :
  length answers < length orders -> Forall (scheduled (length (pop s))) orders ->
  match mw_turns A V F W (mw_sync_turn A V F W velocity flight eval update) orders answers s, turns A V F W (sync_turn A V F W velocity flight eval update) answers s with
  | Ok a, Ok b => pop a = pop b /\ hoods a = hoods b /\ world a = world b /\ Permutation (log a) (log b)
  | Throw, Throw | UB, UB | NoDraw, NoDraw => True
  | _, _ => False
  end.
Proof.
  intros L Fo. assert (E : turns A V F W (sync_turn A V F W velocity flight eval update) answers s = mw_turns A V F W (mw_sync_turn A V F W velocity flight eval update) (repeat (seq 0 (length (pop s))) (S (length answers))) answers s).
  { symmetry. etransitivity; [apply (turns_natural A V F W _ (length (pop s)))|].
    - intros. eapply mw_sync_length; eauto.
    - reflexivity.
    - rewrite repeat_length. lia.
    - apply Forall_forall. intros o Ho. eapply repeat_spec. exact Ho.
    - reflexivity. }
  rewrite E. apply (turns_agree A V F W).
  - intros. apply mw_sync_turn_agree; auto.
  - intros. eapply mw_sync_length; eauto.
  - auto.
  - rewrite repeat_length. lia.
  - eapply Forall_impl; [|exact Fo]. intros. apply scheduled_once. auto.
  - apply Forall_forall. intros o Ho. apply repeat_spec in Ho. subst. apply seq_once.
  - repeat split; auto.
Qed.
(** the result of the other swarm does not depend on the workers either *)
Theorem C181_any_schedule {A V F W : Type} velocity flight eval update answers orders1 orders2 (s : swarm A V F W) :
  length answers < length orders1 -> length answers < length orders2 -> Forall (scheduled (length (pop s))) orders1 -> Forall (scheduled (length (pop s))) orders2 ->
  match mw_turns A V F W (mw_turn A V F W velocity flight eval update) orders1 answers s, mw_turns A V F W (mw_turn A V F W velocity flight eval update) orders2 answers s with
  | Ok a, Ok b => pop a = pop b /\ hoods a = hoods b /\ world a = world b /\ Permutation (log a) (log b)
  | Throw, Throw | UB, UB | NoDraw, NoDraw => True
  | _, _ => False
  end.
Proof.
  intros L1 L2 F1 F2. apply (turns_agree A V F W); auto.
  - intros. apply mw_turn_agree; auto.
  - intros. eapply mw_turn_length; eauto.
  - eapply Forall_impl; [|exact F1]. intros. apply scheduled_once. auto.
  - eapply Forall_impl; [|exact F2]. intros. apply scheduled_once. auto.
  - repeat split; auto.
Qed.
(** with a flight that draws no number, one turn of MWModel<eoEasyPSO> is one turn of the synchronous swarm *)
Theorem C181_a_synchronous_swarm {A V F W : Type} velocity fly eval update order (s : swarm A V F W) :
  mw_turn A V F W velocity (fun p w => Ok (fly p, w)) eval update order s = mw_sync_turn A V F W velocity (fun p w => Ok (fly p, w)) eval update order s.
Proof.
  unfold mw_turn, mw_sync_turn. cbv zeta. rewrite (split_loops A V F W velocity fly); [|apply seq_NoDup|intros k Hk; apply in_seq in Hk; lia].
  destruct (over A V F W (step_velocity A V F W velocity) (seq 0 (length (pop s))) s); reflexivity.
Qed.

(** a run on two individuals: breeding doubles, evaluation squares, the offspring replace the parents; stop after two generations *)
Definition ex_breed (pop : list (indiv nat nat)) (w : nat) : res (list (indiv nat nat) * nat) := Ok (map (fun x => Ind (2 * geno x) None) pop, w).
Definition ex_eval (x : indiv nat nat) : indiv nat nat := Ind (geno x) (Some (geno x * geno x)).
Definition ex_replace (p o : list (indiv nat nat)) (w : nat) : res (list (indiv nat nat) * nat) := Ok (o, w).
Definition ex_cont (p : list (indiv nat nat)) (w : nat) : res (bool * nat) := Ok (w <? 1, S w).
Example C181_ex : mw_easy_ea ex_eval (fun g off => if length off =? 2 then [1; 0] else seq 0 (length off)) (pop_loop_eval (fun x w => Ok (ex_eval x, w))) ex_breed ex_replace ex_cont 5 [Ind 1 None; Ind 3 None] 0 =
  Ok ([Ind 4 (Some 16); Ind 12 (Some 144)], [[Ind 2 (Some 4); Ind 6 (Some 36)]; [Ind 4 (Some 16); Ind 12 (Some 144)]], 2) /\ scheduled 2 [1; 0].
Proof.
  split; [vm_compute; reflexivity|]. left. exists 2, [[0]; [1]]. split; [reflexivity|]. apply (il_step [[0]] 1 [] []). apply (il_step [] 0 [] [[]]). constructor. repeat constructor.
Qed.
(** two particles of one neighborhood; the velocity is the best position of the neighborhood, the flight goes one further *)
Definition ex_velocity (hs : list (hood nat nat nat)) (p : particle nat nat nat) (k : nat) (w : unit) : res (list nat * unit) := let! b := linear_best nat nat nat hs k in Ok (pos b, w).
Definition ex_flight (p : particle nat nat nat) (w : unit) : res (list nat * unit) := Ok (map S (vel p), w).
Definition ex_particle (x : nat) : particle nat nat nat := Particle [x] [0] [x] (Some x) x.
Definition ex_swarm : swarm nat nat nat unit := Swarm [ex_particle 3; ex_particle 5] [Hood [0; 1] (ex_particle 5)] tt [].
Definition ex_value (x : list nat) : nat := match x with [v] => v | _ => 0 end.
Example C181_swarm_ex : exists s, mw_turns nat nat nat unit (mw_sync_turn nat nat nat unit ex_velocity ex_flight ex_value (linear_update nat nat nat Nat.ltb)) [[1; 0]] [] ex_swarm = NoDraw /\
  mw_turns nat nat nat unit (mw_sync_turn nat nat nat unit ex_velocity ex_flight ex_value (linear_update nat nat nat Nat.ltb)) [[1; 0]; [0; 1]] [false] ex_swarm = Ok s /\ map pos (pop s) = [[6]; [6]] /\ log s = [(1, [6]); (0, [6])].
Proof. eexists. split; [vm_compute; reflexivity|]. split; [vm_compute; reflexivity|]. split; reflexivity. Qed.

(** ** C182 *)
(** with a constructor that takes a population evaluation, eval is a functor that does nothing: no offspring is ever evaluated *)
Theorem C182_offspring_not_evaluated {G F : Type} (off : list (indiv G F)) order : scheduled (length off) order -> apply_seq (fun x => x) order off = Some off.
Proof. intros H. rewrite apply_once by (apply scheduled_once; auto). rewrite map_id. reflexivity. Qed.
Theorem C182_population_evaluation_refuted : ~ (forall (pop_eval : pop_evaluator (G:=nat) (F:=nat) (W:=nat)) sch pop w,
  (forall g off, scheduled (length off) (sch g off)) ->
  mw_easy_ea (fun x => x) sch pop_eval ex_breed ex_replace ex_cont 5 pop w = easy_ea pop_eval ex_breed ex_replace ex_cont 5 pop w).
Proof.
  intros H. assert (Sc : forall off : list (indiv nat nat), scheduled (length off) (seq 0 (length off))).
  { intros off. left. exists 1, [seq 0 (length off)]. split.
    - unfold linear_packages. cbn [Nat.eqb]. rewrite Nat.div_1_r, Nat.mod_1_r. unfold fill_even. cbn [seq map push_rest Nat.mul Nat.add]. rewrite map_id. reflexivity.
    - generalize (seq 0 (length off)). intros l. induction l as [|x l IH]; [constructor; auto|apply (il_step [] x l []); auto]. }
  specialize (H (pop_loop_eval (fun x w => Ok (ex_eval x, w))) (fun _ off => seq 0 (length off)) [Ind 1 None] 0 (fun _ off => Sc off)). clear Sc. vm_compute in H. discriminate H.
Qed.
(** MWModel<eoEasyPSO> is not eoEasyPSO: the particles do not see the improvements of the same turn *)
Theorem C182_not_the_sequential_swarm_refuted : ~ (forall order (s a b : swarm nat nat nat unit), scheduled (length (pop s)) order ->
  mw_turn nat nat nat unit ex_velocity ex_flight ex_value (linear_update nat nat nat Nat.ltb) order s = Ok a ->
  async_turn nat nat nat unit ex_velocity ex_flight ex_value (linear_update nat nat nat Nat.ltb) s = Ok b -> map pos (pop a) = map pos (pop b)).
Proof.
  intros H. specialize (H [1; 0] ex_swarm). assert (Hs : scheduled 2 [1; 0]) by apply C181_ex. assert (E : exists a b, mw_turn nat nat nat unit ex_velocity ex_flight ex_value (linear_update nat nat nat Nat.ltb) [1; 0] ex_swarm = Ok a /\ map pos (pop a) = [[6]; [6]] /\
    async_turn nat nat nat unit ex_velocity ex_flight ex_value (linear_update nat nat nat Nat.ltb) ex_swarm = Ok b /\ map pos (pop b) = [[6]; [7]]).
  { eexists. eexists. split; [vm_compute; reflexivity|]. split; [reflexivity|]. split; [vm_compute; reflexivity|]. reflexivity. }
  destruct E as (a & b & E1 & P1 & E2 & P2). specialize (H a b Hs E1 E2). congruence.
Qed.
Print Assumptions C181_same_as_sequential.
Print Assumptions C181_orders_exist.
Print Assumptions C181_synchronous_swarm.
Print Assumptions C181_any_schedule.
Print Assumptions C181_a_synchronous_swarm.
Print Assumptions C182_offspring_not_evaluated.
Print Assumptions C182_population_evaluation_refuted.
Print Assumptions C182_not_the_sequential_swarm_refuted.
