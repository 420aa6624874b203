(** C28 and C29: theorems about parallel scheduling. *)
From Coq Require Import List Arith Lia Bool Permutation.
From Verif Require Import Outcome Lib SchedModel SchedSpec SchedProofs SchedProg SchedLive.
Import ListNotations.

(** ** C28 *)
(** with at least one worker the packages exist, there is one per worker, every individual
    is in exactly one package and the loads differ by at most one *)
Theorem C28_linear :
  forall n w, 0 < w -> exists ps, linear_packages n w = Ok ps /\ length ps = w /\ each_once n (concat ps) /\ balanced ps.
Proof.
  intros n w Hw. destruct (linear_total n w Hw) as [ps E]. exists ps. split; auto.
  destruct (linear_sizes n w ps E) as [L S]. split; auto. split; [eapply linear_once; eauto|].
  intros p q Hp Hq. apply S in Hp, Hq. lia.
Qed.
Print Assumptions C28_linear.
(** whatever the interleaving of the workers, the functor is applied to every individual
    exactly once and the population becomes its image *)
Theorem C28_linear_result :
  forall A (f : A -> A) pop w ps order, linear_packages (length pop) w = Ok ps -> interleaving ps order ->
  apply_seq f order pop = Some (map f pop).
Proof.
  intros A f pop w ps order H Hi. apply apply_once. unfold each_once. rewrite (interleaving_perm ps order Hi).
  exact (linear_once _ _ _ H).
Qed.
Print Assumptions C28_linear_result.
(** no worker at all is a division by zero *)
Theorem C28_no_worker : forall n, linear_packages n 0 = UB.
Proof. reflexivity. Qed.
Print Assumptions C28_no_worker.
Example C28_ex :
  linear_packages 8 3 = Ok [[0; 1; 6]; [2; 3; 7]; [4; 5]] /\ linear_packages 2 3 = Ok [[0]; [1]; []] /\
  interleaving [[0; 1]; [2]] [0; 2; 1] /\ apply_seq (fun x => x * x) [0; 2; 1] [3; 4; 5] = Some [9; 16; 25].
Proof.
  split; [reflexivity|]. split; [reflexivity|]. split; [|reflexivity].
  apply (il_step [] 0 [1] [[2]]). apply (il_step [[1]] 2 [] []). apply (il_step [] 1 [] [[]]).
  constructor. repeat constructor.
Qed.

(** ** C29 *)
(** in every interleaving, no individual is ever processed twice *)
Theorem C29_never_twice :
  forall n plans sched s, exec n sched (init plans) = Some s -> NoDup (applied s) /\ forall x, In x (applied s) -> x < n.
Proof. intros n plans sched s H. eapply never_twice, exec_inv; [apply init_inv|exact H]. Qed.
Print Assumptions C29_never_twice.
(** when the call returns, every individual was processed exactly once, all the workers have
    ended and the packages and mutexes are ready for the next call *)
Theorem C29_all_once :
  forall n plans sched s, exec n sched (init plans) = Some s -> dpc s = DEnd ->
  each_once n (applied s) /\ Forall (fun w => wpc w = WEnd /\ package w = [] /\ mutex w = Free) (workers s).
Proof.
  intros n plans sched s H Hd. assert (Hi : inv n s) by (eapply exec_inv; [apply init_inv|exact H]).
  destruct (end_all_done n s Hi Hd) as [A B]. split; auto. apply Forall_forall. intros w Hw.
  split; [|rewrite Forall_forall in B; auto]. apply In_nth_error in Hw as [i Hw].
  destruct Hi as [_ _ _ I4]. rewrite Hd in I4. cbn in I4. destruct I4 as (_ & _ & He). eauto.
Qed.
Print Assumptions C29_all_once.
(** the population then is the image of the initial one by the functor *)
Theorem C29_result :
  forall A (f : A -> A) pop plans sched s, exec (length pop) sched (init plans) = Some s -> dpc s = DEnd ->
  apply_seq f (applied s) pop = Some (map f pop).
Proof. intros A f pop plans sched s H Hd. apply apply_once. eapply C29_all_once; eauto. Qed.
Print Assumptions C29_result.
(** with at least one worker, no interleaving leads to a state from which the call cannot
    return any more: neither deadlock nor livelock trap *)
Theorem C29_can_finish :
  forall n plans sched s, plans <> [] -> exec n sched (init plans) = Some s ->
  exists sched' s', exec n sched' s = Some s' /\ dpc s' = DEnd.
Proof.
  intros n plans sched s Hp H. destruct (can_finish n s) as (s' & (sched' & R) & D).
  - eapply exec_inv; [apply init_inv|exact H].
  - rewrite (exec_length _ _ _ _ H). cbn. rewrite map_length. destruct plans; [congruence|cbn; lia].
  - eauto.
Qed.
Print Assumptions C29_can_finish.
(** without a worker and with a non-empty population, it never returns *)
Theorem C29_no_worker :
  forall n sched s, 0 < n -> exec n sched (init []) = Some s -> dpc s <> DEnd.
Proof.
  intros n sched s Hn H. 
  assert (G : forall sched s s', workers s = [] -> counter s = 0 -> (dpc s = DStart 0 \/ dpc s = DLoop \/ dpc s = DFor 0) ->
    exec n sched s = Some s' -> dpc s' <> DEnd).
  { clear - Hn. induction sched as [|who sched IH]; intros s s' Hw Hc Hd H; cbn [exec] in H.
    - assert (s = s') as -> by congruence. intros X. rewrite X in Hd. intuition discriminate.
    - apply obind_some in H as (s1 & H1 & H). destruct who as [i|]; cbn [step] in H1.
      + unfold worker_step in H1. rewrite Hw in H1. destruct i; discriminate.
      + unfold dispatcher_step in H1. destruct Hd as [Hd|[Hd|Hd]]; rewrite Hd, ?Hw, ?Hc in H1; cbn in H1.
        * inversion H1; subst. eapply IH; [..|exact H]; auto.
        * destruct n; [lia|]. cbn in H1. inversion H1; subst. eapply IH; [..|exact H]; auto.
        * inversion H1; subst. eapply IH; [..|exact H]; auto. }
  eapply G; [..|exact H]; auto.
Qed.
Print Assumptions C29_no_worker.
(** the test of a package by the dispatcher is not protected: it can be about to read the
    package that the worker, in its critical section, is about to clear (a data race) *)
Theorem C92_unprotected_read_refuted :
  exists n plans sched s w, exec n sched (init plans) = Some s /\ dpc s = DFor 0 /\
  nth_error (workers s) 0 = Some w /\ wpc w = WClear /\ mutex w = Worker /\
  (exists s', dispatcher_step n s = Some s') /\ (exists s', worker_step 0 s = Some s').
Proof.
  exists 3, [0], [None; None; None; None; None; None; None; None; None; None; None; Some 0; Some 0; Some 0; Some 0; Some 0]. 
  eexists. eexists. split; [vm_compute; reflexivity|]. repeat split; vm_compute; eauto.
Qed.
Print Assumptions C92_unprotected_read_refuted.
Example C29_ex :
  exists sched s, exec 3 sched (init [0; 0]) = Some s /\ dpc s = DEnd /\ applied s = [2; 0; 1].
Proof.
  set (D := @None nat). set (A := Some 0). set (B := Some 1).
  exists ([D; D; D; D; D; D; D; D; D; D; D; D; D; D; D] ++ [B; B; B; B; B; B] ++ [A; A; A; A; A; A; A] ++ [D; D; D] ++ [A; A; B; B; D; D; D]).
  eexists. split; [vm_compute; reflexivity|]. split; reflexivity.
Qed.
