(** C74-C76: stopping criteria of the local searches, checkpoints of mo and eo. *)
From Coq Require Import List Arith Bool Lia.
From Verif Require Import Lib Outcome OrderSpec OrderLemmas LsModel StopModel StopSpec StopProofs StopCheck.
From Coq Require Import List.
Import ListNotations.
Open Scope nat_scope.

(** ** C74: stopping criteria *)

(** moIterContinuator: goes on after the k-th solution (from 0) exactly when k+1 < maxIter *)
Theorem C74_iterations : forall (T : Type) maxIter (s0 : T) sols x,
  answers_by (asked (iter_cont T maxIter) s0 sols x) (length sols) (fun k b => b = (S k <? maxIter)).
Proof. intros. apply iter_answers. Qed.
Print Assumptions C74_iterations.
Example C74_iterations_ex : asked (iter_cont nat 3) 0 [5; 6; 7; 8] 42 = [true; true; false; false].
Proof. reflexivity. Qed.

(** a local search with that criterion makes at most max(1, maxIter) iterations, and exactly that
    many unless it stopped by itself *)
Theorem C74_iterations_of_a_search : forall (T X : Type) (e : explorer T X) maxIter fuel s x cs ds r,
  ls_run T X nat e (iter_cont T maxIter) fuel s x cs ds = Ok r ->
  length (tl (r_visited r)) <= Nat.max 1 maxIter /\ (r_by_itself r = false -> length (tl (r_visited r)) = Nat.max 1 maxIter).
Proof. exact @run_iterations. Qed.
Print Assumptions C74_iterations_of_a_search.
(** a walk on the numbers that never stops by itself *)
Definition walker : explorer nat unit :=
  Explorer (fun _ x ds => Ok (x, ds)) (fun s x ds => Ok (S s, x, ds)) (fun _ x ds => Ok (false, x, ds)) (fun s x ds => Ok (s, x, ds))
    (fun _ _ x ds => Ok (x, ds)) (fun _ _ => true) (fun s _ => s).
Example C74_iterations_of_a_search_ex :
  match ls_run nat unit nat walker (iter_cont nat 4) 10 7 tt 0 [] with
  | Ok r => r_visited r = [7; 8; 9; 10; 11] /\ r_by_itself r = false
  | _ => False
  end.
Proof. vm_compute. auto. Qed.

(** the answers of any criterion rule any search: all true but the last, which is false unless the search stopped by itself *)
Theorem C74_search_obeys : forall (T X C : Type) (e : explorer T X) (c : continuator T C) fuel s x cs ds r,
  ls_run T X C e c fuel s x cs ds = Ok r ->
  exists n, length (r_visited r) = S (S n) /\ asked c s (tl (r_visited r)) cs = repeat true n ++ [r_by_itself r].
Proof. exact @run_asked. Qed.
Print Assumptions C74_search_obeys.
Example C74_search_obeys_ex :
  match ls_run nat unit unit walker (fit_cont nat nat (fun s => s) Nat.ltb 10) 10 7 tt tt [] with
  | Ok r => r_visited r = [7; 8; 9; 10]
  | _ => False
  end.
Proof. vm_compute. auto. Qed.

(** moFitContinuator: goes on exactly while the fitness is worse than the target *)
Theorem C74_fitness : forall (T F : Type) (value : T -> F) lt target (s0 : T) sols x,
  answers_by (asked (fit_cont T F value lt target) s0 sols x) (length sols)
    (fun k b => exists s, nth_error sols k = Some s /\ b = lt (value s) target).
Proof. intros. apply fit_answers. Qed.
Print Assumptions C74_fitness.
Example C74_fitness_ex : asked (fit_cont nat nat (fun s => s) Nat.ltb 7) 0 [5; 6; 7; 3] tt = [true; true; false; true].
Proof. reflexivity. Qed.

(** moBestNoImproveContinuator against a fixed reference solution: goes on exactly while fewer than
    maxNoImprove solutions were shown, or one of the last maxNoImprove is better than the reference *)
Theorem C74_no_improvement : forall (T F : Type) (value : T -> F) (lt eq : F -> F -> bool) maxNo (s0 : T) sols best c0,
  answers_by (asked (no_improve_cont T F value lt eq maxNo) s0 sols (best, c0)) (length sols)
    (fun k b => b = true <-> S k < maxNo \/ exists j s, j <= k < j + maxNo /\ nth_error sols j = Some s /\
       lt (value s) (value best) = false /\ eq (value s) (value best) = false).
Proof. intros. apply no_improve_answers. Qed.
Print Assumptions C74_no_improvement.
Example C74_no_improvement_ex :
  asked (no_improve_cont nat nat (fun s => s) Nat.ltb Nat.eqb 2) 0 [5; 9; 8; 3; 4; 9] (6, 1) = [true; true; true; true; false; true].
Proof. reflexivity. Qed.

(** given the best-so-far statistic of the same checkpoint as reference, as the constructor suggests,
    the criterion counts every iteration: improvements do not prolong the search *)
Theorem C74_tracked_reference : forall (T F : Type) (value : T -> F) (lt eq : F -> F -> bool) maxNo (s0 : T) sols x,
  (forall a b, lt a b = false -> lt b a = false -> eq b a = true) -> (forall a, lt a a = false) ->
  answers_by (asked (tracked_no_improve T F value lt eq maxNo) s0 sols x) (length sols) (fun k b => b = (S k <? maxNo)).
Proof. intros. now apply tracked_answers. Qed.
Print Assumptions C74_tracked_reference.
Example C74_tracked_reference_ex :
  (forall a b, (a <? b) = false -> (b <? a) = false -> (b =? a) = true) /\
  asked (tracked_no_improve nat nat (fun s => s) Nat.ltb Nat.eqb 3) 0 [5; 6; 7; 8] ((0, true), 0) = [true; true; false; false].
Proof. split; [|reflexivity]. intros a b H1 H2. apply Nat.ltb_ge in H1, H2. apply Nat.eqb_eq. lia. Qed.
(** so "stop after maxNoImprove solutions without improvement of the best" fails: a strictly
    improving sequence is stopped *)
Theorem C74_no_improvement_of_tracked_best : exists (sols : list nat) (s0 maxNo : nat) bs,
  2 <= maxNo /\ (forall j a b, nth_error (s0 :: sols) j = Some a -> nth_error (s0 :: sols) (S j) = Some b -> a < b) /\
  asked (tracked_no_improve nat nat (fun s => s) Nat.ltb Nat.eqb maxNo) s0 sols ((0, true), 0) = bs /\ In false bs.
Proof.
  exists [2; 3; 4], 1, 3. eexists. repeat split; auto; [|cbn; auto].
  intros [|[|[|[|j]]]] a b Ha Hb; cbn in Ha, Hb; try discriminate; try (injection Ha as <-; injection Hb as <-; lia).
Qed.
Print Assumptions C74_no_improvement_of_tracked_best.

(** the evaluation budgets: goes on exactly while fewer than maxEval evaluations were made since init
    (or since the beginning when the counter is not restarted) *)
Theorem C74_evaluations : forall (T W : Type) (used : W -> nat) maxEval restart (s0 : T * W) sols x,
  answers_by (asked (evals_cont T used maxEval restart) s0 sols x) (length sols)
    (fun k b => exists s, nth_error sols k = Some s /\ (b = true <-> used (snd s) - (if restart : bool then used (snd s0) else 0) < maxEval)).
Proof. intros. apply evals_answers. Qed.
Print Assumptions C74_evaluations.
Example C74_evaluations_ex :
  asked (evals_cont nat (fun w => w) 5 true) (0, 10) [(1, 12); (2, 14); (3, 15); (4, 20)] 99 = [true; true; false; false] /\
  asked (evals_cont nat (fun w => w) 15 false) (0, 10) [(1, 12); (2, 14); (3, 15); (4, 20)] 99 = [true; true; false; false].
Proof. split; reflexivity. Qed.

(** moCombinedContinuator goes on exactly while every criterion would on its own, each having been shown every solution *)
Theorem C74_combined : forall (T C : Type) (cs : list (continuator T C)) (s0 : T) sols xs, length xs = length cs ->
  answers_by (asked (combined_cont T cs) s0 sols xs) (length sols)
    (fun k b => b = true <-> forall i c x, nth_error cs i = Some c -> nth_error xs i = Some x -> nth_error (asked c s0 sols x) k = Some true).
Proof. exact @combined_asked. Qed.
Print Assumptions C74_combined.
Example C74_combined_ex : asked (combined_cont nat [iter_cont nat 3; iter_cont nat 2; iter_cont nat 9]) 0 [5; 6; 7] [0; 0; 0] = [true; false; false].
Proof. reflexivity. Qed.

(** ** C75: the checkpoint of the local searches *)

(** with one statistic, or with interval 1: init, iterations and last call as documented *)
Theorem C75_checkpoint : forall (T : Type) (ans : nat -> T -> list (event T) -> bool) (p : mo_parts) (s0 : T) (sols : list T),
  0 < m_interval p -> m_stats p <= 1 \/ m_interval p = 1 ->
  exists n log, mocp_run T ans p s0 sols = Ok (n, log) /\ mo_life p ans (every (m_interval p)) s0 sols n log.
Proof. intros. now apply run_documented. Qed.
Print Assumptions C75_checkpoint.
Example C75_checkpoint_ex :
  let p := MoParts 2 1 1 0 1 2 in
  mocp_run nat (fun i s _ => negb ((i =? 1) && (s =? 8))) p 5 [6; 7; 8; 9] =
  Ok (3, [Ev Init Stat 0 (Some 5); Ev Call Mon 0 None; Ev Init Cont 0 (Some 5); Ev Init Cont 1 (Some 5);
          Ev Call Upd 0 None; Ev Call Mon 0 None; Ev Call Cont 0 (Some 6); Ev Call Cont 1 (Some 6);
          Ev Call Stat 0 (Some 7); Ev Call Upd 0 None; Ev Call Mon 0 None; Ev Call Cont 0 (Some 7); Ev Call Cont 1 (Some 7);
          Ev Call Upd 0 None; Ev Call Mon 0 None; Ev Call Cont 0 (Some 8); Ev Call Cont 1 (Some 8);
          Ev Last Stat 0 (Some 8); Ev Last Upd 0 None; Ev Last Mon 0 None]).
Proof. vm_compute. reflexivity. Qed.

(** in general the counter advances once per statistic: at iteration k (from 0), statistic i out of S
    is computed exactly when 1 + k*S + i is a multiple of the interval *)
Theorem C75_checkpoint_general : forall (T : Type) (ans : nat -> T -> list (event T) -> bool) (p : mo_parts) (s0 : T) (sols : list T),
  m_stats p = 0 \/ 0 < m_interval p ->
  exists n log, mocp_run T ans p s0 sols = Ok (n, log) /\
    mo_life p ans (fun k i => (1 + k * m_stats p + i) mod m_interval p = 0) s0 sols n log.
Proof. intros. now apply run_life. Qed.
Print Assumptions C75_checkpoint_general.
Example C75_checkpoint_general_ex :
  let p := MoParts 3 2 0 0 0 0 in
  mocp_run nat (fun _ _ _ => true) p 5 [6; 7; 8] =
  Ok (3, [Ev Init Stat 0 (Some 5); Ev Init Stat 1 (Some 5); Ev Call Stat 0 (Some 7); Ev Call Stat 1 (Some 8);
          Ev Last Stat 0 (Some 8); Ev Last Stat 1 (Some 8)]).
Proof. vm_compute. reflexivity. Qed.

(** so with two statistics and interval 2 the first one is never computed, in any search *)
Theorem C75_first_statistic_never_computed : forall (T : Type) (ans : nat -> T -> list (event T) -> bool) (p : mo_parts) (s0 : T) sols n log,
  m_interval p = 2 -> m_stats p = 2 -> mocp_run T ans p s0 sols = Ok (n, log) -> forall o, ~ In (Ev Call Stat 0 o) log.
Proof. exact never_computed. Qed.
Print Assumptions C75_first_statistic_never_computed.
Theorem C93_checkpoint_interval_refuted : exists (p : mo_parts) (ans : nat -> nat -> list (event nat) -> bool) s0 sols n log,
  m_interval p = 2 /\ mocp_run nat ans p s0 sols = Ok (n, log) /\ ~ mo_life p ans (every (m_interval p)) s0 sols n log.
Proof.
  set (p := MoParts 2 2 0 0 0 0). destruct (mocp_run nat (fun _ _ _ => true) p 5 [6; 7; 8]) as [[n log]| | |] eqn:E; try (vm_compute in E; discriminate).
  exists p, (fun _ _ _ => true), 5, [6; 7; 8], n, log. repeat split; auto. intros HL.
  assert (Hn : n = 3) by (vm_compute in E; congruence).
  destruct (documented_due nat _ p 5 [6; 7; 8] n log HL) as [s Hs]; [lia|cbn; lia|].
  eapply (never_computed nat _ p); eauto.
Qed.
Print Assumptions C93_checkpoint_interval_refuted.

(** interval 0 with a statistic: remainder by zero at the first iteration *)
Theorem C75_interval_zero_outside : forall (T : Type) (ans : nat -> T -> list (event T) -> bool) (p : mo_parts) (s0 s : T) sols,
  m_interval p = 0 -> 0 < m_stats p -> mocp_run T ans p s0 (s :: sols) = UB.
Proof.
  intros T ans p s0 s sols Hi Hs. unfold mocp_run. cbn [mocp_loop]. unfold mocp_call.
  destruct (m_stats p) as [|n] eqn:E; [lia|]. unfold mocp_init. rewrite E. cbn [fst snd seq stats_loop]. rewrite Hi. reflexivity.
Qed.
Print Assumptions C75_interval_zero_outside.

(** moBestSoFarStat, computed at each iteration: the best solution shown since init, the first one in case of ties *)
Theorem C75_best_so_far : forall (T F : Type) (value : T -> F) (lt : F -> F -> bool) (reInit : bool) (s0 : T) sols old firstTime,
  strict_weak_order lt -> reInit = true \/ firstTime = true ->
  first_best value lt (s0 :: sols)
    (fst (fold_left (fun x s => best_stat_call T F value lt s x) sols (best_stat_init T reInit s0 (old, firstTime)))).
Proof.
  intros T F value lt reInit s0 sols old firstTime Hw Hr.
  assert (E : exists f, best_stat_init T reInit s0 (old, firstTime) = (s0, f)).
  { unfold best_stat_init. destruct reInit; cbn; eauto. destruct Hr as [|Hr]; [discriminate|]. rewrite Hr. eauto. }
  destruct E as [f ->]. apply (best_stat_spec value lt Hw sols [s0] s0 f).
  exists 0. split; auto. intros [|j] s; cbn; [|now destruct j]. intros [= <-]. split; [apply (swo_irrefl _ Hw)|lia].
Qed.
Print Assumptions C75_best_so_far.
Example C75_best_so_far_ex :
  fold_left (fun x s => best_stat_call (nat * nat) nat fst Nat.ltb s x) [(4, 1); (7, 2); (7, 3); (2, 4)]
    (best_stat_init (nat * nat) false (5, 0) ((9, 9), true)) = ((7, 2), false).
Proof. reflexivity. Qed.
(** without re-initialisation it goes on from the best of the earlier runs *)
Theorem C75_best_so_far_kept : forall (T F : Type) (value : T -> F) (lt : F -> F -> bool) (s0 : T) shown sols best,
  strict_weak_order lt -> first_best value lt shown best ->
  first_best value lt (shown ++ sols)
    (fst (fold_left (fun x s => best_stat_call T F value lt s x) sols (best_stat_init T false s0 (best, false)))).
Proof. intros T F value lt s0 shown sols best Hw Hb. apply (best_stat_spec value lt Hw sols shown best false Hb). Qed.
Print Assumptions C75_best_so_far_kept.
Example C75_best_so_far_kept_ex : first_best (fun s => s) Nat.ltb [3; 8; 8] 8 /\
  fst (fold_left (fun x s => best_stat_call nat nat (fun s => s) Nat.ltb s x) [4; 7] (best_stat_init nat false 1 (8, false))) = 8.
Proof.
  split; [|reflexivity]. exists 1. split; auto. intros [|[|[|[|j]]]] s; cbn; try discriminate; intros [= <-]; split; auto; lia.
Qed.

(** ** C76: the checkpoint of the evolutionary algorithms, and the savers *)

Theorem C76_checkpoint : forall (I : Type) (sort : list I -> list I) ans (p : eo_parts) pops n stopped log,
  eocp_run I sort ans p pops [] = (n, stopped, log) -> eo_life sort p ans pops n stopped log.
Proof. intros I sort ans p pops n stopped log H. exact (eo_run_spec I sort ans p pops [] n stopped log H). Qed.
Print Assumptions C76_checkpoint.
Example C76_checkpoint_ex :
  eocp_run nat (fun l => rev l) (fun i pop _ => negb ((i =? 0) && (length pop =? 3))) (EoParts 1 1 0 1 2) [[1; 2]; [3; 4; 5]; [6]] [] =
  (2, true, [Ev Call SortedStat 0 (Some [2; 1]); Ev Call Stat 0 (Some [1; 2]); Ev Call Mon 0 None; Ev Call Cont 0 (Some [1; 2]); Ev Call Cont 1 (Some [1; 2]);
             Ev Call SortedStat 0 (Some [5; 4; 3]); Ev Call Stat 0 (Some [3; 4; 5]); Ev Call Mon 0 None; Ev Call Cont 0 (Some [3; 4; 5]); Ev Call Cont 1 (Some [3; 4; 5]);
             Ev Last SortedStat 0 (Some [5; 4; 3]); Ev Last Stat 0 (Some [3; 4; 5]); Ev Last Mon 0 None]).
Proof. vm_compute. reflexivity. Qed.

(** eoCountedStateSaver: after [n] generations the files added are numbered by the multiples of the
    interval among the generations run, and the last call adds the final one if asked to *)
Theorem C76_counted_saver : forall interval n c files, 0 < interval ->
  exists l, saver_calls interval n (c, files) = Ok (c + n, files ++ l) /\ multiples_in interval (S c) (S c + n) l /\
    forall b, snd (saver_last b (c + n, files ++ l)) = files ++ l ++ (if b : bool then [c + n] else []).
Proof.
  intros d n c files Hd. eexists. split; [now apply saver_spec|]. split; [now apply multiples_filter|].
  intros []; cbn; [now rewrite <- app_assoc|now rewrite app_nil_r].
Qed.
Print Assumptions C76_counted_saver.
Example C76_counted_saver_ex : saver_calls 3 8 (0, []) = Ok (8, [3; 6]) /\ saver_last true (8, [3; 6]) = (8, [3; 6; 8]).
Proof. split; reflexivity. Qed.
(** moCounterMonitorSaver: the monitors are called at calls 0, interval, 2 interval... *)
Theorem C76_counter_monitor : forall interval n, 0 < interval ->
  exists l, monsaver_calls interval n (0, []) = Ok (n, l) /\ multiples_in interval 0 n l.
Proof. intros d n Hd. eexists. split; [rewrite monsaver_spec by auto; reflexivity|]. cbn [app]. apply (multiples_filter d 0 n Hd). Qed.
Print Assumptions C76_counter_monitor.
Example C76_counter_monitor_ex : monsaver_calls 3 8 (0, []) = Ok (8, [0; 3; 6]).
Proof. reflexivity. Qed.
(** an interval of 0 is a remainder by zero for both *)
Theorem C76_interval_zero_outside : forall n st, saver_calls 0 (S n) st = UB /\ monsaver_calls 0 (S n) st = UB.
Proof. intros n [c l]. split; reflexivity. Qed.
Print Assumptions C76_interval_zero_outside.
