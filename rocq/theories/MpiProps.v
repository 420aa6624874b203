(** * Properties of the eo::mpi layer: C31 and C32 *)

From Coq Require Import ZArith List Bool Lia Permutation.
From Verif Require Import Outcome Lib MpiModel MpiSpec MpiStatic MpiWorker MpiApply MpiInst.
Import ListNotations.
Local Open Scope Z_scope.

(** ** C31: the static assignment is balanced *)

(** The shares: each is the quotient or one more, and they add up. *)
Theorem C31_shares_balanced : forall (ws : list Z) runs i,
  ws <> [] -> NoDup ws -> 1 <= runs ->
  (share (Z.of_nat (length ws)) runs i = runs / Z.of_nat (length ws) \/
   share (Z.of_nat (length ws)) runs i = runs / Z.of_nat (length ws) + 1) /\
  total_of (share (Z.of_nat (length ws)) runs) (seq 0 (length ws)) = runs.
Proof.
  intros ws runs i NE ND HR. split.
  - unfold share. destruct (_ <? _); [now right|left; lia].
  - rewrite <- (shares_total ws runs ND NE) at 2. unfold shares.
    rewrite <- (total_of_map (pos ws) (share (Z.of_nat (length ws)) runs) ws).
    f_equal. rewrite <- (map_id (seq 0 (length ws))). apply (map_pos (fun i => i) ws ND).
Qed.
Print Assumptions C31_shares_balanced.

(** The assignment is built without error and every call a correct user makes
    succeeds: after any history, get answers, and outstanding jobs can be
    confirmed. *)
Theorem C31_never_fails : forall s1 (ws : list Z) runs,
  ws <> [] -> NoDup ws -> ~ In (-1) ws -> 1 <= runs ->
  exists s0, static_init s1 ws runs = Ok s0 /\
  forall s h, history s0 s h ->
    (exists s' r, static_get s = Ok (s', r)) /\
    (forall r, r <> -1 -> back r h < handed r h -> exists s', static_confirm s r = Ok s').
Proof.
  intros s1 ws runs NE ND HP HR.
  destruct (static_init_ok s1 ws runs ND NE HR) as (s0 & E & _). exists s0. split; [exact E|].
  intros s h H. split.
  - destruct (get_after ws runs s1 s0 ND NE HR HP E s h H) as (s' & r & G & _). eauto.
  - intros r Hr HL. exact (confirm_after ws runs s1 s0 ND NE HR HP E s h r H Hr HL).
Qed.
Print Assumptions C31_never_fails.

(** After any history, get hands the first idle worker that has not had its
    share; it answers -1 only if there is none.  In particular it never hands a
    job to a busy worker. *)
Theorem C31_get : forall s1 s0 (ws : list Z) runs s h s' r,
  ws <> [] -> NoDup ws -> ~ In (-1) ws -> 1 <= runs ->
  static_init s1 ws runs = Ok s0 -> history s0 s h -> static_get s = Ok (s', r) ->
  (exists i, nth_error ws i = Some r /\ idle h r = true /\
     handed r h < share (Z.of_nat (length ws)) runs i /\
     forall j w, (j < i)%nat -> nth_error ws j = Some w ->
       idle h w = false \/ handed w h = share (Z.of_nat (length ws)) runs j)
  \/ (r = -1 /\ forall j w, nth_error ws j = Some w ->
       idle h w = false \/ handed w h = share (Z.of_nat (length ws)) runs j).
Proof.
  intros s1 s0 ws runs s h s' r NE ND HP HR E H HG.
  destruct (get_after ws runs s1 s0 ND NE HR HP E s h H) as (t & q & G & D).
  rewrite HG in G. injection G as <- <-. exact D.
Qed.
Print Assumptions C31_get.

(** What the user sees after any history: the idle workers and their number are
    right, nobody has had more than its share or has two jobs at once. *)
Theorem C31_after_any_history : forall s1 s0 (ws : list Z) runs s h,
  ws <> [] -> NoDup ws -> ~ In (-1) ws -> 1 <= runs ->
  static_init s1 ws runs = Ok s0 -> history s0 s h ->
  static_idles s = Ok (filter (idle h) ws) /\
  static_avail s = Z.of_nat (length (filter (idle h) ws)) /\
  (forall i w, nth_error ws i = Some w ->
     0 <= handed w h <= share (Z.of_nat (length ws)) runs i /\
     0 <= handed w h - back w h <= 1) /\
  total_of (fun w => handed w h) ws <= runs.
Proof.
  intros s1 s0 ws runs s h NE ND HP HR E H.
  exact (state_after ws runs s1 s0 ND NE HR HP E s h H).
Qed.
Print Assumptions C31_after_any_history.

(** When the jobs are exhausted each worker has had exactly its share, and they
    are not exhausted before [runs] jobs were handed out. *)
Theorem C31_exact_shares : forall s1 s0 (ws : list Z) runs s h,
  ws <> [] -> NoDup ws -> ~ In (-1) ws -> 1 <= runs ->
  static_init s1 ws runs = Ok s0 -> history s0 s h ->
  (forall w, In w ws -> idle h w = true) -> static_get s = Ok (s, -1) ->
  (forall i w, nth_error ws i = Some w -> handed w h = share (Z.of_nat (length ws)) runs i) /\
  total_of (fun w => handed w h) ws = runs.
Proof.
  intros s1 s0 ws runs s h NE ND HP HR E H.
  exact (exhausted ws runs s1 s0 ND NE HR HP E s h H).
Qed.
Print Assumptions C31_exact_shares.

Theorem C31_not_exhausted_early : forall s1 s0 (ws : list Z) runs s h,
  ws <> [] -> NoDup ws -> ~ In (-1) ws -> 1 <= runs ->
  static_init s1 ws runs = Ok s0 -> history s0 s h ->
  total_of (fun w => handed w h) ws < runs ->
  (exists w, In w ws /\ idle h w = false) \/
  exists s' r, static_get s = Ok (s', r) /\ In r ws.
Proof.
  intros s1 s0 ws runs s h NE ND HP HR E H.
  exact (not_exhausted ws runs s1 s0 ND NE HR HP E s h H).
Qed.
Print Assumptions C31_not_exhausted_early.

(** Reinitialising gives a fresh assignment over the same workers. *)
Theorem C31_reinit : forall s1 s0 (ws : list Z) runs s h runs',
  ws <> [] -> NoDup ws -> ~ In (-1) ws -> 1 <= runs -> 1 <= runs' ->
  static_init s1 ws runs = Ok s0 -> history s0 s h ->
  static_reinit s runs' = static_init no_static ws runs'.
Proof.
  intros s1 s0 ws runs s h runs' NE ND HP HR HR' E H.
  destruct (history_inv ws runs s1 s0 ND NE HR HP E s h H) as (bz & rem & I).
  pose proof (si_ranks _ _ _ _ (hi_st _ _ _ _ _ _ I)) as ER.
  unfold static_reinit, static_init. rewrite ER.
  rewrite (proj2 (Z.leb_gt runs' 0)) by lia. reflexivity.
Qed.
Print Assumptions C31_reinit.

(** Findings.  Read strictly, the constructor writes past the size of a vector
    that was only reserved, for every non-empty list of workers. *)
Theorem C92_reserved_not_resized_refuted : forall s1 (ws : list Z) runs,
  ws <> [] -> 1 <= runs -> strict_init s1 ws runs = UB.
Proof.
  intros s1 ws runs NE HR. unfold strict_init.
  rewrite (proj2 (Z.ltb_lt 0 runs)) by lia.
  rewrite (proj2 (Z.eqb_neq (Z.of_nat (length ws)) 0)); [reflexivity|].
  destruct ws; [contradiction|]. cbn [length]. lia.
Qed.
Print Assumptions C92_reserved_not_resized_refuted.

(** No worker at all: a division by zero; no run: get reads what was never
    reserved; an unknown rank: confirm writes at index -1. *)
Theorem C31_degenerate_outside :
  (forall s1 runs, 1 <= runs -> static_init s1 [] runs = UB) /\
  (forall ws runs s, ws <> [] -> runs <= 0 -> static_init no_static ws runs = Ok s -> static_get s = UB) /\
  (forall s r, ~ In r (real_rank s) -> static_confirm s r = UB).
Proof.
  split; [|split].
  - intros s1 runs HR. unfold static_init. rewrite (proj2 (Z.leb_gt runs 0)) by lia. reflexivity.
  - intros ws runs s NE HR E. unfold static_init in E. rewrite (proj2 (Z.leb_le runs 0)) in E by exact HR.
    injection E as <-. destruct ws; [contradiction|]. reflexivity.
  - intros s r H. unfold static_confirm. now rewrite (index_of_none _ _ _ H).
Qed.
Print Assumptions C31_degenerate_outside.

(** A rank listed twice is confirmed only at its first place: the second place
    stays busy for ever. *)
Theorem C31_same_rank_twice_outside :
  exists s0 s1 s2 s3 s4, static_init no_static [7; 7] 2 = Ok s0 /\
    static_get s0 = Ok (s1, 7) /\ static_get s1 = Ok (s2, 7) /\
    static_confirm s2 7 = Ok s3 /\ static_confirm s3 7 = Ok s4 /\
    static_idles s4 = Ok [7] /\ static_avail s4 = 2 /\ att s4 = [-1; 1].
Proof. do 5 eexists. repeat split. Qed.
Print Assumptions C31_same_rank_twice_outside.

(** The theorems apply: three workers, seven runs. *)
Example C31_example :
  exists s0, static_init no_static [1; 2; 3] 7 = Ok s0 /\ att s0 = [3; 2; 2] /\
  exists s, history s0 s [Got 1; Got 2; Confirmed 1; Got 1] /\
    static_idles s = Ok [3].
Proof.
  eexists. split; [reflexivity|]. split; [reflexivity|].
  eexists. split.
  - eapply (h_get _ _ [Got 1; Got 2; Confirmed 1]).
    + eapply (h_confirm _ _ [Got 1; Got 2] _ 1).
      * eapply (h_get _ _ [Got 1]).
        { eapply (h_get _ _ []); [constructor|reflexivity]. }
        { reflexivity. }
      * discriminate.
      * reflexivity.
      * reflexivity.
    + reflexivity.
  - reflexivity.
Qed.

(** ** C32: the distributed apply *)

(** A run is any interleaving of the master's and the workers' steps; it is
    "finished" when the master has terminated the jobs and every worker has
    left its loop. *)

(** With the dynamic assignment: whatever the interleaving, nothing undefined
    happens, no worker ever has two tasks, the run cannot go on for ever and
    cannot get stuck (even if no send is buffered), and at the end every table
    is the image of the original, the function having been called exactly once
    per element. *)
Theorem C32_apply_is_map_dynamic : forall (T : Type) (f : T -> T) packet ws tables ls s,
  (1 <= packet)%nat -> ws <> [] -> NoDup ws -> (forall w, In w ws -> 0 < w) ->
  run f packet dyn_get dyn_avail dyn_confirm dyn_idles (start ws tables) ls s ->
  (length ls <= bound ws tables)%nat /\
  (forall l, step f packet dyn_get dyn_avail dyn_confirm dyn_idles s l <> Bad) /\
  (forall w, (arrays (wk s w) <= 1)%nat /\ (continues (wk s w) <= 1)%nat) /\
  (~ finished ws s -> exists l s',
     step f packet dyn_get dyn_avail dyn_confirm dyn_idles s l = Next s' /\ ~ sent_pending ws s l) /\
  (finished ws s ->
     results s = map (map f) tables /\ Permutation (calls s) (concat tables) /\
     (forall w, wk s w = mkWorker (if in_dec Z.eq_dec w ws then WLeft else WOrder) [] [] []) /\
     exists l, dyn_idles (alg s) = Ok l /\ Permutation l ws).
Proof.
  intros T f packet ws tables ls s HP NE ND HW H.
  exact (all_runs f packet ws ND HW HP _ _ _ _ _ (dyn_contract ws ND NE) tables ws _ ls s
           (dyn_start ws _) (Nat.le_refl _) H).
Qed.
Print Assumptions C32_apply_is_map_dynamic.

(** Every run can be carried on to the end. *)
Theorem C32_always_ends_dynamic : forall (T : Type) (f : T -> T) packet ws tables ls s,
  (1 <= packet)%nat -> ws <> [] -> NoDup ws -> (forall w, In w ws -> 0 < w) ->
  run f packet dyn_get dyn_avail dyn_confirm dyn_idles (start ws tables) ls s ->
  exists more s', run f packet dyn_get dyn_avail dyn_confirm dyn_idles (start ws tables) (ls ++ more) s' /\
    finished ws s'.
Proof.
  intros T f packet ws tables ls s HP NE ND HW H.
  exact (completes f packet ws ND HW HP _ _ _ _ _ (dyn_contract ws ND NE) tables ws _ ls s
           (dyn_start ws _) (Nat.le_refl _) H).
Qed.
Print Assumptions C32_always_ends_dynamic.

(** With the static assignment, provided it was created for at least as many
    runs as there are packets. *)
Theorem C32_apply_is_map_static : forall (T : Type) (f : T -> T) packet ws runs a0 a tables ls s,
  (1 <= packet)%nat -> ws <> [] -> NoDup ws -> (forall w, In w ws -> 0 < w) -> 1 <= runs ->
  static_init a0 ws runs = Ok a ->
  Z.of_nat (list_sum (map (fun t => packets packet (length t)) tables)) <= runs ->
  run f packet static_get static_avail static_confirm static_idles (start a tables) ls s ->
  (length ls <= bound ws tables)%nat /\
  (forall l, step f packet static_get static_avail static_confirm static_idles s l <> Bad) /\
  (forall w, (arrays (wk s w) <= 1)%nat /\ (continues (wk s w) <= 1)%nat) /\
  (~ finished ws s -> exists l s',
     step f packet static_get static_avail static_confirm static_idles s l = Next s' /\
     ~ sent_pending ws s l) /\
  (finished ws s ->
     results s = map (map f) tables /\ Permutation (calls s) (concat tables) /\
     (forall w, wk s w = mkWorker (if in_dec Z.eq_dec w ws then WLeft else WOrder) [] [] []) /\
     exists l, static_idles (alg s) = Ok l /\ Permutation l ws).
Proof.
  intros T f packet ws runs a0 a tables ls s HP NE ND HW HR HI HN H.
  exact (all_runs f packet ws ND HW HP _ _ _ _ _ (static_contract ws) tables a _ ls s
           (static_start a0 ws runs a _ ND NE HR HI HN) (Nat.le_refl _) H).
Qed.
Print Assumptions C32_apply_is_map_static.

Theorem C32_always_ends_static : forall (T : Type) (f : T -> T) packet ws runs a0 a tables ls s,
  (1 <= packet)%nat -> ws <> [] -> NoDup ws -> (forall w, In w ws -> 0 < w) -> 1 <= runs ->
  static_init a0 ws runs = Ok a ->
  Z.of_nat (list_sum (map (fun t => packets packet (length t)) tables)) <= runs ->
  run f packet static_get static_avail static_confirm static_idles (start a tables) ls s ->
  exists more s', run f packet static_get static_avail static_confirm static_idles (start a tables) (ls ++ more) s' /\
    finished ws s'.
Proof.
  intros T f packet ws runs a0 a tables ls s HP NE ND HW HR HI HN H.
  exact (completes f packet ws ND HW HP _ _ _ _ _ (static_contract ws) tables a _ ls s
           (static_start a0 ws runs a _ ND NE HR HI HN) (Nat.le_refl _) H).
Qed.
Print Assumptions C32_always_ends_static.

(** ** Findings: outside these conditions the job can wait for ever *)

Fixpoint exec {T A} (stp : world T A -> label -> outcome T A) (s : world T A) (ls : list label)
    : option (world T A) :=
  match ls with
  | [] => Some s
  | l :: ls' => match stp s l with Next s' => exec stp s' ls' | _ => None end
  end.

Lemma exec_run {T A} (f : T -> T) packet (g : A -> res (A * Z)) av cf idl s ls s' :
  exec (step f packet g av cf idl) s ls = Some s' -> run f packet g av cf idl s ls s'.
Proof.
  revert s. induction ls as [|l ls IH]; intros s H; cbn [exec] in H.
  - injection H as <-. constructor.
  - destruct (step f packet g av cf idl s l) as [| |s1] eqn:E; try discriminate.
    econstructor; [exact E|]. now apply IH.
Qed.

(** Stuck: no process can move although the master has not finished. *)
Definition stuck {T A} (stp : world T A -> label -> outcome T A) (s : world T A) : Prop :=
  pc s <> MEnd /\ forall l, stp s l = Blocked.

Lemma exec_stuck {T A} (f : T -> T) packet (g : A -> res (A * Z)) av cf idl s0 ls :
  match exec (step f packet g av cf idl) s0 ls with
  | Some s => stuck (step f packet g av cf idl) s
  | None => False
  end ->
  exists s, run f packet g av cf idl s0 ls s /\ stuck (step f packet g av cf idl) s.
Proof.
  intros H. destruct (exec (step f packet g av cf idl) s0 ls) as [s|] eqn:E; [|contradiction].
  exists s. split; [now apply exec_run|exact H].
Qed.

(** A static assignment with fewer runs than packets: after the last run the
    master waits for an answer that nobody will send. *)
Theorem C32_static_too_few_runs_outside :
  exists a ls s, static_init no_static [1] 1 = Ok a /\
    run Nat.succ 1 static_get static_avail static_confirm static_idles (start a [[10; 20]%nat]) ls s /\
    stuck (step Nat.succ 1 static_get static_avail static_confirm static_idles) s.
Proof.
  exists (mkStatic [1] [1] [false] 1).
  exists [LMaster; LMaster; LMaster; LMaster; LMaster; LMaster;
          LWorker 1; LWorker 1; LWorker 1; LWorker 1; LWorker 1; LAnswer 1].
  assert (W : exists s, run Nat.succ 1 static_get static_avail static_confirm static_idles
                (start (mkStatic [1] [1] [false] 1) [[10; 20]%nat]) 
                [LMaster; LMaster; LMaster; LMaster; LMaster; LMaster;
                 LWorker 1; LWorker 1; LWorker 1; LWorker 1; LWorker 1; LAnswer 1] s /\
              stuck (step Nat.succ 1 static_get static_avail static_confirm static_idles) s).
  { apply exec_stuck. vm_compute. split; [discriminate|]. intros [|w|w]; [reflexivity| |];
    destruct w as [|[p|p|]|p]; reflexivity. }
  destruct W as (s & W1 & W2). exists s. auto.
Qed.
Print Assumptions C32_static_too_few_runs_outside.

(** No worker: the master waits for ever. *)
Theorem C32_no_worker_outside :
  exists ls s, run Nat.succ 1 dyn_get dyn_avail dyn_confirm dyn_idles (start [] [[10]%nat]) ls s /\
    stuck (step Nat.succ 1 dyn_get dyn_avail dyn_confirm dyn_idles) s.
Proof.
  exists [LMaster; LMaster]. apply exec_stuck. vm_compute.
  split; [discriminate|]. intros [|w|w]; reflexivity.
Qed.
Print Assumptions C32_no_worker_outside.

(** A worker of rank 0 (possible when the master has another rank) is taken for
    the answer "nobody": the job never ends. *)
Theorem C32_rank_zero_outside :
  exists ls s, run Nat.succ 1 dyn_get dyn_avail dyn_confirm dyn_idles (start [0] [[10]%nat]) ls s /\
    stuck (step Nat.succ 1 dyn_get dyn_avail dyn_confirm dyn_idles) s.
Proof.
  exists [LMaster; LMaster]. apply exec_stuck. vm_compute.
  split; [discriminate|]. intros [|w|w]; reflexivity.
Qed.
Print Assumptions C32_rank_zero_outside.

(** The theorems apply: two workers, two tables, packets of two; the answers of
    the first packets come back in the opposite order. *)
Definition slowly (w : Z) (n : nat) : list label := repeat (LWorker w) n.

Example C32_example :
  match exec (step Nat.succ 2 dyn_get dyn_avail dyn_confirm dyn_idles)
    (start [1; 2] [[10; 20; 30]%nat; [5]%nat])
    (repeat LMaster 9 ++ slowly 1 5 ++ slowly 2 6 ++ [LMaster; LMaster]
     ++ [LAnswer 1; LMaster; LAnswer 2; LMaster; LMaster]) with
  | Some s => results s = [[11; 21; 31]%nat] /\ pc s = MNext /\ calls s = [30; 10; 20]%nat
  | None => False
  end.
Proof. vm_compute. repeat split. Qed.
