(** Model of the master-worker algorithms of smp: smp/src/MWModel.cpp and smp/src/MWAlgo/eoEasyEA.cpp, eoEasyPSO.cpp, eoSyncEasyPSO.cpp.

    The evaluation is a function of one individual without shared state, applied in one step (as in [SchedModel]). [sch g off] is the order
    in which the workers apply it to the population [off] at generation [g]: which orders exist is the business of the scheduler. *)
From Coq Require Import List Arith Bool.
From Verif Require Import Lib Outcome BreedModel AlgoModel SchedModel SchedSpec PsoModel.
From Coq Require Import List.
Import ListNotations.
Open Scope nat_scope.

(** an order in which the scheduler may apply the functor to [n] individuals: an interleaving of the packages of the linear policy, or the
    order of a complete execution of the progressive one (scheduler.cpp:43-149) *)
Definition scheduled (n : nat) (order : list nat) : Prop :=
  (exists workers ps, linear_packages n workers = Ok ps /\ interleaving ps order) \/
  (exists plans sched s, exec n sched (init plans) = Some s /\ dpc s = DEnd /\ order = applied s).

Section Ea.
Context {G F W : Type}.
Notation I := (indiv G F).
(** the evaluation of one individual *)
Variable eval : I -> I.
Variable sch : nat -> list I -> list nat.
Variable pop_eval : pop_evaluator (G:=G) (F:=F) (W:=W).
Variable breed : list I -> W -> res (list I * W).
Variable replace : list I -> list I -> W -> res (list I * W).
Variable cont : list I -> W -> res (bool * W).
(** the loop of MWModel<eoEasyEA> (MWAlgo/eoEasyEA.cpp:19-44), with the trace of [ea_loop]; [g]: generations done *)
Fixpoint mw_ea_loop (fuel g : nat) (pop : list I) (w : W) : res (list I * list (list I) * W) :=
  match fuel with
  | 0 => NoDraw
  | S f =>
      let! (off, w1) := breed pop w in
      let! off1 := of_opt (apply_seq eval (sch g off) off) in
      let! (pop2, w3) := replace pop off1 w1 in
      if negb (length pop2 =? length pop) then Throw
      else
        let! (b, w4) := cont pop2 w3 in
        if (b : bool) then
          let! (r, tr, w5) := mw_ea_loop f (S g) pop2 w4 in Ok (r, pop2 :: tr, w5)
        else Ok (pop2, [pop2], w4)
  end.
(** the whole of it (MWAlgo/eoEasyEA.cpp:3-45): the first evaluation is the sequential one *)
Definition mw_easy_ea (fuel : nat) (pop : list I) (w : W) : res (list I * list (list I) * W) :=
  let! (_, pop0, w0) := pop_eval [] pop w in mw_ea_loop fuel 0 pop0 w0.
End Ea.

Section Swarm.
Variables (A V F W : Type).
Variable velocity : list (hood A V F) -> particle A V F -> nat -> W -> res (list V * W).
Variable flight : particle A V F -> W -> res (list A * W).
Variable eval : list A -> F.
Variable update : list (hood A V F) -> particle A V F -> nat -> res (particle A V F * list (hood A V F)).
Notation swarm := (swarm A V F W).
(** one turn of MWModel<eoEasyPSO> (MWAlgo/eoEasyPSO.cpp:10-25); [order]: the one of the workers *)
Definition mw_turn (order : list nat) (s : swarm) : res swarm :=
  let ks := seq 0 (length (pop s)) in
  let! s1 := over A V F W (fun s k => let! s1 := step_velocity A V F W velocity s k in step_flight A V F W flight s1 k) ks s in
  let! s2 := over A V F W (step_eval A V F W eval) order s1 in
  over A V F W (step_update A V F W update) ks s2.
(** one turn of MWModel<eoSyncEasyPSO> (MWAlgo/eoSyncEasyPSO.cpp:14-25) *)
Definition mw_sync_turn (order : list nat) (s : swarm) : res swarm :=
  let ks := seq 0 (length (pop s)) in
  let! s1 := over A V F W (step_velocity A V F W velocity) ks s in
  let! s2 := over A V F W (step_flight A V F W flight) ks s1 in
  let! s3 := over A V F W (step_eval A V F W eval) order s2 in
  over A V F W (step_update A V F W update) ks s3.
(** do { turn } while (continuator): one answer and one order per turn *)
Fixpoint mw_turns (turn : list nat -> swarm -> res swarm) (orders : list (list nat)) (answers : list bool) (s : swarm) : res swarm :=
  match orders with
  | [] => NoDraw
  | o :: os => let! s' := turn o s in
      match answers with
      | [] => NoDraw
      | false :: _ => Ok s'
      | true :: r => mw_turns turn os r s'
      end
  end.
End Swarm.
