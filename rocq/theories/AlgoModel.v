(** Model of the evolution loops (eoEasyEA, eoSGA), the evaluation wrappers and the
    continuators of eo/src.

    [W] is the state of everything outside the populations (random generator, private
    states of the components).  Evaluation loops are the sequential ones (apply.h
    without OpenMP). *)
From Coq Require Import List Arith Bool QArith.
From Verif Require Import Lib Outcome PopModel BreedModel.
Import ListNotations.
Close Scope Q_scope.
Open Scope nat_scope.

Section Algo.
Context {G F W : Type}.
Notation I := (indiv G F).

(** an eoEvalFunc (eo/src/eoEvalFunc.h) *)
Definition evaluator := I -> W -> res (I * W).
(** apply<EOT>(proc, pop) (eo/src/apply.h:46-94, the sequential loop) *)
Fixpoint apply_eval (eval : evaluator) (pop : list I) (w : W) : res (list I * W) :=
  match pop with
  | [] => Ok ([], w)
  | x :: r =>
      let! (x', w1) := eval x w in
      let! (r', w2) := apply_eval eval r w1 in
      Ok (x' :: r', w2)
  end.

(** an eoPopEvalFunc: parents and offspring *)
Definition pop_evaluator := list I -> list I -> W -> res (list I * list I * W).
(** eoPopLoopEval (eo/src/eoPopEvalFunc.h:80-84) *)
Definition pop_loop_eval (eval : evaluator) : pop_evaluator := fun par off w =>
  let! (off', w1) := apply_eval eval off w in Ok (par, off', w1).
(** eoTimeVaryingLoopEval (eoPopEvalFunc.h:243-247) *)
Definition time_varying_eval (eval : evaluator) : pop_evaluator := fun par off w =>
  let! (par', w1) := apply_eval eval par w in
  let! (off', w2) := apply_eval eval off w1 in Ok (par', off', w2).

(** eoEasyEA::operator() (eo/src/eoEasyEA.h:248-291).  [fuel] bounds the number of
    generations, running out of it is NoDraw.  Besides the final population, the model
    returns the populations shown to the continuator, one per generation. *)
Section Easy.
Variable pop_eval : pop_evaluator.
Variable breed : list I -> W -> res (list I * W).
Variable replace : list I -> list I -> W -> res (list I * W).
Variable cont : list I -> W -> res (bool * W).
Fixpoint ea_loop (fuel : nat) (pop : list I) (w : W) : res (list I * list (list I) * W) :=
  match fuel with
  | 0 => NoDraw
  | S f =>
      let! (off, w1) := breed pop w in
      let! (pop1, off1, w2) := pop_eval pop off w1 in
      let! (pop2, w3) := replace pop1 off1 w2 in
      if negb (length pop2 =? length pop) then Throw
      else
        let! (b, w4) := cont pop2 w3 in
        if (b : bool) then
          let! (r, tr, w5) := ea_loop f pop2 w4 in Ok (r, pop2 :: tr, w5)
        else Ok (pop2, [pop2], w4)
  end.
Definition easy_ea (fuel : nat) (pop : list I) (w : W) : res (list I * list (list I) * W) :=
  let! (_, pop0, w0) := pop_eval [] pop w in ea_loop fuel pop0 w0.
End Easy.

(** eoSGA::operator() (eo/src/eoSGA.h:70-106), with the same trace *)
Section Sga.
Variable select : list I -> W -> res (list I * W).
Variable flip : Q -> W -> res (bool * W).
Variable cross : quad_op (G:=G) (F:=F) (W:=W).
Variable crate : Q.
Variable mut : mon_op (G:=G) (F:=F) (W:=W).
Variable mrate : Q.
Variable eval : evaluator.
Variable cont : list I -> W -> res (bool * W).
Fixpoint sga_loop (fuel : nat) (pop : list I) (w : W) : res (list I * list (list I) * W) :=
  match fuel with
  | 0 => NoDraw
  | S f =>
      let! (off, w1) := select pop w in
      let! (off1, w2) := sga_cross flip (length pop / 2) 0 cross crate off w1 in
      let! (off2, w3) := sga_mutate flip (length off1) 0 mut mrate off1 w2 in
      let! (pop1, w4) := apply_eval eval off2 w3 in
      let! (b, w5) := cont pop1 w4 in
      if (b : bool) then
        let! (r, tr, w6) := sga_loop f pop1 w5 in Ok (r, pop1 :: tr, w6)
      else Ok (pop1, [pop1], w5)
  end.
End Sga.

(** *** evaluation wrappers *)
(** eoEvalFuncCounter::operator() (eo/src/eoEvalFuncCounter.h:45-53): the counter and
    the state of the wrapped function (unsigned long wrap-around not modelled) *)
Definition counter_eval (func : evaluator) (x : I) (s : nat * W) : res (I * (nat * W)) :=
  match fit x with
  | None => let! (x', w1) := func x (snd s) in Ok (x', (S (fst s), w1))
  | Some _ => Ok (x, s)
  end.
(** eoEvalCounterThrowException::operator() (eo/src/eoEvalCounterThrowException.h:62-80).
    The exception leaves the individual evaluated and the counter updated: [inl] is a
    normal return, [inr] the exception. *)
Definition throw_eval (func : evaluator) (threshold : nat) (x : I) (s : nat * W)
  : res ((I * (nat * W)) + (I * (nat * W))) :=
  match fit x with
  | None =>
      let! (x', s') := counter_eval func x s in
      Ok (if threshold <=? fst s' then inr (x', s') else inl (x', s'))
  | Some _ => Ok (inl (x, s))
  end.
(** apply<EOT>(eval, pop) with that evaluator: the exception stops the loop *)
Fixpoint apply_throw (func : evaluator) (threshold : nat) (pop : list I) (s : nat * W)
  : res ((list I * (nat * W)) + (list I * (nat * W))) :=
  match pop with
  | [] => Ok (inl ([], s))
  | x :: r =>
      let! y := throw_eval func threshold x s in
      match y with
      | inr (x', s') => Ok (inr (x' :: r, s'))
      | inl (x', s') =>
          let! z := apply_throw func threshold r s' in
          Ok (match z with inl (r', s2) => inl (x' :: r', s2) | inr (r', s2) => inr (x' :: r', s2) end)
      end
  end.

Variable ltb : F -> F -> bool.
(** eoEvalKeepBest::operator() (eo/src/eoEvalKeepBest.h:102-121): the kept individual,
    _found; the failing assertion on an unevaluated individual is UB *)
Definition keep_eval (func : evaluator) (x : I) (s : I * bool * W) : res (I * (I * bool * W)) :=
  let '(kept, _, w) := s in
  let! (x', w1) := func x w in
  match fit x' with
  | None => UB
  | Some f =>
      match fit kept with
      | None => Ok (x', (x', false, w1))
      | Some k => if ltb k f then Ok (x', (x', true, w1)) else Ok (x', (kept, false, w1))
      end
  end.
(** evaluating individuals one after the other *)
Fixpoint keep_all (func : evaluator) (xs : list I) (s : I * bool * W) : res (list I * (I * bool * W)) :=
  match xs with
  | [] => Ok ([], s)
  | x :: r =>
      let! (x', s1) := keep_eval func x s in
      let! (r', s2) := keep_all func r s1 in
      Ok (x' :: r', s2)
  end.
(** reset() (eoEvalKeepBest.h:132-135) *)
Definition keep_reset (x : I) (s : I * bool * W) : I * bool * W := (x, snd (fst s), snd s).
End Algo.

(** *** continuators.  A population is the list of its (valid) fitnesses. *)
Section Cont.
Variable F : Type.
Variable ltb : F -> F -> bool.
Variable nth_el : forall T : Type, (T -> T -> bool) -> nat -> list T -> list T.

(** eoGenContinue::operator() (eo/src/eoGenContinue.h:60-71) on thisGeneration *)
Definition gen_continue (total : nat) (this : nat) : bool * nat :=
  let this' := S this in (negb (total <=? this'), this').

(** eoSteadyFitContinue (eo/src/eoSteadyFitContinue.h:39-120); bestSoFar and
    lastImprovement are uninitialised (None) until the steady state is entered *)
Record steady := Steady { sf_gen : nat; sf_steady : bool; sf_mem : option (F * nat) }.
Definition steady_new : steady := Steady 0 false None.
(** second constructor (eoSteadyFitContinue.h:52-56) *)
Definition steady_resume (minGens current : nat) : steady := Steady current (minGens <? current) None.
(** operator() (eoSteadyFitContinue.h:61-86) *)
Definition steady_continue (minGens steadyGens : nat) (st : steady) (pop : list F) : res (bool * steady) :=
  let gen := S (sf_gen st) in
  let! best := nth_element_fitness F ltb nth_el 0 pop in
  if sf_steady st then
    match sf_mem st with
    | None => UB
    | Some (sofar, last) =>
        if ltb sofar best then Ok (true, Steady gen true (Some (best, gen)))
        else if steadyGens <? gen - last then Ok (false, Steady gen true (Some (sofar, last)))
        else Ok (true, Steady gen true (Some (sofar, last)))
    end
  else if minGens <? gen then Ok (true, Steady gen true (Some (best, gen)))
  else Ok (true, Steady gen false (sf_mem st)).
(** one call per population *)
Fixpoint steady_run (minGens steadyGens : nat) (st : steady) (pops : list (list F)) : res (list bool * steady) :=
  match pops with
  | [] => Ok ([], st)
  | p :: r =>
      let! (b, st1) := steady_continue minGens steadyGens st p in
      let! (bs, st2) := steady_run minGens steadyGens st1 r in
      Ok (b :: bs, st2)
  end.

(** eoFitContinue::operator() (eo/src/eoFitContinue.h:50-61); >= is "not less" *)
Definition fit_continue (optimum : F) (pop : list F) : res bool :=
  let! best := best_element F ltb pop in
  Ok (ltb best optimum).
(** eoEvalContinue::operator() (eo/src/eoEvalContinue.h:47-55) *)
Definition eval_continue (total value : nat) : bool := negb (total <=? value).
(** eoPeriodicContinue::operator() (eo/src/eoPeriodicContinue.h:42-45); modulo zero is
    undefined, wrap-around of the unsigned counter is not modelled *)
Definition periodic_continue (period counter : nat) : res (bool * nat) :=
  let c := S counter in
  if period =? 0 then UB else Ok (negb (c mod period =? 0), c).

(** eoCombinedContinue::operator() (eo/src/eoCombinedContinue.h:96-101): a continuator
    is a function of the population and a state of type [S] shared by all *)
Fixpoint combined_continue {P S : Type} (cs : list (P -> S -> res (bool * S))) (pop : P) (s : S) : res (bool * S) :=
  match cs with
  | [] => Ok (true, s)
  | c :: r =>
      let! (b, s1) := c pop s in
      if (b : bool) then combined_continue r pop s1 else Ok (false, s1)
  end.
End Cont.
