(** Model of the cellular evolutionary algorithm (eo/src/eoCellularEasyEA.h), of the simple
    estimation of distribution algorithm (eo/src/eoSimpleEDA.h), of the evaluation wrappers that
    throw (eo/src/eoEvalNanThrowException.h, eo/src/eoEvalUserTimeThrowException.h) and of the
    components that look at a clock (eo/src/eoTimeContinue.h, eo/src/eoSecondsElapsedContinue.h,
    mo/src/continuator/moTimeContinuator.h, eo/src/utils/eoTimedMonitor.h, eo/src/utils/eoTimeCounter.h).

    [W] is the state of everything outside the populations, as in AlgoModel. *)
From Coq Require Import List Arith Bool ZArith.
From Verif Require Import Lib Outcome BreedModel AlgoModel.
Import ListNotations.
Local Open Scope nat_scope.

Section Runs.
Context {G F W : Type}.
Notation I := (indiv G F).

(** ** eoCellularEasyEA *)
Section Cellular.
Variable neighbours : list I -> nat -> W -> res (list I * W).   (* the pure virtual function, 134 *)
Variables sel_neigh sel_child sel_repl : list I -> W -> res (I * W).
Variable cross : quad_op (G:=G) (F:=F) (W:=W).
Variable mut : mon_op (G:=G) (F:=F) (W:=W).
Variable eval : evaluator (G:=G) (F:=F) (W:=W).
Variable cont : list I -> W -> res (bool * W).

(** the body of the for loop (eoCellularEasyEA.h:96-128): the answers of cross and mut are ignored, both
    children are invalidated and evaluated; one of them, then one of it and the old individual, are kept *)
Definition cell_step (pop : list I) (i : nat) (w : W) : res (list I * W) :=
  let! (neigh, w) := neighbours pop i w in
  let! old := of_opt (nth_error pop i) in
  let! (part, w) := sel_neigh neigh w in
  let! (x, part, _, w) := cross old part w in
  let! (x, _, w) := mut x w in
  let! (part, _, w) := mut part w in
  let! (x, w) := eval (invalidate x) w in
  let! (part, w) := eval (invalidate part) w in
  let! (child, w) := sel_child [x; part] w in
  let! (kept, w) := sel_repl [child; old] w in
  let! pop' := of_opt (upd pop i kept) in
  Ok (pop', w).
(** the for loop (94-129): [todo] cells from [i] on *)
Fixpoint cell_sweep (todo i : nat) (pop : list I) (w : W) : res (list I * W) :=
  match todo with
  | 0 => Ok (pop, w)
  | S t => let! (pop1, w1) := cell_step pop i w in cell_sweep t (S i) pop1 w1
  end.
(** operator() (90-132); [fuel] bounds the generations.  Besides the final population, the model returns
    the populations shown to the continuator *)
Fixpoint cellular (fuel : nat) (pop : list I) (w : W) : res (list I * list (list I) * W) :=
  match fuel with
  | 0 => NoDraw
  | S f =>
      let! (pop1, w1) := cell_sweep (length pop) 0 pop w in
      let! (b, w2) := cont pop1 w1 in
      if (b : bool) then
        let! (r, tr, w3) := cellular f pop1 w2 in Ok (r, pop1 :: tr, w3)
      else Ok (pop1, [pop1], w2)
  end.
End Cellular.

(** ** eoSimpleEDA *)
Section Eda.
Variable D : Type.                                      (* the distribution *)
Variable sample : D -> I -> W -> res (I * W).           (* eoDistribution::operator() on an individual *)
Variable eval : evaluator (G:=G) (F:=F) (W:=W).
Variable update : D -> list I -> W -> res (D * list I * W).   (* the eoDistribUpdater *)
Variable cont : list I -> W -> res (bool * W).

(** one turn of the loop as seen from outside: the distribution sampled, the population given to the
    updater, and the distribution it made *)
Record turn := Turn { t_before : D; t_pop : list I; t_after : D; t_left : list I }.

(** the do-while (eoSimpleEDA.h:74-90) *)
Fixpoint eda_loop (fuel : nat) (d : D) (pop : list I) (w : W) : res (D * list turn * W) :=
  match fuel with
  | 0 => NoDraw
  | S f =>
      let! (pop1, w1) := apply_eval (sample d) pop w in
      let! (pop2, w2) := apply_eval eval pop1 w1 in
      let! (d', pop3, w3) := update d pop2 w2 in
      let! (b, w4) := cont pop3 w3 in
      if (b : bool) then
        let! (r, tr, w5) := eda_loop f d' pop3 w4 in Ok (r, Turn d pop2 d' pop3 :: tr, w5)
      else Ok (d', [Turn d pop2 d' pop3], w4)
  end.
(** operator() (eoSimpleEDA.h:71-91): the population is first made of popSize sampled individuals
    (eoPop's constructor from an eoInit, eo/src/eoPop.h:92-100); [blank] is a default individual *)
Definition eda (fuel popSize : nat) (blank : I) (d : D) (w : W) : res (D * list turn * W) :=
  let! (pop, w1) := apply_eval (sample d) (repeat blank popSize) w in
  eda_loop fuel d pop w1.
End Eda.

(** ** evaluation wrappers *)
(** eoEvalNanThrowException::operator() (eoEvalNanThrowException.h:53-65); [finite] is std::isfinite.  The
    exception leaves the individual evaluated: [inl] is a normal return, [inr] the exception *)
Definition nan_eval (finite : F -> bool) (func : evaluator (G:=G) (F:=F) (W:=W)) (x : I) (w : W) : res ((I * W) + (I * W)) :=
  match fit x with
  | Some _ => Ok (inl (x, w))
  | None =>
      let! (x', w1) := func x w in
      match fit x' with
      | None => Throw                                  (* fitness() on an invalid individual *)
      | Some f => Ok (if finite f then inl (x', w1) else inr (x', w1))
      end
  end.
(** eoEvalUserTimeThrowException::operator() (eoEvalUserTimeThrowException.h:54-67); [usage] reads the clock,
    the state pairs the counter inherited from eoEvalFuncCounter with the rest.  ([inr] is the exception;
    eoEvalTimeThrowException.h:41-54 is the same with another clock.) *)
Definition time_eval (usage : W -> Z * W) (max : Z) (func : evaluator (G:=G) (F:=F) (W:=W)) (x : I) (s : nat * W)
  : res ((I * (nat * W)) + (I * (nat * W))) :=
  match fit x with
  | Some _ => Ok (inl (x, s))
  | None =>
      let '(current, w1) := usage (snd s) in
      if (max <=? current)%Z then Ok (inr (x, (fst s, w1)))
      else let! (x', w2) := func x w1 in Ok (inl (x', (fst s, w2)))
  end.
(** apply<EOT>(eval, pop) with such an evaluator: the exception stops the loop and leaves the rest as it is *)
Fixpoint apply_or_throw {S} (ev : I -> S -> res ((I * S) + (I * S))) (pop : list I) (s : S)
  : res ((list I * S) + (list I * S)) :=
  match pop with
  | [] => Ok (inl ([], s))
  | x :: r =>
      let! y := ev x s in
      match y with
      | inr (x', s') => Ok (inr (x' :: r, s'))
      | inl (x', s') =>
          let! z := apply_or_throw ev r s' in
          Ok (match z with inl (r', s2) => inl (x' :: r', s2) | inr (r', s2) => inr (x' :: r', s2) end)
      end
  end.
End Runs.
Arguments Turn {G F D}. Arguments t_before {G F D}. Arguments t_pop {G F D}. Arguments t_after {G F D}. Arguments t_left {G F D}.

(** ** clocks: [now] is the result of the call of time() or clock() *)
Local Open Scope Z_scope.

(** eoTimeContinue (eoTimeContinue.h:46-67) and eoSecondsElapsedContinue (eoSecondsElapsedContinue.h:42-51): true is
    "go on" *)
Definition time_continue (start max now : Z) : bool := if max <=? now - start then false else true.

(** moTimeContinuator (moTimeContinuator.h:46-111): setStartingTime fixes the start, otherwise init resets it *)
Record timer := Timer { tm_max : Z; tm_start : Z; tm_external : bool }.
Definition timer_new (max now : Z) : timer := Timer max now false.
Definition timer_set_start (t : timer) (s : Z) : timer := Timer (tm_max t) s true.
Definition timer_init (t : timer) (now : Z) : timer :=
  if negb (tm_external t) then Timer (tm_max t) now (tm_external t) else t.
Definition timer_continue (t : timer) (now : Z) : bool := now - tm_start t <? tm_max t.

(** eoTimedMonitor::operator() (eoTimedMonitor.h:53-75): the three calls of clock() give [c1] (only made when
    last_tick is 0), [c2] and [c3] (only made when the monitors fire); a difference of ticks is cut to 32 bits.
    Returns whether the monitors fired, and last_tick. *)
Definition wrap32 (z : Z) : Z := z mod 2 ^ 32.
Definition clocks_per_sec : Z := 1000000.
Definition timed_monitor (seconds last_tick c1 c2 c3 : Z) : bool * Z :=
  let '(first, last) := if last_tick =? 0 then (true, c1) else (false, last_tick) in
  let fires := if seconds * clocks_per_sec <=? wrap32 (c2 - last) then true else first in
  (fires, if fires then c3 else last).
(** a sequence of calls, with the clock readings of each *)
Fixpoint timed_calls (seconds last_tick : Z) (cs : list (Z * Z * Z)) : list bool :=
  match cs with
  | [] => []
  | (c1, c2, c3) :: r =>
      let '(b, last) := timed_monitor seconds last_tick c1 c2 c3 in b :: timed_calls seconds last r
  end.

(** eoTimeCounter::operator() (eoTimeCounter.h:50-67), in ticks: the processor time, or the wall clock time
    once 2140 seconds have passed.  [cpu] is clock(), [now] is time(NULL).  Simplification: exact values. *)
Definition time_counter (start cpu now : Z) : Z :=
  let elapsed := now - start in
  if 2140 <? elapsed then elapsed * clocks_per_sec else cpu.
