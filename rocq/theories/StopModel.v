(** Model of the stopping criteria of the local searches (mo/src/continuator), of the
    checkpoints of mo and eo, and of the statistics and savers that hang on them. *)
From Coq Require Import List Arith Bool.
From Verif Require Import Outcome LsModel.
From Coq Require Import List.
Import ListNotations.
Open Scope nat_scope.

(** ** Continuators of mo (states are their counters; unsigned counters are unbounded here) *)
Section Continuators.
Variables (T F : Type) (value : T -> F) (lt eq : F -> F -> bool).

(** moIterContinuator (moIterContinuator.h:55-71): cpt *)
Definition iter_cont (maxIter : nat) : continuator T nat :=
  Continuator (fun _ _ => 0) (fun _ cpt => (S cpt <? maxIter, S cpt)).

(** moFitContinuator (moFitContinuator.h:55-57); init is the empty one of moContinuator.h *)
Definition fit_cont (maxFit : F) : continuator T unit :=
  Continuator (fun _ u => u) (fun s u => (lt (value s) maxFit, u)).

(** moTrueContinuator (moTrueContinuator.h:50-60) *)
Definition true_cont : continuator T unit := Continuator (fun _ u => u) (fun _ u => (true, u)).

(** moBestNoImproveContinuator (moBestNoImproveContinuator.h:78-99). bestSol is a reference to a
    solution kept elsewhere: its current content is part of the state, with cpt. *)
Definition no_improve_cont (maxNoImprove : nat) : continuator T (T * nat) :=
  Continuator (fun _ '(best, _) => (best, 0))
    (fun s '(best, cpt) =>
       let c := if lt (value s) (value best) || eq (value s) (value best) then S cpt else 0 in
       (c <? maxNoImprove, (best, c))).

(** moBestSoFarStat (moBestSoFarStat.h:53-79): value, firstTime *)
Definition best_stat_init (reInit : bool) (s : T) (x : T * bool) : T * bool :=
  if reInit then (s, snd x) else if snd x then (s, false) else x.
Definition best_stat_call (s : T) (x : T * bool) : T * bool :=
  if lt (value (fst x)) (value s) then (s, snd x) else x.

(** a checkpoint holding a moBestSoFarStat and a moBestNoImproveContinuator whose bestSol is the
    value of that statistic (moCheckpoint.h:107-158 with interval 1): the statistic is updated before
    the continuator is asked *)
Definition tracked_no_improve (maxNoImprove : nat) : continuator T ((T * bool) * nat) :=
  Continuator (fun s '(x, _) => (best_stat_init true s x, 0))
    (fun s '(x, cpt) =>
       let x' := best_stat_call s x in
       let '(b, (_, c)) := c_step (no_improve_cont maxNoImprove) s (fst x', cpt) in (b, (x', c))).

(** moNeighborEvalContinuator (moNeighborEvalContinuator.h:64-77), moFullEvalContinuator
    (moFullEvalContinuator.h:70-83), moEvalsContinuator (moEvalsContinuator.h:68-81): [used] reads the
    counter of evaluations (or the sum of the two counters) in the state of the search; nbEval_start is
    kept with it. Differences of unsigned numbers are truncated at 0 here; they wrap in the code when the
    counter is reset below nbEval_start. *)
Definition evals_cont {W} (used : W -> nat) (maxEval : nat) (restart : bool) : continuator (T * W) nat :=
  Continuator (fun s _ => if restart then used (snd s) else 0)
    (fun s start => (used (snd s) - start <? maxEval, start)).

(** moCombinedContinuator (moCombinedContinuator.h:67-86) and the continuators of moCheckpoint
    (moCheckpoint.h:124-125, 153-156): all are asked. The states of the parts are kept in a list. *)
Definition combined_cont {C} (cs : list (continuator T C)) : continuator T (list C) :=
  Continuator (fun s xs => map (fun p => c_init (fst p) s (snd p)) (combine cs xs))
    (fun s xs => let rs := map (fun p => c_step (fst p) s (snd p)) (combine cs xs) in
       (fold_left (fun b r => if negb (fst r) then false else b) rs true, map snd rs)).
End Continuators.

(** what a continuator answers on successive solutions after init *)
Fixpoint answers {T C} (c : continuator T C) (sols : list T) (x : C) : list bool :=
  match sols with
  | [] => []
  | s :: r => let (b, x') := c_step c s x in b :: answers c r x'
  end.
Definition asked {T C} (c : continuator T C) (s0 : T) (sols : list T) (x : C) : list bool :=
  answers c sols (c_init c s0 x).

(** ** Checkpoints *)

(** every call made on a part of a checkpoint is recorded: what is called, on which part, its rank
    among the parts of that kind, and its argument if it has one *)
Inductive act := Init | Call | Last.
Inductive part := SortedStat | Stat | Upd | MoUpd | Mon | Cont.
Record event (A : Type) := Ev { e_act : act; e_part : part; e_rank : nat; e_arg : option A }.
Arguments Ev {A}.
Arguments e_act {A}.
Arguments e_part {A}.
Arguments e_rank {A}.
Arguments e_arg {A}.

(** for (i = 0; i < parts.size(); ++i) call *)
Definition each {A} (a : act) (p : part) (n : nat) (o : option A) : list (event A) :=
  map (fun i => Ev a p i o) (seq 0 n).

(** for (i ...) if (!( *continuators[i])(arg)) bContinue = false; [ans]: what continuator [i] answers
    given its argument and everything that was called before *)
Fixpoint ask_all {A} (ans : nat -> A -> list (event A) -> bool) (is : list nat) (x : A) (log : list (event A)) (b : bool)
    : bool * list (event A) :=
  match is with
  | [] => (b, log)
  | i :: r =>
      let b' := if ans i x log then b else false in
      ask_all ans r x (log ++ [Ev Call Cont i (Some x)]) b'
  end.

Section MoCheckpoint.
Variables (T : Type) (ans : nat -> T -> list (event T) -> bool).
(** the interval and the numbers of parts of each kind *)
Record mo_parts := MoParts { m_interval : nat; m_stats : nat; m_upds : nat; m_moupds : nat; m_mons : nat; m_conts : nat }.
Variable p : mo_parts.

(** init (moCheckpoint.h:107-126) *)
Definition mocp_init (s : T) (log : list (event T)) : nat * list (event T) :=
  (1, log ++ each Init Stat (m_stats p) (Some s) ++ each Init MoUpd (m_moupds p) None
          ++ each Call Mon (m_mons p) None ++ each Init Cont (m_conts p) (Some s)).

(** 138-142: the counter is incremented once per statistic *)
Fixpoint stats_loop (is : list nat) (s : T) (counter : nat) (log : list (event T)) : res (nat * list (event T)) :=
  match is with
  | [] => Ok (counter, log)
  | i :: r =>
      if m_interval p =? 0 then UB else
      let log' := if counter mod m_interval p =? 0 then log ++ [Ev Call Stat i (Some s)] else log in
      stats_loop r s (S counter) log'
  end.

(** operator() (134-158) *)
Definition mocp_call (s : T) (st : nat * list (event T)) : res (bool * (nat * list (event T))) :=
  let! (counter, log) := stats_loop (seq 0 (m_stats p)) s (fst st) (snd st) in
  let log1 := log ++ each Call Upd (m_upds p) None ++ each Call MoUpd (m_moupds p) None ++ each Call Mon (m_mons p) None in
  let (b, log2) := ask_all ans (seq 0 (m_conts p)) s log1 true in
  Ok (b, (counter, log2)).

(** lastCall (164-177) *)
Definition mocp_last (s : T) (log : list (event T)) : list (event T) :=
  log ++ each Last Stat (m_stats p) (Some s) ++ each Last Upd (m_upds p) None
      ++ each Last MoUpd (m_moupds p) None ++ each Last Mon (m_mons p) None.

(** the way moLocalSearch uses it (moLocalSearch.h:80-104): init, one call per iteration until the
    answer is false or the explorer stops (end of [sols]), then lastCall. Gives the number of calls. *)
Fixpoint mocp_loop (sols : list T) (s : T) (st : nat * list (event T)) : res (nat * T * (nat * list (event T))) :=
  match sols with
  | [] => Ok (0, s, st)
  | s' :: r =>
      let! (b, st') := mocp_call s' st in
      if b : bool then let! (n, sl, st2) := mocp_loop r s' st' in Ok (S n, sl, st2)
      else Ok (1, s', st')
  end.
Definition mocp_run (s0 : T) (sols : list T) : res (nat * list (event T)) :=
  let! (n, s, st) := mocp_loop sols s0 (mocp_init s0 []) in Ok (n, mocp_last s (snd st)).
End MoCheckpoint.

Section EoCheckpoint.
(** populations, and eoPop::sort into a vector of pointers (eoPop.h:170-177) *)
Variables (I : Type) (sort : list I -> list I).
Variable ans : nat -> list I -> list (event (list I)) -> bool.
Record eo_parts := EoParts { o_sorted : nat; o_stats : nat; o_upds : nat; o_mons : nat; o_conts : nat }.
Variable p : eo_parts.

(** eoCheckPoint::operator() (eo/src/utils/eoCheckPoint.h:95-145) *)
Definition eocp_call (pop : list I) (log : list (event (list I))) : bool * list (event (list I)) :=
  let sorted_pop := if o_sorted p =? 0 then [] else sort pop in
  let log1 := log ++ each Call SortedStat (o_sorted p) (Some sorted_pop) ++ each Call Stat (o_stats p) (Some pop)
                  ++ each Call Upd (o_upds p) None ++ each Call Mon (o_mons p) None in
  let (b, log2) := ask_all ans (seq 0 (o_conts p)) pop log1 true in
  if b then (true, log2)
  else (false, log2 ++ each Last SortedStat (o_sorted p) (Some sorted_pop) ++ each Last Stat (o_stats p) (Some pop)
                    ++ each Last Upd (o_upds p) None ++ each Last Mon (o_mons p) None).

(** the loop of an algorithm: the populations shown, until the answer is false; whether it was *)
Fixpoint eocp_run (pops : list (list I)) (log : list (event (list I))) : nat * bool * list (event (list I)) :=
  match pops with
  | [] => (0, false, log)
  | pop :: r =>
      let (b, log') := eocp_call pop log in
      if b then let '(n, stopped, l) := eocp_run r log' in (S n, stopped, l) else (1, true, log')
  end.
End EoCheckpoint.

(** ** Savers *)

(** eoCountedStateSaver (eoUpdater.cpp:28-46): counter and the numbers in the names of the files saved;
    the counter is unsigned, unbounded here *)
Definition saver_call (interval : nat) (st : nat * list nat) : res (nat * list nat) :=
  if interval =? 0 then UB else
  let c := S (fst st) in Ok (c, if c mod interval =? 0 then snd st ++ [c] else snd st).
Definition saver_last (saveOnLastCall : bool) (st : nat * list nat) : nat * list nat :=
  (fst st, if saveOnLastCall then snd st ++ [fst st] else snd st).
Fixpoint saver_calls (interval n : nat) (st : nat * list nat) : res (nat * list nat) :=
  match n with
  | 0 => Ok st
  | S m => let! st' := saver_call interval st in saver_calls interval m st'
  end.

(** moCounterMonitorSaver (moCounterMonitorSaver.h:59-63): counter, and at which calls (from 0) the
    monitors were called *)
Definition monsaver_call (interval : nat) (st : nat * list nat) : res (nat * list nat) :=
  if interval =? 0 then UB else
  Ok (S (fst st), if fst st mod interval =? 0 then snd st ++ [fst st] else snd st).
Fixpoint monsaver_calls (interval n : nat) (st : nat * list nat) : res (nat * list nat) :=
  match n with
  | 0 => Ok st
  | S m => let! st' := monsaver_call interval st in monsaver_calls interval m st'
  end.
