(** Model of the multi-start job of the MPI layer, eo/src/mpi/eoMultiStart.h, and of the timers it is measured with,
    eo/src/utils/eoTimer.h. *)
From Coq Require Import Arith ZArith QArith String Bool.
From Verif Require Import Lib Outcome.
From Coq Require Import List.
Import ListNotations.
Close Scope Q_scope.
Open Scope nat_scope.

(** * The multi-start job *)

(** ** the seeds *)
Definition u32 (z : Z) : Z := (z mod 2 ^ 32)%Z.
(** MultiplesOfNumber::operator() (eoMultiStart.h:362-370): _seed and _i are unsigned; the values are given modulo 2^32, the conversion to int being
    one to one. *)
Fixpoint multiples (seed : Z) (n : nat) (i : Z) : list Z * Z :=
  match n with
  | 0 => ([], i)
  | S k => let i := u32 (i + 1) in let (l, j) := multiples seed k i in (u32 (i * seed) :: l, j)
  end.
(** the same store used for several jobs, of which the numbers of workers are given *)
Fixpoint multiples_jobs (seed : Z) (ns : list nat) (i : Z) : list (list Z) :=
  match ns with [] => [] | n :: r => let (l, j) := multiples seed n i in l :: multiples_jobs seed r j end.
(** MultiplesOfNumber (eoMultiStart.h:352-360): [n] is the int given, [draws] what rng.rand() answers. *)
Fixpoint number_of (n : Z) (draws : list Z) : res Z :=
  if (u32 n =? 0)%Z then match draws with [] => NoDraw | d :: r => number_of d r end else Ok (u32 n).
(** DummyGetSeeds (eoMultiStart.h:334-340). *)
Definition no_seeds (n : nat) : list Z := [].
(** rng.rand() [n] times: GetRandomSeeds::operator() (eoMultiStart.h:390-398) and the loop of init (255-263). *)
Fixpoint rands (n : nat) (ds : list Z) : res (list Z * list Z) :=
  match n with
  | 0 => Ok ([], ds)
  | S k => match ds with [] => NoDraw | d :: r => let! (l, r) := rands k r in Ok (d :: l, r) end
  end.
(** MultiStartStore::init (eoMultiStart.h:248-277), master side: what each worker is sent. *)
Fixpoint send_seeds (workers : list nat) (seeds : list Z) (i : nat) : res (list (nat * Z)) :=
  match workers with
  | [] => Ok []
  | w :: r => let! s := of_opt (nth_error seeds i) in let! l := send_seeds r seeds (S i) in Ok ((w, s) :: l)
  end.
Definition init_seeds (workers : list nat) (given : list Z) (ds : list Z) : res (list (nat * Z) * list Z) :=
  let! (seeds, ds) := (if length given <? length workers
                       then let! (l, ds) := rands (length workers - length given) ds in Ok (given ++ l, ds) else Ok (given, ds)) in
  let! l := send_seeds workers seeds 0 in Ok (l, ds).

(** ** the job *)
Section Job.
(** The state of a worker: its generator, its population and its algorithm; ResetAlgo, the algorithm, best_element. Exceptions are not modelled. *)
Context {St X : Type}.
Context (reset : St -> St) (algo : St -> St) (best : St -> X).

(** ProcessTaskMultiStart::operator() (eoMultiStart.h:158-163) *)
Definition process_task (s : St) : St * X := let s1 := algo (reset s) in (s1, best s1).
(** where a worker is: it waits for an order, it was sent one, it has sent its answer *)
Inductive phase := Waiting | Ordered | Answered (x : X).
Record job := Job { j_runs : Z; j_bests : list X; j_state : nat -> St; j_phase : nat -> phase }.
Definition at_w {B} (g : nat -> B) (w : nat) (b : B) : nat -> B := fun v => if v =? w then b else g v.
(** what can happen: the master, not finished, sends a task to an available worker; a worker does it; the master handles an answer *)
Inductive move := Assign (w : nat) | Work (w : nat) | Handle (w : nat).
(** IsFinishedMultiStart (eoMultiStart.h:177-180) *)
Definition finished (j : job) : bool := (j_runs j <=? 0)%Z.
(** one step of Job::master and Job::worker (eoMpi.h:701-776) with SendTaskMultiStart (eoMultiStart.h:118-122) and
    HandleResponseMultiStart (136-143); which worker is available is the business of the assignment (MpiModel); the last answers are awaited in the
    destructor of the FinallyBlock (eoMpi.h:639-691). *)
Definition ms_step (workers : list nat) (j : job) (m : move) : option job :=
  match m with
  | Assign w =>
      if negb (finished j) && existsb (Nat.eqb w) workers then
        match j_phase j w with
        | Waiting => Some (Job (j_runs j - 1) (j_bests j) (j_state j) (at_w (j_phase j) w Ordered))
        | _ => None
        end
      else None
  | Work w =>
      match j_phase j w with
      | Ordered => let (s, x) := process_task (j_state j w) in Some (Job (j_runs j) (j_bests j) (at_w (j_state j) w s) (at_w (j_phase j) w (Answered x)))
      | _ => None
      end
  | Handle w =>
      match j_phase j w with
      | Answered x => Some (Job (j_runs j) (j_bests j ++ [x]) (j_state j) (at_w (j_phase j) w Waiting))
      | _ => None
      end
  end.
Fixpoint ms_run (workers : list nat) (j : job) (ms : list move) : option job :=
  match ms with [] => Some j | m :: r => obind (ms_step workers j m) (fun j => ms_run workers j r) end.
(** the start of a job (eoMultiStart.h:248-277): the bests are those the store already holds, nothing clears them *)
Definition ms_start (runs : Z) (bests : list X) (seeded : nat -> St) : job := Job runs bests seeded (fun _ => Waiting).
(** the master leaves when nothing is left and every worker waits *)
Definition ended (workers : list nat) (j : job) : Prop := finished j = true /\ forall w, In w workers -> j_phase j w = Waiting.
End Job.

(** * The timers *)

(** a struct timeval: seconds and microseconds *)
Definition timeval := (Z * Z)%type.
(** what getrusage and gettimeofday answer *)
Record reading := Reading { user_t : timeval; sys_t : timeval; wall_t : timeval }.
(** eoTimer (eoTimer.h:147-154) *)
Record timer := Timer { t_start : reading; t_urem : Z; t_srem : Z }.
(** eoTimer::eoTimer (eoTimer.h:52-57), restart (62-66) *)
Definition new_timer (now : reading) : timer := Timer now 0 0.
Definition restart (t : timer) (now : reading) : timer := Timer now (t_urem t) (t_srem t).
(** the common part of usertime (eoTimer.h:77-99) and systime (110-132): the result and the new remainder *)
Definition cpu_time (start now : timeval) (rem : Z) : Z * Z :=
  let result := (fst now - fst start)%Z in
  let remainder := (snd now - snd start)%Z in
  let '(result, rem) := if (0 <=? remainder)%Z then (result, rem + remainder)%Z else (result - 1, rem + (1000000 - remainder))%Z in
  if (1000000 <=? rem)%Z then (result + 1, rem - 1000000)%Z else (result, rem).
Definition usertime (t : timer) (now : reading) : Z * timer :=
  let (r, m) := cpu_time (user_t (t_start t)) (user_t now) (t_urem t) in (r, Timer (t_start t) m (t_srem t)).
Definition systime (t : timer) (now : reading) : Z * timer :=
  let (r, m) := cpu_time (sys_t (t_start t)) (sys_t now) (t_srem t) in (r, Timer (t_start t) (t_urem t) m).
(** wallclock (eoTimer.h:139-144), exactly *)
Definition wallclock (t : timer) (now : reading) : Q :=
  (inject_Z (fst (wall_t now) - fst (wall_t (t_start t))) + inject_Z (snd (wall_t now) - snd (wall_t (t_start t))) / 1000000)%Q.

(** eoTimerStat::Stat (eoTimer.h:212-216) and the two maps (345-350) *)
Record stat := Stat { s_user : list Z; s_sys : list Z; s_wall : list Q }.
Record timer_stat := TimerStat { stats_ : string -> option stat; timers_ : string -> option timer }.
Definition no_stat : timer_stat := TimerStat (fun _ => None) (fun _ => None).
Definition put {B} (m : string -> option B) (k : string) (b : B) : string -> option B := fun j => if String.eqb j k then Some b else m j.
(** the calls; [created]: the clocks when the map makes a timer for a key it does not have *)
Inductive call := Start (k : string) (now : reading) | Stop (k : string) (created now : reading) | Clear.
(** start, stop, clear (eoTimer.h:292-336); [on]: parallel.doMeasure() or _forceDoMeasure *)
Definition ts_step (on : bool) (s : timer_stat) (c : call) : timer_stat :=
  match c with
  | Start k now =>
      if on then TimerStat (stats_ s) (put (timers_ s) k (match timers_ s k with Some t => restart t now | None => new_timer now end)) else s
  | Stop k created now =>
      if on then
        let st := match stats_ s k with Some st => st | None => Stat [] [] [] end in
        let t := match timers_ s k with Some t => t | None => new_timer created end in
        let (u, t1) := usertime t now in
        let (y, t2) := systime t1 now in
        TimerStat (put (stats_ s) k (Stat (s_user st ++ [u]) (s_sys st ++ [y]) (s_wall st ++ [wallclock t2 now]))) (put (timers_ s) k t2)
      else s
  | Clear => TimerStat (fun _ => None) (timers_ s)
  end.
Definition ts_run (on : bool) (s : timer_stat) (cs : list call) : timer_stat := fold_left (ts_step on) cs s.
