(** Specifications for the multi-start job and the timers (C202-C204). *)
From Coq Require Import Arith ZArith QArith String Bool.
From Verif Require Import MstModel.
From Coq Require Import List.
Import ListNotations.
Close Scope Q_scope.
Open Scope nat_scope.

(** What a process that does [k] runs one after the other from the state [s] finds. *)
Fixpoint in_a_row {St X} (run : St -> St * X) (k : nat) (s : St) : list X :=
  match k with 0 => [] | S k => let (s', x) := run s in x :: in_a_row run k s' end.
(** The number of tasks a schedule sends to a worker. *)
Definition sent (w : nat) (ms : list move) : nat := length (filter (fun m => match m with Assign v => v =? w | _ => false end) ms).

(** A time in microseconds, and the microseconds from one time to another. *)
Definition micros (t : timeval) : Z := (fst t * 1000000 + snd t)%Z.
Definition elapsed (a b : timeval) : Z := (micros b - micros a)%Z.
Definition proper (t : timeval) : Prop := (0 <= snd t < 1000000)%Z.

(** The calls on one key since the last clear, and the measures made. *)
Definition stops_of (k : string) (c : call) : bool := match c with Stop j _ _ => String.eqb j k | _ => false end.
Definition is_clear (c : call) : bool := match c with Clear => true | _ => false end.
Fixpoint since_clear (cs : list call) : list call :=
  match cs with
  | [] => []
  | c :: r => if existsb is_clear (c :: r) then since_clear r else c :: r
  end.
(** When the timer of a key was last started: at the last start, or, without any, when the first stop made the timer. *)
Fixpoint started (k : string) (cs : list call) (default : option reading) : option reading :=
  match cs with
  | [] => default
  | Start j now :: r => started k r (if String.eqb j k then Some now else default)
  | Stop j created _ :: r => started k r (if String.eqb j k then match default with None => Some created | d => d end else default)
  | Clear :: r => started k r default
  end.

(** The intervals a key measures: from when its timer was last started to each of its stops. *)
Fixpoint intervals (k : string) (cs : list call) (last : option reading) : list (reading * reading) :=
  match cs with
  | [] => []
  | Start j now :: r => intervals k r (if String.eqb j k then Some now else last)
  | Stop j created now :: r =>
      if String.eqb j k then let a := match last with None => created | Some a => a end in (a, now) :: intervals k r (Some a) else intervals k r last
  | Clear :: r => intervals k r last
  end.
(** One timer restarted at the beginning of each interval and read at its end. *)
Fixpoint measured (time : timer -> reading -> Z * timer) (ps : list (reading * reading)) (t : timer) : list Z * timer :=
  match ps with [] => ([], t) | (a, b) :: r => let (x, t1) := time (restart t a) b in let (l, t2) := measured time r t1 in (x :: l, t2) end.
(** The microseconds spent in intervals, and the sum of measures. *)
Definition spent (which : reading -> timeval) (ps : list (reading * reading)) : Z := fold_right (fun p a => (elapsed (which (fst p)) (which (snd p)) + a)%Z) 0%Z ps.
Definition added (l : list Z) : Z := fold_right Z.add 0%Z l.
