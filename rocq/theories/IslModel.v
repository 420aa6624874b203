(** Model of the island model (smp/src/island.cpp, smp/src/islandModel.cpp): the threads of the islands, the
    asynchronous tasks that carry the migrants and the scheduling thread, as a transition system. Each operation
    done under a mutex, and each access to an atomic variable, is one step; the schedule is a list of labels. *)
From Coq Require Import List Arith Bool.
From Verif Require Import Lib Outcome TopoModel.
From Coq Require Import List.
Import ListNotations.

Section Islands.
(** individuals, and populations of an island *)
Variables (X Pop : Type).
(** intPolicy (island.cpp:162) and the forced evaluation of an immigrant (154-160) *)
Variable integrate : Pop -> list X -> Pop.
Variable evaluate : X -> X.

(** a population on its way; [id] numbers them in the order of sending and is not in the code *)
Record msg := Msg { id : nat; from : nat; content : list X }.

(** what an island's thread is doing: algo(pop); stopped = true, waiting for its messages; returned (island.cpp:67-78) *)
Inductive phase := Running | Stopped | Exited.
(** [inbox] is listImigrants; [outgoing] the calls of IslandModel::update started by std::async and not executed yet *)
Record island := Island { doing : phase; ipop : Pop; inbox : list msg; outgoing : list msg }.

(** where the scheduling thread is in IslandModel::operator() (islandModel.cpp:47-121) *)
Inductive point :=
| Test                      (** while(workingIslands() > 0) (75) *)
| Poll (i : nat)            (** the loop over the islands (78-86) *)
| Send                      (** send() (88) *)
| Join                      (** thread.join() (95-96) *)
| Wait                      (** message.wait() (100-101) *)
| Drain                     (** while(!listEmigrants.empty()) send() (107-108) *)
| Final (todo : list nat)   (** the threads of the last integration not finished yet (109-118) *)
| Done.

(** [active] is the boolean of each island; [emigrants] is listEmigrants; [downs] the calls of Island::update started
    by std::async and not executed yet. The last three fields only record what happened: every population sent,
    every call of intPolicy, every message taken from listEmigrants with the neighbors it was sent to. *)
Record state := State { isl : list island; active : list bool; topo : matrix; emigrants : list msg; downs : list (nat * msg);
  at_ : point; sent : list msg; got : list (nat * msg); routed : list (msg * list nat) }.

Inductive label :=
| Evolve (i : nat) (p : Pop)         (** the algorithm of island i changes its population *)
| Emit (i : nat) (ms : list X)       (** Island::send: the selected migrants (island.cpp:117-139) *)
| Receive (i : nat)                  (** Island::receive, called by the algorithm (142-166) *)
| Stop (i : nat)                     (** stopped = true *)
| Exit (i : nat)                     (** the messages sent have been waited for *)
| Up (i k : nat)                     (** the k-th call of IslandModel::update pending for island i is executed (islandModel.cpp:124-130) *)
| Down (k : nat)                     (** the k-th pending call of Island::update is executed (island.cpp:169-176) *)
| Main                               (** the next step of the scheduling thread *)
| Last (i : nat).                    (** the thread of the last integration of island i *)

Definition take {T} (l : list T) (k : nat) : list T := firstn k l ++ skipn (S k) l.

(** Island::receive (island.cpp:142-166): all the immigrants, in the order of arrival *)
Definition seen (m : msg) : msg := Msg (id m) (from m) (map evaluate (content m)).
Definition receive (s : state) (i : nat) (a : island) : state :=
  let a' := Island (doing a) (fold_left (fun p m => integrate p (content (seen m))) (inbox a) (ipop a)) [] (outgoing a) in
  State (set (isl s) i a') (active s) (topo s) (emigrants s) (downs s) (at_ s) (sent s) (got s ++ map (fun m => (i, seen m)) (inbox a)) (routed s).

(** IslandModel::send (islandModel.cpp:150-176). std::move(migPop) is passed for each neighbor: the first one takes the migrants and
    leaves an empty population for the others. *)
Definition spread (m : msg) (ns : list nat) : list (nat * msg) :=
  match ns with
  | [] => []
  | j :: r => (j, m) :: map (fun j => (j, Msg (id m) (from m) [])) r
  end.
Definition send (s : state) (next : point) : option state :=
  match emigrants s with
  | [] => Some (State (isl s) (active s) (topo s) [] (downs s) next (sent s) (got s) (routed s))
  | m :: r =>
      match neighbors (topo s) (from m) with
      | Ok ns => Some (State (isl s) (active s) (topo s) r (downs s ++ spread m ns) next (sent s) (got s) (routed s ++ [(m, ns)]))
      | _ => None
      end
  end.
Definition goto (s : state) (p : point) : state :=
  State (isl s) (active s) (topo s) (emigrants s) (downs s) p (sent s) (got s) (routed s).

Definition is_running (a : island) : bool := match doing a with Running => true | _ => false end.
Definition has_exited (a : island) : bool := match doing a with Exited => true | _ => false end.

(** the scheduling thread; [None]: it waits *)
Definition main (s : state) : option state :=
  match at_ s with
  | Test => Some (goto s (if existsb (fun b => b) (active s) then Poll 0 else Join))
  | Poll i =>
      match nth_error (isl s) i, nth_error (active s) i with
      | Some a, Some b =>
          if b && negb (is_running a)
          then match isolate (topo s) i with
               | Ok t => Some (State (isl s) (set (active s) i false) t (emigrants s) (downs s) (Poll (S i)) (sent s) (got s) (routed s))
               | _ => None
               end
          else Some (goto s (Poll (S i)))
      | _, _ => Some (goto s Send)
      end
  | Send => send s Test
  | Join => if forallb has_exited (isl s) then Some (goto s Wait) else None
  | Wait => match downs s with [] => Some (goto s Drain) | _ => None end
  | Drain => match emigrants s with [] => Some (goto s (Final (seq 0 (length (isl s))))) | _ => send s Drain end
  | Final [] => Some (goto s Done)
  | Final _ => None
  | Done => None
  end.

Definition with_island (s : state) (i : nat) (a : island) : state :=
  State (set (isl s) i a) (active s) (topo s) (emigrants s) (downs s) (at_ s) (sent s) (got s) (routed s).
Definition step (l : label) (s : state) : option state :=
  match l with
  | Evolve i p =>
      obind (nth_error (isl s) i) (fun a =>
        if is_running a then Some (with_island s i (Island Running p (inbox a) (outgoing a))) else None)
  | Emit i ms =>
      obind (nth_error (isl s) i) (fun a =>
        if is_running a then
          let m := Msg (length (sent s)) i ms in
          Some (State (set (isl s) i (Island Running (ipop a) (inbox a) (outgoing a ++ [m]))) (active s) (topo s) (emigrants s) (downs s)
                  (at_ s) (sent s ++ [m]) (got s) (routed s))
        else None)
  | Receive i => obind (nth_error (isl s) i) (fun a => if is_running a then Some (receive s i a) else None)
  | Stop i =>
      obind (nth_error (isl s) i) (fun a =>
        if is_running a then Some (with_island s i (Island Stopped (ipop a) (inbox a) (outgoing a))) else None)
  | Exit i =>
      obind (nth_error (isl s) i) (fun a =>
        match doing a, outgoing a with
        | Stopped, [] => Some (with_island s i (Island Exited (ipop a) (inbox a) []))
        | _, _ => None
        end)
  | Up i k =>
      obind (nth_error (isl s) i) (fun a =>
      obind (nth_error (outgoing a) k) (fun m =>
        Some (State (set (isl s) i (Island (doing a) (ipop a) (inbox a) (take (outgoing a) k))) (active s) (topo s) (emigrants s ++ [m]) (downs s)
                (at_ s) (sent s) (got s) (routed s))))
  | Down k =>
      obind (nth_error (downs s) k) (fun d =>
      obind (nth_error (isl s) (fst d)) (fun a =>
        Some (State (set (isl s) (fst d) (Island (doing a) (ipop a) (inbox a ++ [snd d]) (outgoing a))) (active s) (topo s) (emigrants s)
                (take (downs s) k) (at_ s) (sent s) (got s) (routed s))))
  | Main => main s
  | Last i =>
      match at_ s with
      | Final todo =>
          if existsb (Nat.eqb i) todo then
            obind (nth_error (isl s) i) (fun a =>
              Some (goto (receive s i a) (Final (filter (fun j => negb (j =? i)) todo))))
          else None
      | _ => None
      end
  end.
Fixpoint run (ls : list label) (s : state) : option state :=
  match ls with [] => Some s | l :: r => obind (step l s) (run r) end.

(** initModel, and the start of the threads (50-63, 181-206) *)
Definition start (pops : list Pop) (t : matrix) : state :=
  State (map (fun p => Island Running p [] []) pops) (map (fun _ => true) pops) t [] [] Test [] [] [].
End Islands.
Arguments Msg {X}. Arguments id {X}. Arguments from {X}. Arguments content {X}.
Arguments Island {X Pop}. Arguments doing {X Pop}. Arguments ipop {X Pop}. Arguments inbox {X Pop}. Arguments outgoing {X Pop}.
Arguments State {X Pop}. Arguments isl {X Pop}. Arguments active {X Pop}. Arguments topo {X Pop}. Arguments emigrants {X Pop}.
Arguments downs {X Pop}. Arguments at_ {X Pop}. Arguments sent {X Pop}. Arguments got {X Pop}. Arguments routed {X Pop}.
Arguments Evolve {X Pop}. Arguments Emit {X Pop}. Arguments Receive {X Pop}. Arguments Stop {X Pop}. Arguments Exit {X Pop}.
Arguments Up {X Pop}. Arguments Down {X Pop}. Arguments Main {X Pop}. Arguments Last {X Pop}. Arguments spread {X}.
Arguments start {X Pop}. Arguments step {X Pop}. Arguments run {X Pop}. Arguments is_running {X Pop}. Arguments has_exited {X Pop}.
Arguments main {X Pop}. Arguments send {X Pop}. Arguments receive {X Pop}. Arguments goto {X Pop}. Arguments with_island {X Pop}. Arguments seen {X}.
