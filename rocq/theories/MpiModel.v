(** * Model of the eo::mpi layer: job assignment and the parallel apply

    Sources (all under /repo):
    - eo/src/mpi/eoMpiAssignmentAlgorithm.cpp
    - eo/src/mpi/eoMpi.h                       (Job, FinallyBlock, MultiJob)
    - eo/src/mpi/eoParallelApply.h
    - eo/src/mpi/eoTerminateJob.h              (EmptyJob)

    Simplifications.
    - MPI itself is modelled by its guarantees: between two processes the
      messages of one channel arrive in the order in which they were sent, and
      a receive blocks until there is a message.  The messages of different
      processes interleave in any way.
    - Ranks are integers [Z]; sizes and indexes are [nat], so the overflow of
      [int] for tables of more than 2^31 elements is out of scope.
    - An array is serialised to text and parsed back by the communicator
      (implMpi.h); here the array itself travels.  The text round trip is the
      subject of the serialisation model.
    - Timers, logs, exceptions thrown by the user's function and the wrapping
      of functors are left out. *)

From Coq Require Import ZArith List Bool Lia.
From Verif Require Import Outcome.
Import ListNotations.
Local Open Scope Z_scope.

(** ** The dynamic assignment *)

(** eoMpiAssignmentAlgorithm.h:153: [availableWrk]; the head of the list is the
    first element of the vector. *)
Notation dyn := (list Z) (only parsing).

(** DynamicAssignmentAlgorithm::get, eoMpiAssignmentAlgorithm.cpp:67-76: takes
    the last available worker, or answers -1. *)
Definition dyn_get (a : dyn) : res (dyn * Z) :=
  match a with
  | [] => Ok (a, -1)
  | _ => Ok (removelast a, last a (-1))
  end.

(** DynamicAssignmentAlgorithm::availableWorkers, :78-81. *)
Definition dyn_avail (a : dyn) : Z := Z.of_nat (length a).

(** DynamicAssignmentAlgorithm::confirm, :83-86. *)
Definition dyn_confirm (a : dyn) (rank : Z) : res dyn := Ok (a ++ [rank]).

(** DynamicAssignmentAlgorithm::idles, :88-91. *)
Definition dyn_idles (a : dyn) : res (list Z) := Ok a.

(** DynamicAssignmentAlgorithm(int first, int last), :54-65, where [world] is
    Node::comm().size() and REST_OF_THE_WORLD is -1
    (eoMpiAssignmentAlgorithm.h:35). *)
Definition from_to (world first last : Z) : list Z :=
  let last := if last =? -1 then world - 1 else last in
  map (fun i => first + Z.of_nat i) (seq 0 (Z.to_nat (last - first + 1))).

(** ** The static assignment *)

(** eoMpiAssignmentAlgorithm.h:232-235.  [attributions] is reserved but never
    resized (.cpp:155), so its size() stays 0 and the code writes through
    operator[] into the reserved storage.  Read strictly this is undefined
    behaviour for every non-empty list of workers; the model keeps the reserved
    storage as the list [att] (empty as long as nothing was reserved) and says
    separately, in [strict_init], what the strict reading gives. *)
Record static := mkStatic {
  att : list Z;
  real_rank : list Z;
  busy : list bool;
  free_workers : Z }.

Definition no_static : static := mkStatic [] [] [] 0.

(** StaticAssignmentAlgorithm::init, :141-166.  With no worker and a positive
    number of runs the line computing [diff] divides by zero. *)
Definition static_init (s : static) (workers : list Z) (runs : Z) : res static :=
  let n := Z.of_nat (length workers) in
  let att0 := att s in
  let busy0 := map (fun _ => false) workers in
  if runs <=? 0 then Ok (mkStatic att0 workers busy0 n)
  else if n =? 0 then UB
  else
    let q := runs / n in
    let diff := runs - q * n in
    Ok (mkStatic (map (fun i => if Z.of_nat i <? diff then q + 1 else q)
                      (seq 0 (length workers)))
                 workers busy0 n).

(** The same function when writing past size() counts as undefined. *)
Definition strict_init (s : static) (workers : list Z) (runs : Z) : res static :=
  if (0 <? runs) && negb (Z.of_nat (length workers) =? 0) then UB
  else static_init s workers runs.

(** The loop of StaticAssignmentAlgorithm::get, :171-180: the first worker from
    index [i] on that is not busy and has a positive attribution.  The
    attribution is read only if the worker is not busy. *)
Fixpoint first_free (at_ : list Z) (bs : list bool) (i : nat) : res (option nat) :=
  match bs with
  | [] => Ok None
  | b :: bs' =>
      if b then first_free (tl at_) bs' (S i)
      else match at_ with
           | [] => UB
           | a :: at' => if 0 <? a then Ok (Some i) else first_free at' bs' (S i)
           end
  end.

Fixpoint put {A} (l : list A) (i : nat) (x : A) : list A :=
  match l, i with
  | [], _ => []
  | _ :: l', O => x :: l'
  | y :: l', S i' => y :: put l' i' x
  end.

(** StaticAssignmentAlgorithm::get, :168-182. *)
Definition static_get (s : static) : res (static * Z) :=
  let! o := first_free (att s) (busy s) 0 in
  match o with
  | None => Ok (s, -1)
  | Some i =>
      let! r := of_opt (nth_error (real_rank s) i) in
      Ok (mkStatic (att s) (real_rank s) (put (busy s) i true)
                   (free_workers s - 1), r)
  end.

(** StaticAssignmentAlgorithm::availableWorkers, :184-187. *)
Definition static_avail (s : static) : Z := free_workers s.

(** StaticAssignmentAlgorithm::idles, :189-200. *)
Fixpoint idle_ranks (bs : list bool) (ranks : list Z) : res (list Z) :=
  match bs with
  | [] => Ok []
  | b :: bs' =>
      if b then idle_ranks bs' (tl ranks)
      else match ranks with
           | [] => UB
           | r :: ranks' => let! l := idle_ranks bs' ranks' in Ok (r :: l)
           end
  end.

Definition static_idles (s : static) : res (list Z) :=
  idle_ranks (busy s) (real_rank s).

(** The search of StaticAssignmentAlgorithm::confirm, :204-212. *)
Fixpoint index_of (ranks : list Z) (rank : Z) (i : nat) : option nat :=
  match ranks with
  | [] => None
  | r :: ranks' => if r =? rank then Some i else index_of ranks' rank (S i)
  end.

(** StaticAssignmentAlgorithm::confirm, :202-217: index -1 is read when the
    rank is unknown. *)
Definition static_confirm (s : static) (rank : Z) : res static :=
  match index_of (real_rank s) rank 0 with
  | None => UB
  | Some i =>
      let! a := of_opt (nth_error (att s) i) in
      Ok (mkStatic (put (att s) i (a - 1)) (real_rank s)
                   (put (busy s) i false) (free_workers s + 1))
  end.

(** StaticAssignmentAlgorithm::reinit, :219-222. *)
Definition static_reinit (s : static) (runs : Z) : res static :=
  static_init s (real_rank s) runs.

(** ** Jobs *)

(** eoMpi.h, namespace Message: Continue = 0, Finish = 1, Kill = 2, the values
    travelling on Channel::Commands. *)
Inductive command := Continue | Finish | Kill.

Section Apply.

Context {T A : Type}.

(** The function applied to every element (ParallelApplyData::func). *)
Variable f : T -> T.
(** ParallelApplyData::packetSize. *)
Variable packet : nat.

(** The four virtual functions of AssignmentAlgorithm used by a job. *)
Variable a_get : A -> res (A * Z).
Variable a_avail : A -> Z.
Variable a_confirm : A -> Z -> res A.
Variable a_idles : A -> res (list Z).

(** What travels from the master to a worker on Channel::Messages. *)
Inductive payload := PSize (n : nat) | PArray (l : list T).

(** The points at which the worker's code can be stopped:
    Job::worker, eoMpi.h:749-775, and ProcessTaskParallelApply,
    eoParallelApply.h:229-243. *)
Inductive wpc :=
| WOrder                                  (** comm.recv( ..., order ) *)
| WSize                                   (** comm.recv( ..., recvSize ) *)
| WData (n : nat)                         (** comm.recv( ..., tempArray, n ) *)
| WLoop (done todo : list T)              (** inside the loop, or before the send *)
| WLeft.                                  (** the worker function has returned *)

(** A worker, the two queues of messages to it and the queue of its answers. *)
Record worker := mkWorker {
  at_ : wpc;
  orders : list command;
  tasks : list payload;
  answers : list (list T) }.

(** The points at which the master's code can be stopped. *)
Inductive mpc :=
| MNext                    (** between two runs of the job *)
| MLoop                    (** head of the while loop, eoMpi.h:709 *)
| MWait                    (** probe inside the loop, :717 *)
| MOrder (w : Z)           (** sending Continue, :731 *)
| MSize (w : Z)            (** sendTask, sending the size *)
| MData (w : Z)            (** sendTask, sending the array *)
| MFree (l : list Z)       (** ~FinallyBlock, sending Finish to the idle, :660-664 *)
| MDrain                   (** ~FinallyBlock, head of the while loop, :671 *)
| MLast (w : Z)            (** ~FinallyBlock, sending Finish to one worker, :676 *)
| MEmpty (l : list Z)      (** EmptyJob run: ~FinallyBlock sends Finish *)
| MKill (l : list Z)       (** ~EmptyJob sends Kill *)
| MEnd.

(** The whole system.  [assigned] is the map assignedTasks, whose operator[]
    gives {0,0} for an absent key.  [calls] records the arguments of all calls
    of the function, on any worker. *)
Record world := mkWorld {
  pc : mpc;
  alg : A;
  total : Z;
  table : list T;
  index : nat;
  assigned : Z -> nat * nat;
  todo : list (list T);
  results : list (list T);
  wk : Z -> worker;
  calls : list T }.

Definition set_fn {B} (g : Z -> B) (w : Z) (b : B) : Z -> B :=
  fun x => if x =? w then b else g x.

Definition goto (s : world) (p : mpc) : world :=
  mkWorld p (alg s) (total s) (table s) (index s) (assigned s) (todo s)
          (results s) (wk s) (calls s).

Definition set_alg (s : world) (a : A) : world :=
  mkWorld (pc s) a (total s) (table s) (index s) (assigned s) (todo s)
          (results s) (wk s) (calls s).

Definition set_wk (s : world) (w : Z) (k : worker) : world :=
  mkWorld (pc s) (alg s) (total s) (table s) (index s) (assigned s) (todo s)
          (results s) (set_fn (wk s) w k) (calls s).

(** A send on Channel::Commands. *)
Definition order (s : world) (w : Z) (c : command) : world :=
  let k := wk s w in
  set_wk s w (mkWorker (at_ k) (orders k ++ [c]) (tasks k) (answers k)).

(** A send on Channel::Messages from the master. *)
Definition post (s : world) (w : Z) (p : payload) : world :=
  let k := wk s w in
  set_wk s w (mkWorker (at_ k) (orders k) (tasks k ++ [p]) (answers k)).

(** What a step of the system can be: it waits, goes on, or does something
    undefined (a message of the wrong kind is received, an index is out of
    range, the assignment misbehaves). *)
Inductive outcome := Blocked | Bad | Next (s : world).

Definition of_res {B} (r : res B) (k : B -> outcome) : outcome :=
  match r with Ok b => k b | _ => Bad end.

(** SendTaskParallelApply: futureIndex, eoParallelApply.h:165-172. *)
Definition future (s : world) : nat :=
  if (index s + packet <? length (table s))%nat
  then (index s + packet)%nat else length (table s).

(** comm.recv( w, Messages, & table[i], n ): the array received must have at
    least n elements and the table must have room for them. *)
Definition write_back (t : list T) (i n : nat) (l : list T) : res (list T) :=
  if (n <=? length l)%nat && (i + n <=? length t)%nat
  then Ok (firstn i t ++ firstn n l ++ skipn (i + n) t) else UB.

(** HandleResponseParallelApply, eoParallelApply.h:204-207, for the answer [l]
    of worker [w]. *)
Definition handle (s : world) (w : Z) (l : list T) : res (list T) :=
  let (i, n) := assigned s w in write_back (table s) i n l.

(** After assignmentAlgo.get( ), eoMpi.h:712-713 and :724-713: send to the
    assignee or wait. *)
Definition ask (s : world) : outcome :=
  of_res (a_get (alg s)) (fun '(a, r) =>
    let s := set_alg s a in
    Next (goto s (if r <=? 0 then MWait else MOrder r))).

(** One step of the master that does not wait for an answer: Job::master,
    eoMpi.h:702-741, ~FinallyBlock, :654-682, ~EmptyJob, eoTerminateJob.h. *)
Definition master_step (s : world) : outcome :=
  match pc s with
  | MNext =>
      match todo s with
      | t :: ts =>  (* store.data( pop ), then master() *)
          Next (mkWorld MLoop (alg s) (a_avail (alg s)) t 0 (fun _ => (0%nat, 0%nat))
                        ts (results s) (wk s) (calls s))
      | [] =>       (* EmptyJob: its isFinished is always true *)
          of_res (a_idles (alg s)) (fun l =>
            Next (mkWorld (MEmpty l) (alg s) (a_avail (alg s)) (table s) (index s)
                          (assigned s) [] (results s) (wk s) (calls s)))
      end
  | MLoop =>
      if (index s =? length (table s))%nat   (* IsFinished, eoParallelApply.h:263-266 *)
      then of_res (a_idles (alg s)) (fun l => Next (goto s (MFree l)))
      else ask s
  | MWait => Blocked
  | MOrder w => Next (goto (order s w Continue) (MSize w))
  | MSize w =>    (* SendTaskParallelApply, eoParallelApply.h:163-181 *)
      let n := (future s - index s)%nat in
      let s' := post s w (PSize n) in
      Next (mkWorld (MData w) (alg s') (total s') (table s') (index s')
                    (set_fn (assigned s') w (index s', n)) (todo s') (results s')
                    (wk s') (calls s'))
  | MData w =>    (* SendTaskParallelApply, :183-184 *)
      let n := (future s - index s)%nat in
      let s' := post s w (PArray (firstn n (skipn (index s) (table s)))) in
      Next (mkWorld MLoop (alg s') (total s') (table s') (future s)
                    (assigned s') (todo s') (results s') (wk s') (calls s'))
  | MFree [] => Next (goto s MDrain)
  | MFree (w :: l) => Next (goto (order s w Finish) (MFree l))
  | MDrain =>
      if a_avail (alg s) =? total s
      then Next (mkWorld MNext (alg s) (total s) (table s) (index s) (assigned s)
                         (todo s) (results s ++ [table s]) (wk s) (calls s))
      else Blocked
  | MLast w =>
      of_res (a_confirm (alg s) w) (fun a =>
        Next (goto (set_alg (order s w Finish) a) MDrain))
  | MEmpty (w :: l) => Next (goto (order s w Finish) (MEmpty l))
  | MEmpty [] =>
      if a_avail (alg s) =? total s
      then of_res (a_idles (alg s)) (fun l => Next (goto s (MKill l)))
      else Blocked
  | MKill (w :: l) => Next (goto (order s w Kill) (MKill l))
  | MKill [] => Next (goto s MEnd)
  | MEnd => Blocked
  end.

(** The master's probe returns worker [w] and its answer is handled:
    eoMpi.h:717-724 and :673-675. *)
Definition answer_step (s : world) (w : Z) : outcome :=
  match answers (wk s w) with
  | [] => Blocked
  | l :: rest =>
      let k := wk s w in
      let taken := set_wk s w (mkWorker (at_ k) (orders k) (tasks k) rest) in
      let store t := mkWorld (pc taken) (alg taken) (total taken) t (index taken)
                             (assigned taken) (todo taken) (results taken)
                             (wk taken) (calls taken) in
      match pc s with
      | MWait =>
          of_res (handle s w l) (fun t =>
          of_res (a_confirm (alg s) w) (fun a => ask (set_alg (store t) a)))
      | MDrain =>
          if a_avail (alg s) =? total s then Blocked
          else of_res (handle s w l) (fun t => Next (goto (store t) (MLast w)))
      | _ => Blocked
      end
  end.

(** One step of worker [w]: Job::worker, eoMpi.h:749-775, with the stop
    condition Kill of a MultiJob, and ProcessTaskParallelApply. *)
Definition worker_step (s : world) (w : Z) : outcome :=
  let k := wk s w in
  match at_ k with
  | WOrder =>
      match orders k with
      | [] => Blocked
      | c :: rest =>
          Next (set_wk s w (mkWorker (match c with
                                      | Continue => WSize
                                      | Finish => WOrder
                                      | Kill => WLeft
                                      end) rest (tasks k) (answers k)))
      end
  | WSize =>
      match tasks k with
      | [] => Blocked
      | PSize n :: rest => Next (set_wk s w (mkWorker (WData n) (orders k) rest (answers k)))
      | PArray _ :: _ => Bad
      end
  | WData n =>
      match tasks k with
      | [] => Blocked
      | PArray l :: rest =>
          if (n <=? length l)%nat
          then Next (set_wk s w (mkWorker (WLoop [] (firstn n l)) (orders k) rest (answers k)))
          else Bad
      | PSize _ :: _ => Bad
      end
  | WLoop done (x :: rest) =>
      let s' := set_wk s w (mkWorker (WLoop (done ++ [f x]) rest) (orders k) (tasks k) (answers k)) in
      Next (mkWorld (pc s') (alg s') (total s') (table s') (index s') (assigned s')
                    (todo s') (results s') (wk s') (calls s' ++ [x]))
  | WLoop done [] =>
      Next (set_wk s w (mkWorker WOrder (orders k) (tasks k) (answers k ++ [done])))
  | WLeft => Blocked
  end.

(** Who moves next: the choice of the schedule. *)
Inductive label := LMaster | LAnswer (w : Z) | LWorker (w : Z).

Definition step (s : world) (l : label) : outcome :=
  match l with
  | LMaster => master_step s
  | LAnswer w => answer_step s w
  | LWorker w => worker_step s w
  end.

(** The start: every worker waits for its first order. *)
Definition start (a : A) (tables : list (list T)) : world :=
  mkWorld MNext a 0 [] 0 (fun _ => (0%nat, 0%nat)) tables []
          (fun _ => mkWorker WOrder [] [] []) [].

End Apply.

Arguments payload : clear implicits.
Arguments wpc : clear implicits.
Arguments worker : clear implicits.
Arguments world : clear implicits.
Arguments outcome : clear implicits.
