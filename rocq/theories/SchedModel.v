(** Model of the parallel scheduler of smp/src/scheduler.cpp.

    Individuals are named by their position in the population; a package is a list of
    positions.  The functor is a function on one individual without shared state, applied
    in one step. *)
From Coq Require Import List Arith Bool.
From Verif Require Import Outcome Lib.
Import ListNotations.

(** ** Linear policy (scheduler.cpp:51-85) *)
(** the loop filling the packages (59-72): package [i] gets individuals
    [i*nbIndi .. i*nbIndi+nbIndi-1]; [indice] is the last position handed out, 0 if none *)
Definition fill_even (packages per : nat) : list (list nat) :=
  map (fun i => map (fun j => i * per + j) (seq 0 per)) (seq 0 packages).
Definition last_index (packages per : nat) : nat :=
  fold_left (fun ind i => fold_left (fun _ j => i * per + j) (seq 0 per) ind) (seq 0 packages) 0.
(** popPackages[i].push_back *)
Definition push (ps : list (list nat)) (i x : nat) : option (list (list nat)) :=
  obind (nth_error ps i) (fun p => upd ps i (p ++ [x])).
(** the remaining individuals (74-77) *)
Fixpoint push_rest (ps : list (list nat)) (indice : nat) (is : list nat) : res (list (list nat)) :=
  match is with
  | [] => Ok ps
  | i :: r => let! ps' := of_opt (push ps i (indice + i)) in push_rest ps' indice r
  end.
(** the packages of a population of [n] individuals for [workers] workers (53-77): no
    worker is a division by zero *)
Definition linear_packages (n workers : nat) : res (list (list nat)) :=
  if workers =? 0 then UB
  else
    let per := n / workers in
    let remaining := n mod workers in
    let indice := last_index workers per in
    let indice := if per =? 0 then indice else indice + 1 in
    push_rest (fill_even workers per) indice (seq 0 remaining).

(** applyLinearPolicy (129-134) on every package at once: any interleaving of the
    packages; [apply_at] is one call of the functor *)
Definition apply_at {A} (f : A -> A) (pop : list A) (i : nat) : option (list A) :=
  obind (nth_error pop i) (fun x => upd pop i (f x)).
Fixpoint apply_seq {A} (f : A -> A) (order : list nat) (pop : list A) : option (list A) :=
  match order with
  | [] => Some pop
  | i :: r => obind (apply_at f pop i) (fun pop' => apply_seq f r pop')
  end.

(** ** Progressive policy (scheduler.cpp:88-127 and 137-149)

    The mutexes, the flag [done] and the packages are shared.  [popPackages[i].empty()]
    (dispatcher) and [pop.empty()] (worker) are read without the mutex: each is one atomic
    step here.  Counters are unbounded. *)
Inductive dispatcher_pc :=
| DStart (i : nat)        (* 92-96: set planning[i], start thread i *)
| DLoop                   (* 101: while(counter < pop.size()) *)
| DFor (i : nat)          (* 103-105: next package, empty test *)
| DLock (i : nat)         (* 108: lock m[i] *)
| DFill (i j : nat)       (* 109-115 *)
| DUnlock (i : nat)       (* 117: end of the scope of the lock *)
| DDone                   (* 123: done = true *)
| DJoin (i : nat)         (* 125-126 *)
| DEnd.
Inductive worker_pc :=
| WIdle                   (* not started *)
| WTest                   (* 139: reads done *)
| WTest2                  (* 139: done was set, reads pop.empty() *)
| WLock                   (* 141 *)
| WRun (k : nat)          (* 142-145 *)
| WClear                  (* 146 *)
| WUnlock                 (* 147 *)
| WEnd.
Inductive owner := Free | Dispatcher | Worker.
Record worker := Wk { package : list nat; planning : nat; mutex : owner; wpc : worker_pc }.
Record state := St { counter : nat; dpc : dispatcher_pc; done : bool; workers : list worker; applied : list nat }.

Definition is_nil {A} (l : list A) : bool := match l with [] => true | _ => false end.
Definition with_worker (s : state) (i : nat) (f : worker -> option (dispatcher_pc * worker * nat)) : option state :=
  obind (nth_error (workers s) i) (fun w =>
  obind (f w) (fun r => let '(pc, w', c) := r in
  Some (St c pc (done s) (set (workers s) i w') (applied s)))).
(** one step of the dispatcher; [n] is pop.size() *)
Definition dispatcher_step (n : nat) (s : state) : option state :=
  let goto pc := Some (St (counter s) pc (done s) (workers s) (applied s)) in
  let c := counter s in
  match dpc s with
  | DStart i =>
      if i <? length (workers s) then
        with_worker s i (fun w => Some (DStart (S i), Wk (package w) 2 (mutex w) WTest, c))
      else goto DLoop
  | DLoop => if c <? n then goto (DFor 0) else goto DDone
  | DFor i =>
      if i <? length (workers s) then
        obind (nth_error (workers s) i) (fun w =>
          if is_nil (package w) && (c <? n) then goto (DLock i) else goto (DFor (S i)))
      else goto DLoop
  | DLock i =>
      with_worker s i (fun w =>
        match mutex w with
        | Free => Some (DFill i 0, Wk (package w) (planning w) Dispatcher (wpc w), c)
        | _ => None
        end)
  | DFill i j =>
      with_worker s i (fun w =>
        if (j <? planning w) && (c <? n)
        then Some (DFill i (S j), Wk (package w ++ [c]) (planning w) (mutex w) (wpc w), S c)
        else Some (DUnlock i, Wk (package w) (planning w * 2) (mutex w) (wpc w), c))
  | DUnlock i => with_worker s i (fun w => Some (DFor (S i), Wk (package w) (planning w) Free (wpc w), c))
  | DDone => Some (St c (DJoin 0) true (workers s) (applied s))
  | DJoin i =>
      if i <? length (workers s) then
        obind (nth_error (workers s) i) (fun w => match wpc w with WEnd => goto (DJoin (S i)) | _ => None end)
      else goto DEnd
  | DEnd => None
  end.
(** one step of worker [i] *)
Definition worker_step (i : nat) (s : state) : option state :=
  obind (nth_error (workers s) i) (fun w =>
  let put w' ap := Some (St (counter s) (dpc s) (done s) (set (workers s) i w') ap) in
  let pc p := put (Wk (package w) (planning w) (mutex w) p) (applied s) in
  match wpc w with
  | WIdle | WEnd => None
  | WTest => if negb (done s) then pc WLock else pc WTest2
  | WTest2 => if is_nil (package w) then pc WEnd else pc WLock
  | WLock =>
      match mutex w with
      | Free => put (Wk (package w) (planning w) Worker (WRun 0)) (applied s)
      | _ => None
      end
  | WRun k =>
      match nth_error (package w) k with
      | Some x => put (Wk (package w) (planning w) (mutex w) (WRun (S k))) (applied s ++ [x])
      | None => pc WClear
      end
  | WClear => put (Wk [] (planning w) (mutex w) WUnlock) (applied s)
  | WUnlock => put (Wk (package w) (planning w) Free WTest) (applied s)
  end).
(** a schedule names who moves next: [None] the dispatcher, [Some i] worker [i] *)
Definition step (n : nat) (who : option nat) (s : state) : option state :=
  match who with None => dispatcher_step n s | Some i => worker_step i s end.
Fixpoint exec (n : nat) (sched : list (option nat)) (s : state) : option state :=
  match sched with
  | [] => Some s
  | who :: r => obind (step n who s) (exec n r)
  end.
(** operator() called on a scheduler whose packages are empty and mutexes free; [plans]
    are the previous values of planning *)
Definition init (plans : list nat) : state :=
  St 0 (DStart 0) false (map (fun p => Wk [] p Free WIdle) plans) [].
