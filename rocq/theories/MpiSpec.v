(** * Specification for the eo::mpi layer

    Nothing here depends on the model of the assignments or of the jobs. *)

From Coq Require Import ZArith List Bool Lia Permutation.
Import ListNotations.
Local Open Scope Z_scope.

(** ** Histories of an assignment *)

(** What the user of an assignment sees: [get] answered a rank, or the end of a
    job by a rank was confirmed. *)
Inductive event := Got (r : Z) | Confirmed (r : Z).

(** How many jobs were handed to rank [r], and how many of them came back. *)
Fixpoint handed (r : Z) (h : list event) : Z :=
  match h with
  | [] => 0
  | Got x :: h' => (if x =? r then 1 else 0) + handed r h'
  | Confirmed _ :: h' => handed r h'
  end.

Fixpoint back (r : Z) (h : list event) : Z :=
  match h with
  | [] => 0
  | Confirmed x :: h' => (if x =? r then 1 else 0) + back r h'
  | Got _ :: h' => back r h'
  end.

(** A rank is idle when all its jobs came back. *)
Definition idle (h : list event) (r : Z) : bool := handed r h =? back r h.

(** Sum over a list. *)
Definition total_of {A} (g : A -> Z) (l : list A) : Z :=
  fold_right (fun x s => g x + s) 0 l.

(** The balanced share of worker number [i] out of [n] for [runs] jobs: the
    quotient, plus one for the first [runs mod n] workers. *)
Definition share (n runs : Z) (i : nat) : Z :=
  runs / n + (if Z.of_nat i <? runs mod n then 1 else 0).

(** ** Parallel apply *)

(** Number of packets in which a table is sent: its size divided by the packet
    size, rounded up. *)
Definition packets (packet size : nat) : nat := (size + packet - 1) / packet.
