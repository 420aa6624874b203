(** Specification of the exchanges between islands (C83, C84), independent of the scheduler: what the islands sent, read
    from the schedule, and the replay of one step on a population. *)
From Coq Require Import List Arith.
From Verif Require Import IslModel.
Import ListNotations.

(** the populations sent during a schedule, in order, with their senders *)
Definition emissions {X Pop} (ls : list (label X Pop)) : list (nat * list X) :=
  flat_map (fun l => match l with Emit i ms => [(i, ms)] | _ => [] end) ls.
(** what the algorithm of island [i] itself made of its population in a step *)
Definition own {X Pop} (l : label X Pop) (i : nat) (p : Pop) : Pop :=
  match l with Evolve j q => if j =? i then q else p | _ => p end.
(** the population after some immigrants have been integrated, in order *)
Definition integrated {X Pop} (integrate : Pop -> list X -> Pop) (p : Pop) (pops : list (list X)) : Pop := fold_left integrate pops p.
(** what island [i] was given, out of a list of integrations *)
Definition given {X} (i : nat) (l : list (nat * msg X)) : list (list X) := map (fun d => content (snd d)) (filter (fun d => fst d =? i) l).
