(** Specification of the dominance-based local searches (C111-C113), independent of the model. *)
From Coq Require Import List QArith.
From Verif Require Import ParetoSpec ArchSpec.
Import ListNotations.
Close Scope Q_scope.
Open Scope nat_scope.

(** vector [v] is dominated by, or equal to, one of the vectors *)
Definition matched (dirs : list bool) (v : list Q) (vs : list (list Q)) : Prop := exists w, In w vs /\ (dominates dirs w v \/ equal_vectors v w).
Section Local.
Variables (G K : Type) (dirs : list bool) (evaluate : G -> list Q) (keys : G -> list K) (move : K -> G -> G).
(** a Pareto local optimum set: no member is dominated by or equal to another one, and no
    neighbour of a member would bring anything new *)
Definition neighbours_matched (g : G) (set : list G) : Prop := forall k, In k (keys g) -> matched dirs (evaluate (move k g)) (map evaluate set).
Definition pareto_local_optimum (set : list G) : Prop :=
  antichain (fun a b => dominates dirs (evaluate b) (evaluate a)) (fun a b => equal_vectors (evaluate a) (evaluate b)) set /\
  forall g, In g set -> neighbours_matched g set.
(** obtained from a start by a chain of moves *)
Inductive descends (starts : list G) : G -> Prop :=
| is_start g : In g starts -> descends starts g
| is_moved g k : descends starts g -> descends starts (move k g).
End Local.
From Verif Require Import Outcome NeighModel.
(** iterating from init while cont allows it produces every key; [good] holds between the calls *)
Definition enumerates {S K} (good : S -> Prop) (it : iterator S K) (keys : list K) : Prop :=
  (forall s ds s' k ds', good s -> i_init it s ds = Ok (s', k, ds') -> good s') /\
  (forall s ds s' k ds', good s -> i_cont it s = true -> i_next it s ds = Ok (s', k, ds') -> good s') /\
  (forall fuel s ds l s' ds', good s -> explore it fuel s ds = Ok (l, s', ds') -> forall k, In k keys -> In k l).
(** no draw is used, no call fails, and [fuel] calls of next are enough to see all *)
Definition quiet {S K} (good : S -> Prop) (it : iterator S K) (fuel : nat) : Prop :=
  (forall s ds, good s -> exists s' k, i_init it s ds = Ok (s', k, ds)) /\
  (forall s ds, good s -> i_cont it s = true -> exists s' k, i_next it s ds = Ok (s', k, ds)) /\
  (forall s ds, good s -> exists o, explore it fuel s ds = Ok o).
