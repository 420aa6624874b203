(** Specification for C217 and C218: domination between pairs of integers. *)
From Coq Require Import ZArith.
From Coq Require Import List.
Open Scope Z_scope.

(** [x] is at least as good as [y]; an objective is [true] when it is minimised *)
Definition as_good (d : bool) (x y : Z) : Prop := if d then x <= y else y <= x.
(** [a] is nowhere worse than [b] *)
Definition covers (d0 d1 : bool) (a b : Z * Z) : Prop := as_good d0 (fst a) (fst b) /\ as_good d1 (snd a) (snd b).
Definition pareto_dominates (d0 d1 : bool) (a b : Z * Z) : Prop := covers d0 d1 a b /\ a <> b.
(** the vectors of [l] that no vector of [l] dominates *)
Definition best_of (d0 d1 : bool) (l : list (Z * Z)) (v : Z * Z) : Prop := In v l /\ forall w, In w l -> ~ pareto_dominates d0 d1 w v.
