(** Specification of dominance depth (C44), independent of the model. *)
From Coq Require Import List Arith.
Import ListNotations.

(** positions [i] and [j] of the list hold members of which the first is dominated by the
    second; [D a b]: [b] dominates [a] *)
Definition dominated_at {V} (D : V -> V -> Prop) (vs : list V) (i j : nat) : Prop :=
  exists a b, nth_error vs i = Some a /\ nth_error vs j = Some b /\ D a b.

(** non-dominated sorting: the fronts are removed one after the other; position [i] survives
    [k] removals. A member survives the next removal when another survivor dominates it. *)
Fixpoint survives {V} (D : V -> V -> Prop) (vs : list V) (k : nat) (i : nat) : Prop :=
  match k with
  | 0 => i < length vs
  | S k' => survives D vs k' i /\ exists j, survives D vs k' j /\ dominated_at D vs i j
  end.
(** position [i] belongs to front number [r] (the first front has number 1) *)
Definition in_front_number {V} (D : V -> V -> Prop) (vs : list V) (i r : nat) : Prop :=
  0 < r /\ survives D vs (r - 1) i /\ ~ survives D vs r i.
(** number of fronts *)
Definition fronts_count {V} (D : V -> V -> Prop) (vs : list V) (d : nat) : Prop :=
  (forall i r, in_front_number D vs i r -> r <= d) /\ exists i, in_front_number D vs i d.
