(** The successive values of a generator. *)
From Coq Require Import Arith.
From Coq Require Import List.
Import ListNotations.

(** The state before draw number [i]. *)
Fixpoint state_at {V R} (gen : R -> V * R) (i : nat) (g : R) : R := match i with 0 => g | S i => state_at gen i (snd (gen g)) end.
(** The three vectors of a particle have the length [n]. *)
Definition all_length {P V} (n : nat) (pos bests : list P) (vel : list V) : Prop := length pos = n /\ length bests = n /\ length vel = n.
(** The values [vs] are given one after the other to an initializer that makes [ws] of them; the generator goes from state [g] to state [h]. *)
Inductive in_turn {V R} (init : V -> R -> V * R) : list V -> R -> list V -> R -> Prop :=
| turn_none : forall g, in_turn init [] g [] g
| turn_next : forall v vs g w g' ws h, init v g = (w, g') -> in_turn init vs g' ws h -> in_turn init (v :: vs) g (w :: ws) h.
