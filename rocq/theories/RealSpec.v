(** Specification of the operators on real vectors (C85-C88), independent of the model's functions. *)
From Coq Require Import ZArith QArith Qabs List Bool.
From Verif Require Import BoundsModel BoundsSpec.
Import ListNotations.
Open Scope Q_scope.

(** the numbers the generator returns are in [0, 1) *)
Definition unit_numbers (l : list Q) : Prop := Forall (fun u => 0 <= u /\ u < 1) l.
Definition between (a b x : Q) : Prop := (a <= x /\ x <= b) \/ (b <= x /\ x <= a).
(** intervals are not reduced to a point *)
Definition proper (b : bounds) : Prop := match b with Interval mn mx => mn < mx | _ => True end.
(** each coordinate that has bounds is inside them *)
Definition all_inside (bs : list bounds) (v : list Q) : Prop := forall i b x, nth_error bs i = Some b -> nth_error v i = Some x -> inside b x.
(** [R] holds between the coordinates of two, three or four vectors, as far as the first goes *)
Definition pointwise (R : Q -> Q -> Prop) (v v' : list Q) : Prop :=
  length v' = length v /\ forall i x y, nth_error v i = Some x -> nth_error v' i = Some y -> R x y.
(** the crossover of [v] and [w] gave [v'] and [w']: relation [R] holds on the coordinates of [v], and the rest of [w] is unchanged *)
Definition crossed (R : nat -> Q -> Q -> Q -> Q -> Prop) (v w v' w' : list Q) : Prop :=
  length v' = length v /\ length w' = length w /\ (length v <= length w)%nat /\
  (forall i x y x' y', nth_error v i = Some x -> nth_error w i = Some y -> nth_error v' i = Some x' -> nth_error w' i = Some y' -> R i x y x' y') /\
  skipn (length v) w' = skipn (length v) w.
(** [z] is between [x] and [y], or beyond them by at most [alpha] times their distance *)
Definition widened (alpha x y z : Q) : Prop :=
  exists lo hi, ((lo == x /\ hi == y) \/ (lo == y /\ hi == x)) /\ lo <= hi /\ lo - alpha * (hi - lo) <= z /\ z <= hi + alpha * (hi - lo).
(** at most [k] coordinates differ *)
Definition differ_at_most (k : nat) (v v' : list Q) : Prop :=
  length v' = length v /\ exists l, (length l <= k)%nat /\ forall i, ~ In i l -> nth_error v' i = nth_error v i.
(** sum of squares *)
Fixpoint norm2 (v : list Q) : Q := match v with [] => 0 | x :: v => x * x + norm2 v end.

(** ** the one-fifth rule: what happened, the latest first *)
Inductive happening := Mutated (success : bool) | Unchanged | Next_generation.
Definition a_mutation (h : happening) : bool := match h with Mutated _ => true | _ => false end.
Definition a_success (h : happening) : bool := match h with Mutated true => true | _ => false end.
(** how many happenings of a kind in the current generation and the [w - 1] before it *)
Fixpoint recent (p : happening -> bool) (w : nat) (hs : list happening) : nat :=
  match hs with
  | [] => 0
  | Next_generation :: hs => match w with S (S w') => recent p (S w') hs | _ => 0 end
  | h :: hs => (if p h then 1 else 0) + recent p w hs
  end.
