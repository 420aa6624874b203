(** What the DTLZ problems and their operators must be. *)
From Coq Require Import List Arith Bool Reals.
From Coq Require Import List.
Import ListNotations.
Open Scope R_scope.

Definition rsum (l : list R) : R := fold_right Rplus 0 l.
Definition sum_of_squares (l : list R) : R := rsum (map (fun v => v * v) l).
(** the position variables (all but the last n - m + 1) and the distance variables of a problem with [m] objectives *)
Definition position (m : nat) (x : list R) : list R := firstn (m - 1) x.
Definition distance (m : nat) (x : list R) : list R := skipn (m - 1) x.
(** variables of the problem: between 0 and 1 *)
Definition in_box (x : list R) : Prop := forall v, In v x -> 0 <= v <= 1.
(** the shares of the last objective, the one before it, ..., the first one: the share of an objective is [s a] of what
    [c] leaves of the shares of those after it, and the first one takes what is left *)
Fixpoint spread (c s : R -> R) (a : list R) : list R :=
  match a with [] => [1] | v :: r => s v :: map (Rmult (c v)) (spread c s r) end.
(** no worse on any objective, all being minimised *)
Definition no_worse (u v : list R) : Prop := Forall2 Rle u v.
(** [x] is Pareto optimal among the vectors of its size between 0 and 1: whatever is no worse has the same objectives *)
Definition optimal (value : list R -> list R -> Prop) (x : list R) : Prop :=
  exists v, value x v /\ forall y w, in_box y -> length y = length x -> value y w -> no_worse w v -> w = v.
(** the distances to the front *)
Definition rastrigin (l : list R) : R := 100 * rsum (map (fun v => 1 + ((v - / 2) * (v - / 2) - cos (20 * PI * (v - / 2)))) l).
Definition sphere (l : list R) : R := rsum (map (fun v => (v - / 2) * (v - / 2)) l).
(** [r] is the tenth root of [v] *)
Definition tenth_root (v r : R) : Prop := 0 <= r /\ r ^ 10 = v.

(** the angles of DTLZ5 and DTLZ6 from the position variables: the first one goes from 0 to pi/2, the others are drawn
    towards pi/4 as the distance [g] is small *)
Definition later (g v : R) : R := PI / (4 * (1 + g)) * (1 + 2 * g * v).
Definition theta (g : R) (p : list R) : list R := match p with [] => [] | v :: r => PI / 2 * v :: map (later g) r end.
(** the distance of DTLZ7: 1 plus nine times the mean *)
Definition mean9 (l : list R) : R := 1 + 9 * rsum l / INR (length l).

(** the variable of the children where the parents have [a] and [b] in [lo .. hi]: as it was when the parents differ by at
    most 1e-14; otherwise one child is between the lower bound and the middle of the parents, the other one between the
    middle and the upper bound *)
Definition blended (lo hi a b a' b' : R) : Prop :=
  (Rabs (a - b) <= / 10 ^ 14 -> a' = a /\ b' = b) /\
  (/ 10 ^ 14 < Rabs (a - b) -> (lo <= a' <= (a + b) / 2 /\ (a + b) / 2 <= b' <= hi) \/ (lo <= b' <= (a + b) / 2 /\ (a + b) / 2 <= a' <= hi)).
(** the uniform number that moves variable [i], when a number is drawn for each true coin only *)
Definition number (coins : list bool) (us : list R) (i : nat) : option R := nth_error us (length (filter (fun c => c) (firstn i coins))).
(** a value of an interval *)
Definition within (b : R * R) (v : R) : Prop := fst b <= v <= snd b.
(** the spread factor of SBX for the number [u], when the child must not go further than [reach] times the half distance of
    the parents: the inverse of its distribution function *)
Definition spread_factor (eta reach u bq : R) : Prop :=
  let alpha := 2 - Rpower reach (- (eta + 1)) in
  0 <= bq <= reach /\
  (u = 0 -> bq = 0) /\
  (0 < u -> u * alpha <= 1 -> 0 < bq /\ Rpower bq (eta + 1) = u * alpha) /\
  (1 < u * alpha -> 0 < bq /\ Rpower bq (- (eta + 1)) = 2 - u * alpha).
(** the two children of [a] and [b] for the number [u]: on each side of their middle, with a reach that leads to the bound *)
Definition low_child (eta lo a b u c : R) : Prop :=
  exists reach bq, (a + b) / 2 - reach * Rabs (a - b) / 2 = lo /\ spread_factor eta reach u bq /\ c = (a + b) / 2 - bq * Rabs (a - b) / 2.
Definition high_child (eta hi a b u c : R) : Prop :=
  exists reach bq, (a + b) / 2 + reach * Rabs (a - b) / 2 = hi /\ spread_factor eta reach u bq /\ c = (a + b) / 2 + bq * Rabs (a - b) / 2.
(** the variables before [i] on which the parents differ by more than 1e-14 *)
Definition differing (x y : list R) (i : nat) : nat :=
  length (filter (fun p => if Rlt_dec (/ 10 ^ 14) (Rabs (fst p - snd p)) then true else false) (firstn i (combine x y))).
(** the polynomial move for the number [u], as a part of the interval, when it must not be larger than [dm] *)
Definition poly_shift (eta dm u d : R) : Prop :=
  (u <= / 2 -> - dm <= d <= 0 /\ Rpower (1 + d) (eta + 1) = 2 * u + (1 - 2 * u) * Rpower (1 - dm) (eta + 1)) /\
  (/ 2 < u -> 0 <= d <= dm /\ Rpower (1 - d) (eta + 1) = 2 * (1 - u) + (2 * u - 1) * Rpower (1 - dm) (eta + 1)).
