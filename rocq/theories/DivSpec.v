(** Specification of the diversity assignments (C107-C110), independent of the model. *)
From Coq Require Import List QArith Permutation Sorted.
From Verif Require Import EvalSpec OrderSpec.
Import ListNotations.
Close Scope Q_scope.
Open Scope nat_scope.

(** a diversity: the big value regarded as infinite, a number, or not a number *)
Inductive diversity := Infinite | Finite (q : Q) | NotANumber.

Section Crowding.
Context {X : Type}.
Implicit Types (val : X -> Q) (members l : list X) (x : X).
(** an arrangement of the members by increasing value *)
Definition arranged val members l : Prop := Permutation members l /\ StronglySorted (fun a b => (val a <= val b)%Q) l.
Definition at_end x l : Prop := (exists r, l = x :: r) \/ (exists r, l = r ++ [x]).
(** [g] is the share of [x], inside the arrangement: the gap between its two neighbours relative
    to the gap between the two ends; nothing when all values are the same *)
Definition gap_share val l x (g : Q) : Prop :=
  exists before p s after lo hi, l = before ++ p :: x :: s :: after /\ (exists r, l = lo :: r) /\ (exists r, l = r ++ [hi]) /\
    ((val lo < val hi)%Q -> (g == (val s - val p) / (val hi - val lo))%Q) /\ ((val lo == val hi)%Q -> (g == 0)%Q).
(** the crowding distance of every member within the members: infinite when there are at most
    two, or at an end of the arrangement of some objective; otherwise the sum of the shares *)
Definition crowding (nobj : nat) (val : nat -> X -> Q) members (div : X -> diversity -> Prop) : Prop :=
  (length members <= 2 -> forall x d, In x members -> div x d -> d = Infinite) /\
  (2 < length members -> exists arr, (forall i, i < nobj -> arranged (val i) members (arr i)) /\
    forall x d, In x members -> div x d ->
      ((exists i, i < nobj /\ at_end x (arr i)) /\ d = Infinite) \/
      ((forall i, i < nobj -> ~ at_end x (arr i)) /\
       exists gs q, length gs = nobj /\ (forall i g, nth_error gs i = Some g -> gap_share (val i) (arr i) x g) /\ d = Finite q /\ (q == qsum gs (fun g => g))%Q)).
End Crowding.

(** ** nearest neighbours: [d] is the [k]-th smallest (from 1) of the distances *)
Definition kth_smallest (k : nat) (ds : list Q) (d : Q) : Prop :=
  exists l, Permutation ds l /\ StronglySorted Qle l /\ nth_error l (k - 1) = Some d.
(** ** sharing: how crowded [x] is among [near], from the closeness (1 - (d/r)^alpha) of those
    within the radius *)
Definition niche_count {X} (close : Q -> Q) (radius : Q) (dist : X -> X -> Q) (x : X) (pop : list X) : Q :=
  qsum pop (fun y => if Qlt_le_dec (dist x y) radius then close (dist x y) else 0%Q).
