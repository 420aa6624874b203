(** Specification of the epsilon hyperbox archive (C127, C128), independent of the model. *)
From Coq Require Import List QArith Permutation.
From Verif Require Import ParetoSpec.
Import ListNotations.
Close Scope Q_scope.
Open Scope nat_scope.

Section Spec.
Context {G : Type}.
Variable obj : G -> list Q.
Variable dirs : list bool.

(** every vector has one value per objective *)
Definition all_sized (l : list G) : Prop := forall a, In a l -> length (obj a) = length dirs.
(** no member is at least as good as another one on every objective *)
Definition incomparable (l : list G) : Prop :=
  forall i j a b, i <> j -> nth_error l i = Some a -> nth_error l j = Some b -> ~ weakly_dominates dirs (obj a) (obj b).
(** the pairs (ideal, nadir) are the best and the worst value of the members, per objective *)
Definition extremes (l : list G) (bs : list (Q * Q)) : Prop :=
  length bs = length dirs /\
  forall k d i n, nth_error dirs k = Some d -> nth_error bs k = Some (i, n) ->
    (exists a, In a l /\ nth_error (obj a) k = Some i) /\ (exists a, In a l /\ nth_error (obj a) k = Some n) /\
    forall a x, In a l -> nth_error (obj a) k = Some x -> ~ better d x i /\ ~ better d n x.
(** the members lie between the pairs (ideal, nadir) *)
Definition between (l : list G) (bs : list (Q * Q)) : Prop :=
  length bs = length dirs /\
  forall k d i n a x, nth_error dirs k = Some d -> nth_error bs k = Some (i, n) -> In a l -> nth_error (obj a) k = Some x ->
    ~ better d x i /\ ~ better d n x.
(** on every objective, someone has another value than [v] *)
Definition spread (l : list G) (v : G) : Prop :=
  forall k x, k < length dirs -> nth_error (obj v) k = Some x ->
  exists a y, In a l /\ nth_error (obj a) k = Some y /\ ~ (y == x)%Q.
(** the members [new] are among [old], with multiplicity *)
Definition some_of (new old : list G) : Prop := exists gone, Permutation old (new ++ gone).
End Spec.
(** the square of the Euclidean distance *)
Fixpoint square_distance (v w : list Q) : Q :=
  match v, w with x :: v', y :: w' => ((x - y) * (x - y) + square_distance v' w')%Q | _, _ => 0%Q end.
