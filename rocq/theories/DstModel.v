(** Model of the distances between objective vectors (moeo/src/distance): Manhattan, Euclidean, expected fuzzy, and of the bounds of
    moeoNormalizedDistance.  Doubles are exact rationals; of a square root, the number under the root is given. *)
From Coq Require Import Bool Arith QArith Qabs Qminmax.
From Verif Require Import Lib Outcome WgtModel.
From Coq Require Import List.
Import ListNotations.
Local Open Scope Q_scope.

(** moeoManhattanDistance.h:75-86, the loop over the objectives *)
Fixpoint manhattan_loop (a b : list Q) (result : Q) : res Q :=
  match a, b with
  | [], [] => Ok result
  | x :: a, y :: b => manhattan_loop a b (result + Qabs (x - y))
  | _, _ => UB
  end.
(** moeoManhattanDistance::operator() (75-86): the normalizer gives the same vector at each turn, it is applied once here.  [sc]: the scale of the
    normalizer *)
Definition manhattan (sc : list (Q * Q)) (a b : list Q) : res Q :=
  let! a' := scaled sc a in let! b' := scaled sc b in manhattan_loop a' b' 0.

(** moeoEuclideanDistance.h:78-85, the loop *)
Fixpoint euclidean_loop (a b : list Q) (result : Q) : res Q :=
  match a, b with
  | [], [] => Ok result
  | x :: a, y :: b => euclidean_loop a b (result + (x - y) * (x - y))
  | _, _ => UB
  end.
(** what [normalizer], a reference, is bound to: the member defaultNormalizer (moeoEuclideanDistance.h:67-68), or the parameter of the constructor, that
    is passed by value and does not exist any more when the constructor is left (62-63) *)
Inductive referent := DefaultMember (sc : list (Q * Q)) | DeadParameter.
(** make_dummy_scale (moeoObjectiveVectorNormalizer.h:197-207) *)
Definition dummy_scale (n : nat) : list (Q * Q) := repeat (1, 0) n.
Definition euclidean_default (n : nat) : referent := DefaultMember (dummy_scale n).
Definition euclidean_with (sc : list (Q * Q)) : referent := DeadParameter.
(** moeoManhattanDistance.h:62-69: its constructor takes a reference, that is bound to the caller's object *)
Definition manhattan_default (n : nat) : list Q -> list Q -> res Q := manhattan (dummy_scale n).
(** moeoEuclideanDistance::operator() (75-86), under the root *)
Definition euclidean (r : referent) (a b : list Q) : res Q :=
  match r with
  | DefaultMember sc => let! a' := scaled sc a in let! b' := scaled sc b in euclidean_loop a' b' 0
  | DeadParameter => match a with [] => Ok 0 | _ => UB end
  end.

(** moeoExpectedFuzzyDistance.h:54-55: the expected value of a triangular fuzzy number *)
Definition expected (t : Q * Q * Q) : Q := (fst (fst t) + snd t + 2 * snd (fst t)) / 4.
(** moeoExpectedFuzzyDistance::operator() (47-61), under the root *)
Definition fuzzy_distance (a b : list (Q * Q * Q)) : res Q := euclidean_loop (map expected a) (map expected b) 0.

(** moeoNormalizedDistance::tiny (73-76) *)
Definition tiny : Q := 1 # 1000000.
(** moeoNormalizedDistance::setup(_min, _max, _obj) (109-117) *)
Definition widen (mn mx : Q) : Q * Q := if Qeq_bool mn mx then (mn - tiny, mx + tiny) else (mn, mx).
(** moeoNormalizedDistance::setup(_pop), one objective (88-96); the values of the objective over the population *)
Definition bounds1 (xs : list Q) : res (Q * Q) :=
  match xs with
  | [] => UB
  | x :: xs => let '(mn, mx) := fold_left (fun mm y => (Qmin (fst mm) y, Qmax (snd mm) y)) xs (x, x) in Ok (widen mn mx)
  end.
(** moeoNormalizedDistance::setup(_pop) (83-100) *)
Definition setup_bounds (n : nat) (pop : list (list Q)) : res (list (Q * Q)) :=
  let! cols := columns_of (seq 0 n) pop in each_col bounds1 cols.
