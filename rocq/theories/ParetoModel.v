(** Model of moeo's objective vector comparators and of the additive epsilon indicator.

    Objective values are exact rationals (doubles in the code: the sign of a difference of
    doubles is exact, its comparison with the tolerance is not).  [dirs] is
    moeoObjectiveVectorTraits::bObj, [true] for a minimised objective; its length is
    nObjectives().  [tol] is Traits::tolerance() (1e-10 in moeoObjectiveVectorTraits.h:117-120).
    An objective vector has nObjectives() components (moeoObjectiveVector.h:63); the
    branches for lists of different lengths are never taken under that condition. *)
From Coq Require Import List Bool QArith Qabs.
From Verif Require Import Outcome BoundsModel.
Import ListNotations.
Local Open Scope Q_scope.

(** fabs(a - b) > tolerance *)
Definition differ (tol a b : Q) : bool := qltb tol (Qabs (a - b)).

(** moeoParetoObjectiveVectorComparator::operator() (moeoParetoObjectiveVectorComparator.h:56-91):
    true when the first vector is dominated by the second *)
Fixpoint pareto_loop (tol : Q) (dirs : list bool) (v1 v2 : list Q) (dom : bool) : bool :=
  match dirs, v1, v2 with
  | d :: dirs', a :: v1', b :: v2' =>
      if differ tol a b then
        if d then (if qltb b a then pareto_loop tol dirs' v1' v2' true else false)
        else (if qltb a b then pareto_loop tol dirs' v1' v2' true else false)
      else pareto_loop tol dirs' v1' v2' dom
  | _, _, _ => dom
  end.
Definition pareto (tol : Q) (dirs : list bool) (v1 v2 : list Q) : bool := pareto_loop tol dirs v1 v2 false.

(** moeoRealObjectiveVector::operator== (moeoRealObjectiveVector.h:90-100) *)
Fixpoint same_vector (tol : Q) (v1 v2 : list Q) : bool :=
  match v1, v2 with
  | a :: v1', b :: v2' => if differ tol a b then false else same_vector tol v1' v2'
  | _, _ => true
  end.

(** moeoObjectiveObjectiveVectorComparator (moeoObjectiveObjectiveVectorComparator.h:56-73) *)
Fixpoint lexicographic (tol : Q) (dirs : list bool) (v1 v2 : list Q) : bool :=
  match dirs, v1, v2 with
  | _ :: dirs', a :: v1', b :: v2' =>
      if differ tol a b then (if qltb a b then true else false) else lexicographic tol dirs' v1' v2'
  | _, _, _ => false
  end.

(** moeoWeakObjectiveVectorComparator (moeoWeakObjectiveVectorComparator.h:56-80) *)
Fixpoint weak (tol : Q) (dirs : list bool) (v1 v2 : list Q) : bool :=
  match dirs, v1, v2 with
  | d :: dirs', a :: v1', b :: v2' =>
      if differ tol a b then
        if d then (if qltb a b then false else weak tol dirs' v1' v2')
        else (if qltb b a then false else weak tol dirs' v1' v2')
      else weak tol dirs' v1' v2'
  | _, _, _ => true
  end.

(** moeoStrictObjectiveVectorComparator (moeoStrictObjectiveVectorComparator.h:56-82) *)
Fixpoint strict (tol : Q) (dirs : list bool) (v1 v2 : list Q) : bool :=
  match dirs, v1, v2 with
  | d :: dirs', a :: v1', b :: v2' =>
      if qltb (Qabs (a - b)) tol then false
      else if d then (if qltb a b then false else strict tol dirs' v1' v2')
      else (if qltb b a then false else strict tol dirs' v1' v2')
  | _, _, _ => true
  end.

(** moeoEpsilonObjectiveVectorComparator (moeoEpsilonObjectiveVectorComparator.h:63-87) *)
Fixpoint epsilon_cmp (tol eps : Q) (dirs : list bool) (v1 v2 : list Q) : bool :=
  match dirs, v1, v2 with
  | d :: dirs', a :: v1', b :: v2' =>
      if differ tol (a / eps) b then
        if d then (if Qle_bool (a / eps) b then false else epsilon_cmp tol eps dirs' v1' v2')
        else (if Qle_bool b (a / eps) then false else epsilon_cmp tol eps dirs' v1' v2')
      else epsilon_cmp tol eps dirs' v1' v2'
  | _, _, _ => true
  end.

(** moeoGDominanceObjectiveVectorComparator: flag (moeoGDominanceObjectiveVectorComparator.h:101-123)
    and operator() (67-86) *)
Fixpoint some_above (v r : list Q) : bool :=
  match v, r with a :: v', b :: r' => qltb b a || some_above v' r' | _, _ => false end.
Definition gflag (ref v : list Q) : bool :=
  if some_above v ref then negb (some_above ref v) else true.
Definition gdominance (tol : Q) (dirs : list bool) (ref v1 v2 : list Q) : bool :=
  if negb (gflag ref v2) then false
  else if negb (gflag ref v1) then true
  else pareto tol dirs v1 v2.

(** moeoParetoDualObjectiveVectorComparator (moeoParetoDualObjectiveVectorComparator.h:45-54)
    on vectors with their feasibility *)
Definition dual_pareto (tol : Q) (dirs : list bool) (v1 v2 : bool * list Q) : bool :=
  if fst v1 && negb (fst v2) then false
  else if negb (fst v1) && fst v2 then true
  else pareto tol dirs (snd v1) (snd v2).

(** moeoAdditiveEpsilonBinaryMetric (moeoAdditiveEpsilonBinaryMetric.h:60-105); a bound is
    (minimum, range).  Zero objectives make nObjectives() throw. *)
Definition normal (b : Q * Q) (x : Q) : Q := (x - fst b) / snd b.
Definition epsilon1 (d : bool) (b : Q * Q) (x y : Q) : Q :=
  if d then normal b x - normal b y else normal b y - normal b x.
Definition std_max (a b : Q) : Q := if qltb a b then b else a.
Fixpoint epsilon_loop (dirs : list bool) (bs : list (Q * Q)) (o1 o2 : list Q) (result : Q) : Q :=
  match dirs, bs, o1, o2 with
  | d :: dirs', b :: bs', x :: o1', y :: o2' => epsilon_loop dirs' bs' o1' o2' (std_max result (epsilon1 d b x y))
  | _, _, _, _ => result
  end.
Definition epsilon_metric (dirs : list bool) (bs : list (Q * Q)) (o1 o2 : list Q) : res Q :=
  match dirs, bs, o1, o2 with
  | d :: dirs', b :: bs', x :: o1', y :: o2' => Ok (epsilon_loop dirs' bs' o1' o2' (epsilon1 d b x y))
  | [], _, _, _ => Throw
  | _, _, _, _ => UB
  end.
