(** Model of the indicator-based fitness assignment of IBEA and of the hypervolume-difference
    indicator between two solutions (moeo/src/fitness/moeoExpBinaryIndicatorBasedFitnessAssignment.h,
    moeo/src/metric/moeoHypervolumeBinaryMetric.h, moeoNormalizedSolutionVsSolutionBinaryMetric.h).

    Simplified: doubles are exact rationals; [h x] stands for exp(-x/kappa); the objective type and
    the fitness are doubles (the conversions Type(...) and Fitness(...) do nothing); an
    individual is its objective vector and its fitness; a bound is (minimum, range). *)
From Coq Require Import List Bool QArith Arith.
From Verif Require Import Lib Outcome BoundsModel ParetoModel EvalModel.
Import ListNotations.
Close Scope Q_scope.
Open Scope nat_scope.

Notation vec := (list Q).
Notation indiv := (list Q * Q)%type.
Notation bound := (Q * Q)%type.

(** std::min, std::max *)
Definition std_min (a b : Q) : Q := if qltb b a then b else a.
(** setup(min, max, obj) (moeoNormalizedSolutionVsSolutionBinaryMetric.h:73-81); tiny() is 1e-6 *)
Definition tiny : Q := 1 # 1000000.
Definition make_bound (mn mx : Q) : bound :=
  if Qeq_bool mn mx then ((mn - tiny)%Q, ((mx + tiny) - (mn - tiny))%Q) else (mn, (mx - mn)%Q).

Section Ind.
(** the metric with its bounds *)
Variable metric : list bound -> vec -> vec -> res Q.
Variable h : Q -> Q.

(** setup (moeoExpBinaryIndicatorBasedFitnessAssignment.h:170-187) *)
Definition objective_of (x : indiv) (i : nat) : res Q := of_opt (nth_error (fst x) i).
Definition minmax (rest : list indiv) (i : nat) (first : Q) : res (Q * Q) :=
  for_in rest (fun x acc => let! v := objective_of x i in Ok (std_min (fst acc) v, std_max (snd acc) v)) (first, first).
Definition setup_one (pop : list indiv) (i : nat) : res bound :=
  match pop with
  | [] => UB
  | x :: rest => let! v := objective_of x i in let! (mn, mx) := minmax rest i v in Ok (make_bound mn mx)
  end.
Definition setup (nobj : nat) (pop : list indiv) : res (list bound) :=
  for_in (seq 0 nobj) (fun i acc => let! b := setup_one pop i in Ok (acc ++ [b])) [].

(** computeValues (194-217): resize when the matrix is too small, then fill *)
Fixpoint resize_to {A} (d : A) (n : nat) (l : list A) : list A :=
  match n, l with
  | 0, _ => []
  | S m, [] => d :: resize_to d m []
  | S m, x :: r => x :: resize_to d m r
  end.
Definition resize_matrix (values : list (list Q)) (n : nat) : list (list Q) :=
  if length values <? n then map (resize_to 0%Q n) (resize_to [] n values) else values.
Definition write (values : list (list Q)) (i j : nat) (v : Q) : res (list (list Q)) :=
  let! row := of_opt (nth_error values i) in
  let! row' := of_opt (upd row j v) in
  of_opt (upd values i row').
Definition compute_values (bs : list bound) (pop : list indiv) (values : list (list Q)) : res (list (list Q)) :=
  let n := length pop in
  for_in (seq 0 n) (fun i vs =>
    for_in (seq 0 n) (fun j vs =>
      if i =? j then Ok vs
      else
        let! x := of_opt (nth_error pop i) in
        let! y := of_opt (nth_error pop j) in
        let! v := metric bs (fst x) (fst y) in
        write vs i j v) vs) (resize_matrix values n).

(** computeFitness (238-249) *)
Definition compute_fitness (values : list (list Q)) (n idx : nat) : res Q :=
  for_in (seq 0 n) (fun i result =>
    if i =? idx then Ok result
    else
      let! row := of_opt (nth_error values i) in
      let! v := of_opt (nth_error row idx) in
      Ok (result - h v)%Q) 0%Q.
(** setFitnesses (224-230) *)
Definition set_fitnesses (values : list (list Q)) (pop : list indiv) : res (list indiv) :=
  for_in (seq 0 (length pop)) (fun i p =>
    let! f := compute_fitness values (length pop) i in
    let! x := of_opt (nth_error p i) in
    of_opt (upd p i (fst x, f))) pop.
(** operator() (88-96): the population, the bounds and the matrix left in the object *)
Definition assign (nobj : nat) (pop : list indiv) (values : list (list Q)) : res (list indiv * list bound * list (list Q)) :=
  let! bs := setup nobj pop in
  let! vs := compute_values bs pop values in
  let! p := set_fitnesses vs pop in
  Ok (p, bs, vs).

(** the values of the metric against one vector, in the order of the population *)
Fixpoint metrics (f : vec -> res Q) (pop : list indiv) : res (list Q) :=
  match pop with
  | [] => Ok []
  | x :: r => let! v := f (fst x) in let! vs := metrics f r in Ok (v :: vs)
  end.
Fixpoint add_to_all (op : Q -> Q -> Q) (pop : list indiv) (vs : list Q) : list indiv :=
  match pop, vs with
  | x :: r, v :: s => (fst x, op (snd x) (h v)) :: add_to_all op r s
  | _, _ => pop
  end.
(** updateByDeleting (104-117) *)
Definition update_by_deleting (bs : list bound) (pop : list indiv) (o : vec) : res (list indiv) :=
  let! vs := metrics (fun y => metric bs o y) pop in
  Ok (add_to_all Qplus pop vs).
(** updateByAdding (126-151) *)
Definition update_by_adding (bs : list bound) (pop : list indiv) (o : vec) : res (list indiv * Q) :=
  let! vs := metrics (fun y => metric bs o y) pop in
  let! ws := metrics (fun y => metric bs y o) pop in
  Ok (add_to_all Qminus pop vs, fold_left (fun r w => r - h w)%Q ws 0%Q).
End Ind.

(** moeoHypervolumeBinaryMetric::hypervolume (moeoHypervolumeBinaryMetric.h:127-172) *)
Fixpoint hypervolume (rho : Q) (bs : list bound) (o1 o2 : vec) (obj : nat) (flag : bool) : res Q :=
  let! b := of_opt (nth_error bs obj) in
  let! v1 := of_opt (nth_error o1 obj) in
  let! w := of_opt (nth_error o2 obj) in
  let range := (rho * snd b)%Q in
  let max := (fst b + range)%Q in
  let v2 := if flag then max else w in
  match obj with
  | 0 => Ok (if qltb v1 v2 then ((v2 - v1) / range)%Q else 0%Q)
  | S k =>
      if qltb v1 v2 then
        let! a := hypervolume rho bs o1 o2 k true in
        let! c := hypervolume rho bs o1 o2 k false in
        Ok (a * (v2 - v1) / range + c * (max - v2) / range)%Q
      else
        let! c := hypervolume rho bs o1 o2 k false in
        Ok (c * (max - v1) / range)%Q
  end.
(** maximised objectives are mirrored inside their bounds (81-88) *)
Fixpoint mirror (dirs : list bool) (bs : list bound) (o : vec) : vec :=
  match dirs, bs, o with
  | d :: dirs', b :: bs', x :: o' => (if d then x else (fst b + snd b) - x + fst b)%Q :: mirror dirs' bs' o'
  | _, _, _ => o
  end.
(** the constructor (moeoHypervolumeBinaryMetric.h:66-74) *)
Definition adjust_rho (rho : Q) : Q := if qltb rho 1 then 1%Q else rho.
(** operator() (moeoHypervolumeBinaryMetric.h:83-109) *)
Definition hypervolume_metric (tol rho : Q) (dirs : list bool) (bs : list bound) (o1 o2 : vec) : res Q :=
  let m1 := mirror dirs bs o1 in
  let m2 := mirror dirs bs o2 in
  match length dirs with
  | 0 => Throw
  | S k =>
      if pareto tol dirs o2 o1 then let! v := hypervolume (adjust_rho rho) bs m1 m2 k false in Ok (- v)%Q
      else hypervolume (adjust_rho rho) bs m2 m1 k false
  end.
