(** Model of what watches a multi-objective run: the continuators on the hypervolume (moeo/src/continue), the statistics on
    objective vectors and on a binary metric (moeo/src/utils), and the fitness with constraints
    (moeo/src/fitness/moeoConstraintFitnessAssignment.h). Doubles are exact rationals. An objective is a boolean, [true] when
    it is minimised. *)
From Coq Require Import List Arith Bool ZArith QArith.
From Verif Require Import Lib Outcome ReplModel HvModel WgtModel.
From Coq Require Import List.
Import ListNotations.
Close Scope Q_scope.
Open Scope nat_scope.

(** ** the continuators *)
(** tiny (moeoHyperVolumeDifferenceMetric.h:178-181) *)
Definition tiny : Q := (1 # 1000000)%Q.
(** setup on two sets (moeoHyperVolumeDifferenceMetric.h:140-171), one objective *)
Definition setup2 (s1 s2 : list point) (i : nat) : res (Q * Q) :=
  match s1, s2 with
  | p :: r, _ :: _ =>
      let! x := of_opt (nth_error p i) in
      let! (mn, mx) := bounds_of r i x x in
      let! (mn, mx) := bounds_of s2 i mn mx in
      Ok (if Qeq_bool mn mx then (mn - tiny, mx + tiny)%Q else (mn, mx))
  | _, _ => Throw
  end.
(** operator() (moeoHyperVolumeDifferenceMetric.h:87-128): the bounds and the reference point are computed again at each
    call, except that the reference point of the constructor is kept (rho is then 0) *)
Definition hv_between (dirs : list bool) (normalize : bool) (rho : Q) (ref : list Q) (s1 s2 : list point) : res Q :=
  let k := length dirs in
  let unit := repeat (0, 1)%Q k in
  let! (ref', bounds) :=
    if Qle_bool 1 rho then
      let! b := for_all_objectives (setup2 s1 s2) (seq 0 k) in
      Ok (map (fun db => ref_of normalize rho (fst db) (snd db)) (combine dirs b), if normalize then b else unit)
    else if normalize then let! b := for_all_objectives (setup2 s1 s2) (seq 0 k) in Ok (ref, b)
    else Ok (ref, unit) in
  let! a := hv_metric dirs false 0 ref' bounds s1 in
  let! b := hv_metric dirs false 0 ref' bounds s2 in
  Ok (a - b)%Q.
(** vectorToParetoSet (moeoHypContinue.h:122-133): [n] objectives per vector, the k-th number for each in turn *)
Definition targets (n : nat) (vec : list Q) : res (list point) :=
  for_all_objectives (fun i => for_all_objectives (fun j => of_opt (nth_error vec (i * n + j))) (seq 0 n)) (seq 0 (length vec / n)).
(** is_null_hypervolume and operator() (moeoHypContinue.h:87-119): [true] to go on *)
Definition hyp_continue (dirs : list bool) (normalize : bool) (rho : Q) (ref : list Q) (target archive : list point) : res bool :=
  let! d := hv_between dirs normalize rho ref archive target in
  Ok (negb (Qeq_bool d 0)).
(** an objective vector of moeoDualRealObjectiveVector: its feasibility, [None] as long as it was not set (its constructor,
    moeoDualRealObjectiveVector.h:51-53, does not initialise it), and its values *)
Definition dual := (option bool * point)%type.
(** vectorToParetoSet of moeoDualHypContinue (106-119): the feasibility of each value is set, not that of the vector *)
Definition dual_targets (n : nat) (vec : list Q) : res (list dual) :=
  let! t := targets n vec in Ok (map (fun p => (None, p)) t).
(** operator() (moeoDualHypContinue.h:83-101), compiled without assertions; [metric]: the binary metric, any *)
Definition dual_continue (metric : list point -> list point -> res Q) (target archive : list dual) : res bool :=
  let! a0 := of_opt (nth_error archive 0) in
  let! fa := of_opt (fst a0) in
  let! t0 := of_opt (nth_error target 0) in
  let! ft := of_opt (fst t0) in
  if negb (eqb fa ft) then Ok false else let! d := metric (map snd archive) (map snd target) in Ok (negb (Qeq_bool d 0)).

(** ** statistics *)
(** std::accumulate of an objective, then the division (moeoAverageObjVecStat.h:78-89); an empty population divides 0 by 0:
    no number results ([UB] here) *)
Fixpoint sum_of (o : nat) (pop : list point) (acc : Q) : res Q :=
  match pop with [] => Ok acc | p :: r => let! x := of_opt (nth_error p o) in sum_of o r (acc + x)%Q end.
Definition average_stat (n : nat) (pop : list point) : res (list Q) :=
  for_all_objectives (fun o => let! s := sum_of o pop 0%Q in if length pop =? 0 then UB else Ok (s / inject_Z (Z.of_nat (length pop)))%Q) (seq 0 n).
(** CmpObjVec (moeoBestObjVecStat.h:78-92): [d] is true when the objective is minimised *)
Definition obj_less (d : bool) (x y : Q) : bool := if d then qlt y x else qlt x y.
(** std::max_element (moeoBestObjVecStat.h:103) from the element of index [b] and value [x]; [i]: next index *)
Fixpoint max_el (d : bool) (o : nat) (pop : list point) (i b : nat) (x : Q) : res (nat * Q) :=
  match pop with
  | [] => Ok (b, x)
  | p :: r => let! y := of_opt (nth_error p o) in if obj_less d x y then max_el d o r (S i) i y else max_el d o r (S i) b x
  end.
(** max_element then it->objectiveVector()[o]: past the end of an empty population *)
Definition best_on (d : bool) (o : nat) (pop : list point) : res (nat * Q) :=
  match pop with [] => UB | p :: r => let! x := of_opt (nth_error p o) in max_el d o r 1 0 x end.
(** the statistic: its value, and best_individuals: for each iterator the call that found it and its index in the
    population of that call *)
Record best_stat := BestStat { bs_value : list Q; bs_found : list (nat * nat) }.
(** doit (moeoBestObjVecStat.h:95-108), call number [call] *)
Definition best_call (dirs : list bool) (call : nat) (st : best_stat) (pop : list point) : res best_stat :=
  let! l := for_all_objectives (fun o => let! d := of_opt (nth_error dirs o) in best_on d o pop) (seq 0 (length dirs)) in
  Ok (BestStat (map snd l) (bs_found st ++ map (fun b => (call, fst b)) l)).
Fixpoint best_calls (dirs : list bool) (call : nat) (st : best_stat) (pops : list (list point)) : res best_stat :=
  match pops with [] => Ok st | p :: r => let! st' := best_call dirs call st p in best_calls dirs (S call) st' r end.
(** bestindividuals (moeoBestObjVecStat.h:66-70) *)
Definition bestindividuals (n : nat) (st : best_stat) (which : nat) : res (nat * nat) :=
  if n <? which then Throw else of_opt (nth_error (bs_found st) which).

(** moeoBinaryMetricStat::operator() (57-82): the value and the previous population, [None] before the first one that is not
    empty; a population is the list of its objective vectors *)
Section Metric.
Variable T : Type.
Variable metric : list point -> list point -> T.
Definition metric_call (st : T * option (list point)) (pop : list point) : T * option (list point) :=
  match pop with
  | [] => st
  | _ => match snd st with None => (fst st, Some pop) | Some prev => (metric pop prev, Some pop) end
  end.
Definition metric_calls (v : T) (pops : list (list point)) : T * option (list point) := fold_left metric_call pops (v, None).
End Metric.

(** ** fitness with constraints *)
(** the loop of moeoConstraintFitnessAssignment::operator()(ObjectiveVector) (100-117) from objective [l]; [v] and [c] are
    the normalised vector and constraint *)
Fixpoint constraint_loop (to_optimize : Z) (l : nat) (dirs : list bool) (weight v c : list Q) (r : Q) : res Q :=
  match dirs with
  | [] => Ok r
  | d :: dirs' =>
      match weight, v, c with
      | w :: weight', x :: v', y :: c' =>
          constraint_loop to_optimize (S l) dirs' weight' v' c'
            (if (Z.of_nat l =? to_optimize)%Z then (if d then r - x * w else r + x * w)
             else if d then (if qlt y x then r - (x - y) * w else r)
             else (if qlt x y then r + (x - y) * w else r))%Q
      | _, _, _ => UB
      end
  end.
(** operator()(ObjectiveVector) (94-121): 0, with a message, when there are fewer weights than objectives *)
Definition constraint_fitness (sc : list (Q * Q)) (dirs : list bool) (weight constraint : list Q) (to_optimize : Z) (v : list Q) : res Q :=
  if length weight <? length dirs then Ok 0%Q
  else let! nv := scaled sc v in let! nc := scaled sc constraint in constraint_loop to_optimize 0 dirs weight nv nc 0%Q.
