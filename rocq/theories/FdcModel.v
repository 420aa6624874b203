(** Model of the distances between genotypes (eo/src/utils/eoDistance.h) and of statistics on a population: the fitness distance
    correlation (eo/src/utils/eoFDCStat.h), the ratio of feasible individuals (eo/src/utils/eoFeasibleRatioStat.h), the terms of an
    assembled fitness (eo/src/utils/eoAssembledFitnessStat.h), the dump of the population (eo/src/utils/eoPopStat.h) and the lists of
    fitnesses (eo/src/utils/eoScalarFitnessStat.h, eo/src/utils/eoMOFitnessStat.h).
    Doubles are real numbers; a division by zero gives [None] (a double that is not a number). *)
From Coq Require Import List Arith Bool Reals.
From Verif Require Import Lib Outcome PopModel FitModel.
From Coq Require Import List.
Import ListNotations.
Open Scope nat_scope.

(** ** distances *)
(** the loop of the distances: for (i = 0; i < v1.size(); i++) sum += term(v1[i], v2[i]) *)
Fixpoint dist_loop {T} (term : T -> T -> R) (v1 v2 : list T) (is : list nat) (sum : R) : res R :=
  match is with
  | [] => Ok sum
  | i :: r => let! a := of_opt (nth_error v1 i) in let! b := of_opt (nth_error v2 i) in dist_loop term v1 v2 r (sum + term a b)%R
  end.
(** eoQuadDistance (eoDistance.h:49-62) *)
Definition quad_distance (v1 v2 : list R) : res R :=
  let! sum := dist_loop (fun a b => ((a - b) * (a - b))%R) v1 v2 (seq 0 (length v1)) 0%R in Ok (sqrt sum).
(** eoL1Distance (eoDistance.h:72-86) *)
Definition l1_distance (v1 v2 : list R) : res R := dist_loop (fun a b => Rabs (a - b)) v1 v2 (seq 0 (length v1)) 0%R.
(** eoHammingDistance (eoDistance.h:93-107); [eqb]: operator== of the genes *)
Definition hamming_distance {T} (eqb : T -> T -> bool) (v1 v2 : list T) : res R :=
  dist_loop (fun a b => if eqb a b then 0%R else 1%R) v1 v2 (seq 0 (length v1)) 0%R.
(** eoFitnessDistance (eoDistance.h:113-122) *)
Definition fitness_distance (f1 f2 : R) : R := let d := (f1 - f2)%R in sqrt (d * d).

(** ** the fitness distance correlation *)
Definition divide (a b : R) : option R := if Req_EM_T b 0 then None else Some (a / b)%R.
Section Fdc.
Variable X : Type.
Variable fitness : X -> R.
Variable ltb : X -> X -> bool.
Variable dist : X -> X -> res R.
Record fdc_stat := FdcStat { fdc_value : option R; dist_to_best : list R; fitnesses : list R }.
(** the first loop (eoFDCStat.h:70-74): both vectors and both sums *)
Fixpoint first_loop (best : X) (pop : list X) (ds fs : list R) (sumDist sumFit : R) : res (list R * list R * R * R) :=
  match pop with
  | [] => Ok (ds, fs, sumDist, sumFit)
  | x :: r => let! d := dist x best in first_loop best r (ds ++ [d]) (fs ++ [fitness x]) (sumDist + d)%R (sumFit + fitness x)%R
  end.
(** the second loop (eoFDCStat.h:80-87) *)
Fixpoint second_loop (avgDist avgFit : R) (l : list (R * R)) (sumDist sumFit num : R) : R * R * R :=
  match l with
  | [] => (sumDist, sumFit, num)
  | (d, f) :: r => let devDist := (d - avgDist)%R in let devFit := (f - avgFit)%R in
      second_loop avgDist avgFit r (sumDist + devDist * devDist)%R (sumFit + devFit * devFit)%R (num + devDist * devFit)%R
  end.
(** eoFDCStat::operator() (eoFDCStat.h:60-89); [optimum]: the one given to the constructor (52-56), if any. With an empty population
    the two averages are not numbers but nothing uses them. *)
Definition fdc (optimum : option X) (pop : list X) : res fdc_stat :=
  let! best := match optimum with Some b => Ok b | None => best_element X ltb pop end in
  let! (ds, fs, sumDist, sumFit) := first_loop best pop [] [] 0%R 0%R in
  let avgDist := (sumDist / INR (length pop))%R in
  let avgFit := (sumFit / INR (length pop))%R in
  let '(sd, sf, num) := second_loop avgDist avgFit (combine ds fs) 0%R 0%R 0%R in
  Ok (FdcStat (divide num (sqrt sd * sqrt sf)) ds fs).
End Fdc.

(** ** feasible individuals: eoFeasibleRatioStat::operator() (eoFeasibleRatioStat.h:49-62), std::count_if of is_feasible *)
Fixpoint count_feasible {V} (pop : list (dual V)) : res nat :=
  match pop with [] => Ok 0 | x :: r => let! b := is_feasible x in let! n := count_feasible r in Ok (if b : bool then S n else n) end.
Definition feasible_ratio {V} (pop : list (dual V)) : res (option R) :=
  let! n := count_feasible pop in Ok (divide (INR n) (INR (length pop))).

(** ** assembled fitnesses: the terms and the flag [failed] *)
Record assembled_fitness := Assembled { terms : list R; failed : bool }.
(** the test at the beginning of both statistics (eoAssembledFitnessStat.h:63-64, 101-102) *)
Definition check_term (which : nat) (pop : list assembled_fitness) : res unit :=
  let! x := of_opt (nth_error pop 0) in if length (terms x) <=? which then Throw else Ok tt.
(** the loop of eoAssembledFitnessAverageStat (66-73) *)
Fixpoint average_loop (which : nat) (pop : list assembled_fitness) (result : R) (count : nat) : res (R * nat) :=
  match pop with
  | [] => Ok (result, count)
  | x :: r => if failed x then average_loop which r result count
              else let! t := of_opt (nth_error (terms x) which) in average_loop which r (result + t)%R (S count)
  end.
Definition assembled_average (which : nat) (pop : list assembled_fitness) : res (option R) :=
  let! _ := check_term which pop in
  let! (result, count) := average_loop which pop 0%R 0 in Ok (divide result (INR count)).
(** operator< of assembled fitnesses compares their first terms (eoScalarFitnessAssembled.h:219-224) *)
Definition assembled_lt (a b : assembled_fitness) : bool :=
  match terms a, terms b with x :: _, y :: _ => if Rlt_dec x y then true else false | _, _ => false end.
(** eoAssembledFitnessBestStat::operator() (100-105) *)
Definition assembled_best (which : nat) (pop : list assembled_fitness) : res R :=
  let! _ := check_term which pop in
  let! b := best_element assembled_fitness assembled_lt pop in of_opt (nth_error (terms b) which).

(** ** the dump of a population: eoPopStat and eoSortedPopStat (eoPopStat.h:72-85, 124-138); [show]: the printed form of an
    individual with its line end, [combien]: the number asked for *)
Fixpoint dump_loop {X S} (show : X -> S) (pop : list X) (is : list nat) : res (list S) :=
  match is with [] => Ok [] | i :: r => let! x := of_opt (nth_error pop i) in let! l := dump_loop show pop r in Ok (show x :: l) end.
Definition dump {X S} (show : X -> S) (combien : nat) (pop : list X) : res (list S) :=
  dump_loop show pop (seq 0 (if combien =? 0 then length pop else combien)).
(** eoFitnessStat (eoMOFitnessStat.h:47-52); eoMOFitnessStat (79-87): one objective of each individual *)
Fixpoint objective_loop {V} (objective : nat) (pop : list (list V)) : res (list V) :=
  match pop with [] => Ok [] | x :: r => let! v := of_opt (nth_error x objective) in let! l := objective_loop objective r in Ok (v :: l) end.
(** eoScalarFitnessStat (eoScalarFitnessStat.h:50-58): the fitnesses brought within the bounds; [truncate]: eoRealBounds::truncate *)
Definition scalar_fitnesses (truncate : R -> R) (pop : list R) : list R := map truncate pop.
