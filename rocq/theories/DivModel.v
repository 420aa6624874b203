(** Model of the diversity assignments of moeo (moeo/src/diversity/): crowding, front-by-front
    crowding, nearest neighbour, sharing, front-by-front sharing.

    Simplified: doubles are exact rationals; inf() = DBL_MAX absorbs the addition of a finite
    distance (as DBL_MAX + d rounds to DBL_MAX), 0/0 is NotANumber, which absorbs everything; a
    solution [x] is known by its identity, with accessors for its objectives and its fitness,
    which are supposed to be valid; sort is std::sort (std::list::sort for the distances). *)
From Coq Require Import List Bool QArith Arith.
From Verif Require Import Lib Outcome BoundsModel EvalModel DivSpec.
Import ListNotations.
Close Scope Q_scope.
Open Scope nat_scope.

Definition plus (a b : diversity) : diversity :=
  match a, b with
  | NotANumber, _ | _, NotANumber => NotANumber
  | Infinite, _ | _, Infinite => Infinite
  | Finite x, Finite y => Finite (x + y)%Q
  end.
Definition divide (x y : Q) : diversity := if Qeq_bool y 0 then NotANumber else Finite (x / y)%Q.

Section Div.
Variable X : Type.
Variable obj : nat -> X -> Q.
Variable fit : X -> Q.
Variable sort : forall T : Type, (T -> T -> bool) -> list T -> list T.

(** moeoOneObjectiveComparator (moeoOneObjectiveComparator.h:68-71) *)
Definition by_objective (i : nat) (a b : X * diversity) : bool := qltb (obj i (fst a)) (obj i (fst b)).

(** the distance at position [k] of a sorted run of values from position 0 to [n-1] *)
(** moeoCrowdingDiversityAssignment.h:128-137 *)
Definition share_plain (vs : list Q) (k : nat) : res diversity :=
  let! mn := of_opt (nth_error vs 0) in
  let! mx := of_opt (nth_error vs (length vs - 1)) in
  let! next := of_opt (nth_error vs (k + 1)) in
  let! prev := of_opt (nth_error vs (k - 1)) in
  Ok (divide (next - prev) (mx - mn)).
(** moeoFrontByFrontCrowdingDiversityAssignment.h:127-146 *)
Definition tiny : Q := 1 # 1000000.
Definition share_front (vs : list Q) (k : nat) : res diversity :=
  let! mn := of_opt (nth_error vs (length vs - 1)) in
  let! mx := of_opt (nth_error vs 0) in
  let '(mn, mx) := if Qeq_bool mn mx then ((mn - tiny)%Q, (mx + tiny)%Q) else (mn, mx) in
  let! prev := of_opt (nth_error vs (k - 1)) in
  let! next := of_opt (nth_error vs (k + 1)) in
  Ok (divide (prev - next) (mx - mn)).

Variable share : list Q -> nat -> res diversity.
(** one objective on a run of at least three solutions: sort, the ends get inf(), the others add
    their distance (moeoCrowdingDiversityAssignment.h:122-138,
    moeoFrontByFrontCrowdingDiversityAssignment.h:118-147) *)
Definition pass (i : nat) (run : list (X * diversity)) : res (list (X * diversity)) :=
  let run := sort _ (by_objective i) run in
  let vs := map (fun p => obj i (fst p)) run in
  let! run := match run with [] => UB | x :: r => Ok ((fst x, Infinite) :: r) end in
  let! x := of_opt (nth_error run (length run - 1)) in
  let! run := of_opt (upd run (length run - 1) (fst x, Infinite)) in
  for_in (seq 1 (length run - 2)) (fun k run =>
    let! x := of_opt (nth_error run k) in
    let! d := share vs k in
    of_opt (upd run k (fst x, plus (snd x) d))) run.
Definition passes (nobj : nat) (run : list (X * diversity)) : res (list (X * diversity)) :=
  for_in (seq 0 nobj) pass run.
End Div.

Section Assign.
Variable X : Type.
Variable obj : nat -> X -> Q.
Variable fit : X -> Q.
Variable sort : forall T : Type, (T -> T -> bool) -> list T -> list T.

(** operator() (moeoCrowdingDiversityAssignment.h:81-94), shared by both classes *)
Definition few_or (set_distances : list X -> res (list (X * diversity))) (pop : list X) : res (list (X * diversity)) :=
  if length pop <=? 2 then Ok (map (fun x => (x, Infinite)) pop) else set_distances pop.
(** setDistances (moeoCrowdingDiversityAssignment.h:113-140): the population itself is sorted *)
Definition crowding_distances (nobj : nat) (pop : list X) : res (list (X * diversity)) :=
  few_or (fun pop => passes X obj sort share_plain nobj (map (fun x => (x, Finite 0)) pop)) pop.

(** moeoFitnessThenDiversityComparator (moeoFitnessThenDiversityComparator.h:56-66) through
    pointers; the diversities have just been set to 0 when it is used *)
Definition by_fitness (a b : X) : bool :=
  if Qeq_bool (fit a) (fit b) then qltb 0 0 else qltb (fit a) (fit b).
(** lastIndex (moeoFrontByFrontCrowdingDiversityAssignment.h:163-171): the front that starts the
    list, and what follows *)
Fixpoint split_front (x : X * diversity) (rest : list (X * diversity)) : list (X * diversity) * list (X * diversity) :=
  match rest with
  | y :: r => if Qeq_bool (fit (fst x)) (fit (fst y)) then let '(f, r') := split_front y r in (x :: f, r') else ([x], rest)
  | [] => ([x], [])
  end.
(** the loop over the fronts (102-152); a pointer is the solution with its diversity, which goes
    along with it *)
Fixpoint fronts (fuel nobj : nat) (ptrs : list (X * diversity)) : res (list (X * diversity)) :=
  match fuel, ptrs with
  | _, [] => Ok []
  | 0, _ => NoDraw
  | S fuel, x :: r =>
      let '(front, rest) := split_front x r in
      let! front := if length front - 1 <? 2 then Ok (map (fun p => (fst p, Infinite)) front) else passes X obj sort share_front nobj front in
      let! rest := fronts fuel nobj rest in
      Ok (front ++ rest)
  end.
(** setDistances (79-153): the pointers with the diversities they were given; the population
    itself keeps its order *)
Definition front_by_front_crowding (nobj : nat) (pop : list X) : res (list (X * diversity)) :=
  few_or (fun pop => fronts (length pop) nobj (map (fun x => (x, Finite 0)) (sort _ by_fitness pop))) pop.

(** ** moeoNearestNeighborDiversityAssignment.h *)
Variable dist : X -> X -> Q.
Definition push (rows : list (list Q)) (k : nat) (d : Q) : res (list (list Q)) :=
  let! row := of_opt (nth_error rows k) in of_opt (upd rows k (row ++ [d])).
(** the distances between all the solutions of the population and of the archive (113-132) *)
Definition distances_to_others (all : list X) : res (list (list Q)) :=
  let n := length all in
  for_in (seq 0 (n - 1)) (fun k rows =>
    for_in (seq (k + 1) (n - (k + 1))) (fun l rows =>
      let! x := of_opt (nth_error all k) in
      let! y := of_opt (nth_error all l) in
      let! rows := push rows k (dist x y) in
      push rows l (dist x y)) rows) (repeat [] n).
(** getElement (177-183) *)
Definition get_element (index : nat) (l : list Q) : res Q := of_opt (nth_error l (Nat.min (length l) index - 1)).
(** operator() (107-140): the diversities of the population, then of the archive *)
Definition nearest_neighbour (index : nat) (pop archive : list X) : res (list Q) :=
  let! rows := distances_to_others (pop ++ archive) in
  for_in rows (fun row acc => let! d := get_element index (sort _ qltb row) in Ok (acc ++ [(- (1) / (2 + d))%Q])) [].

(** ** moeoSharingDiversityAssignment.h; [close d] stands for 1 - pow(d / nicheSize, alpha) *)
Variable close : Q -> Q.
Variable niche : Q.
Definition sh (d : Q) : Q := if qltb d niche then close d else 0%Q.
(** moeoDistanceMatrix::operator() (moeo/src/distance/moeoDistanceMatrix.h:75-90) *)
Definition put (m : list (list Q)) (i j : nat) (d : Q) : res (list (list Q)) :=
  let! row := of_opt (nth_error m i) in
  let! row := of_opt (upd row j d) in
  of_opt (upd m i row).
Definition distance_matrix (pop : list X) : res (list (list Q)) :=
  let n := length pop in
  let! m := put (repeat (repeat 0%Q n) n) 0 0 0%Q in
  for_in (seq 0 n) (fun i m =>
    let! m := put m i i 0%Q in
    for_in (seq 0 i) (fun j m =>
      let! x := of_opt (nth_error pop i) in
      let! y := of_opt (nth_error pop j) in
      let! m := put m i j (dist x y) in
      put m j i (dist x y)) m) m.
(** moeoFrontByFrontSharingDiversityAssignment::setSimilarities (103-117): solutions of different
    fronts are put out of the niche *)
Definition separate_fronts (pop : list X) (m : list (list Q)) : res (list (list Q)) :=
  for_in (seq 0 (length pop)) (fun i m =>
    for_in (seq 0 i) (fun j m =>
      let! x := of_opt (nth_error pop i) in
      let! y := of_opt (nth_error pop j) in
      if Qeq_bool (fit x) (fit y) then Ok m
      else let! m := put m i j niche in put m j i niche) m) m.
(** the sums (moeoSharingDiversityAssignment.h:125-134) *)
Definition similarities (n : nat) (m : list (list Q)) : res (list Q) :=
  for_in (seq 0 n) (fun i acc =>
    let! s := for_in (seq 0 n) (fun j s => let! row := of_opt (nth_error m i) in let! d := of_opt (nth_error row j) in Ok (s + sh d)%Q) 0%Q in
    Ok (acc ++ [s])) [].
(** operator() (76-87): the largest value by max_element, then the inversion *)
Definition max_element (l : list Q) : res Q :=
  match l with [] => UB | x :: r => Ok (fold_left (fun m y => if qltb m y then y else m) r x) end.
Definition invert (l : list Q) : res (list Q) := let! mx := max_element l in Ok (map (fun s => (mx - s)%Q) l).
Definition sharing (pop : list X) : res (list Q) :=
  let! m := distance_matrix pop in
  let! l := similarities (length pop) m in
  invert l.
Definition front_by_front_sharing (pop : list X) : res (list Q) :=
  let! m := distance_matrix pop in
  let! m := separate_fronts pop m in
  let! l := similarities (length pop) m in
  invert l.
End Assign.
