(** Specification of the worths (C119-C123), independent of the model. *)
From Coq Require Import List Arith Bool ZArith QArith Permutation Sorted.
From Verif Require Import Outcome EvalSpec RankSpec.
From Coq Require Import List.
Import ListNotations.
Close Scope Q_scope.

(** best first *)
Definition best_first {T} (lt : T -> T -> bool) (ws : list T) : Prop := StronglySorted (fun a b => lt a b = false) ws.

(** ** linear scaling: the average gets 1/n, the best [pressure]/n, linearly in between *)
Definition mean (fs : list Q) : Q := (qsum fs (fun f => f) / inject_Z (Z.of_nat (length fs)))%Q.
Definition on_the_line (pressure : Q) (n : nat) (avg best f : Q) : Q :=
  ((1 + (pressure - 1) * (f - avg) / (best - avg)) / inject_Z (Z.of_nat n))%Q.

(** ** sharing *)
Definition triangle (niche d : Q) : Q := if Qlt_le_dec niche d then 0%Q else (1 - d / niche)%Q.
Definition niche_count {A} (dist : A -> A -> Q) (niche : Q) (pop : list A) (i : nat) (x : A) : Q :=
  qsum (seq 0 (length pop)) (fun j => if j =? i then 1%Q else match nth_error pop j with Some y => triangle niche (dist x y) | None => 0%Q end).

(** ** non-dominated sorting *)
(** [fronts]: the fronts of RankSpec, each listed once; everybody is in one *)
Definition the_fronts {V} (D : V -> V -> Prop) (vs : list V) (fronts : list (list nat)) : Prop :=
  (forall k i, (exists fr, nth_error fronts k = Some fr /\ In i fr) <-> in_front_number D vs i (S k)) /\ Forall (@NoDup nat) fronts /\
  forall i, i < length vs -> exists fr, In fr fronts /\ In i fr.
(** the members of front k have worths in (top-k-1, top-k], ordered inside the front by the penalty [niche]
    gives on that front, the smaller the better *)
Definition worths_by_front (niche : list nat -> res (list Q)) (fronts : list (list nat)) (ws : list Q) : Prop :=
  exists top : Z, forall k fr, nth_error fronts k = Some fr -> fr <> [] ->
  exists nc, niche fr = Ok nc /\ length nc = length fr /\
  (forall i, In i fr -> exists w, nth_error ws i = Some w /\ 0 <= w /\ inject_Z (top - Z.of_nat k - 1) < w <= inject_Z (top - Z.of_nat k))%Q /\
  (forall a b i j ca cb wi wj, nth_error fr a = Some i -> nth_error fr b = Some j -> nth_error nc a = Some ca -> nth_error nc b = Some cb ->
     nth_error ws i = Some wi -> nth_error ws j = Some wj -> (ca < cb <-> wj < wi)%Q).
(** a penalty for every front, not negative *)
Definition good_niche (n : nat) (niche : list nat -> res (list Q)) : Prop :=
  forall fr, fr <> [] -> NoDup fr -> (forall i, In i fr -> i < n) -> exists nc, niche fr = Ok nc /\ length nc = length fr /\ Forall (fun c => 0 <= c)%Q nc.
(** the same, only for the fronts of this population *)
Definition penalises {V} (D : V -> V -> Prop) (vs : list V) (niche : list nat -> res (list Q)) : Prop :=
  forall k fr, fr <> [] -> NoDup fr -> (forall i, In i fr <-> in_front_number D vs i (S k)) ->
  exists nc, niche fr = Ok nc /\ length nc = length fr /\ Forall (fun c => 0 <= c)%Q nc.
(** the fronts with one member for each value: the other copies are put in the last of [length vs] fronts *)
Definition fronts_without_copies {V} (D same : V -> V -> Prop) (vs : list V) (fronts : list (list nat)) : Prop :=
  length fronts = length vs /\ NoDup (concat fronts) /\
  (forall i, In i (concat fronts) <-> i < length vs) /\
  (forall k fr i a, nth_error fronts k = Some fr -> In i fr -> nth_error vs i = Some a -> in_front_number D vs i (S k) \/
     (S k = length vs /\ exists j r fr' b, j <> i /\ nth_error vs j = Some b /\ same a b /\ in_front_number D vs j (S r) /\ nth_error fronts r = Some fr' /\ In j fr')) /\
  (forall k fr i j a b, S k < length vs -> nth_error fronts k = Some fr -> In i fr -> In j fr -> i <> j -> nth_error vs i = Some a -> nth_error vs j = Some b -> ~ same a b).

(** ** worths kept beside a population *)
(** the worths of the members are those a computation gave to a population with the same fitnesses, in any order (or there is nobody) *)
Definition up_to_date {A F T} (fit : A -> F) (calculate : list A -> list T -> res (list T)) (pop : list A) (ws : list T) : Prop :=
  length ws = length pop /\
  (pop = [] \/ exists pop0 old ws0, calculate pop0 old = Ok ws0 /\ length ws0 = length pop0 /\
   Permutation (combine (map fit pop) ws) (combine (map fit pop0) ws0)).
(** [v] beats all the others in its favour: the smallest, or the largest, of objective [o] *)
Definition extreme (vs : list (list Q)) (fr : list nat) (o i : nat) : Prop :=
  let x j := nth o (nth j vs []) 0%Q in
  (forall j, In j fr -> j <> i -> x i < x j)%Q \/ (forall j, In j fr -> j <> i -> x j < x i)%Q.
Definition inside (vs : list (list Q)) (fr : list nat) (o i : nat) : Prop :=
  let x j := nth o (nth j vs []) 0%Q in (exists j, In j fr /\ x j < x i)%Q /\ (exists j, In j fr /\ x i < x j)%Q.
(** square of the distance of two vectors *)
Definition sq_dist (v w : list Q) : Q := qsum (combine v w) (fun p => ((fst p - snd p) * (fst p - snd p))%Q).
(** the penalty of NSGA-I: sum over the other members nearer than [size] *)
Definition crowd (size : Q) (vs : list (list Q)) (fr : list nat) (i : nat) : Q :=
  qsum fr (fun j => if j =? i then 0%Q else
    let d := sq_dist (nth i vs []) (nth j vs []) in if Qlt_le_dec d size then (1 - (d / size) * (d / size))%Q else 0%Q).
