(** Model of the worths of EO: eoPerf2Worth, eoPerf2WorthCached, the selectors based on them
    (eoSelectFromWorth.h), linear fitness scaling, sharing and non-dominated sorting.
    Doubles are exact rationals. *)
From Coq Require Import List Arith Bool ZArith QArith Qround Qabs.
From Verif Require Import Outcome Lib BoundsModel ParetoModel PopModel SelectModel RankModel.
From Coq Require Import List.
Import ListNotations.
Close Scope Q_scope.

(** ** worths kept beside a population *)
Section Sync.
Context {A F T : Type}.
(** [none], [zero]: default-constructed individual and worth; [nofit] fitness *)
Variables (none : A) (zero : T) (nofit : F).
(** operator< on worths, operator== on fitnesses, the fitness of an individual (all are valid) *)
Variables (ltw : T -> T -> bool) (eqf : F -> F -> bool) (fit : A -> F).
Variable sort : forall X : Type, (X -> X -> bool) -> list X -> list X.
(** std::vector::resize *)
Definition resized {X} (d : X) (l : list X) (n : nat) : list X := firstn n l ++ repeat d (n - length l).
(** the indices sorted by compare_worth (eoPerf2Worth.h:61-69, 94-107) *)
Definition by_worth (ws : list T) (n : nat) : list nat :=
  sort nat (fun a b => ltw (nth b ws zero) (nth a ws zero)) (seq 0 n).
(** eoPerf2Worth::sort_pop (59-91); reading a worth that does not exist is undefined *)
Definition sort_pop (pop : list A) (ws : list T) : res (list A * list T) :=
  if length ws <? length pop then UB
  else let idx := by_worth ws (length pop) in
       Ok (map (fun i => nth i pop none) idx, map (fun i => nth i ws zero) idx ++ repeat zero (length ws - length pop)).
(** eoPerf2Worth::resize (111-114) *)
Definition resize_pop (sz : nat) (pop : list A) (ws : list T) : list A * list T := (resized none pop sz, resized zero ws sz).

(** eoPerf2WorthCached: the cache of fitnesses and the worths. [calculate] is the virtual
    calculate_worths: it gets the population and the old worths. *)
Record cached := Cached { cache : list F; worths : list T }.
Variable calculate : list A -> list T -> res (list T).
Fixpoint same_fitnesses (l l' : list F) : bool :=
  match l, l' with
  | [], [] => true
  | a :: l, b :: l' => eqf a b && same_fitnesses l l'
  | _, _ => false
  end.
(** operator() (138-169): the cache gets the fitnesses of the population whatever happens; the
    worths are computed again if one differs or the size does *)
Definition cached_call (st : cached) (pop : list A) : cached * res unit :=
  if (length (cache st) =? length pop) && same_fitnesses (cache st) (map fit pop) then (st, Ok tt)
  else match calculate pop (worths st) with
       | Ok ws => (Cached (map fit pop) ws, Ok tt)
       | Throw => (Cached (map fit pop) (worths st), Throw)
       | UB => (Cached (map fit pop) (worths st), UB)
       | NoDraw => (Cached (map fit pop) (worths st), NoDraw)
       end.
(** sort_pop (177-208) and resize (228-233) *)
Definition cached_sort (st : cached) (pop : list A) : res (cached * list A) :=
  if (length (worths st) <? length pop) || (length (cache st) <? length pop) then UB
  else let idx := by_worth (worths st) (length pop) in
       Ok (Cached (map (fun i => nth i (cache st) nofit) idx) (map (fun i => nth i (worths st) zero) idx ++ repeat zero (length (worths st) - length pop)),
           map (fun i => nth i pop none) idx).
Definition cached_resize (sz : nat) (st : cached) (pop : list A) : cached * list A :=
  (Cached (resized nofit (cache st) sz) (resized zero (worths st) sz), resized none pop sz).

(** ** selection from the worths (eoSelectFromWorth.h) *)
(** the worths, the fitnesses remembered by a debug build and the total of eoRouletteWorthSelect *)
Record chooser := Chooser { w_of : list T; f_of : list F }.
(** setup (63-71) *)
Variable perf2worth : list A -> res (list T).
Definition choose_setup (pop : list A) : res chooser := let! ws := perf2worth pop in Ok (Chooser ws (map fit pop)).
(** the end of operator() (114-119, 155-162, 216-223): [debug] is a build without NDEBUG, which
    checks the fitness (80-84) *)
Definition chosen (debug : bool) (st : chooser) (pop : list A) (index : nat) : res A :=
  if debug then
    let! f := of_opt (nth_error (f_of st) index) in
    let! x := of_opt (nth_error pop index) in
    if eqf f (fit x) then Ok x else Throw
  else of_opt (nth_error pop index).
(** eoDetTournamentWorthSelect::operator() (110-120) *)
Definition det_worth_select (debug : bool) (t_size : nat) (st : chooser) (pop : list A) (ds : list nat) : res (A * list nat) :=
  let! (index, ds) := det_tournament T ltw (w_of st) t_size ds in
  let! x := chosen debug st pop index in Ok (x, ds).
(** eoStochTournamentWorthSelect::operator() (150-163) *)
Definition stoch_worth_select (debug certain : bool) (st : chooser) (pop : list A) (ds : list nat) : res (A * list nat) :=
  let! (index, ds) := stoch_tournament T ltw (w_of st) certain ds in
  let! x := chosen debug st pop index in Ok (x, ds).
End Sync.
(** eoRouletteWorthSelect (192-225): setup adds the worths up *)
Definition roulette_worth_select {A F} (eqf : F -> F -> bool) (fit : A -> F) (debug : bool) (st : chooser (F:=F) (T:=Q)) (u : Q) (pop : list A) (ds : list nat) : res (A * list nat) :=
  let total := fold_left Qplus (w_of st) 0%Q in
  let! (index, ds) := roulette_wheel (w_of st) total u ds in
  let! x := chosen eqf fit debug st pop index in Ok (x, ds).

(** ** eoLinearFitScaling::operator() (eoLinearFitScaling.h:62-86). [best]: the fitness of
    best_element(), an operator< on individuals ([ltb] here, on the fitnesses as doubles); it is undefined on an
    empty population. [None] is a NaN, which all the worths are when the division is by 0. *)
Definition best_fitness (ltb : Q -> Q -> bool) (fs : list Q) : option Q :=
  match fs with [] => None | f :: r => Some (fold_left (fun m x => if ltb m x then x else m) r f) end.
Definition linear_scaling (ltb : Q -> Q -> bool) (pressure : Q) (fs : list Q) : res (list (option Q)) :=
  let! best := of_opt (best_fitness ltb fs) in
  let n := qn (length fs) in
  let average := (fold_left Qplus fs 0 / n)%Q in
  let denom := (n * (best - average))%Q in
  let alpha := ((pressure - 1) / denom)%Q in
  let beta := ((best - pressure * average) / denom)%Q in
  Ok (map (fun f => if Qeq_bool denom 0 then None else Some (let v := (alpha * f + beta)%Q in if qltb v 0 then 0%Q else v)) fs).

(** ** eoSharing::operator() (eoSharing.h:99-133) *)
Section Sharing.
Context {A : Type}.
Variables (fit : A -> Q) (dist : A -> A -> Q) (niche : Q).
(** distMatrix(i,j) (108-120): the distance is asked with the later individual first. With
    [niche] = 0 two individuals at distance 0 would give a NaN: [niche] is positive. *)
Definition similarity (pop : list A) (i j : nat) : res Q :=
  if i =? j then Ok 1%Q
  else let! x := of_opt (nth_error pop (Nat.max i j)) in
       let! y := of_opt (nth_error pop (Nat.min i j)) in
       let d := dist x y in Ok (if qltb niche d then 0 else 1 - d / niche)%Q.
(** sim[i] (122-128) *)
Fixpoint sim_sum (pop : list A) (i : nat) (js : list nat) (sum : Q) : res Q :=
  match js with
  | [] => Ok sum
  | j :: r => let! s := similarity pop i j in sim_sum pop i r (sum + s)%Q
  end.
Fixpoint shared (pop : list A) (is : list nat) : res (list Q) :=
  match is with
  | [] => Ok []
  | i :: r =>
      let! s := sim_sum pop i (seq 0 (length pop)) 0%Q in
      let! x := of_opt (nth_error pop i) in
      let! ws := shared pop r in Ok ((fit x / s)%Q :: ws)
  end.
Definition sharing (pop : list A) : res (list Q) :=
  if length pop <=? 1 then Throw else shared pop (seq 0 (length pop)).
End Sharing.

(** ** eoNDSorting (eoNDSorting.h) *)
(** *std::max_element; undefined on an empty vector *)
Definition max_element (l : list Q) : res Q :=
  match l with [] => UB | x :: r => Ok (fold_left (fun m v => if qltb m v then v else m) r x) end.
(** rank_to_worth (359-372) *)
Definition rank_to_worth (value : list Q) : res (list Q) :=
  let! m := max_element value in
  Ok (map (fun v => inject_Z (Qceiling m) - v)%Q value).
(** one_objective (99-120), on the fitnesses *)
Definition nd_one (sort : forall X : Type, (X -> X -> bool) -> list X -> list X) {F} (ltf : F -> F -> bool) (fs : list F) (nofit : F) (value : list Q) : res (list Q) :=
  let n := length fs in
  of_opt (assign_worths (fun i => qn (n - i)) (sort nat (fun a b => ltf (nth b fs nofit) (nth a fs nofit)) (seq 0 n)) 0 (resized 0%Q value n)).

Section Niche.
(** niche_penalty on this population *)
Variable niche : list nat -> res (list Q).
(** the worths of the members of a front (230-233, 330-333) *)
Fixpoint put_front (index : nat) (max_niche : Q) (front : list nat) (counts : list Q) (value : list Q) : res (list Q) :=
  match front, counts with
  | i :: front', c :: counts' =>
      let! value' := of_opt (upd value i (qn index + c / (max_niche + 1))%Q) in put_front index max_niche front' counts' value'
  | _, _ => Ok value
  end.
(** niching of a front (219-233, 319-333); dividing by max_niche + 1 = 0 does not happen with the
    penalties below *)
Definition niche_front (index : nat) (front : list nat) (value : list Q) : res (list Q) :=
  let! counts := niche front in
  if negb (length counts =? length front) then Throw
  else let! m := max_element counts in put_front index m front counts value.

(** m_objectives (272-357), for any [dominated a b]: [b] dominates [a] *)
Section Many.
Context {V : Type}.
Variables (dominated : V -> V -> bool) (vs : list V).
(** the counters and the next front (337-349) *)
Definition nd_visit (st : list nat * list nat) (q : nat) : res (list nat * list nat) :=
  let '(n, next) := st in
  let! c := of_opt (nth_error n q) in
  match c with
  | 0 => UB
  | S c' => Ok (set n q c', if c' =? 0 then next ++ [q] else next)
  end.
Fixpoint nd_visit_all (st : list nat * list nat) (qs : list nat) : res (list nat * list nat) :=
  match qs with
  | [] => Ok st
  | q :: r => let! st' := nd_visit st q in nd_visit_all st' r
  end.
Fixpoint nd_visit_front (st : list nat * list nat) (ps : list nat) : res (list nat * list nat) :=
  match ps with
  | [] => Ok st
  | p :: r => let! st' := nd_visit_all st (dominated_by V dominated vs p) in nd_visit_front st' r
  end.
(** while (!current_front.empty()) (317-354) *)
Fixpoint nd_loop (fuel index : nat) (front n : list nat) (value : list Q) : res (list Q) :=
  match fuel with
  | 0 => NoDraw
  | S fuel' =>
      match front with
      | [] => Ok value
      | _ =>
          let! value' := niche_front index front value in
          let! (n', next) := nd_visit_front (n, []) front in
          nd_loop fuel' (S index) next n' value'
      end
  end.
(** S and n (278-299) and the first front (304-311) are as in moeo *)
Definition nd_many (value : list Q) : res (list Q) :=
  let! value' := nd_loop (S (length vs)) 0 (first_front V dominated vs) (map (dominators V dominated vs) (seq 0 (length vs))) (resized 0%Q value (length vs)) in
  rank_to_worth value'.
End Many.

(** two_objectives (140-239). [max0], [max1]: traits::maximizing; [same]: operator== on
    fitnesses; a fitness is its vector of two objectives. *)
Section Two.
Variable sort : forall X : Type, (X -> X -> bool) -> list X -> list X.
Variables (max0 max1 : bool) (tol : Q) (same : list Q -> list Q -> bool) (declone : bool) (vs : list (list Q)).
Definition obj (i o : nat) : Q := nth o (nth i vs (hd [] vs)) 0%Q.
(** Sorter (241-270) *)
Definition nd_before (i j : nat) : bool :=
  let diff := (obj i 0 - obj j 0)%Q in
  if qltb (Qabs diff) tol then
    let diff := (obj i 1 - obj j 1)%Q in
    if qltb (Qabs diff) tol then false else if max1 then qltb 0 diff else qltb diff 0
  else if max0 then qltb 0 diff else qltb diff 0.
(** max1 (159-165) *)
Definition nd_top : Q := (fold_left (fun m i => std_max m (obj i 1)) (seq 0 (length vs)) (- inject_Z (10 ^ 20)) + 1)%Q.
Definition push (fronts : list (list nat)) (k i : nat) : res (list (list nat)) :=
  let! f := of_opt (nth_error fronts k) in of_opt (upd fronts k (f ++ [i])).
(** the loop on the sorted indices (173-211): d, last_front, prev_front and fronts *)
Fixpoint nd_place (sorted : list nat) (prev : option nat) (d : list Q) (last_front prev_front : nat) (fronts : list (list nat)) : res (list (list nat)) :=
  match sorted with
  | [] => Ok fronts
  | i :: r =>
      if match prev with Some p => same (nth i vs []) (nth p vs []) | None => false end then
        let! fronts' := push fronts (if declone then length fronts - 1 else prev_front) i in
        nd_place r (Some i) d last_front prev_front fronts'
      else
        let value2 := if max1 then (nd_top - obj i 1)%Q else obj i 1 in
        let! front := upper_bound (firstn last_front d) value2 in
        let! d' := of_opt (upd d front value2) in
        let! fronts' := push fronts front i in
        nd_place r (Some i) d' (if front =? last_front then S last_front else last_front) front fronts'
  end.
(** the niching (215-235) *)
Fixpoint niche_fronts (index : nat) (fronts : list (list nat)) (value : list Q) : res (list Q) :=
  match fronts with
  | [] => Ok value
  | [] :: r => niche_fronts (S index) r value
  | front :: r => let! value' := niche_front index front value in niche_fronts (S index) r value'
  end.
Definition nd_two (value : list Q) : res (list Q) :=
  let n := length vs in
  let! fronts := nd_place (sort nat nd_before (seq 0 n)) None (repeat nd_top n) 0 0 (repeat [] n) in
  let! value' := niche_fronts 0 fronts (resized 0%Q value n) in
  rank_to_worth value'.
End Two.
End Niche.

(** ** the niche penalties *)
Section Penalties.
Variable vs : list (list Q).
(** the square of the distance of two fitnesses (396-402) *)
Definition square_dist (v w : list Q) : Q := fold_left (fun s p => (s + (fst p - snd p) * (fst p - snd p))%Q) (combine v w) 0%Q.
(** eoNDSorting_I::niche_penalty (385-412) *)
Definition niche_I (nicheSize : Q) (front : list nat) : res (list Q) :=
  Ok (map (fun i => fold_left (fun s j =>
        if i =? j then s
        else let dist := square_dist (nth (nth i front 0) vs []) (nth (nth j front 0) vs []) in
             if qltb dist nicheSize then (s + (1 - (dist / nicheSize) * (dist / nicheSize)))%Q else s) (seq 0 (length front)) 0%Q)
      (seq 0 (length front))).
(** eoNDSorting_II::niche_penalty (452-493): one objective [o] (461-490) *)
Variable sort : forall X : Type, (X -> X -> bool) -> list X -> list X.
Definition performance (perf : list (Q * nat)) (i : nat) : Q * nat := nth i perf (0%Q, 0).
Definition gaps (perf : list (Q * nat)) (nc : list Q) : list Q :=
  fold_left (fun nc i => set nc (snd (performance perf i)) (Qminus (fst (performance perf (i + 1))) (fst (performance perf (i - 1))))) (seq 1 (length perf - 2)) nc.
Definition more (nc : list Q) (i : nat) (x : Q) : list Q := set nc i (nth i nc 0 + x)%Q.
Definition niche_objective (front : list nat) (o : nat) (count : list Q) : res (list Q) :=
  let perf := sort (Q * nat)%type (fun a b => qltb (fst a) (fst b)) (map (fun i => (nth o (nth (nth i front 0) vs []) 0%Q, i)) (seq 0 (length front))) in
  let nc := gaps perf (repeat 0%Q (length front)) in
  let! max_dist := max_element nc in
  match perf with
  | [] => UB
  | p :: _ =>
      let nc := more nc (snd p) (max_dist + 1)%Q in
      let nc := more nc (snd (last perf p)) (max_dist + 1)%Q in
      Ok (map (fun i => (nth i count 0 + (max_dist + 1 - nth i nc 0))%Q) (seq 0 (length front)))
  end.
Fixpoint niche_objectives (front : list nat) (os : list nat) (count : list Q) : res (list Q) :=
  match os with
  | [] => Ok count
  | o :: r => let! count' := niche_objective front o count in niche_objectives front r count'
  end.
Definition niche_II (objectives : nat) (front : list nat) : res (list Q) := niche_objectives front (seq 0 objectives) (repeat 0%Q (length front)).
End Penalties.
