(** Model of the selection operators of eo/src: one-individual selectors
    (eoSelectOne), many-individual selectors (eoSelect), worth assignment. *)
From Coq Require Import List Arith Lia Bool ZArith QArith Qround.
From Verif Require Import Lib Outcome PopModel.
Import ListNotations.
Close Scope Q_scope.
Open Scope nat_scope.

(** A selector object: its private state, setup() and operator().  operator()
    returns a reference to an individual; the model returns the individual. *)
Record selector (A S : Type) := Selector {
  sel_setup : S -> list A -> list nat -> res (S * list nat);
  sel_call : S -> list A -> list nat -> res (A * S * list nat) }.
Arguments Selector {A S}.
Arguments sel_setup {A S}.
Arguments sel_call {A S}.

(** eoSelectOne::setup default (eo/src/eoSelectOne.h): nothing. *)
Definition no_setup {A S} (s : S) (_ : list A) (ds : list nat) : res (S * list nat) := Ok (s, ds).

Section Many.
Context {A S : Type}.
Variable sel : selector A S.

(** The loop "for (i < _dest.size()) _dest[i] = select(_source)" shared by
    eoSelectMany.h:73-74, eoSelectNumber.h:65-66, eoSelectPerc.h:65-66,
    eoTruncSelect.h:66-67, eoTruncatedSelectMany.h:92-93,108-109. *)
Fixpoint select_n (n : nat) (s : S) (src : list A) (ds : list nat) : res (list A * S * list nat) :=
  match n with
  | 0 => Ok ([], s, ds)
  | Datatypes.S n' =>
      let! (x, s1, ds1) := sel_call sel s src ds in
      let! (xs, s2, ds2) := select_n n' s1 src ds1 in
      Ok (x :: xs, s2, ds2)
  end.
Definition setup_select_n (n : nat) (s : S) (src : list A) (ds : list nat) :=
  let! (s1, ds1) := sel_setup sel s src ds in select_n n s1 src ds1.

(** eoSelectMany::operator() (eoSelectMany.h:65-75) and, identically,
    eoTruncSelect::operator() (eoTruncSelect.h:58-68). *)
Definition select_many (h : how_many) (s : S) (src : list A) (ds : list nat) :=
  let! target := hm_call h (length src) in setup_select_n target s src ds.
(** eoSelectNumber::operator() (eoSelectNumber.h:57-67). *)
Definition select_number (n : nat) (s : S) (src : list A) (ds : list nat) :=
  setup_select_n n s src ds.
(** eoSelectPerc::operator() (eoSelectPerc.h:57-67); exact rational rate. *)
Definition select_perc (rate : Q) (s : S) (src : list A) (ds : list nat) :=
  let t := Qfloor (rate * inject_Z (Z.of_nat (length src)))%Q in
  if (t <? 0)%Z then UB else setup_select_n (Z.to_nat t) s src ds.
End Many.

(** eoDetSelect::operator() (eo/src/eoDetSelect.h:55-85): whole copies of the
    source, then a prefix of it.  Division by a zero population size is UB. *)
Fixpoint copies {A} (k : nat) (src : list A) : list A :=
  match k with 0 => [] | S k' => src ++ copies k' src end.
Definition det_select {A} (h : how_many) (src : list A) : res (list A) :=
  let! t := hm_call h (length src) in
  let target := if t =? 0 then 1 else t in
  if length src =? 0 then UB
  else
    let remain := target mod length src in
    let entire := target / length src in
    Ok ((if length src <=? target then copies entire src else []) ++ firstn remain src).

Section Ordered.
Variable A : Type.
Variable ltb : A -> A -> bool.
Variable sort : forall T : Type, (T -> T -> bool) -> list T -> list T.
Variable nth_el : forall T : Type, (T -> T -> bool) -> nat -> list T -> list T.
Variable shuf : list nat -> list A -> list A * list nat.
(** shuffle of a vector of pointers (positions) *)
Variable shufp : list nat -> list nat -> list nat * list nat.

(** eoTruncatedSelectMany::operator() (eo/src/eoTruncatedSelectMany.h:79-111).
    Asking for more fertile individuals than there are pads the population with
    default-constructed individuals; the model reports UB. *)
Definition truncated_select_many {S} (sel : selector A S) (hg hf : how_many)
    (s : S) (src : list A) (ds : list nat) : res (list A * S * list nat) :=
  let! target := hm_call hg (length src) in
  let! fertile := hm_call hf (length src) in
  if fertile =? length src then setup_select_n sel target s src ds
  else if length src <? fertile then UB
  else
    let '(tmp, ds1) := shuf ds (firstn fertile (pop_sort A ltb sort src)) in
    setup_select_n sel target s tmp ds1.

(** eoTruncatedSelectOne (eo/src/eoTruncatedSelectOne.h:67-102): state = embedded
    selector's state and [actualPop]; operator() ignores its argument. *)
Definition truncated_select_one {S} (sel : selector A S) (hf : how_many) : selector A (S * list A) :=
  Selector
    (fun st src ds =>
       let! fertile := hm_call hf (length src) in
       if fertile =? length src then
         let! (s', ds') := sel_setup sel (fst st) src ds in Ok ((s', src), ds')
       else
         let! r := pop_nth_element A ltb nth_el fertile src in
         let tmp := firstn fertile r in
         let! (s', ds') := sel_setup sel (fst st) tmp ds in Ok ((s', tmp), ds'))
    (fun st _ ds =>
       let! (x, s', ds') := sel_call sel (fst st) (snd st) ds in Ok (x, (s', snd st), ds')).

(** eoRandomSelect (eo/src/eoRandomSelect.h:47-50). *)
Definition random_select : selector A unit :=
  Selector no_setup
    (fun s pop ds => let! (i, ds') := draw (length pop) ds in
                     let! x := of_opt (nth_error pop i) in Ok (x, s, ds')).
(** eoDetTournamentSelect (eo/src/eoDetTournamentSelect.h:63-66); the constructor
    raises tournament sizes below 2 to 2 (:48-56). *)
Definition det_tournament_select (t_size : nat) : selector A unit :=
  let t := if t_size <? 2 then 2 else t_size in
  Selector no_setup
    (fun s pop ds => let! (i, ds') := det_tournament A ltb pop t ds in
                     let! x := of_opt (nth_error pop i) in Ok (x, s, ds')).
(** eoStochTournamentSelect (eo/src/eoStochTournamentSelect.h:59-62). *)
Definition stoch_tournament_select (certain : bool) : selector A unit :=
  Selector no_setup
    (fun s pop ds => let! (i, ds') := stoch_tournament A ltb pop certain ds in
                     let! x := of_opt (nth_error pop i) in Ok (x, s, ds')).

(** eoBestSelect (eoRandomSelect.h:66-69). *)
Definition best_select : selector A unit :=
  Selector no_setup (fun s pop ds => let! x := best_element A ltb pop in Ok (x, s, ds)).
(** eoNoSelect (eoRandomSelect.h:78-98): the individuals in order, cyclically. *)
Definition no_select : selector A nat :=
  Selector no_setup
    (fun c pop ds =>
       let c1 := if length pop <=? c then 0 else c in
       let! x := of_opt (nth_error pop c1) in Ok (x, S c1, ds)).

(** eoPop::sort(result) (eo/src/eoPop.h:170-177): pointers, i.e. positions, sorted
    by decreasing fitness of what they point to. *)
Definition sort_ptrs (pop : list A) : list nat :=
  map fst (sort (nat * A) (fun a b => ltb (snd b) (snd a)) (combine (seq 0 (length pop)) pop)).

(** eoSequentialSelect (eo/src/eoSequentialSelect.h:55-89).  [sq_current = None]
    stands for the initial numeric_limits<unsigned>::max(). *)
Record seq_state := SeqSt { sq_current : option nat; sq_ptrs : list nat }.
Definition exhausted (c : option nat) (n : nat) : bool :=
  match c with None => true | Some k => n <=? k end.
Definition seq_next (setup : list A -> list nat -> res (seq_state * list nat))
    (s : seq_state) (pop : list A) (ds : list nat) : res (A * seq_state * list nat) :=
  let! (s1, ds1) := (if exhausted (sq_current s) (length pop) then setup pop ds else Ok (s, ds)) in
  match sq_current s1 with
  | None => UB
  | Some c =>
      let! p := of_opt (nth_error (sq_ptrs s1) c) in
      let! x := of_opt (nth_error pop p) in
      Ok (x, SeqSt (Some (S c)) (sq_ptrs s1), ds1)
  end.
Definition seq_setup (ordered : bool) (pop : list A) (ds : list nat) : res (seq_state * list nat) :=
  if ordered then Ok (SeqSt (Some 0) (sort_ptrs pop), ds)
  else let '(p, ds') := shufp ds (seq 0 (length pop)) in Ok (SeqSt (Some 0) p, ds').
Definition sequential_select (ordered : bool) : selector A seq_state :=
  Selector (fun _ => seq_setup ordered) (seq_next (seq_setup ordered)).
Definition seq_init : seq_state := SeqSt None [].

(** eoEliteSelect::operator() (eoSequentialSelect.h:104-108): sorts pointers to the
    population, then returns the first individual of the (unsorted) population. *)
Definition elite_select : selector A seq_state :=
  Selector (fun _ => seq_setup true)
    (fun s pop ds => let! (s', ds') := seq_setup true pop ds in
                     let! x := of_opt (nth_error pop 0) in Ok (x, s', ds')).

(** eoEliteSequentialSelect (eoSequentialSelect.h:122-166). *)
Fixpoint find_best (pop : list A) (ptrs : list nat) (i ibest : nat) (best : A) : res nat :=
  match ptrs with
  | [] => Ok ibest
  | p :: r =>
      let! x := of_opt (nth_error pop p) in
      if ltb best x then find_best pop r (S i) i x else find_best pop r (S i) ibest best
  end.
Definition elite_seq_setup (pop : list A) (ds : list nat) : res (seq_state * list nat) :=
  let '(ptrs, ds') := shufp ds (seq 0 (length pop)) in
  match ptrs with
  | [] => UB
  | p0 :: rest =>
      if length pop =? 1 then Throw
      else
        let! b0 := of_opt (nth_error pop p0) in
        let! ib := find_best pop rest 1 0 b0 in
        let! ptrs' := of_opt (swap_at ptrs 0 ib) in
        Ok (SeqSt (Some 0) ptrs', ds')
  end.
Definition elite_sequential_select : selector A seq_state :=
  Selector (fun _ => elite_seq_setup) (seq_next elite_seq_setup).

(** ** Ranking (eo/src/eoRanking.h:70-105, eo/src/eoRankingCached.h:74-125).
    Doubles are exact rationals; [pSize * pSizeMinusOne] is a 32-bit unsigned
    product.  [pw] is x -> pow(x, exponent), used when exponent <> 1. *)
Definition umul32 (a b : nat) : Z := ((Z.of_nat a * Z.of_nat b) mod 4294967296)%Z.
Definition rank_alpha (pressure : Q) (n : nat) : Q :=
  ((2 * pressure - 2) / inject_Z (umul32 n (n - 1)))%Q.
Definition rank_beta (pressure : Q) (n : nat) : Q := ((2 - pressure) / inject_Z (Z.of_nat n))%Q.
Definition rank_gamma (pressure : Q) (n : nat) : Q := ((2 * pressure - 2) / inject_Z (Z.of_nat n))%Q.
Definition qn (n : nat) : Q := inject_Z (Z.of_nat n).
Definition rank_value (pw : option (Q -> Q)) (alpha beta gamma : Q) (n i : nat) : Q :=
  match pw with
  | None => (alpha * qn (n - i) + beta)%Q
  | Some f => (gamma * f (qn (n - i) / qn n) + beta)%Q
  end.
(** the loop value()[lookfor(rank[i])] = ..., i = 0 .. n-1 *)
Fixpoint assign_worths (f : nat -> Q) (ptrs : list nat) (i : nat) (w : list Q) : option (list Q) :=
  match ptrs with
  | [] => Some w
  | p :: r => do w' <- upd w p (f i); assign_worths f r (S i) w'
  end.
Definition ranking (pressure : Q) (pw : option (Q -> Q)) (pop : list A) : res (list Q) :=
  let n := length pop in
  if n <=? 1 then Throw
  else of_opt (assign_worths
         (rank_value pw (rank_alpha pressure n) (rank_beta pressure n) (rank_gamma pressure n) n)
         (sort_ptrs pop) 0 (repeat 0%Q n)).
(** eoRankingCached: the coefficients are recomputed only when the size changes. *)
Record rank_cache := RankCache { rc_size : nat; rc_alpha : Q; rc_beta : Q; rc_gamma : Q }.
Definition ranking_cached (pressure : Q) (pw : option (Q -> Q)) (c : rank_cache) (pop : list A)
  : res (list Q * rank_cache) :=
  let n := length pop in
  if n <=? 1 then Throw
  else
    let c' := if n =? rc_size c then c
              else RankCache n (rank_alpha pressure n) (rank_beta pressure n) (rank_gamma pressure n) in
    let! w := of_opt (assign_worths (rank_value pw (rc_alpha c') (rc_beta c') (rc_gamma c') n)
                        (sort_ptrs pop) 0 (repeat 0%Q n)) in
    Ok (w, c').
(** a sequence of calls on one cached ranking object; [Throw]n calls leave the
    cache unchanged *)
Fixpoint ranking_cached_calls (pressure : Q) (pw : option (Q -> Q)) (c : rank_cache)
    (pops : list (list A)) : list (res (list Q)) :=
  match pops with
  | [] => []
  | p :: r =>
      match ranking_cached pressure pw c p with
      | Ok (w, c') => Ok w :: ranking_cached_calls pressure pw c' r
      | Throw => Throw :: ranking_cached_calls pressure pw c r
      | UB => UB :: ranking_cached_calls pressure pw c r
      | NoDraw => NoDraw :: ranking_cached_calls pressure pw c r
      end
  end.
End Ordered.

(** ** Fitness-proportional selection; fitnesses and draws are exact rationals. *)
Section Proportional.
Local Open Scope Q_scope.

(** roulette_wheel(begin,end,total) (eo/src/utils/selectors.h:218-236, and the eoPop
    versions 238-271): [roulette] is uniform(total); returns a position. *)
Fixpoint roulette_loop (l : list Q) (i : nat) (roulette : Q) : res nat :=
  if Qle_bool roulette 0 then Ok (i - 1)%nat
  else match l with
       | [] => UB
       | f :: l' => roulette_loop l' (S i) (roulette - f)
       end.
Definition roulette_wheel (fs : list Q) (total u : Q) (ds : list nat) : res (nat * list nat) :=
  let roulette := u * total in
  if Qeq_bool roulette 0 then draw (length fs) ds
  else let! i := roulette_loop fs 0 roulette in Ok (i, ds).

(** eoRng::roulette_wheel(vec,total) (eo/src/utils/eoRNG.h:314-328): total 0 means
    "compute it"; the loop runs while fortune >= 0. *)
Definition qsum (l : list Q) : Q := fold_right Qplus 0 l.
Fixpoint rng_roulette_loop (l : list Q) (i : nat) (fortune : Q) : res nat :=
  if Qle_bool 0 fortune then
    match l with
    | [] => UB
    | f :: l' => rng_roulette_loop l' (S i) (fortune - f)
    end
  else Ok (i - 1)%nat.
Definition rng_roulette (fs : list Q) (total u : Q) : res nat :=
  let t := if Qeq_bool total 0 then qsum fs else total in
  rng_roulette_loop fs 0 (u * t).

(** sum_fitness (selectors.h:157-171): throws on a negative fitness. *)
Fixpoint sum_fitness_from (acc : Q) (fs : list Q) : res Q :=
  match fs with
  | [] => Ok acc
  | f :: r => if Qle_bool 0 f then sum_fitness_from (acc + f) r else Throw
  end.
Definition sum_fitness (fs : list Q) : res Q := sum_fitness_from 0 fs.

(** running sums, as built by eoProportionalSelect::setup (eoProportionalSelect.h:79-86)
    and eoStochasticUniversalSelect::setup (eoStochasticUniversalSelect.h:57-63) *)
Fixpoint running (acc : Q) (fs : list Q) : list Q :=
  match fs with [] => [] | f :: r => (acc + f) :: running (acc + f) r end.
Definition cumulative (fs : list Q) : list Q := running 0 fs.

(** std::upper_bound on a non-decreasing range: the first position whose value
    exceeds [x], or the end. *)
Fixpoint upper_bound (l : list Q) (x : Q) : nat :=
  match l with
  | [] => O
  | c :: r => if Qle_bool c x then S (upper_bound r x) else O
  end.

(** eoProportionalSelect::operator() after setup (eoProportionalSelect.h:93-110). *)
Definition proportional_pick (fs : list Q) (u : Q) : res nat :=
  match cumulative fs with
  | [] => UB
  | cum =>
      let i := upper_bound cum (u * last cum 0) in
      Ok (if (length fs <=? i)%nat then (length fs - 1)%nat else i)
  end.

(** eoStochasticUniversalSelect::setup (eoStochasticUniversalSelect.h:53-88). *)
Fixpoint sus_advance (rest : list Q) (i : nat) (fortune : Q) : option nat :=
  match rest with
  | [] => None
  | c :: r => if Qle_bool fortune c then Some i else sus_advance r (S i) fortune
  end.
Fixpoint sus_loop (k : nat) (cum : list Q) (total step : Q) (i : nat) (fortune : Q) : res (list nat) :=
  match k with
  | O => Ok []
  | S k' =>
      let! i1 := of_opt (sus_advance (skipn i cum) i fortune) in
      let fortune1 := fortune + step in
      let! r := (if Qle_bool total fortune1 then sus_loop k' cum total step 0 (fortune1 - total)
                 else sus_loop k' cum total step i1 fortune1) in
      Ok (i1 :: r)
  end.
(** in-place shuffle, i = size-1 down to 1 (:84-87) *)
Fixpoint fy_shuffle (i : nat) (l : list nat) (ds : list nat) : res (list nat * list nat) :=
  match i with
  | O => Ok (l, ds)
  | S i' =>
      let! (j, ds') := draw (S i) ds in
      let! l' := of_opt (swap_at l i j) in
      fy_shuffle i' l' ds'
  end.
Definition sus_points (fs : list Q) (u : Q) : res (list nat) :=
  let cum := cumulative fs in
  let total := last cum 0 in
  let fortune := u * total in
  let step := total / inject_Z (Z.of_nat (length fs)) in
  sus_loop (length fs) cum total step (upper_bound cum fortune) fortune.
Definition sus_setup (fs : list Q) (u : Q) (ds : list nat) : res (list nat * list nat) :=
  match fs with
  | [] => Ok ([], ds)
  | _ => let! idx := sus_points fs u in fy_shuffle (length fs - 1) idx ds
  end.
(** eoStochasticUniversalSelect::operator() (:92-99), n calls after a setup:
    indices are consumed from the back. *)
Definition sus_calls (n : nat) (indices : list nat) : list nat := firstn n (rev indices).
End Proportional.
