(** Model of eoPop, the reduction / merge operators and the replacements of eo/src.

    An individual is an element of an arbitrary type [A]; [ltb a b] is
    EO::operator< (eo/src/EO.h:112), i.e. "a's fitness is worse than b's".  Every
    individual is assumed to be evaluated (invalid fitness: property C54).
    EO::operator> (EO.h:113, !(f <= f')) is [ltb b a].
    A population is a list.  Random numbers are the draw list of [Outcome]. *)
From Coq Require Import List Arith Lia Bool ZArith QArith Qround.
From Verif Require Import Lib Outcome.
Import ListNotations.
Close Scope Q_scope.
Open Scope nat_scope.

(** ** eoHowMany (eo/src/utils/eoHowMany.h:76-206).
    The C++ double [rate] is an exact rational here (rounding of [rate*_size] is
    not modelled); [count] is an unbounded integer. *)
Record how_many := HowMany { hm_rate : Q; hm_count : Z }.

(** eoHowMany::operator() (eoHowMany.h:106-126).  The cast of a negative rate to
    unsigned is undefined behaviour in C++; constructors rule it out. *)
Definition hm_call (h : how_many) (size : nat) : res nat :=
  if (hm_count h =? 0)%Z then
    let r := Qceiling (hm_rate h * inject_Z (Z.of_nat size)) in
    if (r <? 0)%Z then UB else Ok (Z.to_nat r)
  else if (hm_count h <? 0)%Z then
    let c := Z.to_nat (- hm_count h) in
    if size <? c then Throw else Ok (size - c)
  else Ok (Z.to_nat (hm_count h)).

(** eoHowMany::operator-() (eoHowMany.h:174-181), the returned object (the C++
    method also overwrites *this with it). *)
Definition hm_neg (h : how_many) : how_many :=
  if (hm_count h =? 0)%Z then HowMany (1 - hm_rate h) (hm_count h)
  else HowMany (hm_rate h) (- hm_count h).

(** eoHowMany(double,bool) with _interpret_as_rate = true
    (eoHowMany.h:83-87 and value(), 183-193). *)
Definition hm_of_rate (r : Q) : res how_many :=
  if Qle_bool 0 r then Ok (HowMany r 0)
  else if Qle_bool 0 (1 + r) then Ok (HowMany (1 + r) 0) else Throw.
(** eoHowMany(int) (eoHowMany.h:91). *)
Definition hm_of_int (c : Z) : how_many := HowMany 0 c.

(** std::vector::erase(begin()+i); [None] when [i] is not a valid position. *)
Definition erase_at {A} (i : nat) (l : list A) : option (list A) :=
  if i <? length l then Some (firstn i l ++ skipn (S i) l) else None.

Section Pop.
Variable A : Type.
Variable ltb : A -> A -> bool.
Variable sort : forall T : Type, (T -> T -> bool) -> list T -> list T.
Variable nth_el : forall T : Type, (T -> T -> bool) -> nat -> list T -> list T.
Variable shuf : list nat -> list A -> list A * list nat.

(** The comparator eoPop::Cmp2 (eo/src/eoPop.h:150-156): b < a. *)
Definition cmp2 (a b : A) : bool := ltb b a.

(** eoPop::sort() (eoPop.h:163-166). *)
Definition pop_sort (pop : list A) : list A := sort A cmp2 pop.

(** eoPop::nth_element(int) (eoPop.h:272-279): std::nth_element with
    std::greater, i.e. EO::operator>; asserts a non-empty population. *)
Definition pop_nth_element (n : nat) (pop : list A) : res (list A) :=
  if length pop <? n then UB
  else match pop with [] => UB | _ => Ok (nth_el A (fun a b => ltb b a) n pop) end.

(** std::max_element as used by eoPop::it_best_element (eoPop.h:213-219): the
    position of the first maximum; end() (here [None]) on an empty range. *)
Fixpoint max_from (best : nat) (bv : A) (i : nat) (l : list A) : nat :=
  match l with
  | [] => best
  | x :: t => if ltb bv x then max_from i x (S i) t else max_from best bv (S i) t
  end.
Definition it_best_element (pop : list A) : option nat :=
  match pop with [] => None | x :: t => Some (max_from 0 x 1 t) end.

(** std::min_element as used by eoPop::it_worse_element (eoPop.h:254-260). *)
Fixpoint min_from (best : nat) (bv : A) (i : nat) (l : list A) : nat :=
  match l with
  | [] => best
  | x :: t => if ltb x bv then min_from i x (S i) t else min_from best bv (S i) t
  end.
Definition it_worse_element (pop : list A) : option nat :=
  match pop with [] => None | x :: t => Some (min_from 0 x 1 t) end.

(** eoPop::best_element() (eoPop.h:223-233): throws eoPopSizeException when empty. *)
Definition best_element (pop : list A) : res A :=
  match it_best_element pop with
  | None => Throw
  | Some i => of_opt (nth_error pop i)
  end.
(** eoPop::worse_element() (eoPop.h:236-245): asserts a non-empty population. *)
Definition worse_element (pop : list A) : res A :=
  match it_worse_element pop with
  | None => UB
  | Some i => of_opt (nth_error pop i)
  end.

(** eoPop::nth_element_fitness(n) (eoPop.h:286-295): the fitnesses are copied to
    a vector, std::nth_element with std::greater, and fitness[n] is returned.
    An evaluated individual stands for its fitness. *)
Definition nth_element_fitness (n : nat) (pop : list A) : res A :=
  if length pop <? n then UB else of_opt (nth_error (nth_el A (fun a b => ltb b a) n pop) n).

(** Type of the eoReduce operators (eo/src/eoReduce.h:44-47). *)
Definition reducer := list A -> nat -> list nat -> res (list A * list nat).

(** eoTruncate::operator() (eoReduce.h:53-65). *)
Definition truncate : reducer := fun pop n ds =>
  if length pop =? n then Ok (pop, ds)
  else if length pop <? n then Throw
  else Ok (firstn n (pop_sort pop), ds).

(** eoRandomReduce::operator() (eoReduce.h:70-83). *)
Definition random_reduce : reducer := fun pop n ds =>
  if length pop =? n then Ok (pop, ds)
  else if length pop <? n then Throw
  else let '(pop', ds') := shuf ds pop in Ok (firstn n pop', ds').

(** eoEPReduce (eoReduce.h:90-174).  Scores are doubled (2 per win, 1 per tie)
    so that they are natural numbers; a pair holds the score and the position in
    [_newgen] that the C++ iterator designates, with the individual there. *)
Definition ep_score1 (a comp : A) : nat :=
  if ltb comp a then 2 else if ltb a comp then 0 else 1.
(** inner tournament loop, eoReduce.h:129-136 *)
Fixpoint ep_score (pop : list A) (a : A) (rounds acc : nat) (ds : list nat)
  : res (nat * list nat) :=
  match rounds with
  | 0 => Ok (acc, ds)
  | S r =>
      let! (i, ds') := draw (length pop) ds in
      let! c := of_opt (nth_error pop i) in
      ep_score pop a r (acc + ep_score1 a c) ds'
  end.
(** outer loop, eoReduce.h:125-137 *)
Fixpoint ep_scores (pop : list A) (t : nat) (todo : list A) (ds : list nat)
  : res (list (nat * A) * list nat) :=
  match todo with
  | [] => Ok ([], ds)
  | a :: rest =>
      let! (s, ds') := ep_score pop a t 0 ds in
      let! (l, ds'') := ep_scores pop t rest ds' in
      Ok ((s, a) :: l, ds'')
  end.
(** eoEPReduce::Cmp, eoReduce.h:108-116 *)
Definition ep_cmp (a b : nat * A) : bool :=
  if fst b =? fst a then ltb (snd b) (snd a) else fst b <? fst a.
Definition ep_reduce (t_size : nat) : reducer := fun pop n ds =>
  let t := if t_size <? 2 then 2 else t_size in      (* ctor, eoReduce.h:95-103 *)
  if length pop =? n then Ok (pop, ds)
  else if length pop <? n then Throw
  else
    let! (scores, ds') := ep_scores pop t pop ds in
    Ok (map snd (firstn n (nth_el (nat * A) ep_cmp n scores)), ds').

(** eoLinearTruncate::operator() (eoReduce.h:181-196): repeatedly erase a worst. *)
Fixpoint erase_worst (k : nat) (pop : list A) : res (list A) :=
  match k with
  | 0 => Ok pop
  | S k' =>
      let! i := of_opt (it_worse_element pop) in
      let! pop' := of_opt (erase_at i pop) in
      erase_worst k' pop'
  end.
Definition linear_truncate : reducer := fun pop n ds =>
  if length pop =? n then Ok (pop, ds)
  else if length pop <? n then Throw
  else let! pop' := erase_worst (length pop - n) pop in Ok (pop', ds).

(** deterministic_tournament (eo/src/utils/selectors.h:273-289), as a position.
    [_t_size - 1] is unsigned in C++; _t_size = 0 (2^32-1 rounds) is not
    modelled: here it means no round. *)
Fixpoint det_tourn_loop (pop : list A) (rounds best : nat) (ds : list nat)
  : res (nat * list nat) :=
  match rounds with
  | 0 => Ok (best, ds)
  | S r =>
      let! (c, ds') := draw (length pop) ds in
      let! b := of_opt (nth_error pop best) in
      let! x := of_opt (nth_error pop c) in
      det_tourn_loop pop r (if ltb b x then c else best) ds'
  end.
Definition det_tournament (pop : list A) (t_size : nat) (ds : list nat)
  : res (nat * list nat) :=
  let! (b, ds') := draw (length pop) ds in
  det_tourn_loop pop (t_size - 1) b ds'.

(** inverse_deterministic_tournament (selectors.h:303-325): a competitor equal to
    the current worst position is drawn again. *)
Fixpoint inv_det_loop (pop : list A) (rounds worst : nat) (ds : list nat)
  : res (nat * list nat) :=
  match rounds with
  | 0 => Ok (worst, ds)
  | S r =>
      match ds with
      | [] => NoDraw
      | d :: ds' =>
          let c := d mod length pop in
          if c =? worst then inv_det_loop pop rounds worst ds'
          else
            match nth_error pop worst, nth_error pop c with
            | Some w, Some x => inv_det_loop pop r (if ltb x w then c else worst) ds'
            | _, _ => UB
            end
      end
  end.
Definition inv_det_tournament (pop : list A) (t_size : nat) (ds : list nat)
  : res (nat * list nat) :=
  let! (w, ds') := draw (length pop) ds in
  inv_det_loop pop (t_size - 1) w ds'.

(** stochastic_tournament (selectors.h:339-362); [flip] is the answer of
    rng.flip(_t_rate), any boolean.  When [certain] is set the rate is 1 and
    flip answers true. *)
Definition stoch_tournament (pop : list A) (certain : bool) (ds : list nat)
  : res (nat * list nat) :=
  let! (i1, ds1) := draw (length pop) ds in
  let! (i2, ds2) := draw (length pop) ds1 in
  let! (flip0, ds3) := draw_flip ds2 in
  let better := certain || flip0 in
  let! a1 := of_opt (nth_error pop i1) in
  let! a2 := of_opt (nth_error pop i2) in
  Ok (if ltb a1 a2 then (if better then i2 else i1)
      else (if better then i1 else i2), ds3).

(** inverse_stochastic_tournament (selectors.h:376-399). *)
Definition inv_stoch_tournament (pop : list A) (certain : bool) (ds : list nat)
  : res (nat * list nat) :=
  let! (i1, ds1) := draw (length pop) ds in
  let! (i2, ds2) := draw (length pop) ds1 in
  let! (flip0, ds3) := draw_flip ds2 in
  let worse := certain || flip0 in
  let! a1 := of_opt (nth_error pop i1) in
  let! a2 := of_opt (nth_error pop i2) in
  Ok (if ltb a1 a2 then (if worse then i1 else i2)
      else (if worse then i2 else i1), ds3).

(** Repeated "select a loser, erase it", shared by the two tournament truncations
    (eoReduce.h:229-242 and 285-297) and the linear splits; also returns the
    erased individuals in order of removal. *)
Fixpoint erase_loop (pick : list A -> list nat -> res (nat * list nat))
  (k : nat) (pop : list A) (ds : list nat) : res (list A * list A * list nat) :=
  match k with
  | 0 => Ok (pop, [], ds)
  | S k' =>
      let! (i, ds1) := pick pop ds in
      let! x := of_opt (nth_error pop i) in
      let! pop1 := of_opt (erase_at i pop) in
      let! (r, ds2) := erase_loop pick k' pop1 ds1 in
      Ok (fst r, x :: snd r, ds2)
  end.

(** eoDetTournamentTruncate (eoReduce.h:203-247). *)
Definition det_tourn_truncate (t_size : nat) : reducer := fun pop n ds =>
  let t := if t_size <? 2 then 2 else t_size in
  if n =? 0 then Ok ([], ds)
  else if length pop =? n then Ok (pop, ds)
  else if length pop <? n then Throw
  else
    let! (r, ds') := erase_loop (fun p => inv_det_tournament p t) (length pop - n) pop ds in
    Ok (fst r, ds').

(** eoStochTournamentTruncate (eoReduce.h:254-302). *)
Definition stoch_tourn_truncate (certain : bool) : reducer := fun pop n ds =>
  if n =? 0 then Ok ([], ds)
  else if length pop =? n then Ok (pop, ds)
  else if length pop <? n then Throw
  else
    let! (r, ds') := erase_loop (fun p => inv_stoch_tournament p certain) (length pop - n) pop ds in
    Ok (fst r, ds').

(** ** Reduce-and-split (eo/src/eoReduceSplit.h).
    Result: (survivors, content of the second population).  In eoTruncateSplit,
    eoRandomSplit, eoLinearRandomSplit and eoDetTournamentTruncateSplit the test
    [newsize < 0] is on an unsigned and never true; eliminating more individuals
    than there are runs past the end of the vector ([UB]). *)
Definition splitter := list A -> list A -> list nat -> res (list A * list A * list nat).

(** eoTruncateSplit (eoReduceSplit.h:51-85). *)
Definition truncate_split (h : how_many) (ret : bool) : splitter := fun pop elim ds =>
  let! k := hm_call h (length pop) in
  if k =? 0 then Ok (pop, elim, ds)
  else if length pop <? k then UB
  else
    let newsize := length pop - k in
    let! pop' := pop_nth_element newsize pop in
    Ok (firstn newsize pop', if ret then elim ++ firstn k (skipn newsize pop') else elim, ds).

(** eoLinearTruncateSplit (eoReduceSplit.h:91-124): signed arithmetic, throws. *)
Definition linear_truncate_split (h : how_many) (ret : bool) : splitter := fun pop elim ds =>
  let! k := hm_call h (length pop) in
  if k =? 0 then Ok (pop, elim, ds)
  else if length pop <? k then Throw
  else
    let! (r, ds') := erase_loop (fun p d => let! i := of_opt (it_worse_element p) in Ok (i, d))
                        k pop ds in
    Ok (fst r, if ret then elim ++ snd r else elim, ds').

(** eoRandomSplit (eoReduceSplit.h:128-162). *)
Definition random_split (h : how_many) (ret : bool) : splitter := fun pop elim ds =>
  let! k := hm_call h (length pop) in
  if k =? 0 then Ok (pop, elim, ds)
  else if length pop <? k then UB
  else
    let newsize := length pop - k in
    let '(pop', ds') := shuf ds pop in
    Ok (firstn newsize pop', if ret then elim ++ firstn k (skipn newsize pop') else elim, ds').

(** eoLinearRandomSplit (eoReduceSplit.h:167-202). *)
Definition linear_random_split (h : how_many) (ret : bool) : splitter := fun pop elim ds =>
  let! k := hm_call h (length pop) in
  if k =? 0 then Ok (pop, elim, ds)
  else
    let! (r, ds') := erase_loop (fun p => draw (length p)) k pop ds in
    Ok (fst r, if ret then elim ++ snd r else elim, ds').

(** eoDetTournamentTruncateSplit (eoReduceSplit.h:209-254). *)
Definition det_tourn_split (t_size : nat) (h : how_many) (ret : bool) : splitter :=
  fun pop elim ds =>
  let t := if t_size <? 2 then 2 else t_size in
  let! k := hm_call h (length pop) in
  if k =? 0 then Ok (pop, elim, ds)
  else
    let! (r, ds') := erase_loop (fun p => inv_det_tournament p t) k pop ds in
    Ok (fst r, if ret then elim ++ snd r else elim, ds').

(** ** Merge operators (eo/src/eoMerge.h): [merge pop offspring] is the new
    content of the second population. *)
Definition merger := list A -> list A -> res (list A).

(** eoPlus (eoMerge.h:124-138). *)
Definition plus : merger := fun pop off => Ok (off ++ pop).

(** eoElitism (eoMerge.h:61-108).  [combien]/[rate] as set by the constructor
    (rate an exact rational).  eoPop::nth_element(which, result)
    (eo/src/eoPop.h:301-311) resizes [result] to the size of the whole population,
    and all of [result] is then copied. *)
Definition elitism (rate : Q) (combien : nat) : merger := fun pop off =>
  if (combien =? 0) && Qeq_bool rate 0 then Ok off
  else
    let local := if combien =? 0 then Z.to_nat (Qfloor (rate * inject_Z (Z.of_nat (length pop))))
                 else combien in
    if length pop <? local then Throw
    else match pop with
         | [] => UB                          (* assert(this->size() > 0), eoPop.h:303 *)
         | _ => Ok (off ++ nth_el A cmp2 local pop)
         end.
(** eoNoElitism (eoMerge.h:114-118). *)
Definition no_elitism : merger := elitism 0 0.

(** ** Replacements: result (new parents, new offspring). *)
Definition replacement := list A -> list A -> list nat -> res (list A * list A * list nat).

(** eoMergeReduce::operator() (eo/src/eoMergeReduce.h:58-63). *)
Definition merge_reduce (merge : merger) (reduce : reducer) : replacement := fun par off ds =>
  let! off1 := merge par off in
  let! (off2, ds') := reduce off1 (length par) ds in
  Ok (off2, par, ds').                       (* _parents.swap(_offspring) *)
(** eoPlusReplacement, eoCommaReplacement, eoEPReplacement
    (eoMergeReduce.h:75-85, 92-110, 117-136). *)
Definition plus_replacement : replacement := merge_reduce plus truncate.
Definition comma_replacement : replacement := merge_reduce no_elitism truncate.
Definition ep_replacement (t : nat) : replacement := merge_reduce plus (ep_reduce t).

(** eoReduceMerge::operator() (eo/src/eoReduceMerge.h:64-70). *)
Definition reduce_merge (reduce : reducer) (merge : merger) : replacement := fun par off ds =>
  if length par <? length off then Throw
  else
    let! (par1, ds') := reduce par (length par - length off) ds in
    let! par2 := merge off par1 in
    Ok (par2, off, ds').
(** eoSSGAWorseReplacement, eoSSGADetTournamentReplacement,
    eoSSGAStochTournamentReplacement (eoReduceMerge.h:81-91, 97-108, 116-127). *)
Definition ssga_worse : replacement := reduce_merge linear_truncate plus.
Definition ssga_det (t : nat) : replacement := reduce_merge (det_tourn_truncate t) plus.
Definition ssga_stoch (certain : bool) : replacement := reduce_merge (stoch_tourn_truncate certain) plus.

(** eoGenerationalReplacement (eo/src/eoReplacement.h:84-94). *)
Definition generational : replacement := fun par off ds => Ok (off, par, ds).

(** eoWeakElitistReplacement::operator() (eoReplacement.h:106-130). *)
Definition weak_elitist (replace : replacement) : replacement := fun par off ds =>
  let! champ := best_element par in
  let! (r, ds') := replace par off ds in
  let '(par1, off1) := r in
  let! best1 := best_element par1 in
  if ltb best1 champ then
    let! w := of_opt (it_worse_element par1) in
    let! par2 := of_opt (upd par1 w champ) in
    Ok (par2, off1, ds')
  else Ok (par1, off1, ds').

(** eoReduceMergeReduce::operator() (eo/src/eoReduceMergeReduce.h:76-130). *)
(** the [while] of lines 122-123: temp[index++] > eoLimit && index < temp.size() *)
Fixpoint rmr_to_save (temp : list A) (limit : A) : nat :=
  match temp with
  | [] => 0
  | x :: rest =>
      if ltb limit x then match rest with [] => 0 | _ => S (rmr_to_save rest limit) end else 0
  end.
(** the [for] of lines 125-126 *)
Fixpoint rmr_save (i : nat) (saved : list A) (final : nat) (par : list A) : res (list A) :=
  match saved with
  | [] => Ok par
  | x :: rest =>
      if final <? S i then UB
      else let! par' := of_opt (upd par (final - 1 - i) x) in rmr_save (S i) rest final par'
  end.
Definition reduce_merge_reduce (elite_hm : how_many) (strong : bool)
  (par_hm off_hm : how_many) (red_par red_off red_fin : reducer) : replacement :=
  fun par off ds =>
  let final := length par in
  let offsize := length off in
  let! elite := hm_call elite_hm final in
  let! (temp, par1) :=
    (if elite =? 0 then Ok ([], par)
     else let! p := pop_nth_element elite par in Ok (firstn elite p, skipn elite p)) in
  let! rps := hm_call par_hm (length par1) in
  let! (par2, ds1) :=
    (if rps =? 0 then Ok ([], ds)
     else if rps =? length par1 then Ok (par1, ds) else red_par par1 rps ds) in
  let! ros := hm_call off_hm offsize in
  if ros =? 0 then Throw
  else
    let! (off2, ds2) := (if ros =? offsize then Ok (off, ds1) else red_off off ros ds1) in
    (* resize to rps + offspring and copy: lines 104-106; par2 has size rps *)
    let par3 := par2 ++ off2 in
    if negb (elite =? 0) && strong then
      let! (par4, ds3) := (if length par3 =? final - elite then Ok (par3, ds2)
                           else red_fin par3 (final - elite) ds2) in
      Ok (par4 ++ temp, off2, ds3)
    else
      let! (par4, ds3) := (if length par3 =? final then Ok (par3, ds2)
                           else red_fin par3 final ds2) in
      if elite =? 0 then Ok (par4, off2, ds3)
      else
        let par5 := pop_sort par4 in
        let! limit := of_opt (nth_error par5 (elite - 1)) in
        let! par6 := rmr_save 0 (firstn (rmr_to_save temp limit) temp) final par5 in
        Ok (par6, off2, ds3).

(** eoDeterministicSurviveAndDie::operator() (eo/src/eoSurviveAndDie.h:91-120):
    result (remaining population, lucky guys). *)
Definition survive_and_die (surv die : how_many) (pop : list A) : res (list A * list A) :=
  let psize := length pop in
  let! nbs := hm_call surv psize in
  let! (lucky, pop1) :=
    (if nbs =? 0 then Ok ([], pop)
     else let! p := pop_nth_element nbs pop in Ok (firstn nbs p, skipn nbs p)) in
  let remaining := length pop1 in
  let! d0 := hm_call die psize in
  let nbd := Nat.min d0 (psize - nbs) in
  if remaining <? nbd then Throw
  else if nbd =? 0 then Ok (pop1, lucky)
  else
    let! p := pop_nth_element (remaining - nbd) pop1 in
    Ok (firstn (remaining - nbd) p, lucky).

(** eoDeterministicSaDReplacement::operator() (eoSurviveAndDie.h:160-182). *)
Definition sad_replacement (reduce : reducer) (sp dp so do_ : how_many) : replacement :=
  fun par off ds =>
  let psize := length par in
  let! (par1, lucky_par) := survive_and_die sp dp par in
  let! (off1, lucky_off) := survive_and_die so do_ off in
  let surv := length lucky_off + length lucky_par in
  if psize <? surv then Throw
  else
    let! off2 := plus par1 off1 in
    let! (off3, ds') := reduce off2 (psize - surv) ds in
    let! off4 := plus lucky_par off3 in
    let! off5 := plus lucky_off off4 in
    Ok (off5, par1, ds').

(** the loop of eoMGGReplacement (eo/src/eoMGGReplacement.h:89-97) *)
Fixpoint mgg_loop (k t : nat) (par off : list A) (ds : list nat)
  : res (list A * list A * list nat) :=
  match k with
  | 0 => Ok (par, off, ds)
  | S k' =>
      let! (i, ds1) := det_tournament off t ds in
      let! x := of_opt (nth_error off i) in
      let! off1 := of_opt (erase_at i off) in
      mgg_loop k' t (par ++ [x]) off1 ds1
  end.
(** eoMGGReplacement::operator() (eoMGGReplacement.h:67-98). *)
Definition mgg_replacement (h : how_many) (t_size : nat) : replacement := fun par off ds =>
  let t := if t_size <? 2 then 2 else t_size in
  let! (r, ds1) := linear_truncate_split h true par [] ds in
  let '(par1, temp) := r in
  let to_keep := length temp in
  if to_keep <? 2 then Throw
  else
    let! b := of_opt (it_best_element off) in
    let! x := of_opt (nth_error off b) in
    let! off1 := of_opt (erase_at b off) in
    let! off2 := plus temp off1 in
    mgg_loop (to_keep - 1) t (par1 ++ [x]) off2 ds1.

(** eoG3Replacement::operator() (eo/src/eoG3Replacement.h:60-78). *)
Definition g3_replacement (h : how_many) : replacement := fun par off ds =>
  let! (r, ds1) := linear_truncate_split h true par [] ds in
  let '(par1, temp) := r in
  let to_keep := length temp in
  let! off1 := plus temp off in
  let! (r2, ds2) := truncate_split (hm_neg h) false off1 temp ds1 in
  let '(off2, temp2) := r2 in
  if length off2 =? to_keep then
    let! par2 := plus off2 par1 in Ok (par2, off2, ds2)
  else Throw.

End Pop.
