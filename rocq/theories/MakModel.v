(** The builders that read the options of the command line: the algorithm and its selection and
    replacement (eo/src/do/make_algo_scalar.h), the general replacement
    (eo/src/do/make_general_replacement.h), the initial population (eo/src/do/make_pop.h), the
    stopping criterion (eo/src/do/make_continue.h) and the operator of the genetic algorithm
    (eo/src/ga/make_op.h).  What the parser does is modelled in CliModel. *)
From Coq Require Import Arith ZArith QArith String Ascii Decimal DecimalString DecimalNat Lia Bool.
From Verif Require Import Lib Outcome PopModel SelectModel BreedModel AlgoModel.
From Coq Require Import List.
Import ListNotations.
Close Scope Q_scope.
Open Scope nat_scope.

(** * Numbers out of texts *)

(** A double, as far as the tests of the builders see it. *)
Inductive dbl := Num (q : Q) | PInf | NInf | Nan.
(** operator< and operator<= on doubles. *)
Definition dlt (a b : dbl) : bool :=
  match a, b with
  | Num x, Num y => negb (Qle_bool y x)
  | Num _, PInf | NInf, Num _ | NInf, PInf => true
  | _, _ => false
  end.
Definition dle (a b : dbl) : bool :=
  match a, b with
  | Num x, Num y => Qle_bool x y
  | Num _, PInf | NInf, Num _ | NInf, PInf | PInf, PInf | NInf, NInf => true
  | _, _ => false
  end.

(** The digits a text begins with. *)
Fixpoint digits (s : string) : uint :=
  match s with
  | EmptyString => Nil
  | String c r => match uint_of_char c (Some (digits r)) with Some d => d | None => Nil end
  end.
(** atoi: spaces, a sign, digits; 0 if there is none.  What it does with more than an int holds is
    left open by C: the model gives the number. *)
Fixpoint atoi (s : string) : Z :=
  match s with
  | EmptyString => 0%Z
  | String c r =>
      if (nat_of_ascii c =? 32) || ((9 <=? nat_of_ascii c) && (nat_of_ascii c <=? 13)) then atoi r
      else if Ascii.eqb c "-" then (- Z.of_nat (Nat.of_uint (digits r)))%Z
      else if Ascii.eqb c "+" then Z.of_nat (Nat.of_uint (digits r))
      else Z.of_nat (Nat.of_uint (digits s))
  end.
(** the conversion of an int to unsigned *)
Definition as_unsigned (z : Z) : Z := (z mod 2 ^ 32)%Z.

(** * Selection and replacement *)

(** eoParamParamType: a name and its arguments. *)
Definition option_ := (string * list string)%type.

(** The selectors that can be built, with the parameters they hold. *)
Inductive selector :=
| DetTour (t : Z) | Sharing (sigma : dbl) | StochTour (p : dbl) | Ranking (p e : dbl)
| InSequence (ordered : bool) | Roulette | AtRandom.
(** eoDetTournamentSelect::eoDetTournamentSelect, eoDetTournamentSelect.h:52-58. *)
Definition det_tour (t : Z) : selector := DetTour (if (t <? 2)%Z then 2 else t).
(** eoStochTournamentSelect::eoStochTournamentSelect, eoStochTournamentSelect.h:44-55. *)
Definition stoch_tour (p : dbl) : selector :=
  let p1 := if dlt p (Num (1#2)) then Num (55#100) else p in
  StochTour (if dlt (Num 1) p1 then Num 1 else p1).

(** The replacements. *)
Inductive replacer :=
| Comma | Plus | EPTour (t : Z) | SSGAWorst | SSGADet (t : Z) | SSGAStoch (p : dbl)
| Weak (r : replacer).
(** eoEPReduce, eoDetTournamentTruncate, eoStochTournamentTruncate, eoReduce.h:95-103,206-214,257-270. *)
Definition at_least_two (t : Z) : Z := if (t <? 2)%Z then 2%Z else t.
Definition truncate_rate (p : dbl) : dbl :=
  let p1 := if dle p (Num (1#2)) then Num (51#100) else p in
  if dlt (Num 1) p1 then Num 1 else p1.

Section Builders.
(** atof. *)
Context (atof : string -> dbl).

(** make_algo_scalar.h:139-180: the parameters of Ranking, corrected. *)
Definition ranking_of (args : list string) : selector * list string :=
  let '(p, e, args) :=
    match args with
    | [a; b] => (atof a, atof b, args)
    | [a] => (atof a, Num 1, [a; "1"%string])
    | _ => (Num 2, Num 1, ["2"; "1"]%string)
    end in
  let '(p, args) := if dle p (Num 1) || dlt (Num 2) p
                    then (Num 2, match args with _ :: r => "2"%string :: r | [] => [] end) else (p, args) in
  let '(e, args) := if dle e (Num 0)
                    then (Num 1, match args with a :: _ :: r => a :: "1"%string :: r | l => l end) else (e, args) in
  (Ranking p e, args).

(** make_algo_scalar.h:90-207; [dist]: a distance was given.  The option is returned as it is put
    back. *)
Definition select_of (dist : bool) (pp : option_) : res (selector * option_) :=
  let (name, args) := pp in
  if String.eqb name "DetTour" then
    match args with
    | [] => Ok (det_tour 2, (name, ["2"%string]))
    | a :: _ => Ok (det_tour (as_unsigned (atoi a)), pp)
    end
  else if String.eqb name "Sharing" then
    let '(sigma, args) := match args with [] => (Num (1#2), ["0.5"%string]) | a :: _ => (atof a, args) end in
    if dist then Ok (Sharing sigma, (name, args)) else Throw
  else if String.eqb name "StochTour" then
    match args with
    | [] => Ok (stoch_tour (Num 1), (name, ["1"%string]))
    | a :: _ => Ok (stoch_tour (atof a), pp)
    end
  else if String.eqb name "Ranking" then
    let (s, args) := ranking_of args in Ok (s, (name, args))
  else if String.eqb name "Sequential" then
    match args with
    | [] => Ok (InSequence true, (name, ["ordered"%string]))
    | a :: _ => Ok (InSequence (negb (String.eqb a "unordered")), pp)
    end
  else if String.eqb name "Roulette" then Ok (Roulette, pp)
  else if String.eqb name "Random" then Ok (AtRandom, pp)
  else Throw.

(** ppSelect.second[0], which a vector does not check. *)
Definition first_arg (pp : option_) : res string := of_opt (nth_error (snd pp) 0).

(** make_algo_scalar.h:219-288; [sel] is the option of the selection, of which the arguments are
    read at 244, 266 and 281. *)
Definition replace_of (sel pp : option_) : res (replacer * option_) :=
  let (name, args) := pp in
  if String.eqb name "Comma" then Ok (Comma, pp)
  else if String.eqb name "Plus" then Ok (Plus, pp)
  else if String.eqb name "EPTour" then
    match args with
    | [] => Ok (EPTour (at_least_two 6), (name, ["6"%string]))
    | _ => let! a := first_arg sel in Ok (EPTour (at_least_two (as_unsigned (atoi a))), pp)
    end
  else if String.eqb name "SSGAWorst" then Ok (SSGAWorst, pp)
  else if String.eqb name "SSGADet" then
    match args with
    | [] => Ok (SSGADet (at_least_two 2), (name, ["2"%string]))
    | _ => let! a := first_arg sel in Ok (SSGADet (at_least_two (as_unsigned (atoi a))), pp)
    end
  else if String.eqb name "SSGAStoch" then
    match args with
    | [] => Ok (SSGAStoch (truncate_rate (Num 1)), (name, ["1"%string]))
    | _ => let! a := first_arg sel in Ok (SSGAStoch (truncate_rate (atof a)), pp)
    end
  else Throw.

(** do_make_algo_scalar, make_algo_scalar.h:79-309: the components of the eoEasyEA and the two
    options as they are put back. *)
Definition make_algo (dist : bool) (sel rep : option_) (weak : bool)
  : res (selector * replacer * option_ * option_) :=
  let! (s, sel) := select_of dist sel in
  let! (r, rep) := replace_of sel rep in
  Ok (s, if weak then Weak r else r, sel, rep).

(** The reducers of decode_reduce. *)
Inductive reducer_kind := RTruncate | REP (t : Z) | RDet (t : Z) | RStoch (p : dbl) | RRandom.

(** decode_reduce, make_general_replacement.h:44-115. *)
Definition reduce_of (pp : option_) : res (reducer_kind * option_) :=
  let (name, args) := pp in
  if String.eqb name "Deterministic" || String.eqb name "Sequential" then Ok (RTruncate, pp)
  else if String.eqb name "EP" then
    match args with
    | [] => Ok (REP (at_least_two 6), (name, ["6"%string]))
    | a :: _ => Ok (REP (at_least_two (as_unsigned (atoi a))), pp)
    end
  else if String.eqb name "DetTour" then
    match args with
    | [] => Ok (RDet (at_least_two 2), (name, ["2"%string]))
    | a :: _ => Ok (RDet (at_least_two (as_unsigned (atoi a))), pp)
    end
  else if String.eqb name "StochTour" then
    match args with
    | [] => Ok (RStoch (truncate_rate (Num 1)), (name, ["1"%string]))
    | a :: _ => let p := atof a in
                if dle p (Num (1#2)) || dlt (Num 1) p then Throw
                else Ok (RStoch (truncate_rate p), pp)
    end
  else if String.eqb name "Uniform" || String.eqb name "Random" then Ok (RRandom, pp)
  else Throw.
End Builders.

(** * The initial population *)

Section MakePop.
Context {G F R : Type}.
Notation I := (indiv G F).
(** eoRng::reseed, the default construction of an individual, the eoInit. *)
Context (reseed : nat -> R) (blank : I) (init : I -> R -> res (I * R)).

(** eoPop::append, eoPop.h:108-123: [n] individuals are added. *)
Fixpoint init_many (n : nat) (g : R) : res (list I * R) :=
  match n with
  | 0 => Ok ([], g)
  | S k => let! (x, g) := init blank g in
           let! (r, g) := init_many k g in Ok (x :: r, g)
  end.
Definition append_to (size : nat) (pop : list I) (g : R) : res (list I * R) :=
  if size <? length pop then Throw
  else let! (r, g) := init_many (size - length pop) g in Ok (pop ++ r, g).

(** do_make_pop, make_pop.h:57-114.  [clock]: time(0); [load]: no name given, or what is in the
    file (eoState::load throws if there is none, its reading is modelled in StreamModel). *)
Definition make_pop (seed clock size : nat) (load : option (option (list I * R))) (recompute : bool) (g : R)
  : res (list I * R) :=
  let seed := if seed =? 0 then clock else seed in
  let! (pop, g) :=
    match load with
    | Some None => Throw
    | Some (Some (pop, g)) =>
        let pop := if recompute then map invalidate pop else pop in
        let pop := if size <? length pop then firstn size pop else pop in
        Ok (pop, g)
    | None => Ok ([], reseed seed)
    end in
  if length pop <? size then append_to size pop g else Ok (pop, g).
End MakePop.

(** * The stopping criterion *)

Section MakeContinue.
Variable F : Type.
Variable ltb : F -> F -> bool.
Variable nth_el : forall T : Type, (T -> T -> bool) -> nat -> list T -> list T.

(** The options: maxGen, steadyGen with minGen when steadyGen is on the command line, maxEval,
    targetFitness when it is on the command line, CtrlC. *)
Record stop_options := StopOptions {
  o_gen : nat; o_steady : option (nat * nat); o_eval : nat; o_target : option F; o_ctrlc : bool }.

(** What a continuator sees at a call: the fitnesses of the population, the evaluations counted so
    far and whether Ctrl C was hit (C191). *)
Record now := Now { w_pop : list F; w_evals : nat; w_hit : bool }.
(** The states of the continuators: the counter of eoGenContinue, the eoSteadyFitContinue. *)
Definition cstate := (nat * steady F)%type.
Definition criterion := now -> cstate -> res (bool * cstate).

Definition by_gen (n : nat) : criterion := fun _ s =>
  let (b, g) := gen_continue n (fst s) in Ok (b, (g, snd s)).
Definition by_steady (mg sg : nat) : criterion := fun p s =>
  let! (b, t) := steady_continue F ltb nth_el mg sg (snd s) (w_pop p) in Ok (b, (fst s, t)).
Definition by_eval (n : nat) : criterion := fun p s => Ok (eval_continue n (w_evals p), s).
Definition by_target (f : F) : criterion := fun p s =>
  let! b := fit_continue F ltb f (w_pop p) in Ok (b, s).
Definition by_ctrlc : criterion := fun p s => Ok (negb (w_hit p), s).

(** do_make_continue, make_continue.h:67-165: the members of the eoCombinedContinue. *)
Definition make_continue (o : stop_options) : res (list criterion) :=
  let l := (if o_gen o =? 0 then [] else [by_gen (o_gen o)])
        ++ (match o_steady o with Some (mg, sg) => [by_steady mg sg] | None => [] end)
        ++ (if o_eval o =? 0 then [] else [by_eval (o_eval o)])
        ++ (match o_target o with Some f => [by_target f] | None => [] end)
        ++ (if o_ctrlc o then [by_ctrlc] else []) in
  match l with [] => Throw | _ => Ok l end.

(** The algorithm asks it after each generation, until it says no. *)
Fixpoint asked_until (cs : list criterion) (ps : list now) (s : cstate) : res (list bool) :=
  match ps with
  | [] => Ok []
  | p :: r =>
      let! (b, s) := combined_continue cs p s in
      if (b : bool) then let! l := asked_until cs r s in Ok (true :: l) else Ok [false]
  end.
Definition stop_answers (o : stop_options) (ps : list now) : res (list bool) :=
  let! cs := make_continue o in asked_until cs ps (0, steady_new F).
End MakeContinue.

(** * The operator of the genetic algorithm *)

Section MakeOp.
Context {G F W : Type}.
(** The crossovers and mutations it may use: one point, uniform and n points; each bit with a
    probability, one bit, k bits. *)
Context (one_point uniform two_points : quad_op (G:=G) (F:=F) (W:=W)).
Context (bit_flip : Q -> mon_op (G:=G) (F:=F) (W:=W)) (bits_flip : nat -> mon_op (G:=G) (F:=F) (W:=W)).
(** rng.roulette_wheel, with the generator in the state. *)
Context (wheel : list Q -> W -> res (nat * W)).

(** eoPropCombinedQuadOp and eoPropCombinedMonOp::operator(), eoProportionalCombinedOp.h. *)
Definition prop_quad (ops : list (Q * quad_op (G:=G) (F:=F) (W:=W))) : quad_op := fun x y w =>
  let! (i, w) := wheel (map fst ops) w in
  let! op := of_opt (nth_error ops i) in snd op x y w.
Definition prop_mon (ops : list (Q * mon_op (G:=G) (F:=F) (W:=W))) : mon_op := fun x w =>
  let! (i, w) := wheel (map fst ops) w in
  let! op := of_opt (nth_error ops i) in snd op x w.
(** eoQuadCloneOp::operator(), eoCloneOps.h:71-79. *)
Definition quad_clone : quad_op (G:=G) (F:=F) (W:=W) := fun x y w => Ok (x, y, false, w).

(** The options of ga/make_op.h:72-187; doubles are rational numbers. *)
Record op_options := OpOptions {
  p_cross : Q; p_mut : Q; r_one : Q; r_two : Q; r_uniform : Q;
  p_bit : Q; r_flip : Q; r_onebit : Q; k_bit : nat; r_kbit : Q }.

Definition neg_ (q : Q) : bool := negb (Qle_bool 0 q).
Definition over (q m : Q) : bool := negb (Qle_bool q m).

(** do_make_op, ga/make_op.h:71-228. *)
Definition make_op (name : string) (o : op_options) : res (genop (G:=G) (F:=F) (W:=W)) :=
  if negb (String.eqb name "SGA") then Throw
  else if neg_ (p_cross o) || over (p_cross o) 1 then Throw
  else if neg_ (p_mut o) || over (p_mut o) 1 then Throw
  else if neg_ (r_one o) then Throw
  else if neg_ (r_two o) then Throw
  else if neg_ (r_uniform o) then Throw
  else if neg_ (p_bit o) || over (p_bit o) (1#2) then Throw
  else if neg_ (r_flip o) then Throw
  else if neg_ (r_onebit o) then Throw
  else if k_bit o =? 0 then Throw
  else if neg_ (r_kbit o) then Throw
  else
    let cross := prop_quad [(r_one o, one_point); (r_uniform o, uniform); (r_two o, two_points)] in
    let mut := prop_mon [(r_flip o, bit_flip (p_bit o)); (r_onebit o, bits_flip 1); (r_kbit o, bits_flip (k_bit o))] in
    Ok (Sequential [(1%Q, Proportional [(p_cross o, QuadGen cross); ((1 - p_cross o)%Q, QuadGen quad_clone)]);
                    (p_mut o, MonGen mut)]).
End MakeOp.
