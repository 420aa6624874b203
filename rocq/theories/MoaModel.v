(** Model of the multi-objective evolutionary algorithms (moeo/src/algo).

    [W] is the state of everything outside the populations (random generator, private states of
    the components). [fuel] bounds the number of generations, running out of it is [NoDraw]. The
    runs also return their history, one entry per generation. *)
From Coq Require Import List Arith Bool ZArith QArith.
From Verif Require Import Lib Outcome PopModel BoundsModel ParetoModel ArchModel RankModel DivSpec DivModel ReplModel BreedModel AlgoModel.
Import ListNotations.
Close Scope Q_scope.
Open Scope nat_scope.

(** ** the loops *)
Section Loops.
Context {M W : Type}.
(** popEval(parents, offspring): both may be changed *)
Variable pop_eval : list M -> list M -> W -> res (list M * list M * W).
(** breed(parents, offspring): what was in the offspring may be kept by the breeder *)
Variable breed : list M -> list M -> W -> res (list M * W).
(** replace(parents, offspring): both are changed *)
Variable replace : list M -> list M -> W -> res (list M * list M * W).
Variables fitness diversity : list M -> W -> res (list M * W).
Variable cont : list M -> W -> res (bool * W).

(** one generation: the parents and the offspring once evaluated, the next population *)
Record generation := Gen { g_parents : list M; g_offspring : list M; g_next : list M }.

(** the do-while loop of moeoNSGAII (moeoNSGAII.h:139-148), moeoNSGA (moeoNSGA.h:144-153),
    moeoMOGA (moeoMOGA.h:142-151), moeoIBEA (moeoIBEA.h:200-209) and moeoExtendedNSGAII
    (moeoExtendedNSGAII.h:66-75) *)
Fixpoint nsga_loop (fuel : nat) (pop off : list M) (w : W) : res (list M * list generation * W) :=
  match fuel with
  | 0 => NoDraw
  | S f =>
      let! (off1, w1) := breed pop off w in
      let! (pop2, off2, w2) := pop_eval pop off1 w1 in
      let! (pop3, off3, w3) := replace pop2 off2 w2 in
      let! (b, w4) := cont pop3 w3 in
      if (b : bool) then
        let! (r, h, w5) := nsga_loop f pop3 off3 w4 in Ok (r, Gen pop2 off2 pop3 :: h, w5)
      else Ok (pop3, [Gen pop2 off2 pop3], w4)
  end.
(** operator() of the same classes (moeoNSGAII.h:132-149 and the like) *)
Definition nsga (fuel : nat) (pop : list M) (w : W) : res (list M * list generation * W) :=
  let! (_, pop1, w1) := pop_eval [] pop w in
  let! (pop2, w2) := fitness pop1 w1 in
  let! (pop3, w3) := diversity pop2 w2 in
  nsga_loop fuel pop3 [] w3.

(** the do-while loop of moeoEasyEA (moeoEasyEA.h:133-167); [always] is the flag
    evalFitAndDivBeforeSelection. The offspring are cleared first. *)
Fixpoint easy_loop (fuel : nat) (always first : bool) (pop : list M) (w : W) : res (list M * list generation * W) :=
  match fuel with
  | 0 => NoDraw
  | S f =>
      let! (pop1, w1) := (if always || first then let! (p, w') := fitness pop w in diversity p w' else Ok (pop, w)) in
      let! (off1, w2) := breed pop1 [] w1 in
      let! (pop2, off2, w3) := pop_eval pop1 off1 w2 in
      let! (pop3, _, w4) := replace pop2 off2 w3 in
      if negb (length pop3 =? length pop) then Throw
      else
        let! (b, w5) := cont pop3 w4 in
        if (b : bool) then
          let! (r, h, w6) := easy_loop f always false pop3 w5 in Ok (r, Gen pop2 off2 pop3 :: h, w6)
        else Ok (pop3, [Gen pop2 off2 pop3], w5)
  end.
(** moeoEasyEA::operator() (moeoEasyEA.h:128-168) *)
Definition easy (fuel : nat) (always : bool) (pop : list M) (w : W) : res (list M * list generation * W) :=
  let! (_, pop1, w1) := pop_eval [] pop w in easy_loop fuel always true pop1 w1.
End Loops.
Arguments generation : clear implicits.

(** ** what NSGA-II works on *)
(** the part of a MOEO that depends on its genotype (moeo/src/core/MOEO.h): the objective vector,
    and the fitness and diversity once assigned. invalidate() (MOEO.h:282-287) drops all three, so
    that an individual is [indiv G worth]. *)
Record worth := Worth { vec : list Q; wfit : option Q; wdiv : option Q }.

Section Nsga2.
Context {G W : Type}.
Notation I := (indiv G worth).
(** the directions of the objectives (true: minimised) *)
Variable dirs : list bool.
Variable sort : forall T : Type, (T -> T -> bool) -> list T -> list T.
(** moeoFrontByFrontCrowdingDiversityAssignment::inf(): the biggest double *)
Variable inf : Q.

(** objectiveVector() (MOEO.h:132-139) of everybody: throws on an invalid one *)
Fixpoint worths (pop : list I) : res (list worth) :=
  match pop with
  | [] => Ok []
  | x :: r => match fit x with
              | None => Throw
              | Some v => let! vs := worths r in Ok (v :: vs)
              end
  end.
(** fitness(_fitness) (MOEO.h:212-216) on everybody, in order *)
Definition set_fit (f : Z) (x : I) : I :=
  match fit x with None => x | Some v => Ind (geno x) (Some (Worth (vec v) (Some (inject_Z f)) (wdiv v))) end.
Fixpoint set_fits (pop : list I) (fs : list Z) : list I :=
  match pop, fs with
  | x :: r, f :: fr => set_fit f x :: set_fits r fr
  | _, _ => pop
  end.
Definition pair_of (v : list Q) : Q * Q := (nth 0 v 0%Q, nth 1 v 0%Q).
Definition vec_of (x : I) : list Q := match fit x with Some v => vec v | None => [] end.
(** moeoDominanceDepthFitnessAssignment::operator() (84-118) as a member of moeoNSGAII: default
    constructor (64), so Pareto domination and the flag for two objectives unset. The former
    fitnesses are read only for members that survive every removal, which Pareto domination rules
    out (C44_cyclic, C44_pareto): they are not passed. *)
Definition depth_fitness (pop : list I) : res (list I) :=
  let! ws := worths pop in
  let vs := map vec ws in
  match dirs with
  | [] => Throw
  | [m] =>
      let! (pop', fs) := depth_one sort (fun x => nth 0 (vec_of x) 0%Q) 0 m pop in Ok (set_fits pop' fs)
  | [_; _] =>
      let! fs := depth_two sort false 0 dirs (map pair_of vs) (map (fun _ => None) vs) in Ok (set_fits pop fs)
  | _ =>
      let! fs := depth_many (pareto 0 dirs) vs (map (fun _ => None) vs) in Ok (set_fits pop fs)
  end.

(** reading the fitness of everybody: throws on an invalid one *)
Fixpoint fits (ws : list worth) : res (list Q) :=
  match ws with
  | [] => Ok []
  | v :: r => match wfit v with None => Throw | Some f => let! fs := fits r in Ok (f :: fs) end
  end.
Definition set_div (d : diversity) (x : I) : res I :=
  match fit x with
  | None => Throw
  | Some v =>
      match d with
      | Infinite => Ok (Ind (geno x) (Some (Worth (vec v) (wfit v) (Some inf))))
      | Finite q => Ok (Ind (geno x) (Some (Worth (vec v) (wfit v) (Some q))))
      | NotANumber => UB
      end
  end.
(** the diversities are written through the pointers, here the positions *)
Fixpoint set_divs (run : list (nat * diversity)) (pop : list I) : res (list I) :=
  match run with
  | [] => Ok pop
  | (k, d) :: r =>
      let! x := of_opt (nth_error pop k) in
      let! x' := set_div d x in
      let! pop' := of_opt (upd pop k x') in
      set_divs r pop'
  end.
(** moeoFrontByFrontCrowdingDiversityAssignment::operator() (see DivModel.v), on the individuals.
    A diversity that is not a number would make the comparator useless: undefined here. *)
Definition crowding_diversity (pop : list I) : res (list I) :=
  let! ws := worths pop in
  let! fs := fits ws in
  let! run := front_by_front_crowding nat (fun i k => nth i (vec (nth k ws (Worth [] None None))) 0%Q) (fun k => nth k fs 0%Q)
                sort (length dirs) (seq 0 (length pop)) in
  set_divs run pop.

(** moeoFitnessThenDiversityComparator (55-65) on individuals with both values *)
Definition num (o : option Q) : Q := match o with Some q => q | None => 0%Q end.
Definition shown (x : I) : moeo unit :=
  match fit x with Some v => Moeo tt (num (wfit v)) (num (wdiv v)) | None => Moeo tt 0%Q 0%Q end.
Definition better (a b : I) : bool := fit_then_div (shown a) (shown b).
Definition has_worth (x : I) : bool :=
  match fit x with Some (Worth _ (Some _) (Some _)) => true | _ => false end.
(** moeoElitistReplacement::operator() (101-116) with these assignments and the default comparator,
    as in moeoNSGAII; comparing an individual without fitness or diversity throws *)
Definition keep_best (parents offspring : list I) (w : W) : res (list I * list I * W) :=
  let! merged := depth_fitness (parents ++ offspring) in
  let! merged := crowding_diversity merged in
  if forallb has_worth merged then Ok (firstn (length parents) (sort I (fun a b => better b a) merged), [], w)
  else Throw.
(** moeoNSGAII::operator() (moeoNSGAII.h:132-149) *)
Definition nsga2 pop_eval breed cont (fuel : nat) (pop : list I) (w : W) : res (list I * list (generation I) * W) :=
  nsga pop_eval breed keep_best
    (fun p w => let! p' := depth_fitness p in Ok (p', w)) (fun p w => let! p' := crowding_diversity p in Ok (p', w)) cont fuel pop w.
End Nsga2.

(** ** the algorithms around an archive *)
Section Archives.
Context {G W : Type}.
Notation I := (indiv G (list Q)).
Variable dirs : list bool.
(** the flag given to the archive's constructor *)
Variable swaps : bool.
Variable pop_eval : list I -> list I -> W -> res (list I * list I * W).
Variable cont : list I -> W -> res (bool * W).

Definition vector (x : I) : list Q := match fit x with Some v => v | None => [] end.
(** archive(pop) for a moeoUnboundedArchive with the Pareto comparator; objectiveVector() throws
    on an individual that is not evaluated *)
Definition offer_pop (arch pop : list I) : res (list I) :=
  if forallb (fun x => match fit x with Some _ => true | None => false end) pop
  then let! (a, _) := update_pop I (list Q) vector (pareto 0 dirs) (same_vector 0) swaps arch pop false in Ok a
  else Throw.

(** a run: the final population, the final archive, the offspring of each generation *)
Definition outcome : Type := (list I * list I * list (list I) * W)%type.

(** the while loop of moeoSEEA (moeoSEEA.h:137-150): [gen_breed] makes the offspring from the
    archive and the population, which never changes afterwards *)
Fixpoint seea_loop (gen_breed : list I -> list I -> W -> res (list I * W)) (fuel : nat) (pop arch : list I) (w : W) : res outcome :=
  match fuel with
  | 0 => NoDraw
  | S f =>
      let! (b, w1) := cont pop w in
      if (b : bool) then
        let! (off, w2) := gen_breed arch pop w1 in
        let! (pop', off', w3) := pop_eval pop off w2 in
        let! arch' := offer_pop arch off' in
        let! (p, a, h, w4) := seea_loop gen_breed f pop' arch' w3 in Ok (p, a, off' :: h, w4)
      else Ok (pop, arch, [], w1)
  end.
(** the members of moeoSEEA that make offspring (moeoSEEA.h:178-210): operator() calls genBreed,
    not breed *)
Record seea := Seea { gen_breed : list I -> list I -> W -> res (list I * W); breed : list I -> list I -> W -> res (list I * W) }.
(** moeoSEEA::operator() (moeoSEEA.h:132-151) *)
Definition seea_run (s : seea) (fuel : nat) (pop arch : list I) (w : W) : res outcome :=
  let! (_, pop1, w1) := pop_eval [] pop w in
  let! arch1 := offer_pop arch pop1 in
  seea_loop (gen_breed s) fuel pop1 arch1 w1.

(** moeoRandomSelect, rng.flip, rng.roulette_wheel *)
Variable pick : list I -> W -> res (I * W).
Variable flip : Q -> W -> res (bool * W).
Variable wheel : list Q -> W -> res (nat * W).
(** moeoSelectFromPopAndArch(randomSelect, archive, 0.0) (moeoSelectFromPopAndArch.h:81-96) *)
Definition pop_or_arch (ratio : Q) (arch pop : list I) (w : W) : res (I * W) :=
  if 0 <? length arch then
    let! (b, w1) := flip ratio w in if (b : bool) then pick pop w1 else pick arch w1
  else pick pop w.
Definition seea_select := pop_or_arch 0%Q.
(** eoGeneralBreeder(select, op) (eoGeneralBreeder.h:60-69, 87-100): as many as the population *)
Definition seea_breeder (turns : nat) (op : genop (G:=G) (F:=list Q) (W:=W)) (arch pop : list I) (w : W) : res (list I * W) :=
  general_breeder pop (seea_select arch pop) flip wheel turns op (HowMany 1%Q 0) w.
(** eoQuadCloneOp and eoMonCloneOp (eoCloneOps.h) *)
Definition quad_clone : quad_op (G:=G) (F:=list Q) (W:=W) := fun x y w => Ok (x, y, false, w).
Definition mon_clone : mon_op (G:=G) (F:=list Q) (W:=W) := fun x w => Ok (x, false, w).
(** eoSGAGenOp (eoSGAGenOp.h:53-70) *)
Definition sga_op (cross : quad_op) (pcross : Q) (mut : mon_op) (pmut : Q) : genop (G:=G) (F:=list Q) (W:=W) :=
  Sequential [(1%Q, Proportional [(pcross, QuadGen cross); ((1 - pcross)%Q, QuadGen quad_clone)]); (pmut, MonGen mut)].
(** the constructors with a crossover and a mutation (moeoSEEA.h:75-77) and with a general operator
    (87-89, 99-101) *)
Definition seea_sga turns cross pcross mut pmut : seea :=
  let g := seea_breeder turns (sga_op cross pcross mut pmut) in Seea g g.
Definition seea_op turns op : seea := let g := seea_breeder turns op in Seea g g.
(** eoSelectMany(select, 1.0) then the transform: eoSelectTransform (eoBreed.h:66-70) *)
Fixpoint pick_many (arch pop : list I) (n : nat) (w : W) : res (list I * W) :=
  match n with
  | 0 => Ok ([], w)
  | S k => let! (x, w1) := seea_select arch pop w in let! (r, w2) := pick_many arch pop k w1 in Ok (x :: r, w2)
  end.
(** the constructors with a transform (moeoSEEA.h:111-113, 123-125): breed applies the transform,
    genBreed copies *)
Definition seea_transform turns (transform : list I -> W -> res (list I * W)) : seea :=
  Seea (seea_breeder turns (sga_op quad_clone 0%Q mon_clone 0%Q))
       (fun arch pop w => let! (off, w1) := pick_many arch pop (length pop) w in transform off w1).

(** the while loop of moeoASEEA (moeoASEEA.h:150-159): moeoDetArchiveSelect (see ReplModel.v) then
    the transform; the population is emptied *)
Variable shuffle : W -> list nat -> list nat.
Variable reseed : W -> W.
Fixpoint aseea_loop (mx : nat) (transform : list I -> W -> res (list I * W)) (fuel : nat) (pop arch : list I) (w : W) : res outcome :=
  match fuel with
  | 0 => NoDraw
  | S f =>
      let! (b, w1) := cont pop w in
      if (b : bool) then
        let! sel := det_archive_select I (shuffle w1) arch mx 0 [] in
        let! (off, w2) := transform sel (reseed w1) in
        let! (_, off', w3) := pop_eval pop off w2 in
        let! arch' := offer_pop arch off' in
        let! (p, a, h, w4) := aseea_loop mx transform f [] arch' w3 in Ok (p, a, off' :: h, w4)
      else Ok (pop, arch, [], w1)
  end.
(** moeoASEEA::operator() (moeoASEEA.h:145-160) *)
Definition aseea_run mx transform (fuel : nat) (pop arch : list I) (w : W) : res outcome :=
  let! (_, pop1, w1) := pop_eval [] pop w in
  let! arch1 := offer_pop arch pop1 in
  aseea_loop mx transform fuel pop1 arch1 w1.
End Archives.

(** ** SPEA2 *)
Section Spea2.
Context {M A W : Type}.
Variable pop_eval : list M -> list M -> W -> res (list M * list M * W).
(** the breeder and the assignments look at the archive; the fitness assignment also writes the
    fitness of its members *)
Variable breed : A -> list M -> list M -> W -> res (list M * W).
Variables fitness diversity : A -> list M -> W -> res (A * list M * W).
Variable archive : A -> list M -> W -> res (A * W).
Variable cont : list M -> W -> res (bool * W).
(** the while loop of moeoSPEA2 (moeoSPEA2.h:204-214) and moeoExtendedSPEA2
    (moeoExtendedSPEA2.h:80-90); moeoGenerationalReplacement swaps the two populations. The history
    has the populations handed to the archive. *)
Fixpoint spea2_loop (fuel : nat) (pop off : list M) (a : A) (w : W) : res (list M * A * list (list M) * W) :=
  match fuel with
  | 0 => NoDraw
  | S f =>
      let! (b, w1) := cont pop w in
      if (b : bool) then
        let! (off1, w2) := breed a pop off w1 in
        let! (pop2, off2, w3) := pop_eval pop off1 w2 in
        let! (a1, pop3, w4) := fitness a off2 w3 in
        let! (a2, pop4, w5) := diversity a1 pop3 w4 in
        let! (a3, w6) := archive a2 pop4 w5 in
        let! (p, ar, h, w7) := spea2_loop f pop4 pop2 a3 w6 in Ok (p, ar, pop4 :: h, w7)
      else Ok (pop, a, [], w1)
  end.
(** operator() (moeoSPEA2.h:197-215) *)
Definition spea2 (fuel : nat) (pop : list M) (a : A) (w : W) : res (list M * A * list (list M) * W) :=
  let! (_, pop1, w1) := pop_eval [] pop w in
  let! (a1, pop2, w2) := fitness a pop1 w1 in
  let! (a2, pop3, w3) := diversity a1 pop2 w2 in
  let! (a3, w4) := archive a2 pop3 w3 in
  let! (p, ar, h, w5) := spea2_loop fuel pop3 [] a3 w4 in Ok (p, ar, pop3 :: h, w5).
End Spea2.
