(** Model of the estimation-of-distribution components of edo/src: repairers and bounders, samplers, estimators, continuators and
    the algorithms edoAlgoAdaptive and edoEDASA. Doubles are exact rationals; the random generator is RealModel's [rand]. *)
From Coq Require Import ZArith QArith Qround Qabs List Bool Arith.
From Verif Require Import Lib Outcome BoundsModel RealModel.
From Verif Require Import BreedModel.
From Coq Require Import List.
Import ListNotations.
Open Scope Q_scope.

Section Repair.
Context {F : Type}.
Notation sol := (indiv (list Q) F).
(** an edoRepairer: it may draw random numbers *)
Definition repairer := sol -> rand -> res (sol * rand).

(** edoBounderNo (edoBounderNo.h:36-40) *)
Definition bounder_no : repairer := fun x r => Ok (x, r).
(** edoBounderBound (edoBounderBound.h:45-63). The fitness is not invalidated. *)
Definition bound_at_limits (mins maxs : list Q) (d : nat) (x : Q) (r : rand) : res (Q * rand) :=
  let! mn := of_opt (nth_error mins d) in
  if qltb x mn then Ok (mn, r)
  else let! mx := of_opt (nth_error maxs d) in
       if qltb mx x then Ok (mx, r) else Ok (x, r).
Definition bounder_bound (mins maxs : list Q) : repairer := fun x r =>
  let! (v, r) := each (bound_at_limits mins maxs) 0 (geno x) r in Ok (Ind v (fit x), r).
(** edoBounderRng (edoBounderRng.h:46-61): [gen] is the eoRndGenerator *)
Definition redraw (gen : nat -> rand -> res (Q * rand)) (mins maxs : list Q) (d : nat) (x : Q) (r : rand) : res (Q * rand) :=
  let! mn := of_opt (nth_error mins d) in
  if qltb x mn then gen d r
  else let! mx := of_opt (nth_error maxs d) in
       if qltb mx x then gen d r else Ok (x, r).
Definition bounder_rng (gen : rand -> res (Q * rand)) (mins maxs : list Q) : repairer := fun x r =>
  let! (v, r) := each (redraw (fun _ => gen) mins maxs) 0 (geno x) r in Ok (Ind v (fit x), r).
(** rng.uniform(min, max) (eo/src/utils/eoRNG.h:188-191) *)
Definition uniform2 (mn mx : Q) (r : rand) : res (Q * rand) := let! (u, r) := uniform r in Ok (mn + (mx - mn) * u, r).
(** edoBounderUniform (edoBounderUniform.h:46-67) *)
Definition uniform_at (mins maxs : list Q) (d : nat) (r : rand) : res (Q * rand) :=
  let! mn := of_opt (nth_error mins d) in let! mx := of_opt (nth_error maxs d) in uniform2 mn mx r.
Definition bounder_uniform (mins maxs : list Q) : repairer := fun x r =>
  let! (v, r) := each (redraw (uniform_at mins maxs) mins maxs) 0 (geno x) r in Ok (Ind v (fit x), r).

(** edoRepairerApplyUnary, edoRepairerApplyBinary (edoRepairerApply.h:61-65, 87-95) *)
Definition apply_unary (f : Q -> Q) : repairer := fun x r => Ok (Ind (map f (geno x)) None, r).
Definition apply_binary (f : Q -> Q -> Q) (arg : Q) : repairer := fun x r => Ok (Ind (map (fun v => f v arg) (geno x)) None, r).
(** edoRepairerFloor, edoRepairerCeil (edoRepairerRound.h:42-61) *)
Definition floor (x : Q) : Q := inject_Z (Qfloor x).
Definition ceil (x : Q) : Q := inject_Z (Qceiling x).
Definition repairer_floor : repairer := apply_unary floor.
Definition repairer_ceil : repairer := apply_unary ceil.
(** edoRound (edoRepairerRound.h:65-71) *)
Definition edo_round (val prec : Q) : Q := if qltb 0 val then floor (val * prec + (1 # 2)) / prec else ceil (val * prec - (1 # 2)) / prec.
(** edoRepairerRoundDecimals, edoRepairerRound (82-108) *)
Definition repairer_round_decimals (decimals : Q) : repairer := apply_binary edo_round (1 / decimals).
Definition repairer_round : repairer := repairer_round_decimals 1.
(** std::fmod: the quotient is truncated; edoRepairerModulo (edoRepairerModulo.h:38-43) *)
Definition fmod (x y : Q) : Q := x - y * inject_Z (qtrunc (x / y)).
Definition repairer_modulo (denominator : Q) : repairer := apply_binary fmod denominator.

(** edoRepairerDispatcher::operator() (edoRepairerDispatcher.h:134-181). sol.at(j) throws, partsol[k] and sol[j] do not. The
    partial solution is a new, unevaluated object. *)
Fixpoint gather (v : list Q) (idx : list nat) : res (list Q) :=
  match idx with
  | [] => Ok []
  | j :: idx => match nth_error v j with None => Throw | Some x => let! r := gather v idx in Ok (x :: r) end
  end.
Fixpoint copy_back (v : list Q) (idx : list nat) (part : list Q) : res (list Q) :=
  match idx with
  | [] => Ok v
  | j :: idx => match part with [] => UB | x :: part => let! v := of_opt (upd v j x) in copy_back v idx part end
  end.
Fixpoint dispatch_loop (pairs : list (list nat * repairer)) (v : list Q) (r : rand) : res (list Q * rand) :=
  match pairs with
  | [] => Ok (v, r)
  | (idx, rep) :: pairs =>
      let! part := gather v idx in
      match part with
      | [] => dispatch_loop pairs v r
      | _ => let! (part, r) := rep (Ind part None) r in
             let! v := copy_back v idx (geno part) in
             dispatch_loop pairs v r
      end
  end.
Definition dispatcher (pairs : list (list nat * repairer)) : repairer := fun x r =>
  let! (v, r) := dispatch_loop pairs (geno x) r in Ok (Ind v None, r).
End Repair.
Arguments repairer F : clear implicits.

(** ** samplers *)
(** edoSampler::operator() (edoSampler.h:71-86) *)
Definition sampler {G F D} (sample : D -> rand -> res (indiv G F * rand)) (repair : indiv G F -> rand -> res (indiv G F * rand))
  (d : D) (r : rand) : res (indiv G F * rand) := let! (x, r) := sample d r in repair x r.
(** edoUniform: min() and max() (edoVectorBounds.h:44-45) *)
Record box := Box { lows : list Q; highs : list Q }.
(** edoSamplerUniform::sample (edoSamplerUniform.h:56-79) *)
Fixpoint draw_box (mins maxs : list Q) (r : rand) : res (list Q * rand) :=
  match mins with
  | [] => Ok ([], r)
  | mn :: mins => match maxs with
                  | [] => UB
                  | mx :: maxs => let! (x, r) := uniform2 mn mx r in let! (v, r) := draw_box mins maxs r in Ok (x :: v, r)
                  end
  end.
Definition sample_uniform {F} (d : box) (r : rand) : res (indiv (list Q) F * rand) :=
  let! (v, r) := draw_box (lows d) (highs d) r in Ok (Ind v None, r).
(** edoSamplerBinomial::sample (edoSamplerBinomial.h:46-62) *)
Fixpoint draw_bits (ps : list Q) (r : rand) : res (list bool * rand) :=
  match ps with
  | [] => Ok ([], r)
  | p :: ps => let! (b, r) := flip p r in let! (v, r) := draw_bits ps r in Ok (b :: v, r)
  end.
Definition sample_binomial {F} (ps : list Q) (r : rand) : res (indiv (list bool) F * rand) :=
  let! (v, r) := draw_bits ps r in Ok (Ind v None, r).
(** edoSamplerNormalMono::sample (edoSamplerNormalMono.h:52-73): [sqrt] is the square root *)
Record normals := Normals { means : list Q; variances : list Q }.
Fixpoint draw_normals (sqrt : Q -> Q) (ms vs : list Q) (r : rand) : res (list Q * rand) :=
  match ms with
  | [] => Ok ([], r)
  | m :: ms => match vs with
               | [] => UB
               | s :: vs => let! (z, r) := normal r in let! (v, r) := draw_normals sqrt ms vs r in Ok (m + sqrt s * z :: v, r)
               end
  end.
Definition sample_normal {F} (sqrt : Q -> Q) (d : normals) (r : rand) : res (indiv (list Q) F * rand) :=
  let! (v, r) := draw_normals sqrt (means d) (variances d) r in Ok (Ind v None, r).

(** ** estimators *)
(** edoEstimatorUniform (edoEstimatorUniform.h:42-70); reading pop[0] of an empty population, or min[d] when an individual is
    longer than the first one, is out of bounds *)
Fixpoint widen (x mn mx : list Q) : res (list Q * list Q) :=
  match x with
  | [] => Ok (mn, mx)
  | a :: x => match mn, mx with
              | m :: mn, M :: mx =>
                  let! (mn, mx) := widen x mn mx in
                  Ok ((if qltb a m then a else m) :: mn, (if qltb M a then a else M) :: mx)
              | _, _ => UB
              end
  end.
Fixpoint widen_all (pop : list (list Q)) (mn mx : list Q) : res (list Q * list Q) :=
  match pop with
  | [] => Ok (mn, mx)
  | x :: pop => let! (mn, mx) := widen x mn mx in widen_all pop mn mx
  end.
Definition estimator_uniform {F} (pop : list (indiv (list Q) F)) : res box :=
  match pop with
  | [] => UB
  | x :: pop => let! (mn, mx) := widen_all (map geno pop) (geno x) (geno x) in Ok (Box mn mx)
  end.
(** edoEstimatorBinomial (edoEstimatorBinomial.h:50-68): an individual shorter than the first one is read out of bounds *)
Definition bit (b : bool) : Q := if b then 1 else 0.
Fixpoint tally (n : Q) (x : list bool) (ps : list Q) {struct ps} : res (list Q) :=
  match ps with
  | [] => Ok []
  | p :: ps => match x with [] => UB | b :: x => let! ps := tally n x ps in Ok (p + bit b / n :: ps) end
  end.
Fixpoint tally_all (n : Q) (pop : list (list bool)) (ps : list Q) : res (list Q) :=
  match pop with [] => Ok ps | x :: pop => let! ps := tally n x ps in tally_all n pop ps end.
Definition estimator_binomial {F} (pop : list (indiv (list bool) F)) : res (list Q) :=
  match pop with
  | [] => UB
  | x :: _ => tally_all (inject_Z (Z.of_nat (length pop))) (map geno pop) (repeat 0 (length (geno x)))
  end.
(** edoEstimatorNormalMono (edoEstimatorNormalMono.h:46-119): class Variance, then the loops *)
Record welford := Welford { w_n : Q; w_mean : Q; w_M2 : Q }.
Definition update_var (w : welford) (x : Q) : welford :=
  let n := w_n w + 1 in
  let delta := x - w_mean w in
  let mean := w_mean w + delta / n in
  Welford n mean (w_M2 w + delta * (x - mean)).
Fixpoint update_all (x : list Q) (ws : list welford) {struct ws} : res (list welford) :=
  match ws with
  | [] => Ok []
  | w :: ws => match x with [] => UB | a :: x => let! ws := update_all x ws in Ok (update_var w a :: ws) end
  end.
Fixpoint update_pop (pop : list (list Q)) (ws : list welford) : res (list welford) :=
  match pop with [] => Ok ws | x :: pop => let! ws := update_all x ws in update_pop pop ws end.
Definition estimator_normal {F} (pop : list (indiv (list Q) F)) : res normals :=
  match pop with
  | [] => UB
  | x :: _ => let! ws := update_pop (map geno pop) (repeat (Welford 0 0 0) (length (geno x))) in
              Ok (Normals (map w_mean ws) (map (fun w => w_M2 w / w_n w) ws))
  end.
(** edoEstimatorNormalMulti (edoEstimatorNormalMulti.h:68-146 and 185-221): trans(sample) * sample / p_size, and the means *)
Fixpoint qdot (a b : list Q) : Q := match a, b with x :: a, y :: b => x * y + qdot a b | _, _ => 0 end.
Definition column (pop : list (list Q)) (j : nat) : list Q := map (fun x => nth j x 0) pop.
Definition estimator_multi (pop : list (list Q)) : (nat -> Q) * (nat -> nat -> Q) :=
  let n := inject_Z (Z.of_nat (length pop)) in
  ((fun j => qdot (column pop j) (repeat 1 (length pop)) / n), (fun i j => qdot (column pop i) (column pop j) / n)).

(** ** continuators *)
(** edoCombinedContinue::operator() (edoCombinedContinue.h:61-69) *)
Fixpoint combined {D W} (conts : list (D -> W -> res (bool * W))) (d : D) (w : W) : res (bool * W) :=
  match conts with
  | [] => Ok (true, w)
  | c :: conts => let! (b, w) := c d w in if (b : bool) then combined conts d w else Ok (false, w)
  end.

(** edoEstimatorCombinedAdaptive::operator() (edoEstimatorCombined.h:61-67): every estimator is called, the last result is kept *)
Fixpoint combined_estimators {P D W} (es : list (P -> W -> res (D * W))) (pop : P) (d : D) (w : W) : res (D * W) :=
  match es with
  | [] => Ok (d, w)
  | e :: es => let! (d, w) := e pop w in combined_estimators es pop d w
  end.

(** ** modifiers *)
(** edoUniformCenter::operator() (edoUniformCenter.h:44-56): min() and max() return copies, the references are bound to elements
    of destroyed vectors; for an empty mass nothing is read *)
Definition uniform_center (d : box) (mass : list Q) : res box := match mass with [] => Ok d | _ => UB end.
(** edoNormalMonoCenter::operator() (edoNormalMonoCenter.h:45-48), edoNormalMultiCenter (edoNormalMultiCenter.h): the assignment is
    to the copy that mean() returns *)
Definition normal_center (d : normals) (mass : list Q) : normals := let temporary := mass in d.

(** ** algorithms *)
Section Algo.
Context {G F D W : Type}.
Notation I := (indiv G F).
(** _sampler(_distrib), n times *)
Fixpoint draw_pop (sample : D -> W -> res (I * W)) (d : D) (n : nat) (w : W) : res (list I * W) :=
  match n with
  | 0%nat => Ok ([], w)
  | S n => let! (x, w) := sample d w in let! (l, w) := draw_pop sample d n w in Ok (x :: l, w)
  end.
Section Ada.
Variable pop_eval : list I -> list I -> W -> res (list I * list I * W).
Variable select : list I -> W -> res (list I * W).
Variables estimate estimate_init : list I -> W -> res (D * W).
Variable sample : D -> W -> res (I * W).
Variable replace : list I -> list I -> W -> res (list I * W).
Variable pop_cont : list I -> W -> res (bool * W).
Variable distrib_cont : D -> W -> res (bool * W).
(** edoAlgoAdaptive::operator() (edoAlgoAdaptive.h:179-230). [fuel] bounds the number of turns, running out of it is NoDraw; the
    failed assertions on an empty population or selection are UB. Besides the final population and distribution the model returns
    the populations shown to the population continuator. *)
Fixpoint eda_loop (fuel : nat) (pop : list I) (w : W) : res (list I * D * list (list I) * W) :=
  match fuel with
  | 0%nat => NoDraw
  | S fuel =>
      let! (selected, w) := select pop w in
      match selected with
      | [] => UB
      | _ =>
          let! (d, w) := estimate selected w in
          let! (go, w) := distrib_cont d w in
          if (go : bool) then
            let! (current, w) := draw_pop sample d (length pop) w in
            let! (pop, current, w) := pop_eval pop current w in
            let! (pop, w) := replace pop current w in
            let! (go, w) := pop_cont pop w in
            if (go : bool) then let! (r, d', tr, w) := eda_loop fuel pop w in Ok (r, d', pop :: tr, w)
            else Ok (pop, d, [pop], w)
          else Ok (pop, d, [], w)
      end
  end.
Definition eda (fuel : nat) (pop : list I) (w : W) : res (list I * D * list (list I) * W) :=
  match pop with
  | [] => UB
  | _ => let! (_, w) := estimate_init pop w in eda_loop fuel pop w
  end.
End Ada.
End Algo.

(** edoEDASA: the acceptance test (edoEDASA.h:207-208). [lt] is the comparison of the fitness type (of maximized or
    of minimized fitnesses), [exp] is the exponential; a number is drawn only when the first test fails *)
Definition edasa_accepts (lt : Q -> Q -> bool) (exp : Q -> Q) (temperature current candidate : Q) (r : rand) : res (bool * rand) :=
  if lt candidate current then Ok (true, r)
  else let! (u, r) := uniform r in Ok (qltb u (exp (Qabs (candidate - current) / temperature)), r).
(** the inner loop (201-214), on the fitnesses of the candidates: what is pushed into current_pop *)
Fixpoint edasa_inner (lt : Q -> Q -> bool) (exp : Q -> Q) (temperature current : Q) (candidates : list Q) (r : rand) : res (list Q * rand) :=
  match candidates with
  | [] => Ok ([], r)
  | c :: cs =>
      let! (yes, r) := edasa_accepts lt exp temperature current c r in
      if (yes : bool) then let! (l, r) := edasa_inner lt exp temperature c cs r in Ok (c :: l, r)
      else edasa_inner lt exp temperature current cs r
  end.
