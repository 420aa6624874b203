(** Model of the adaptive normal distribution of the EDO module and of the components that work on it: edo/src/edoNormalAdaptive.h,
    edoEstimatorNormalAdaptive.h, edoSamplerNormalAdaptive.h, edoContAdaptiveIllCovar.h, edoEstimatorAdaptive.h, edoEstimatorAdaptiveReset.h,
    edoEstimatorAdaptiveEdit.h and edoDistribReset.h.
    Doubles are real numbers; a flag tells that the square root of a negative number (not a number, in the code) went into the scaling.
    Vectors and matrices are functions of their indices; only the indices below the dimension count. The counters stay below 2^32. *)
From Coq Require Import List Arith ZArith Bool Reals.
From Verif Require Import Lib Outcome CmaModel.
From Coq Require Import List.
Import ListNotations.
Open Scope nat_scope.

(** edoNormalAdaptive (edoNormalAdaptive.h:184-191); [d_nan]: some cell of the scaling is not a number *)
Record distr := Distr { d_n : nat; d_mean : vec; d_C : mat; d_B : mat; d_D : vec; d_sigma : R; d_pc : vec; d_ps : vec; d_nan : bool }.
(** the constructor with a dimension (edoNormalAdaptive.h:80-91) *)
Definition new_distr (dim : nat) : distr :=
  Distr dim (fun _ => 0%R) (diag (fun _ => 1%R)) (diag (fun _ => 1%R)) (fun _ => 1%R) 1%R (fun _ => 0%R) (fun _ => 0%R) false.
(** the constructor with all the members (edoNormalAdaptive.h:93-118): [dim] is only read by the asserts and _dim is not in the list of
    initialisers, so that it holds whatever was in the memory, [junk] *)
Definition full_distr (junk dim : nat) (mean : vec) (C B : mat) (D : vec) (sigma : R) (pc ps : vec) : distr := Distr junk mean C B D sigma pc ps false.
(** reset (edoNormalAdaptive.h:167-181) *)
Definition reset (dim : nat) (d : distr) : distr := new_distr (if dim =? 0 then d_n d else dim).
(** edoDistribReset::operator() (edoDistribReset.h:53-60), edoEstimatorAdaptiveReset::operator() with _dim = 0 or dim
    (edoEstimatorAdaptiveReset.h:44-58); [dim]: the dimension given to the constructor, if any *)
Definition distrib_reset (dim : option nat) (d : distr) : distr := match dim with Some n => reset n d | None => reset 0 d end.
(** mean(EOT) (edoNormalAdaptive.h:143-151): the assert on the size is the outcome [Throw] *)
Definition set_mean (m : list R) (d : distr) : res distr :=
  if negb (length m =? d_n d) then Throw else Ok (Distr (d_n d) (at_ m) (d_C d) (d_B d) (d_D d) (d_sigma d) (d_pc d) (d_ps d) (d_nan d)).
(** edoEstimatorAdaptiveEdit::operator() (edoEstimatorAdaptiveEdit.h:67-71) with the getter and the setter of its documentation: the mean
    becomes what the getter returns *)
Definition edit_mean (getter : res (list R)) (d : distr) : res distr := let! m := getter in set_mean m d.

(** ** sampling *)
(** sample (edoSamplerNormalAdaptive.h:59-108); [zs]: what rng.normal() returns *)
Definition nad_sample (d : distr) (zs : list R) : res (list R * list R) :=
  let n := d_n d in
  if length zs <? n then NoDraw else
  Ok (map (fun i => (d_mean d i + d_sigma d * sum_to n (fun j => d_B d i j * (d_D d j * nth j zs 0)))%R) (seq 0 n), skipn n zs).

(** ** the constants of the estimator *)
(** edoCMAESweights (edoEstimatorNormalAdaptive.h:62-78) *)
Definition nad_weights (lambda : nat) : list R := normalised (map (fun i => (ln (INR lambda + 5 / 10) - ln (INR (i + 1)))%R) (seq 0 lambda)).
(** edoEstimatorNormalAdaptive.h:124 *)
Definition cc_of (n : nat) (m : R) : R := ((4 + m / INR n) / (INR n + 4 + 2 * m / INR n))%R.
(** edoEstimatorNormalAdaptive.h:127 *)
Definition cs_of (n : nat) (m : R) : R := ((m + 2) / (INR n + m + 5))%R.
(** edoEstimatorNormalAdaptive.h:130 *)
Definition c1_of (n : nat) (m : R) : R := (2 / ((INR n + 13 / 10) ^ 2 + m))%R.
(** edoEstimatorNormalAdaptive.h:133 *)
Definition cmu_of (n : nat) (m : R) : R := (2 * (m - 2 + 1 / m) / ((INR n + 2) ^ 2 + m))%R.
(** edoEstimatorNormalAdaptive.h:136 *)
Definition damps_of (n : nat) (m : R) : R := (1 + 2 * Rmax 0 (sqrt ((m - 1) / (INR n + 1)) - 1) + cs_of n m)%R.
(** edoEstimatorNormalAdaptive.h:150: N is unsigned, so that 1/(4*N) is a division of integers; pow gives a double *)
Definition nad_chi (n : nat) : R := (sqrt (INR n) * (1 - INR (1 / (4 * n)) + 1 / (21 * INR n ^ 2)))%R.
(** norm() of a vector *)
Definition norm (n : nat) (v : vec) : R := sqrt (sum_to n (fun i => (v i * v i)%R)).

(** ** the estimator *)
(** _calls and _eigeneval (edoEstimatorNormalAdaptive.h:247-248) *)
Record counters := Counters { c_calls : nat; c_last : nat }.
(** resetCalls (edoEstimatorNormalAdaptive.h:80-83) *)
Definition reset_calls (c : counters) : counters := Counters 0 (c_last c).
(** arx * weights (edoEstimatorNormalAdaptive.h:161) *)
Definition nad_mean (pop : list (list R)) : vec := fun i => sum_to (length pop) (fun j => (at_ (nth j pop []) i * nth j (nad_weights (length pop)) 0)%R).
(** C^-1/2 (edoEstimatorNormalAdaptive.h:143-145) *)
Definition inv_sqrt (n : nat) (B : mat) (D : vec) : mat := fun i j => sum_to n (fun k => (B i k * / D k * B j k)%R).
(** hsig (edoEstimatorNormalAdaptive.h:176-183); counteval / lambda is the number of calls *)
Definition nad_hsig (n calls : nat) (m : R) (ps : vec) : R :=
  if Rlt_dec (norm n ps / sqrt (1 - (1 - cs_of n m) ^ (2 * calls)) / nad_chi n) (14 / 10 + 2 / (INR n + 1)) then 1%R else 0%R.
(** the new covariance matrix (edoEstimatorNormalAdaptive.h:190-208) *)
Definition nad_covar (n : nat) (C : mat) (pc old : vec) (sigma hsig m : R) (pop : list (list R)) : mat := fun i j =>
  let art := fun i k => (1 / sigma * (at_ (nth k pop []) i - old i))%R in
  ((1 - c1_of n m - cmu_of n m) * C i j
   + c1_of n m * (pc i * pc j + (1 - hsig) * cc_of n m * (2 - cc_of n m) * C i j)
   + cmu_of n m * sum_to (length pop) (fun k => art i k * nth k (nad_weights (length pop)) 0 * art j k))%R.
(** counteval - _eigeneval > lambda/(c1+cmu)/N/10 (edoEstimatorNormalAdaptive.h:220) *)
Definition due (n lambda counteval last : nat) (m : R) : bool :=
  if Rlt_dec (INR lambda / (c1_of n m + cmu_of n m) / INR n / 10) (usub counteval last) then true else false.
Section Eigen.
(** Eigen::SelfAdjointEigenSolver: whether info() is Success, the eigenvalues, the eigenvectors as columns *)
Variable solver : nat -> mat -> bool * vec * mat.
(** edoEstimatorNormalAdaptive::operator() (edoEstimatorNormalAdaptive.h:86-243). The assert of line 94 reads pop[0], which is undefined in an
    empty population; its failure is the outcome [Throw]; an individual with less than N coordinates is read past its end at line 110. The
    other asserts check sizes that the assignments just made. info() of the solver is not read. *)
Definition nad_update (d : distr) (c : counters) (pop : list (list R)) : res (distr * counters) :=
  let n := d_n d in
  match pop with
  | [] => UB
  | x0 :: _ =>
      if negb (n =? length x0) then Throw else
      if existsb (fun x => length x <? n) pop then UB else
      let lambda := length pop in
      let calls := S (c_calls c) in
      let counteval := calls * lambda in
      let m := mueff_of (nad_weights lambda) in
      let cs := cs_of n m in
      let cc := cc_of n m in
      let invsqrtC := inv_sqrt n (d_B d) (d_D d) in
      let old := d_mean d in
      let mean := nad_mean pop in
      let ps := fun i => ((1 - cs) * d_ps d i + sqrt (cs * (2 - cs) * m) * sum_to n (fun j => invsqrtC i j * (mean j - old j)) / d_sigma d)%R in
      let hsig := nad_hsig n calls m ps in
      let pc := fun i => ((1 - cc) * d_pc d i + hsig * sqrt (cc * (2 - cc) * m) * (mean i - old i) / d_sigma d)%R in
      let C := nad_covar n (d_C d) pc old (d_sigma d) hsig m pop in
      let sigma := (d_sigma d * exp (cs / damps_of n m * (norm n ps / nad_chi n - 1)))%R in
      if due n lambda counteval (c_last c) m then
        let '(_, e, B) := solver n C in
        let nan := existsb (fun k => if Rlt_dec (e k) 0 then true else false) (seq 0 n) in
        Ok (Distr n mean C B (fun k => sqrt (e k)) sigma pc ps (d_nan d || nan), Counters calls counteval)
      else Ok (Distr n mean C (d_B d) (d_D d) sigma pc ps (d_nan d), Counters calls (c_last c))
  end.
(** the estimator called on the population of each generation *)
Fixpoint nad_updates (d : distr) (c : counters) (pops : list (list (list R))) : res (distr * counters) :=
  match pops with
  | [] => Ok (d, c)
  | pop :: r => let! (d, c) := nad_update d c pop in nad_updates d c r
  end.
(** edoContAdaptiveIllCovar::operator() (edoContAdaptiveIllCovar.h:57-102): the quotient by a null eigenvalue is not finite *)
Definition ill_covar (threshold : R) (d : distr) : bool :=
  let '(ok, e, _) := solver (d_n d) (d_C d) in
  if negb ok then false else
  let lo := vmin (d_n d) e in
  if Req_EM_T lo 0 then false else
  if Rle_dec threshold (vmax (d_n d) e / lo) then false else true.
End Eigen.
