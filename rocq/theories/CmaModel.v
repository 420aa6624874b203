(** Model of the CMA evolution strategy: its parameters (eo/src/es/CMAParams.h, CMAParams.cpp), its state (eo/src/es/CMAState.h,
    CMAState.cpp), the storage of its matrices (eo/src/es/matrices.h), the accounting of the iterations of the eigenvalue algorithm
    (eo/src/es/eig.cpp), the initialiser and the breeder (eo/src/es/eoCMAInit.h, eo/src/es/eoCMABreed.h).
    Doubles are real numbers. The three tests "x == x + y" that look for lost precision are answered by an arbitrary function [stuck].
    Vectors and matrices are functions of their indices; only the indices below the dimension count. *)
From Coq Require Import List Arith ZArith Bool Reals.
From Verif Require Import Lib Outcome BreedModel.
From Coq Require Import List.
Import ListNotations.
Open Scope nat_scope.

(** ** storage of the matrices *)
(** lower_triangular_matrix: data has n (n + 1) / 2 cells (matrices.h:15), row i starts at i (i + 1) / 2 (matrices.h:22-23) *)
Definition tri_size (n : nat) : nat := n * (n + 1) / 2.
Definition tri_cell (i j : nat) : nat := i * (i + 1) / 2 + j.
(** square_matrix: n * n cells (matrices.h:34), row i starts at i * n (matrices.h:41-42) *)
Definition square_size (n : nat) : nat := n * n.
Definition square_cell (n i j : nat) : nat := i * n + j.

(** ** parameters *)
Definition vec := nat -> R.
Definition mat := nat -> nat -> R.
(** double sum = 0; for (j = 0; j < n; ++j) sum += f(j) *)
Fixpoint sum_to (n : nat) (f : nat -> R) : R := match n with O => 0%R | S k => (sum_to k f + f k)%R end.
(** valarray::sum *)
Definition vsum (l : list R) : R := sum_to (length l) (fun i => nth i l 0%R).

(** CMAParams (CMAParams.h:28-46) *)
Record params := Params { p_n : nat; p_maxgen : nat; p_lambda : nat; p_mu : nat; p_weights : list R; p_mueff : R; p_mucov : R; p_damp : R;
  p_ccumsig : R; p_ccumcov : R; p_ccov : R; p_min : vec; p_init : vec }.
(** lambda = 4+(int)(3*log((double) n)) (CMAParams.cpp:197) *)
Definition default_lambda (n : nat) : nat := 4 + Z.to_nat (Int_part (3 * ln (INR n))).
(** mu = lambda / 2 (CMAParams.cpp:198); the only resizing of the weights, to this size, is at line 200 *)
Definition default_mu (n : nat) : nat := default_lambda n / 2.
(** an unsigned difference, modulo 2^32 *)
Definition usub (a b : nat) : R := IZR ((Z.of_nat a - Z.of_nat b) mod 2 ^ 32).
(** the three weightings (CMAParams.cpp:103-131) *)
Definition raw_weights (weighting mu size : nat) : list R :=
  match weighting with
  | 1 => map (fun i => usub mu i) (seq 0 size)
  | 2 => map (fun _ => 1%R) (seq 0 size)
  | _ => map (fun i => (ln (INR mu + 1) - ln (INR i + 1))%R) (seq 0 size)
  end.
(** mueff = sumw * sumw / (weights * weights).sum() (CMAParams.cpp:134-135) *)
Definition mueff_of (w : list R) : R := (vsum w * vsum w / vsum (map (fun x => x * x) w))%R.
(** weights /= sumw (CMAParams.cpp:136) *)
Definition normalised (w : list R) : list R := map (fun x => (x / vsum w)%R) w.
(** CMAParams.cpp:143 *)
Definition ccumsig_of (n : nat) (mueff : R) : R := ((mueff + 2) / (INR n + mueff + 3))%R.
(** CMAParams.cpp:144 *)
Definition ccumcov_of (n : nat) : R := (4 / (INR n + 4))%R.
(** CMAParams.cpp:146-151 *)
Definition ccov_of (n : nat) (mucov : R) : R :=
  let t1 := (2 / ((INR n + 14142 / 10000) * (INR n + 14142 / 10000)))%R in
  let t2 := ((2 * mucov - 1) / ((INR n + 2) * (INR n + 2) + mucov))%R in
  let t2 := if Rlt_dec 1 t2 then 1%R else t2 in
  (1 / mucov * t1 + (1 - 1 / mucov) * t2)%R.
(** CMAParams.cpp:153-155; with maxgen = 0 the quotient is infinite and the first maximum is 0.3 *)
Definition damp_of (n maxgen : nat) (mueff ccumsig : R) : R :=
  let share := if maxgen =? 0 then (3 / 10)%R else Rmax (3 / 10) (1 - INR n / INR maxgen) in
  (1 + share * (1 + 2 * Rmax 0 (sqrt ((mueff - 1) / (INR n + 1)) - 1)) / ccumsig)%R.
(** the arrays of standard deviations (CMAParams.cpp:157-190): cut to n values, all coordinates set to the last, then the first ones to
    theirs; nothing happens with an empty array *)
Definition stdevs (n : nat) (given : list R) (default : R) : vec :=
  let l := firstn n given in
  match l with [] => fun _ => default | _ => fun i => if i <? length l then nth i l 0%R else last l 0%R end.
(** CMAParams::CMAParams(parser, dimensionality) for n > 0 (CMAParams.cpp:55-192). [lambda], [mu]: the values given to the parser, if
    any; [mins], [inits]: the arrays (the parser's defaults are one 0 and one 0.3). defaults() reads ccumsig before any assignment at line
    212, but the constructor assigns all that depends on it again. *)
Definition cma_params (n maxgen : nat) (lambda mu : option nat) (weighting : nat) (mins inits : list R) : params :=
  let lam := match lambda with Some l => l | None => default_lambda n end in
  let lam := if lam <? 2 then default_lambda n else lam in
  let m := match mu with Some m => m | None => default_mu n end in
  let m := if lam <=? m then lam / 2 else m in
  let raw := raw_weights weighting m (default_mu n) in
  let mueff := mueff_of raw in
  let ccumsig := ccumsig_of n mueff in
  Params n maxgen lam m (normalised raw) mueff mueff (damp_of n maxgen mueff ccumsig) ccumsig (ccumcov_of n) (ccov_of n mueff)
    (stdevs n mins 0%R) (stdevs n inits (3 / 10)%R).

(** ** the state *)
(** CMAStateImpl (CMAState.cpp:69-83) *)
Record state := State { s_C : mat; s_B : mat; s_d : vec; s_pc : vec; s_ps : vec; s_mean : vec; s_sigma : R; s_gen : nat; s_hist : list R }.
(** a coordinate of a vector<double> *)
Definition at_ (l : list R) : vec := fun i => nth i l 0%R.
(** reading the lower triangular matrix as a symmetric one (eig.cpp:243-248) *)
Definition sym (C : mat) : mat := fun i j => if j <=? i then C i j else C j i.
Definition diag (v : vec) : mat := fun i j => if i =? j then v i else 0%R.
(** C[i][i] += k *)
Definition add_diag (C : mat) (k : vec) : mat := fun i j => if i =? j then (C i j + k i)%R else C i j.
(** the constructor (CMAState.cpp:86-102); a point with less than n coordinates is read past its end by the first call *)
Definition start (p : params) (point : list R) (sigma : R) : res state :=
  if length point <? p_n p then UB else
  let trace := sum_to (p_n p) (fun i => (p_init p i * p_init p i)%R) in
  let d := fun i => (p_init p i * sqrt (INR (p_n p) / trace))%R in
  Ok (State (diag (fun i => (d i * d i)%R)) (diag (fun _ => 1%R)) d (fun _ => 0%R) (fun _ => 0%R) (at_ point) sigma 0 [0%R; 0%R; 0%R]).
(** sample (CMAState.cpp:104-120); [zs]: what rng.normal() returns *)
Definition sample (p : params) (s : state) (zs : list R) : res (list R * list R) :=
  let n := p_n p in
  if length zs <? n then NoDraw else
  let tmp := fun i => (s_d s i * nth i zs 0)%R in
  Ok (map (fun i => (s_mean s i + s_sigma s * sum_to n (fun j => s_B s i j * tmp j))%R) (seq 0 n), skipn n zs).

Section Numbers.
(** x == x + y in double arithmetic *)
Variable stuck : R -> R -> bool.

(** for (i...) if (sigma * sqrt(C[i][i]) < p.minStdevs[i]) { sigma *= exp(0.05+1./p.damp); break; } (CMAState.cpp:248-254) *)
Definition too_narrow (p : params) (C : mat) (sigma : R) : bool :=
  existsb (fun i => if Rlt_dec (sigma * sqrt (C i i)) (p_min p i) then true else false) (seq 0 (p_n p)).
(** one axis of the second test (CMAState.cpp:261-276) *)
Definition axis_step (p : params) (s : state) (sigma : R) (axis : nat) : R :=
  let fac := (1 / 10 * sigma * s_d s axis)%R in
  if forallb (fun coord => stuck (s_mean s coord) (fac * s_B s coord axis)%R) (seq 0 (p_n p)) then (sigma * exp (2 / 10 + 1 / p_damp p))%R else sigma.
(** treatNumericalIssues (CMAState.cpp:245-292) *)
Definition treat (p : params) (s : state) (best worst : R) : state :=
  let n := p_n p in
  let sigma := s_sigma s in
  let sigma := if too_narrow p (s_C s) sigma then (sigma * exp (5 / 100 + 1 / p_damp p))%R else sigma in
  let sigma := if Req_EM_T best worst then (sigma * exp (2 / 10 + 1 / p_damp p))%R else sigma in
  let sigma := fold_left (axis_step p s) (seq 0 n) sigma in
  let lost := fun i => stuck (s_mean s i) (2 / 10 * sigma * sqrt (s_C s i i))%R in
  let C := fun i j => if (i =? j) && lost i then (s_C s i j * (1 + p_ccov p))%R else s_C s i j in
  let sigma' := if existsb lost (seq 0 n) then (sigma * exp (5 / 100 + 1 / p_damp p))%R else sigma in
  State C (s_B s) (s_d s) (s_pc s) (s_ps s) (s_mean s) sigma' (s_gen s) (s_hist s).

(** the expected length of a normal vector (CMAState.cpp:165) *)
Definition chi (n : nat) : R := (sqrt (INR n) * (1 - 1 / (4 * INR n) + 1 / (21 * INR n * INR n)))%R.
(** hsig (CMAState.cpp:167); in generation 0 the divisor is 0, the quotient is infinite or not a number, and the comparison fails *)
Definition hsig_of (p : params) (gen : nat) (psxps : R) : bool :=
  if gen =? 0 then false else
  if Rlt_dec (sqrt psxps / sqrt (1 - (1 - p_ccumsig p) ^ (2 * gen)) / chi (p_n p)) (15 / 10 + 1 / (INR (p_n p) - 5 / 10)) then true else false.
(** fitnessWorsens (CMAState.cpp:177-187) *)
Definition worsens (gen : nat) (hist : list R) (best worst : R) : bool :=
  let direction := if Rlt_dec best worst then (-1)%R else 1%R in
  let h := fun g => nth (g mod 3) hist 0%R in
  if Req_EM_T best worst then true else
  (if Rlt_dec (direction * h gen) (direction * h (gen - 1)) then true else false) &&
  (if Rlt_dec (direction * h gen) (direction * h (gen - 2)) then true else false).
(** the weighted recombination of one coordinate (CMAState.cpp:133-138) *)
Definition recombined (p : params) (pop : list (list R)) : vec :=
  fun i => sum_to (length pop) (fun j => (nth j (p_weights p) 0 * at_ (nth j pop []) i)%R).
(** the update of one cell of the covariance matrix (CMAState.cpp:196-228) *)
Definition updated (p : params) (C : mat) (pc old : vec) (sigma : R) (hsig : bool) (pop : list (list R)) : mat := fun i j =>
  ((1 - p_ccov p) * C i j + p_ccov p * (1 / p_mucov p) * pc i * pc j
   + (1 - (if hsig then 1 else 0)) * p_ccumcov p * (2 - p_ccumcov p) * C i j
   + sum_to (p_mu p) (fun k => p_ccov p * (1 - 1 / p_mucov p) * nth k (p_weights p) 0
                               * (at_ (nth k pop []) i - old i) * (at_ (nth k pop []) j - old j) / sigma / sigma))%R.
(** reestimate (CMAState.cpp:122-243). The assert of line 124 is the outcome [Throw]; less weights than parents, or a parent with less
    than n coordinates, are read past their end. *)
Definition reestimate (p : params) (s : state) (pop : list (list R)) (best worst : R) : res state :=
  let n := p_n p in
  if negb (length pop =? p_mu p) then Throw else
  if (length (p_weights p) <? length pop) || existsb (fun x => length x <? n) pop then UB else
  let hist := set (s_hist s) (s_gen s mod 3) best in
  let old := s_mean s in
  let mean := recombined p pop in
  let BDz := fun i => (sqrt (p_mueff p) * (mean i - old i) / s_sigma s)%R in
  let tmp := fun i => (sum_to n (fun j => s_B s j i * BDz j) / s_d s i)%R in
  let ps := fun i => ((1 - p_ccumsig p) * s_ps s i + sqrt (p_ccumsig p * (2 - p_ccumsig p)) * sum_to n (fun j => s_B s i j * tmp j))%R in
  let psxps := sum_to n (fun i => (ps i * ps i)%R) in
  let hsig := hsig_of p (s_gen s) psxps in
  let pc := fun i => ((1 - p_ccumcov p) * s_pc s i + (if hsig then 1 else 0) * sqrt (p_ccumcov p * (2 - p_ccumcov p)) * BDz i)%R in
  let reset := (3 <=? s_gen s) && (if Rlt_dec (15 / 10 + 10 * sqrt (2 / INR n)) (psxps / INR n) then true else false) && worsens (s_gen s) hist best worst in
  let tfac := sqrt ((1 + Rmax 0 (ln (psxps / INR n))) * INR n / psxps) in
  let ps' := if reset then fun i => (ps i * tfac)%R else ps in
  let psxps' := if reset then (psxps * (tfac * tfac))%R else psxps in
  let C := if Req_EM_T (p_ccov p) 0 then s_C s else updated p (s_C s) pc old (s_sigma s) hsig pop in
  let sigma := (s_sigma s * exp ((sqrt psxps' / chi n - 1) / p_damp p))%R in
  let s' := treat p (State C (s_B s) (s_d s) pc ps' mean sigma (s_gen s) hist) best worst in
  Ok (State (s_C s') (s_B s') (s_d s') (s_pc s') (s_ps s') (s_mean s') (s_sigma s') (S (s_gen s')) (s_hist s')).
End Numbers.

(** ** the eigen system *)
(** QLalgo's count of its iterations (eig.cpp:152-217): [needs] holds the number of turns after which the loop on each index i would find
    its off-diagonal cell negligible. Returns the value of QLalgo and whether it went through all the indices. *)
Fixpoint ql_count (maxIter : nat) (needs : list nat) (iter : nat) : nat * bool :=
  match needs with
  | [] => (iter, true)
  | k :: r => if iter <? maxIter then (if maxIter <? iter + k then (maxIter - 1, false) else ql_count maxIter r (iter + k)) else (iter, false)
  end.
Section Eigen.
(** eig on a symmetric matrix: what each index needs, and the arrays diag and Q it leaves *)
Variable eig : nat -> nat -> mat -> list nat * vec * mat.
(** numeric_limits<double>::epsilon() *)
Definition epsilon : R := (/ 2 ^ 52)%R.
(** valarray::min, valarray::max *)
Fixpoint vmin (n : nat) (d : vec) : R := match n with O => d 0 | S O => d 0 | S k => Rmin (vmin k d) (d k) end.
Fixpoint vmax (n : nat) (d : vec) : R := match n with O => d 0 | S O => d 0 | S k => Rmax (vmax k d) (d k) end.
(** the loop of updateEigenSystem (CMAState.cpp:302-341); [good]: the static lastGoodMinimumEigenValue. eig writes into d and B even when
    its result is not used. *)
Fixpoint tries_loop (p : params) (max_iters todo tries : nat) (s : state) (good : R) : bool * state * R :=
  let n := p_n p in
  match todo with
  | O => (false, s, good)
  | S todo => let '(needs, d, B) := eig max_iters n (sym (s_C s)) in
      let '(iters, _) := ql_count max_iters needs 0 in
      if iters <? max_iters then
        let minEV := vmin n d in
        let maxEV := vmax n d in
        let tmp := if Rlt_dec minEV (maxEV * epsilon) then (maxEV * epsilon - minEV)%R else 0%R in
        (true, State (add_diag (s_C s) (fun _ => tmp)) B (fun i => sqrt (d i + tmp)) (s_pc s) (s_ps s) (s_mean s) (s_sigma s) (s_gen s) (s_hist s), (minEV + tmp)%R)
      else
        let summand := (good * exp (INR tries))%R in
        tries_loop p max_iters todo (S tries) (State (add_diag (s_C s) (fun _ => summand)) B d (s_pc s) (s_ps s) (s_mean s) (s_sigma s) (s_gen s) (s_hist s)) good
  end.
(** updateEigenSystem (CMAState.cpp:295-345) *)
Definition update_eigen (p : params) (max_tries max_iters : nat) (s : state) (good : R) : bool * state * R :=
  tries_loop p (if max_iters =? 0 then 30 * p_n p else max_iters) max_tries 0 s good.

(** ** the breeder *)
Variable stuck : R -> R -> bool.
Variable F : Type.
Variable value : F -> R.
(** parents.sort(sorted) (eoPop.h:222-233): pointers to the parents, the best first *)
Variable sort_pop : list (indiv (list R) F) -> list (indiv (list R) F).
(** offspring.resize(lambda), then each one sampled and invalidated (eoCMABreed.h:67-72) *)
Fixpoint samples (p : params) (s : state) (k : nat) (zs : list R) : res (list (indiv (list R) F) * list R) :=
  match k with
  | O => Ok ([], zs)
  | S k => let! (v, zs) := sample p s zs in let! (l, zs) := samples p s k zs in Ok (Ind v None :: l, zs)
  end.
(** eoCMAInit::operator() (eoCMAInit.h:47-50) *)
Definition cma_init (p : params) (s : state) (zs : list R) : res (indiv (list R) F * list R) := let! (v, zs) := sample p s zs in Ok (Ind v None, zs).
(** eoCMABreed::operator() (eoCMABreed.h:46-74). The fitness of a parent that has none throws; sorted[0] of no parent is undefined. *)
Definition cma_breed (p : params) (lambda : nat) (s : state) (good : R) (parents : list (indiv (list R) F)) (zs : list R) :
  res (list (indiv (list R) F) * state * R * list R) :=
  let sorted := sort_pop parents in
  match sorted with
  | [] => UB
  | first :: _ => match fit first, fit (last sorted first) with
      | Some b, Some w =>
          let! s := reestimate stuck p s (map geno sorted) (value b) (value w) in
          let '(_, s, good) := update_eigen p 10 0 s good in
          let! (l, zs) := samples p s lambda zs in Ok (l, s, good, zs)
      | _, _ => Throw
      end
  end.
End Eigen.
