(** Model of the Cholesky factorizations of edo (edo/src/utils/edoCholesky.h, the WITH_BOOST part) and of the sampler of the
    multi-variate normal distribution that uses them (edo/src/edoSamplerNormalMulti.h:78-102). Numbers are the real numbers of
    the standard library: rounding is not modelled. A matrix is the function giving its elements; the loops below never leave
    the first N rows and columns. *)
From Coq Require Import Reals List Arith.
From Verif Require Import Outcome.
Import ListNotations.
Open Scope R_scope.

Definition matrix := nat -> nat -> R.
(** ublas::zero_matrix *)
Definition zero : matrix := fun _ _ => 0.
(** M(i,j) = v *)
Definition put (M : matrix) (i j : nat) (v : R) : matrix := fun a b => if ((a =? i) && (b =? j))%bool then v else M a b.
(** for (i = a; i < b; ++i) *)
Definition loop {A} (a b : nat) (body : nat -> A -> A) (s : A) : A := fold_left (fun s i => body i s) (seq a (b - a)) s.
(** sum = 0.0; for (k = 0; k < n; ++k) sum += f(k) *)
Definition accumulate (n : nat) (f : nat -> R) : R := loop 0 n (fun k s => s + f k) 0.

(** CholeskyLLT::factorize (136-169) with the L_i_i of the class. Reading V(0,0) of an empty matrix is out of bounds. V is
    an ublas::symmetric_matrix: V(i,j) and V(j,i) are the same element. *)
Definition llt_rows (V : matrix) (N i : nat) (L : matrix) : matrix :=
  loop (S i) N (fun j L => put L j i ((V j i - accumulate i (fun k => L j k * L i k)) / L i i)) L.
Definition llt_column (pivot : R -> R) (V : matrix) (N i : nat) (L : matrix) : matrix :=
  llt_rows V N i (put L i i (pivot (V i i - accumulate i (fun k => L i k * L i k)))).
Definition llt (pivot : R -> R) (V : matrix) (N : nat) : res matrix :=
  match N with
  | 0%nat => UB
  | _ =>
      let L := put zero 0 0 (sqrt (V 0%nat 0%nat)) in
      let L := loop 1 N (fun j L => put L j 0 (V 0%nat j / L 0%nat 0%nat)) L in
      Ok (loop 1 N (llt_column pivot V N) L)
  end.
(** CholeskyLLT::L_i_i (173-178), CholeskyLLTabs::L_i_i (194-198), CholeskyLLTzero::L_i_i (213-223) *)
Definition pivot_plain (d : R) : R := sqrt d.
Definition pivot_abs (d : R) : R := sqrt (Rabs d).
Definition pivot_zero (d : R) : R := if Rle_dec 0 d then sqrt d else 0.

(** CholeskyLDLT::factorize (237-268) *)
Definition ldlt_diagonal (j : nat) (V L D : matrix) : matrix :=
  loop 0 j (fun k D => put D j j (D j j - L j k * L j k * D k k)) (put D j j (V j j)).
Definition ldlt_row (j i : nat) (V D L : matrix) : matrix :=
  let L := loop 0 j (fun k L => put L i j (L i j - L i k * L j k * D k k)) (put L i j (V i j)) in
  put L i j (L i j / D j j).
Definition ldlt_column (V : matrix) (N j : nat) (s : matrix * matrix) : matrix * matrix :=
  let '(L, D) := s in
  let L := put L j j 1 in
  let D := ldlt_diagonal j V L D in
  (loop (S j) N (fun i L => ldlt_row j i V D L) L, D).
(** root (271-285); ublas::prod is the sum over the inner index *)
Definition root (N : nat) (L D : matrix) : matrix :=
  let sqrt_D := loop 0 N (fun i M => put M i i (sqrt (D i i))) D in
  fun i j => accumulate N (fun k => L i k * sqrt_D k j).
Definition ldlt (V : matrix) (N : nat) : res matrix :=
  match N with
  | 0%nat => UB
  | _ => let '(L, D) := loop 0 N (ldlt_column V N) (zero, put zero 0 0 (V 0%nat 0%nat)) in Ok (root N L D)
  end.

(** edoSamplerNormalMulti::sample (78-102): T holds the draws of rng.normal() *)
Definition sample_multi (mean : nat -> R) (V : matrix) (N : nat) (T : nat -> R) : res (nat -> R) :=
  let! L := llt pivot_plain V N in
  Ok (fun i => mean i + accumulate N (fun k => L i k * T k)).
