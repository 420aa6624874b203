(** Property C139: the Cholesky factorizations of edo and the multi-variate normal sampler. *)
From Coq Require Import Reals List Arith Lia Lra Bool.
From Verif Require Import Outcome ChoModel ChoSpec ChoProofs.
Import ListNotations.
Open Scope R_scope.

(** the matrix ((4,2),(2,2)) and its factor *)
Definition ex_V : nat -> nat -> R := fun i j => match i, j with 0%nat, 0%nat => 4 | 1%nat, 0%nat | 0%nat, 1%nat | 1%nat, 1%nat => 2 | _, _ => 0 end.
Definition ex_L : nat -> nat -> R := fun i j => match i, j with 0%nat, 0%nat => 2 | 1%nat, 0%nat | 1%nat, 1%nat => 1 | _, _ => 0 end.
Example ex_factor : cholesky_factor 2 ex_V ex_L.
Proof.
  split; [|split].
  - intros i j H. assert (i = 0 /\ j = 1)%nat as [-> ->] by lia. reflexivity.
  - intros i H. destruct i as [|[|i]]; [cbn; lra|cbn; lra|lia].
  - intros i j Hi Hj. destruct i as [|[|i]]; destruct j as [|[|j]]; try lia; cbn; ring.
Qed.
Example ex_V_ok : symmetric 2 ex_V /\ positive_definite 2 ex_V.
Proof. exact (factor_posdef _ _ _ ex_factor). Qed.

(** the three LLT classes: on every symmetric positive definite matrix they return the lower triangular L with a positive
    diagonal (so they divided by no null pivot) and L L^T = V *)
Theorem C139_llt : forall N V pivot, pivot = pivot_plain \/ pivot = pivot_abs \/ pivot = pivot_zero ->
  (0 < N)%nat -> symmetric N V -> positive_definite N V ->
  exists L, llt pivot V N = Ok L /\ cholesky_factor N V L.
Proof.
  intros N V pivot H HN Sy Pd. apply llt_ok; auto. intros d Hd.
  assert (S0 : 0 < sqrt d /\ sqrt d * sqrt d = d) by (split; [apply sqrt_lt_R0; exact Hd|apply sqrt_sqrt; lra]).
  destruct H as [->|[->| ->]]; unfold pivot_plain, pivot_abs, pivot_zero.
  - exact S0.
  - rewrite Rabs_right by lra. exact S0.
  - destruct (Rle_dec 0 d); [exact S0|lra].
Qed.
Print Assumptions C139_llt.
(** CholeskyLDLT too *)
Theorem C139_ldlt : forall N V, (0 < N)%nat -> symmetric N V -> positive_definite N V ->
  exists L, ldlt V N = Ok L /\ cholesky_factor N V L.
Proof. intros. apply ldlt_ok; auto. Qed.
Print Assumptions C139_ldlt.
(** there is only one such factor, and only positive definite matrices have one: the four classes agree *)
Theorem C139_unique : forall N V L M, cholesky_factor N V L -> cholesky_factor N V M ->
  (symmetric N V /\ positive_definite N V) /\ forall i j, (i < N)%nat -> (j < N)%nat -> L i j = M i j.
Proof. intros N V L M HL HM. split; [exact (factor_posdef _ _ _ HL)|exact (factor_unique N V L M HL HM)]. Qed.
Print Assumptions C139_unique.
Example C139_unique_ex : exists L M, llt pivot_plain ex_V 2 = Ok L /\ ldlt ex_V 2 = Ok M /\
  forall i j, (i < 2)%nat -> (j < 2)%nat -> L i j = ex_L i j /\ M i j = ex_L i j.
Proof.
  destruct ex_V_ok as [Sy Pd].
  destruct (C139_llt 2 ex_V pivot_plain (or_introl eq_refl)) as (L & EL & FL); auto.
  destruct (C139_ldlt 2 ex_V) as (M & EM & FM); auto.
  exists L, M. split; [exact EL|]. split; [exact EM|]. intros i j Hi Hj.
  split; [exact (proj2 (C139_unique 2 ex_V L ex_L FL ex_factor) i j Hi Hj)|exact (proj2 (C139_unique 2 ex_V M ex_L FM ex_factor) i j Hi Hj)].
Qed.

(** edoSamplerNormalMulti: when the draws of normal() have mean 0, variance 1 and are not correlated, the sample has the mean
    and the variance-covariance matrix of the distribution. [E] is any expectation *)
Theorem C139_sampler_moments : forall N (mean : nat -> R) V (E : ((nat -> R) -> R) -> R),
  (0 < N)%nat -> symmetric N V -> positive_definite N V -> expectation E -> standard N E ->
  exists f, (forall t, sample_multi mean V N t = Ok (f t)) /\
    (forall i, (i < N)%nat -> E (fun t => f t i) = mean i) /\
    (forall i j, (i < N)%nat -> (j < N)%nat -> E (fun t => (f t i - mean i) * (f t j - mean j)) = V i j).
Proof. exact sample_ok. Qed.
Print Assumptions C139_sampler_moments.
(** the four vectors (1,1), (1,-1), (-1,1), (-1,-1), equally likely *)
Definition ex_t (a b : R) : nat -> R := fun k => match k with 0%nat => a | _ => b end.
Definition ex_E (f : (nat -> R) -> R) : R := (f (ex_t 1 1) + f (ex_t 1 (-1)) + f (ex_t (-1) 1) + f (ex_t (-1) (-1))) / 4.
Example C139_sampler_ex : expectation ex_E /\ standard 2 ex_E.
Proof.
  split.
  - split; [|split; [|split]].
    + intros f g H. unfold ex_E. rewrite !H. reflexivity.
    + intros f g. unfold ex_E. field.
    + intros c f. unfold ex_E. field.
    + unfold ex_E. field.
  - split.
    + intros k Hk. destruct k as [|[|k]]; [cbv [ex_E ex_t]; field|cbv [ex_E ex_t]; field|lia].
    + intros k l Hk Hl. destruct k as [|[|k]]; destruct l as [|[|l]]; try lia; cbn [Nat.eqb]; cbv [ex_E ex_t]; field.
Qed.

(** an empty matrix is read out of bounds *)
Theorem C139_empty_outside : forall V pivot, llt pivot V 0 = UB /\ ldlt V 0 = UB.
Proof. split; reflexivity. Qed.
Print Assumptions C139_empty_outside.
(** on a matrix that is not positive definite the classes that change the pivots return the factor of another matrix *)
Theorem C139_changed_pivots_outside : exists V, symmetric 2 V /\
  forall L, (llt pivot_abs V 2 = Ok L \/ llt pivot_zero V 2 = Ok L) -> sum 2 (fun k => L 1%nat k * L 1%nat k) <> V 1%nat 1%nat.
Proof.
  exists (fun i j => if (i =? j)%nat then 1 else 2). split; [intros i j _ _; rewrite Nat.eqb_sym; reflexivity|].
  assert (S1 : sqrt 1 = 1) by apply sqrt_1.
  intros L [H|H]; injection H as <-; cbn; rewrite S1.
  - unfold pivot_abs. cbn. replace (1 - (0 + 2 / 1 * (2 / 1))) with (-3) by lra. rewrite Rabs_left by lra.
    rewrite sqrt_sqrt by lra. lra.
  - unfold pivot_zero. cbn. replace (1 - (0 + 2 / 1 * (2 / 1))) with (-3) by lra. destruct (Rle_dec 0 (-3)); lra.
Qed.
Print Assumptions C139_changed_pivots_outside.
