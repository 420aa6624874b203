(** Model of moeoWeightedChebychevDistance (moeo/src/scalarStuffs/distance/moeoWeightedChebychevDistance.h:77-101) on exact real
    numbers, with the default normalizer (the identity). *)
From Coq Require Import List Reals Lra.
Import ListNotations.
Local Open Scope R_scope.

(** std::pow on non-negative numbers: 0 to a positive power is 0 *)
Definition power (x y : R) : R := if Req_EM_T x 0 then 0 else Rpower x y.
(** iteration (93-98) *)
Definition cheb_term (rho w x y : R) : R := power (w * power (Rabs (x - y)) rho) (1 / rho).
(** operator() (77-86): lists of the same length *)
Fixpoint cheb_distance (rho : R) (weight reference obj : list R) : R :=
  match weight, reference, obj with
  | w :: weight, y :: reference, x :: obj => cheb_term rho w x y + cheb_distance rho weight reference obj
  | _, _, _ => 0
  end.

Lemma power_mult x y z : 0 < x -> 0 < y -> power (x * y) z = power x z * power y z.
Proof.
  intros Hx Hy. unfold power. destruct (Req_EM_T (x * y) 0) as [E|_]; [apply Rmult_integral in E; lra|]. destruct (Req_EM_T x 0); [lra|]. destruct (Req_EM_T y 0); [lra|].
  symmetry. apply Rpower_mult_distr; assumption.
Qed.
Lemma power_pos x y : 0 < x -> 0 < power x y.
Proof. intros H. unfold power. destruct (Req_EM_T x 0); [lra|]. apply exp_pos. Qed.
Lemma power_power x y : 0 <= x -> 0 < y -> power (power x y) (1 / y) = x.
Proof.
  intros H Hy. destruct (Req_EM_T x 0) as [->|N].
  - unfold power. destruct (Req_EM_T 0 0); [|lra]. destruct (Req_EM_T 0 0); [reflexivity|lra].
  - pose proof (power_pos x y ltac:(lra)) as P. unfold power in *. destruct (Req_EM_T x 0); [contradiction|]. destruct (Req_EM_T (Rpower x y) 0); [lra|].
    rewrite Rpower_mult. replace (y * (1 / y)) with 1 by (field; lra). apply Rpower_1. lra.
Qed.
Lemma cheb_term_ok rho w x y : 0 < rho -> 0 < w -> cheb_term rho w x y = power w (1 / rho) * Rabs (x - y).
Proof.
  intros Hr Hw. unfold cheb_term. destruct (Req_EM_T (Rabs (x - y)) 0) as [E|N].
  - rewrite E. unfold power at 2. destruct (Req_EM_T 0 0); [|lra]. rewrite !Rmult_0_r. unfold power. destruct (Req_EM_T 0 0); lra.
  - pose proof (Rabs_pos (x - y)). rewrite power_mult; [|exact Hw|apply power_pos; lra]. rewrite power_power by lra. reflexivity.
Qed.
