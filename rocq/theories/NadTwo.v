(** An exact eigen solver in dimension 2, for the examples: the contract of the solver is met by a program. *)
From Coq Require Import List Arith ZArith Bool Reals Lia Lra Psatz.
From Verif Require Import Lib CmaModel CmaSpec CmaProofs CmaState NadModel NadSpec NadProofs NadRun.
From Coq Require Import List.
Import ListNotations.
Open Scope nat_scope.

Definition rotation (x y : R) : mat := fun i j => match i, j with 0, 0 => x | 0, _ => (- y)%R | _, 0 => y | _, _ => x end.
Definition pair_of (p q : R) : vec := fun k => match k with 0 => p | _ => q end.
Definition solver2 (n : nat) (M : mat) : bool * vec * mat :=
  let a := M 0 0 in let b := M 0 1 in let c := M 1 1 in
  if Req_EM_T b 0 then (true, pair_of a c, rotation 1 0)
  else let u := ((c - a + sqrt ((a - c) * (a - c) + 4 * (b * b))) / 2)%R in let q := sqrt (b * b + u * u) in (true, pair_of (a + u) (c - u), rotation (b / q) (u / q)).
Lemma rotation_orthogonal x y : (x * x + y * y = 1)%R -> orthogonal 2 (rotation x y).
Proof.
  intros H. split; intros i j Hi Hj; unfold sum_over; cbn [seq map fold_right]; (destruct i as [|[|i]]; [| |lia]); (destruct j as [|[|j]]; [| |lia]); unfold rotation, identity; cbn [Nat.eqb]; lra.
Qed.
Lemma solver2_solves : solves 2 solver2.
Proof.
  intros M Hs. pose proof (Hs 0 1 ltac:(lia) ltac:(lia)) as H01. unfold solver2. set (a := M 0 0). set (b := M 0 1) in *. set (c := M 1 1). destruct (Req_EM_T b 0) as [Eb|Nb].
  - do 2 eexists. split; [reflexivity|]. split; [apply rotation_orthogonal; lra|]. intros i j Hi Hj. unfold sum_over. cbn [seq map fold_right].
    (destruct i as [|[|i]]; [| |lia]); (destruct j as [|[|j]]; [| |lia]); unfold rotation, pair_of; fold a b c; try rewrite <- H01; try rewrite Eb; ring.
  - set (t := sqrt ((a - c) * (a - c) + 4 * (b * b))). set (u := ((c - a + t) / 2)%R). set (q := sqrt (b * b + u * u)).
    assert (Et : (t * t = (a - c) * (a - c) + 4 * (b * b))%R) by (apply sqrt_sqrt; pose proof (Rle_0_sqr (a - c)) as G1; pose proof (Rle_0_sqr b) as G2; unfold Rsqr in *; lra).
    assert (Eu : (u * u + (a - c) * u = b * b)%R) by (transitivity ((t * t - (a - c) * (a - c)) / 4)%R; [unfold u; field|rewrite Et; field]).
    assert (Hb : (0 < b * b)%R) by (destruct (Rlt_dec 0 b); [nra|assert (b < 0)%R by lra; nra]).
    assert (Hq : (0 < q)%R) by (apply sqrt_lt_R0; nra). assert (Eq : (q * q = b * b + u * u)%R) by (apply sqrt_sqrt; nra).
    set (x := (b / q)%R). set (y := (u / q)%R). assert (Ex : (b = x * q)%R) by (unfold x; field; lra). assert (Ey : (u = y * q)%R) by (unfold y; field; lra).
    assert (E1 : (x * x + y * y = 1)%R). { apply Rmult_eq_reg_r with (q * q)%R; [|nra]. rewrite Eq at 2. rewrite Ex, Ey. ring. }
    assert (E2 : (y * y * q + (a - c) * y = x * x * q)%R). { apply Rmult_eq_reg_r with q; [|lra]. rewrite Ex, Ey in Eu. lra. }
    do 2 eexists. split; [reflexivity|]. split; [apply rotation_orthogonal; exact E1|]. intros i j Hi Hj. unfold sum_over. cbn [seq map fold_right].
    assert (F0 : ((x * x * q - y * y * q) * y = (a - c) * (y * y))%R) by (rewrite <- E2; ring).
    assert (F1 : ((x * x * q - y * y * q) * x = (a - c) * (x * y))%R) by (rewrite <- E2; ring).
    (destruct i as [|[|i]]; [| |lia]); (destruct j as [|[|j]]; [| |lia]); unfold rotation, pair_of; fold a; fold b; fold c; try rewrite <- H01; rewrite ?Ey.
    + transitivity (a * (x * x + y * y))%R; [rewrite E1; ring|]. lra.
    + rewrite Ex at 1. transitivity (x * q * (x * x + y * y))%R; [rewrite E1; ring|]. lra.
    + rewrite Ex at 1. transitivity (x * q * (x * x + y * y))%R; [rewrite E1; ring|]. lra.
    + transitivity (c * (x * x + y * y))%R; [rewrite E1; ring|]. lra.
Qed.
