(** Model of the value of moeoEntropyMetric (moeo/src/metric/moeoEntropyMetric.h:83-98) from the pairs (N_i, n_i), on exact
    real numbers. *)
From Coq Require Import List Arith QArith Reals.
From Verif Require Import Outcome MetModel.
Import ListNotations.
Local Open Scope R_scope.

(** the loop (88-95): omega and entropy *)
Definition entropy_step (size : nat) (acc : R * R) (p : nat * nat) : R * R :=
  let '(big, small) := p in
  if Nat.eqb small 0 then acc
  else (fst acc + 1 / INR big, snd acc + INR small / (INR big * INR size) * ln ((INR small / INR size) / ln 2)).
Definition entropy_loop (l : list (nat * nat)) : R * R := fold_left (entropy_step (length l)) l (0, 0).
(** 96-98 *)
Definition entropy_value (l : list (nat * nat)) : R := let acc := entropy_loop l in snd acc / - ln (fst acc) * ln 2.
Definition entropy (tol : Q) (dirs : list bool) (s1 s2 : list (list Q)) : res R :=
  let! l := niches tol dirs s1 s2 in Ok (entropy_value l).
