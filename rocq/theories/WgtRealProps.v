(** C146: the weighted Chebychev distance. *)
From Coq Require Import List Reals Lra.
From Verif Require Import WgtReal.
Import ListNotations.
Local Open Scope R_scope.

(** The "weighted Chebychev distance" is, for every rho, a weighted sum of the distances: the weights are the rho-th roots of the
    given ones. It is neither the greatest weighted distance nor the rho-norm: on (1,1) it is 2 for all rho. *)
Fixpoint weighted_sum (ws xs ys : list R) : R :=
  match ws, xs, ys with w :: ws, x :: xs, y :: ys => w * Rabs (x - y) + weighted_sum ws xs ys | _, _, _ => 0 end.
Theorem C146_chebychev_refuted : forall rho, 0 < rho ->
  (forall weight reference obj, (forall w, In w weight -> 0 < w) ->
     cheb_distance rho weight reference obj = weighted_sum (map (fun w => Rpower w (1 / rho)) weight) obj reference) /\
  cheb_distance rho [1; 1] [0; 0] [1; 1] = 2.
Proof.
  intros rho Hr. assert (G : forall weight reference obj, (forall w, In w weight -> 0 < w) ->
     cheb_distance rho weight reference obj = weighted_sum (map (fun w => Rpower w (1 / rho)) weight) obj reference).
  { induction weight as [|w weight IH]; intros [|y reference] [|x obj] P; cbn [cheb_distance map weighted_sum]; try reflexivity.
    rewrite IH by (intros v Hv; apply P; right; exact Hv). pose proof (P w (or_introl eq_refl)) as Pw. rewrite cheb_term_ok by assumption.
    unfold power. destruct (Req_EM_T w 0); [lra|]. reflexivity. }
  split; [exact G|]. rewrite G by (intros w [<-|[<-|[]]]; lra). cbn [map weighted_sum]. unfold Rpower. rewrite ln_1, Rmult_0_r, exp_0, Rminus_0_r, Rabs_R1. lra.
Qed.
Print Assumptions C146_chebychev_refuted.
Example C146_chebychev_ex : 0 < 2 /\ forall w, In w [1; 1] -> 0 < w.
Proof. split; [lra|]. intros w [<-|[<-|[]]]; lra. Qed.
