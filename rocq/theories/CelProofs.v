From Coq Require Import Arith Bool ZArith Lia.
From Verif Require Import Lib Outcome OrderSpec OrderLemmas BreedModel AlgoModel AlgoSpec CelModel CelSpec.
From Coq Require Import List.
Import ListNotations.
Local Open Scope nat_scope.

Section Cellular.
Context {G F W : Type}.
Notation I := (indiv G F).
Variable neighbours : list I -> nat -> W -> res (list I * W).
Variables sel_neigh sel_child sel_repl : list I -> W -> res (I * W).
Variable cross : quad_op (G:=G) (F:=F) (W:=W).
Variable mut : mon_op (G:=G) (F:=F) (W:=W).
Variable eval : evaluator (G:=G) (F:=F) (W:=W).
Variable cont : list I -> W -> res (bool * W).
Notation step := (cell_step neighbours sel_neigh sel_child sel_repl cross mut eval).
Notation sweep := (cell_sweep neighbours sel_neigh sel_child sel_repl cross mut eval).
Notation run := (cellular neighbours sel_neigh sel_child sel_repl cross mut eval cont).

Lemma cell_step_parts pop i w pop' w' : step pop i w = Ok (pop', w') ->
  exists old neigh w1 part w2 x y b w3 x1 b1 w4 y1 b2 w5 x2 w6 y2 w7 child w8 kept,
    nth_error pop i = Some old /\ neighbours pop i w = Ok (neigh, w1) /\ sel_neigh neigh w1 = Ok (part, w2) /\
    cross old part w2 = Ok (x, y, b, w3) /\ mut x w3 = Ok (x1, b1, w4) /\ mut y w4 = Ok (y1, b2, w5) /\
    eval (invalidate x1) w5 = Ok (x2, w6) /\ eval (invalidate y1) w6 = Ok (y2, w7) /\
    sel_child [x2; y2] w7 = Ok (child, w8) /\ sel_repl [child; old] w8 = Ok (kept, w') /\
    i < length pop /\ pop' = set pop i kept.
Proof.
  unfold cell_step. intros H.
  apply rbind_ok in H as ([neigh w1] & H1 & H). apply rbind_ok in H as (old & H2 & H). apply of_opt_ok in H2.
  apply rbind_ok in H as ([part w2] & H3 & H). apply rbind_ok in H as ([[[x y] b] w3] & H4 & H).
  apply rbind_ok in H as ([[x1 b1] w4] & H5 & H). apply rbind_ok in H as ([[y1 b2] w5] & H6 & H).
  apply rbind_ok in H as ([x2 w6] & H7 & H). apply rbind_ok in H as ([y2 w7] & H8 & H).
  apply rbind_ok in H as ([child w8] & H9 & H). apply rbind_ok in H as ([kept w9] & H10 & H).
  apply rbind_ok in H as (p & H11 & H). apply of_opt_ok in H11. apply upd_some in H11 as [L ->].
  inversion H; subst.
  exists old, neigh, w1, part, w2, x, y, b, w3, x1, b1, w4, y1, b2, w5, x2, w6, y2, w7, child, w8, kept.
  repeat (split; [assumption|]). reflexivity.
Qed.

(** evaluation of an invalidated individual *)
Lemma eval_fresh (value : G -> F) x w x' w' : evaluates value eval -> eval (invalidate x) w = Ok (x', w') -> evaluated value x'.
Proof.
  intros He E. destruct (He _ _ _ _ E) as [Eg [Ef|[_ Ef]]].
  - unfold evaluated. rewrite Ef, Eg. reflexivity.
  - cbn in Ef. congruence.
Qed.

Lemma cell_step_renews value pop i w pop' w' : picks sel_child -> picks sel_repl -> evaluates value eval ->
  step pop i w = Ok (pop', w') ->
  length pop' = length pop /\ i < length pop /\ (forall j, j <> i -> nth_error pop' j = nth_error pop j) /\
  (nth_error pop' i = nth_error pop i \/ exists y, nth_error pop' i = Some y /\ evaluated value y).
Proof.
  intros Pc Pr He H.
  destruct (cell_step_parts _ _ _ _ _ H) as
    (old & neigh & w1 & part & w2 & x & y & b & w3 & x1 & b1 & w4 & y1 & b2 & w5 & x2 & w6 & y2 & w7 & child & w8 & kept &
     Ho & _ & _ & _ & _ & _ & Ex & Ey & Hc & Hk & L & ->).
  split; [apply set_length|]. split; [exact L|]. split; [intros j Hj; apply nth_error_set_neq; congruence|].
  rewrite nth_error_set_eq by exact L.
  apply Pr in Hk. destruct Hk as [<-|[<-|[]]]; [right|left; auto].
  exists child. split; [reflexivity|]. apply Pc in Hc.
  destruct Hc as [<-|[<-|[]]]; eapply eval_fresh; eassumption.
Qed.

Lemma sweep_renews value : picks sel_child -> picks sel_repl -> evaluates value eval ->
  forall todo i pop w pop' w', sweep todo i pop w = Ok (pop', w') -> renewed value pop pop'.
Proof.
  intros Pc Pr He. induction todo as [|t IH]; intros i pop w pop' w' H; cbn [cell_sweep] in H.
  - inversion H; subst. split; [reflexivity|]. intros j x y E1 E2. left. congruence.
  - apply rbind_ok in H as ([p1 w1] & H1 & H2).
    destruct (cell_step_renews value _ _ _ _ _ Pc Pr He H1) as (L1 & Li & K1 & K2).
    destruct (IH _ _ _ _ _ H2) as [L2 K]. split; [congruence|]. intros j x y E1 E2.
    destruct (nth_error p1 j) as [z|] eqn:Ez.
    + destruct (K j z y Ez E2) as [->|Hy]; [|auto].
      destruct (Nat.eq_dec j i) as [->|N].
      * destruct K2 as [K2|(v & K2 & Hv)]; [left; congruence|]. right. rewrite K2 in Ez. inversion Ez; subst. exact Hv.
      * left. rewrite K1 in Ez by exact N. congruence.
    + exfalso. apply nth_error_None in Ez. assert (j < length pop') by (apply nth_error_Some; congruence). lia.
Qed.

Lemma renewed_refl (value : G -> F) (p : list I) : renewed value p p.
Proof. split; [reflexivity|]. intros i x y E1 E2. left. congruence. Qed.
Lemma renewed_trans (value : G -> F) (p q r : list I) : renewed value p q -> renewed value q r -> renewed value p r.
Proof.
  intros [L1 K1] [L2 K2]. split; [congruence|]. intros i x y E1 E2.
  destruct (nth_error q i) as [z|] eqn:Ez.
  - destruct (K2 i z y Ez E2) as [->|Hy]; [|auto]. exact (K1 i x z E1 Ez).
  - exfalso. apply nth_error_None in Ez. assert (i < length r) by (apply nth_error_Some; congruence). lia.
Qed.

Lemma cellular_trace fuel : forall pop w r tr w', run fuel pop w = Ok (r, tr, w') ->
  tr <> [] /\ (exists before, tr = before ++ [r]) /\ stops_at_first_no cont tr.
Proof.
  induction fuel as [|f IH]; intros pop w r tr w' H; cbn [cellular] in H; [discriminate|].
  apply rbind_ok in H as ([p1 w1] & H1 & H). apply rbind_ok in H as ([b w2] & Hc & H). destruct b.
  - apply rbind_ok in H as ([[r1 tr1] w3] & Hr & H). inversion H; subst.
    destruct (IH _ _ _ _ _ Hr) as (N & (be & ->) & K). split; [discriminate|]. split; [exists (p1 :: be); reflexivity|].
    intros [|i] p E.
    + cbn in E. inversion E; subst. exists w1, w2. rewrite Hc.
      replace (1 <? length (p :: be ++ [r])) with true; [reflexivity|].
      symmetry. apply Nat.ltb_lt. cbn. rewrite app_length. cbn. lia.
    + destruct (K i p E) as (u & u' & Hu). exists u, u'. rewrite Hu. reflexivity.
  - inversion H; subst. split; [discriminate|]. split; [exists []; reflexivity|].
    intros [|[|i]] p E; cbn in E; try discriminate. inversion E; subst. exists w1, w'. exact Hc.
Qed.

Lemma cellular_renews value : picks sel_child -> picks sel_repl -> evaluates value eval ->
  forall fuel pop w r tr w', run fuel pop w = Ok (r, tr, w') ->
  renewed value pop r /\ (forall p, In p tr -> renewed value pop p).
Proof.
  intros Pc Pr He. induction fuel as [|f IH]; intros pop w r tr w' H; cbn [cellular] in H; [discriminate|].
  apply rbind_ok in H as ([p1 w1] & H1 & H). apply rbind_ok in H as ([b w2] & Hc & H).
  pose proof (sweep_renews value Pc Pr He _ _ _ _ _ _ H1) as R1. destruct b.
  - apply rbind_ok in H as ([[r1 tr1] w3] & Hr & H). inversion H; subst.
    destruct (IH _ _ _ _ _ Hr) as [K1 K2]. split; [eapply renewed_trans; eassumption|].
    intros p [<-|Hp]; [exact R1|]. eapply renewed_trans; [exact R1|apply K2; exact Hp].
  - inversion H; subst. split; [exact R1|]. intros p [<-|[]]. exact R1.
Qed.

Lemma renewed_evaluated (value : G -> F) (p q : list I) : renewed value p q -> Forall (evaluated value) p -> Forall (evaluated value) q.
Proof.
  intros [L K] H. apply Forall_forall. intros y Hy. apply In_nth_error in Hy as [i Hi].
  destruct (nth_error p i) as [x|] eqn:E.
  - destruct (K i x y E Hi) as [->|Hv]; [|exact Hv]. rewrite Forall_forall in H. apply H. eapply nth_error_In; exact E.
  - exfalso. apply nth_error_None in E. assert (i < length q) by (apply nth_error_Some; congruence). lia.
Qed.

(** *** never worse *)
Section Better.
Variable ltb : F -> F -> bool.
Hypothesis swo : strict_weak_order ltb.

Lemma no_worse_trans (p q r : list I) : length p = length q -> length q = length r ->
  (forall x, In x q -> fit x <> None) -> no_worse ltb p q -> no_worse ltb q r -> no_worse ltb p r.
Proof.
  intros L1 L2 Hq H1 H2 i x z f h Ex Ez Ef Eh.
  destruct (nth_error q i) as [y|] eqn:Ey.
  - destruct (fit y) as [g|] eqn:Eg; [|exfalso; apply (Hq y); [eapply nth_error_In; exact Ey|exact Eg]].
    pose proof (H1 i x y f g Ex Ey Ef Eg) as K1. pose proof (H2 i y z g h Ey Ez Eg Eh) as K2.
    destruct swo as (_ & _ & C). exact (C h g f K2 K1).
  - exfalso. apply nth_error_None in Ey. assert (i < length r) by (apply nth_error_Some; congruence). lia.
Qed.

Lemma cell_step_no_worse pop i w pop' w' : picks_best ltb sel_repl -> step pop i w = Ok (pop', w') -> no_worse ltb pop pop'.
Proof.
  intros Pr H.
  destruct (cell_step_parts _ _ _ _ _ H) as
    (old & neigh & w1 & part & w2 & x & y & b & w3 & x1 & b1 & w4 & y1 & b2 & w5 & x2 & w6 & y2 & w7 & child & w8 & kept &
     Ho & _ & _ & _ & _ & _ & Ex & Ey & Hc & Hk & L & ->).
  intros j u v f g Eu Ev Ef Eg. destruct (Nat.eq_dec j i) as [->|N].
  - rewrite nth_error_set_eq in Ev by exact L. inversion Ev; subst. rewrite Ho in Eu. inversion Eu; subst.
    destruct (Pr _ _ _ _ Hk) as [_ K]. apply (K u g f); [right; left; reflexivity|exact Eg|exact Ef].
  - rewrite nth_error_set_neq in Ev by congruence. rewrite Eu in Ev. inversion Ev; subst. rewrite Ef in Eg. inversion Eg; subst.
    destruct swo as (I1 & _). apply I1.
Qed.

Lemma picks_best_picks sel : picks_best ltb sel -> @picks G F W sel.
Proof. intros H l w x w' E. exact (proj1 (H l w x w' E)). Qed.

Lemma evaluated_fit (value : G -> F) l : Forall (evaluated value) l -> forall x : I, In x l -> fit x <> None.
Proof. intros H x Hx. rewrite Forall_forall in H. rewrite (H x Hx). discriminate. Qed.

Lemma no_worse_refl (p : list I) : no_worse ltb p p.
Proof.
  intros i x y f g E1 E2 E3 E4. rewrite E1 in E2. inversion E2; subst. rewrite E3 in E4. inversion E4; subst.
  destruct swo as (I1 & _). apply I1.
Qed.

Lemma sweep_no_worse value : picks sel_child -> picks_best ltb sel_repl -> evaluates value eval ->
  forall todo i pop w pop' w', Forall (evaluated value) pop -> sweep todo i pop w = Ok (pop', w') -> no_worse ltb pop pop'.
Proof.
  intros Pc Pr He. induction todo as [|t IH]; intros i pop w pop' w' Hv H; cbn [cell_sweep] in H.
  - inversion H; subst. apply no_worse_refl.
  - apply rbind_ok in H as ([p1 w1] & H1 & H2).
    assert (R1 : renewed value pop p1).
    { apply (sweep_renews value Pc (picks_best_picks _ Pr) He 1 i pop w p1 w1). cbn [cell_sweep]. rewrite H1. reflexivity. }
    pose proof (renewed_evaluated _ _ _ R1 Hv) as Hv1.
    pose proof (sweep_renews value Pc (picks_best_picks _ Pr) He _ _ _ _ _ _ H2) as R2.
    apply (no_worse_trans pop p1 pop'); [symmetry; apply R1|symmetry; apply R2|apply (evaluated_fit value); exact Hv1| |].
    + exact (cell_step_no_worse _ _ _ _ _ Pr H1).
    + exact (IH _ _ _ _ _ Hv1 H2).
Qed.

Lemma cellular_no_worse value : picks sel_child -> picks_best ltb sel_repl -> evaluates value eval ->
  forall fuel pop w r tr w', Forall (evaluated value) pop -> run fuel pop w = Ok (r, tr, w') ->
  forall i j p q, i <= j -> nth_error (pop :: tr) i = Some p -> nth_error (pop :: tr) j = Some q -> no_worse ltb p q.
Proof.
  intros Pc Pr He. induction fuel as [|f IH]; intros pop w r tr w' Hv H; cbn [cellular] in H; [discriminate|].
  apply rbind_ok in H as ([p1 w1] & H1 & H). apply rbind_ok in H as ([b w2] & Hc & H).
  pose proof (sweep_no_worse value Pc Pr He _ _ _ _ _ _ Hv H1) as N1.
  pose proof (sweep_renews value Pc (picks_best_picks _ Pr) He _ _ _ _ _ _ H1) as R1.
  pose proof (renewed_evaluated _ _ _ R1 Hv) as Hv1. destruct b.
  - apply rbind_ok in H as ([[r1 tr1] w3] & Hr & H). inversion H; subst.
    pose proof (IH _ _ _ _ _ Hv1 Hr) as K.
    destruct (cellular_renews value Pc (picks_best_picks _ Pr) He _ _ _ _ _ _ Hr) as [_ Rt].
    intros [|i] [|j] p q Hij Ep Eq; cbn [nth_error] in Ep, Eq; try lia.
    + inversion Ep; inversion Eq; subst. apply no_worse_refl.
    + inversion Ep; subst.
      assert (Rq : renewed value p1 q).
      { apply nth_error_In in Eq. destruct Eq as [<-|Eq]; [apply renewed_refl|apply Rt; exact Eq]. }
      apply (no_worse_trans p p1 q); [symmetry; apply R1|symmetry; apply Rq|apply (evaluated_fit value); exact Hv1|exact N1|].
      apply (K 0 j p1 q); [lia|reflexivity|exact Eq].
    + apply (K i j p q); [lia|exact Ep|exact Eq].
  - inversion H; subst.
    intros [|[|i]] [|[|j]] p q Hij Ep Eq; cbn in Ep, Eq; try lia; try (destruct i; discriminate); try (destruct j; discriminate).
    + inversion Ep; inversion Eq; subst. apply no_worse_refl.
    + inversion Ep; inversion Eq; subst. exact N1.
    + inversion Ep; inversion Eq; subst. apply no_worse_refl.
Qed.
End Better.

(** *** invariants of the genotypes *)
Lemma cell_step_genotypes (P : G -> Prop) pop i w pop' w' :
  (forall p i w n w', neighbours p i w = Ok (n, w') -> incl n p) -> picks sel_neigh -> picks sel_child -> picks sel_repl ->
  (forall x y w x' y' b w', cross x y w = Ok (x', y', b, w') -> P (geno x) -> P (geno y) -> P (geno x') /\ P (geno y')) ->
  (forall x w x' b w', mut x w = Ok (x', b, w') -> P (geno x) -> P (geno x')) ->
  (forall x w x' w', eval x w = Ok (x', w') -> geno x' = geno x) ->
  step pop i w = Ok (pop', w') -> genotypes P pop -> genotypes P pop'.
Proof.
  intros Hn Ps Pc Pr Hx Hm He H Hp.
  destruct (cell_step_parts _ _ _ _ _ H) as
    (old & neigh & w1 & part & w2 & x & y & b & w3 & x1 & b1 & w4 & y1 & b2 & w5 & x2 & w6 & y2 & w7 & child & w8 & kept &
     Ho & Hg & Hs & Hc & Hm1 & Hm2 & Ex & Ey & Hch & Hk & L & ->).
  apply nth_error_In in Ho as Io. apply Ps in Hs. apply (Hn _ _ _ _ _ Hg) in Hs.
  destruct (Hx _ _ _ _ _ _ _ Hc (Hp _ Io) (Hp _ Hs)) as [Px Py].
  apply (Hm _ _ _ _ _ Hm1) in Px. apply (Hm _ _ _ _ _ Hm2) in Py.
  assert (Pchild : P (geno child)).
  { apply Pc in Hch. destruct Hch as [<-|[<-|[]]]; [rewrite (He _ _ _ _ Ex)|rewrite (He _ _ _ _ Ey)]; assumption. }
  intros z Hz. apply In_nth_error in Hz as [j Hj]. destruct (Nat.eq_dec j i) as [->|N].
  - rewrite nth_error_set_eq in Hj by exact L. inversion Hj; subst. apply Pr in Hk.
    destruct Hk as [<-|[<-|[]]]; [exact Pchild|apply Hp; exact Io].
  - rewrite nth_error_set_neq in Hj by congruence. apply Hp. eapply nth_error_In; exact Hj.
Qed.

Lemma cellular_genotypes (P : G -> Prop) :
  (forall p i w n w', neighbours p i w = Ok (n, w') -> incl n p) -> picks sel_neigh -> picks sel_child -> picks sel_repl ->
  (forall x y w x' y' b w', cross x y w = Ok (x', y', b, w') -> P (geno x) -> P (geno y) -> P (geno x') /\ P (geno y')) ->
  (forall x w x' b w', mut x w = Ok (x', b, w') -> P (geno x) -> P (geno x')) ->
  (forall x w x' w', eval x w = Ok (x', w') -> geno x' = geno x) ->
  forall fuel pop w r tr w', run fuel pop w = Ok (r, tr, w') -> genotypes P pop -> genotypes P r.
Proof.
  intros Hn Ps Pc Pr Hx Hm He.
  assert (Sw : forall todo i pop w pop' w', sweep todo i pop w = Ok (pop', w') -> genotypes P pop -> genotypes P pop').
  { induction todo as [|t IH]; intros i pop w pop' w' H Hp; cbn [cell_sweep] in H; [inversion H; subst; exact Hp|].
    apply rbind_ok in H as ([p1 w1] & H1 & H2). apply (IH _ _ _ _ _ H2).
    exact (cell_step_genotypes P _ _ _ _ _ Hn Ps Pc Pr Hx Hm He H1 Hp). }
  induction fuel as [|f IH]; intros pop w r tr w' H Hp; cbn [cellular] in H; [discriminate|].
  apply rbind_ok in H as ([p1 w1] & H1 & H). apply rbind_ok in H as ([b w2] & Hc & H).
  pose proof (Sw _ _ _ _ _ _ H1 Hp) as Hp1. destruct b.
  - apply rbind_ok in H as ([[r1 tr1] w3] & Hr & H). inversion H; subst. exact (IH _ _ _ _ _ Hr Hp1).
  - inversion H; subst. exact Hp1.
Qed.

(** *** the number of evaluations *)
Lemma cellular_count (count : W -> nat) : one_more count eval ->
  (forall i, uncounted count (fun p w => neighbours p i w)) -> uncounted count sel_neigh -> uncounted count sel_child ->
  uncounted count sel_repl -> (forall x, uncounted count (fun y w => cross x y w)) -> uncounted count mut -> uncounted count cont ->
  forall fuel pop w r tr w', run fuel pop w = Ok (r, tr, w') -> count w' = count w + 2 * length pop * length tr.
Proof.
  intros He Hn Hs Hc Hr Hx Hm Hco.
  assert (St : forall pop i w pop' w', step pop i w = Ok (pop', w') -> count w' = 2 + count w /\ length pop' = length pop).
  { intros pop i w pop' w' H.
    destruct (cell_step_parts _ _ _ _ _ H) as
    (old & neigh & w1 & part & w2 & x & y & b & w3 & x1 & b1 & w4 & y1 & b2 & w5 & x2 & w6 & y2 & w7 & child & w8 & kept &
     Ho & Hg & Hse & Hcr & Hm1 & Hm2 & Ex & Ey & Hch & Hk & L & ->).
    apply (Hn i) in Hg. apply Hs in Hse. apply (Hx old part w2) in Hcr. apply (Hm x w3) in Hm1. apply (Hm y w4) in Hm2.
    apply He in Ex, Ey. apply Hc in Hch. apply Hr in Hk. rewrite set_length. split; [lia|reflexivity]. }
  assert (Sw : forall todo i pop w pop' w', sweep todo i pop w = Ok (pop', w') -> count w' = 2 * todo + count w /\ length pop' = length pop).
  { induction todo as [|t IH]; intros i pop w pop' w' H; cbn [cell_sweep] in H; [inversion H; subst; lia|].
    apply rbind_ok in H as ([p1 w1] & H1 & H2). destruct (St _ _ _ _ _ H1), (IH _ _ _ _ _ H2). lia. }
  induction fuel as [|f IH]; intros pop w r tr w' H; cbn [cellular] in H; [discriminate|].
  apply rbind_ok in H as ([p1 w1] & H1 & H). apply rbind_ok in H as ([b w2] & Hcc & H).
  destruct (Sw _ _ _ _ _ _ H1) as [C1 L1]. apply Hco in Hcc. destruct b.
  - apply rbind_ok in H as ([[r1 tr1] w3] & Hru & H). inversion H; subst. rewrite (IH _ _ _ _ _ Hru). cbn [length]. lia.
  - inversion H; subst. cbn [length]. lia.
Qed.

(** *** an initial population that has not been evaluated *)
Lemma cellular_unevaluated fuel x r w : 
  (forall a b w, fit b = None -> sel_repl [a; b] w = Throw) ->
  fit x = None -> forall res, run fuel (x :: r) w = Ok res -> False.
Proof.
  intros Ht Hx [[q tr] w'] H. destruct fuel as [|f]; [discriminate|]. cbn [cellular cell_sweep length] in H.
  apply rbind_ok in H as ([p1 w1] & H1 & _). apply rbind_ok in H1 as ([p2 w2] & H1 & _).
  destruct (cell_step_parts _ _ _ _ _ H1) as
    (old & neigh & w3 & part & w4 & x0 & y & b & w5 & x1 & b1 & w6 & y1 & b2 & w7 & x2 & w8 & y2 & w9 & child & w10 & kept &
     Ho & _ & _ & _ & _ & _ & _ & _ & _ & Hk & _ & _).
  cbn in Ho. inversion Ho; subst. rewrite Ht in Hk by exact Hx. discriminate.
Qed.
End Cellular.
