From Coq Require Import ZArith QArith Qround Qabs List Bool Arith Lia Lqa.
From Verif Require Import Lib Outcome BoundsModel BoundsProofs RealModel RealSpec RealProofs.
From Verif Require Import BreedModel AlgoModel AlgoSpec EdoModel EdoSpec EdoProofs EdoRest.
From Coq Require Import List.
Import ListNotations.
Close Scope Q_scope.
Open Scope nat_scope.

Lemma last_default {A} : forall (l : list A) a d d', last (a :: l) d = last (a :: l) d'.
Proof. induction l as [|b l IH]; intros a d d'; [reflexivity|]. apply (IH b d d'). Qed.
Lemma f2_len {A B} (R : A -> B -> Prop) l l' : Forall2 R l l' -> length l = length l'.
Proof. induction 1; cbn; auto. Qed.
Definition ok {A} (r : res A) : option A := match r with Ok a => Some a | _ => None end.

Section Run.
Context {G F D W : Type}.
Notation I := (indiv G F).
Variable pop_eval : list I -> list I -> W -> res (list I * list I * W).
Variable select : list I -> W -> res (list I * W).
Variables estimate estimate_init : list I -> W -> res (D * W).
Variable sample : D -> W -> res (I * W).
Variable replace : list I -> list I -> W -> res (list I * W).
Variable pop_cont : list I -> W -> res (bool * W).
Variable distrib_cont : D -> W -> res (bool * W).
Notation loop := (eda_loop pop_eval select estimate sample replace pop_cont distrib_cont).

(** one turn *)
Inductive turn (pop : list I) (w : W) : D -> list I -> bool -> W -> Prop :=
  Turn sel w1 d w2 w3 cur w4 pop1 cur1 w5 pop2 w6 go w7 :
    select pop w = Ok (sel, w1) -> sel <> [] -> estimate sel w1 = Ok (d, w2) -> distrib_cont d w2 = Ok (true, w3) ->
    draw_pop sample d (length pop) w3 = Ok (cur, w4) -> pop_eval pop cur w4 = Ok (pop1, cur1, w5) -> replace pop1 cur1 w5 = Ok (pop2, w6) ->
    pop_cont pop2 w6 = Ok (go, w7) -> turn pop w d pop2 go w7.
Inductive refused (pop : list I) (w : W) : D -> W -> Prop :=
  Refused sel w1 d w2 w3 : select pop w = Ok (sel, w1) -> sel <> [] -> estimate sel w1 = Ok (d, w2) -> distrib_cont d w2 = Ok (false, w3) -> refused pop w d w3.
Lemma loop_cases f pop w r d tr w' : loop (S f) pop w = Ok (r, d, tr, w') ->
  (refused pop w d w' /\ r = pop /\ tr = []) \/ (turn pop w d r false w' /\ tr = [r]) \/
  (exists d1 pop1 tr1 w1, turn pop w d1 pop1 true w1 /\ loop f pop1 w1 = Ok (r, d, tr1, w') /\ tr = pop1 :: tr1).
Proof.
  intros H. cbn [eda_loop] in H. apply rbind_ok in H as ([sel w1] & H1 & H). destruct sel as [|s sel]; [discriminate|].
  apply rbind_ok in H as ([d1 w2] & H2 & H). apply rbind_ok in H as ([go1 w3] & H3 & H). assert (Ns : s :: sel <> []) by discriminate.
  destruct go1.
  - apply rbind_ok in H as ([cur w4] & H4 & H). apply rbind_ok in H as ([[pop1 cur1] w5] & H5 & H). apply rbind_ok in H as ([pop2 w6] & H6 & H).
    apply rbind_ok in H as ([go w7] & H7 & H). destruct go.
    + apply rbind_ok in H as ([[[r1 d2] tr1] w8] & H8 & H). injection H as <- <- <- <-. right. right.
      exists d1, pop2, tr1, w7. split; [econstructor; eauto|]. auto.
    + injection H as <- <- <- <-. right. left. split; [econstructor; eauto|reflexivity].
  - injection H as <- <- <- <-. left. split; [econstructor; eauto|auto].
Qed.
(** an invariant of the populations *)
Lemma loop_inv_pop (P : list I -> Prop) : (forall pop w d pop' go w', P pop -> turn pop w d pop' go w' -> P pop') ->
  forall f pop w r d tr w', P pop -> loop f pop w = Ok (r, d, tr, w') -> Forall P tr /\ P r.
Proof.
  intros Step. induction f as [|f IH]; intros pop w r d tr w' H0 H; [discriminate|].
  apply loop_cases in H as [(_ & -> & ->)|[(T & ->)|(d1 & pop1 & tr1 & w1 & T & L & ->)]].
  - auto.
  - assert (P r) by eauto. auto.
  - assert (P pop1) as P1 by eauto. destruct (IH _ _ _ _ _ _ P1 L). auto.
Qed.
Lemma loop_end : forall f pop w r d tr w', loop f pop w = Ok (r, d, tr, w') ->
  r = last tr pop /\ stopped (fun p w => ok (pop_cont p w)) (fun d w => ok (distrib_cont d w)) tr d.
Proof.
  induction f as [|f IH]; intros pop w r d tr w' H; [discriminate|].
  apply loop_cases in H as [(R & -> & ->)|[(T & ->)|(d1 & pop1 & tr1 & w1 & T & L & ->)]].
  - split; [reflexivity|]. inversion R as [sel a1 d0 a2 a3 R1 R2 R3 R4]; subst. left. split; [constructor|]. do 2 eexists. rewrite R4. reflexivity.
  - split; [reflexivity|]. inversion T as [sel a1 d0 a2 a3 cur a4 p1 c1 a5 p2 a6 go0 a7 T1 T2 T3 T4 T5 T6 T7 T8]; subst. right. exists [], r. split; [reflexivity|]. split; [constructor|]. do 2 eexists. rewrite T8. reflexivity.
  - destruct (IH _ _ _ _ _ _ L) as (E & S). split.
    { rewrite E. destruct tr1 as [|a tr1]; [reflexivity|]. exact (last_default tr1 a pop1 pop). }
    assert (Y : exists w w', ok (pop_cont pop1 w) = Some (true, w')) by (inversion T as [sel a1 d0 a2 a3 cur a4 p1 c1 a5 p2 a6 go0 a7 T1 T2 T3 T4 T5 T6 T7 T8]; subst; do 2 eexists; rewrite T8; reflexivity).
    destruct S as [[A B]|(tr' & p & -> & A & B)].
    + left. split; [constructor; assumption|exact B].
    + right. exists (pop1 :: tr'), p. split; [reflexivity|]. split; [constructor; assumption|exact B].
Qed.
Lemma draw_pop_all (P : I -> Prop) d : (forall w x w', sample d w = Ok (x, w') -> P x) ->
  forall n w l w', draw_pop sample d n w = Ok (l, w') -> length l = n /\ Forall P l.
Proof.
  intros H. induction n; intros w l w' E; cbn [draw_pop] in E; [injection E as <- <-; auto|].
  apply rbind_ok in E as ([x w1] & E1 & E). apply rbind_ok in E as ([l1 w2] & E2 & E). injection E as <- <-.
  destruct (IHn _ _ _ E2). split; [cbn; lia|]. constructor; eauto.
Qed.

Section Ev.
Variable value : G -> F.
Hypothesis ev : pop_evaluates value pop_eval.
Hypothesis smp : forall d w x w', sample d w = Ok (x, w') -> right value x.
Hypothesis rep : forall par off w par' w', replace par off w = Ok (par', w') -> incl par' (par ++ off).
Lemma turn_evaluated pop w d pop' go w' : Forall (evaluated value) pop -> turn pop w d pop' go w' -> Forall (evaluated value) pop'.
Proof.
  intros E T. inversion T as [sel a1 d0 a2 a3 cur a4 p1 c1 a5 p2 a6 go0 a7 T1 T2 T3 T4 T5 T6 T7 T8]; subst. destruct (draw_pop_all (right value) d (smp d) _ _ _ _ T5) as [_ R].
  destruct (ev _ _ _ _ _ _ E R T6) as (E1 & E2 & _). apply rep in T7. apply Forall_forall. intros x Hx. apply T7 in Hx.
  apply in_app_or in Hx as [Hx|Hx]; [exact (proj1 (Forall_forall _ _) E1 x Hx)|exact (proj1 (Forall_forall _ _) E2 x Hx)].
Qed.
End Ev.
Lemma turn_size : (forall par off w par' off' w', pop_eval par off w = Ok (par', off', w') -> length par' = length par /\ length off' = length off) ->
  (forall par off w par' w', length off = length par -> replace par off w = Ok (par', w') -> length par' = length par) ->
  forall pop w d pop' go w', turn pop w d pop' go w' -> length pop' = length pop.
Proof.
  intros A B pop w d pop' go w' T. inversion T as [sel a1 d0 a2 a3 cur a4 p1 c1 a5 p2 a6 go0 a7 T1 T2 T3 T4 T5 T6 T7 T8]; subst. destruct (draw_pop_all (fun _ => True) d (fun _ _ _ _ => Logic.I) _ _ _ _ T5) as [L _].
  destruct (A _ _ _ _ _ _ T6) as [A1 A2]. rewrite <- A1. apply (B _ _ _ _ _) with (2 := T7). lia.
Qed.
(** every turn that goes on makes a measure of the world decrease: the run ends *)
Lemma loop_total (mu : W -> nat) (Inv : list I -> Prop) :
  (forall pop w, Inv pop -> exists sel w', select pop w = Ok (sel, w') /\ sel <> [] /\ mu w' <= mu w) ->
  (forall sel w, exists d w', estimate sel w = Ok (d, w') /\ mu w' <= mu w) ->
  (forall d w, exists b w', distrib_cont d w = Ok (b, w') /\ mu w' <= mu w) ->
  (forall d w, exists x w', sample d w = Ok (x, w') /\ mu w' <= mu w) ->
  (forall par off w, exists par' off' w', pop_eval par off w = Ok (par', off', w') /\ mu w' <= mu w) ->
  (forall par off w, exists par' w', replace par off w = Ok (par', w') /\ mu w' <= mu w) ->
  (forall pop w d pop' go w', Inv pop -> turn pop w d pop' go w' -> Inv pop') ->
  (forall pop w, exists b w', pop_cont pop w = Ok (b, w') /\ mu w' <= mu w /\ (b = true -> mu w' < mu w)) ->
  forall f pop w, Inv pop -> mu w < f -> exists r d tr w', loop f pop w = Ok (r, d, tr, w') /\ length tr <= S (mu w).
Proof.
  intros Hs He Hd Hx Hv Hr Hi Hp. induction f as [|f IH]; intros pop w I0 L; [lia|].
  destruct (Hs pop w I0) as (sel & w1 & E1 & N1 & L1). destruct (He sel w1) as (d & w2 & E2 & L2). destruct (Hd d w2) as (b & w3 & E3 & L3).
  assert (HD : forall n w, exists l w', draw_pop sample d n w = Ok (l, w') /\ mu w' <= mu w).
  { induction n; intros w0; cbn [draw_pop]; [eauto|]. destruct (Hx d w0) as (x & w4 & E4 & L4). rewrite E4. cbn [rbind].
    destruct (IHn w4) as (l & w5 & E5 & L5). rewrite E5. cbn [rbind]. do 2 eexists. split; [reflexivity|]. lia. }
  cbn [eda_loop]. rewrite E1. cbn [rbind]. destruct sel as [|s sel]; [congruence|]. rewrite E2. cbn [rbind]. rewrite E3. cbn [rbind].
  destruct b; [|do 4 eexists; split; [reflexivity|]; cbn; lia].
  destruct (HD (length pop) w3) as (cur & w4 & E4 & L4). rewrite E4. cbn [rbind]. destruct (Hv pop cur w4) as (pop1 & cur1 & w5 & E5 & L5). rewrite E5. cbn [rbind].
  destruct (Hr pop1 cur1 w5) as (pop2 & w6 & E6 & L6). rewrite E6. cbn [rbind]. destruct (Hp pop2 w6) as (go & w7 & E7 & L7 & S7). rewrite E7. cbn [rbind].
  destruct go; [|do 4 eexists; split; [reflexivity|]; cbn; lia]. specialize (S7 eq_refl).
  destruct (IH pop2 w7) as (r & d' & tr & w8 & E8 & L8); [|lia|].
  { eapply Hi; [exact I0|]. econstructor; eauto. }
  rewrite E8. cbn [rbind]. do 4 eexists. split; [reflexivity|]. cbn [length]. lia.
Qed.
End Run.

Open Scope Q_scope.
(** ** the uniform distribution never leaves the box of the population *)
Lemma box_mono {F} n (pop : list (indiv (list Q) F)) mn mx : same_size n (map geno pop) -> pop <> [] -> Forall (fun x => in_box mn mx (geno x)) pop -> length mn = n ->
  exists b, estimator_uniform pop = Ok b /\ proper_box (lows b) (highs b) /\ Forall2 Qle mn (lows b) /\ Forall2 Qle (highs b) mx.
Proof.
  intros Sz N H Ln. destruct (estimator_uniform_ok n pop N Sz) as (b & E & L1 & L2 & C). exists b. split; [exact E|].
  assert (B : forall x d, In x pop -> (d < n)%nat -> nth d mn 0 <= nth d (geno x) 0 <= nth d mx 0).
  { intros x d Hx Hd. apply (proj1 (Forall_forall _ _) H) in Hx as Bx. apply in_box_inside; [exact Bx|].
    assert (length (geno x) = n) by (apply (proj1 (Forall_forall _ _) Sz); apply in_map; exact Hx). lia. }
  assert (Lm : length mx = n).
  { destruct pop as [|x pop]; [congruence|]. inversion H as [|? ? [A1 A2] _]; subst. apply f2_len in A1, A2. congruence. }
  split; [|split].
  - apply (box_from n); auto. intros d Hd. destruct (C d Hd) as [[I1 B1] [I2 B2]]. apply B1. exact I2.
  - apply (box_from n); auto. intros d Hd. destruct (C d Hd) as [[I1 B1] _]. apply values_in in I1 as (g & Hg & <-). apply in_map_iff in Hg as (x & <- & Hx). apply B; auto.
  - apply (box_from n); auto. intros d Hd. destruct (C d Hd) as [_ [I1 B1]]. apply values_in in I1 as (g & Hg & <-). apply in_map_iff in Hg as (x & <- & Hx). apply B; auto.
Qed.
Lemma Forall2_le_trans a b c : Forall2 Qle a b -> Forall2 Qle b c -> Forall2 Qle a c.
Proof. intros H. revert c. induction H; intros c K; inversion K; subst; constructor; auto. eapply Qle_trans; eauto. Qed.
Lemma box_contains {F} n (pop : list (indiv (list Q) F)) b : same_size n (map geno pop) -> pop <> [] -> estimator_uniform pop = Ok b ->
  proper_box (lows b) (highs b) /\ length (lows b) = n /\ Forall (fun x => in_box (lows b) (highs b) (geno x)) pop.
Proof.
  intros Sz N E. destruct (estimator_uniform_ok n pop N Sz) as (b' & E' & L1 & L2 & C). assert (b' = b) by congruence. subst b'.
  split; [|split; [exact L1|]].
  - apply (box_from n); auto. intros d Hd. destruct (C d Hd) as [[I1 B1] [I2 B2]]. apply B1. exact I2.
  - apply Forall_forall. intros x Hx. assert (Lx : length (geno x) = n) by (apply (proj1 (Forall_forall _ _) Sz); apply in_map; exact Hx).
    split; apply (box_from n); auto; intros d Hd; destruct (C d Hd) as [[_ B1] [_ B2]]; [apply B1|apply B2]; apply in_values; apply in_map; exact Hx.
Qed.
(** ** edoEDASA *)
Lemma edasa_always lt exp temperature current candidate r : (forall x, 0 <= x -> 1 <= exp x) -> 0 < temperature -> good r -> (0 < length (us r))%nat ->
  exists r', edasa_accepts lt exp temperature current candidate r = Ok (true, r') /\ good r' /\ (length (us r) <= S (length (us r')))%nat.
Proof.
  intros E T G L. unfold edasa_accepts. destruct (lt candidate current); [exists r; split; [reflexivity|]; split; [exact G|lia]|].
  destruct r as [[|u us0] z]; [cbn in L; lia|]. cbn [uniform us zs rbind]. inversion G as [|? ? [U1 U2] G']; subst.
  exists (Rand us0 z). split; [|split; [exact G'|cbn; lia]]. replace (qltb u (exp (Qabs (candidate - current) / temperature))) with true; [reflexivity|].
  symmetry. apply qltb_lt. assert (1 <= exp (Qabs (candidate - current) / temperature)); [|lra]. apply E. apply Qle_shift_div_l; [exact T|]. rewrite Qmult_0_l. apply Qabs_nonneg.
Qed.
Lemma edasa_all lt exp temperature : (forall x, 0 <= x -> 1 <= exp x) -> 0 < temperature -> forall cs current r, good r -> (length cs <= length (us r))%nat ->
  exists r', edasa_inner lt exp temperature current cs r = Ok (cs, r').
Proof.
  intros E T. induction cs as [|c cs IH]; intros current r G L; cbn [edasa_inner]; [eauto|]. cbn [length] in L.
  destruct (edasa_always lt exp temperature current c r E T G) as (r1 & E1 & G1 & L1); [lia|]. rewrite E1. cbn [rbind].
  destruct (IH c r1 G1) as (r2 & E2); [lia|]. rewrite E2. cbn [rbind]. eauto.
Qed.
