From Coq Require Import List Arith Lia Bool QArith.
From Verif Require Import Lib Outcome OrderSpec OrderLemmas PopModel PopSpec PopProofs PopOps BreedModel BreedSpec BreedMore AlgoModel AlgoSpec.
Import ListNotations.
Close Scope Q_scope.
Open Scope nat_scope.

Section Runs.
Context {G F W : Type}.
Notation I := (indiv G F).
Variable value : G -> F.
Notation evaluated := (evaluated value).
Notation right := (right value).
Notation pop_evaluates := (@pop_evaluates G F W value).
Notation n_unev := (@n_unev G F).
Notation is_unev := (@is_unev G F).

Lemma apply_eval_spec (eval : I -> W -> res (I * W)) pop : evaluates value eval -> forall w pop' w',
  Forall right pop -> apply_eval eval pop w = Ok (pop', w') ->
  Forall2 (fun x x' => geno x' = geno x) pop pop' /\ Forall evaluated pop'.
Proof.
  intros He. induction pop as [|x r IH]; intros w pop' w' Hr H; cbn [apply_eval] in H.
  - inversion H; subst. split; constructor.
  - apply rbind_ok in H as ([x' w1] & E & H). apply rbind_ok in H as ([r' w2] & E2 & H). inversion H; subst.
    inversion Hr as [|? ? Hx Hr']; subst. destruct (IH _ _ _ Hr' E2) as [A B]. apply He in E as [Hg Hf].
    split; constructor; auto. unfold AlgoSpec.evaluated. rewrite Hg. destruct Hf as [Hf|[-> Hf]]; auto.
    destruct Hx as [Hx|Hx]; [congruence|auto].
Qed.
Lemma apply_eval_length (eval : I -> W -> res (I * W)) pop : forall w pop' w',
  apply_eval eval pop w = Ok (pop', w') -> length pop' = length pop.
Proof.
  induction pop as [|x r IH]; intros w pop' w' H; cbn [apply_eval] in H.
  - inversion H; subst. auto.
  - apply rbind_ok in H as ([x' w1] & E & H). apply rbind_ok in H as ([r' w2] & E2 & H). inversion H; subst.
    simpl. f_equal. eauto.
Qed.

Lemma evaluated_right pop : Forall evaluated pop -> Forall right pop.
Proof. apply Forall_impl. intros x H. right. auto. Qed.
Lemma pop_loop_eval_ok (eval : I -> W -> res (I * W)) : evaluates value eval -> pop_evaluates (pop_loop_eval eval).
Proof.
  intros He par off w par' off' w' Hp Ho H. unfold pop_loop_eval in H. apply rbind_ok in H as ([o w1] & E & H).
  inversion H; subst. pose proof (apply_eval_length _ _ _ _ _ E). apply apply_eval_spec in E as [A B]; auto.
Qed.
Lemma time_varying_eval_ok (eval : I -> W -> res (I * W)) : evaluates value eval -> pop_evaluates (time_varying_eval eval).
Proof.
  intros He par off w par' off' w' Hp Ho H. unfold time_varying_eval in H. apply rbind_ok in H as ([p w1] & E & H).
  apply rbind_ok in H as ([o w2] & E2 & H).
  inversion H; subst. pose proof (apply_eval_length _ _ _ _ _ E). pose proof (apply_eval_length _ _ _ _ _ E2).
  apply apply_eval_spec in E as [A B]; auto using evaluated_right.
  apply apply_eval_spec in E2 as [C D]; auto.
Qed.

Section Easy.
Variable pop_eval : list I -> list I -> W -> res (list I * list I * W).
Variable breed : list I -> W -> res (list I * W).
Variable replace : list I -> list I -> W -> res (list I * W).
Variable cont : list I -> W -> res (bool * W).
Hypothesis Hpe : pop_evaluates pop_eval.
Hypothesis Hbr : forall pop w off w', Forall right pop -> breed pop w = Ok (off, w') -> Forall right off.
Hypothesis Hre : forall par off w par' w', replace par off w = Ok (par', w') -> incl par' (par ++ off).

Lemma last_cons_ne {A} (x : A) l d : l <> [] -> last (x :: l) d = last l d.
Proof. destruct l; [congruence|auto]. Qed.

Lemma ea_loop_spec fuel : forall pop w r tr w', Forall evaluated pop ->
  ea_loop pop_eval breed replace cont fuel pop w = Ok (r, tr, w') ->
  tr <> [] /\ last tr [] = r /\ Forall (fun p => length p = length pop /\ Forall evaluated p) tr /\
  stops_at_first_no cont tr.
Proof.
  induction fuel as [|fuel IH]; intros pop w r tr w' Hp H; cbn [ea_loop] in H; [discriminate|].
  apply rbind_ok in H as ([off w1] & E1 & H). apply rbind_ok in H as ([[pop1 off1] w2] & E2 & H).
  apply rbind_ok in H as ([pop2 w3] & E3 & H).
  destruct (Nat.eqb_spec (length pop2) (length pop)) as [El|]; cbn [negb] in H; [|discriminate].
  apply rbind_ok in H as ([b w4] & E4 & H).
  apply Hbr in E1; [|apply evaluated_right; auto]. apply Hpe in E2 as (A & B & C & D); auto.
  assert (Hp2 : Forall evaluated pop2).
  { apply Hre in E3. apply Forall_forall. intros x Hx. apply E3 in Hx. apply in_app_iff in Hx as [Hx|Hx].
    - rewrite Forall_forall in A; auto.
    - rewrite Forall_forall in B; auto. }
  destruct b.
  - apply rbind_ok in H as ([[r1 tr1] w5] & E5 & H). inversion H; subst.
    apply IH in E5 as (N & L & Fa & St); auto. split; [discriminate|]. split; [rewrite last_cons_ne; auto|].
    split.
    + constructor; auto. rewrite El in Fa. exact Fa.
    + intros i p Hi. destruct i as [|i]; cbn [nth_error] in Hi.
      * inversion Hi; subst. exists w3, w4. rewrite E4. do 2 f_equal. destruct tr1; [congruence|reflexivity].
      * destruct (St i p Hi) as (v & v' & Ev). exists v, v'. exact Ev.
  - inversion H; subst. split; [discriminate|]. split; auto. split; [constructor; auto|].
    intros i p Hi. destruct i as [|i]; [|destruct i; discriminate]. inversion Hi; subst. exists w3, w'. exact E4.
Qed.
Lemma easy_ea_spec fuel pop w r tr w' : Forall right pop ->
  easy_ea pop_eval breed replace cont fuel pop w = Ok (r, tr, w') ->
  tr <> [] /\ last tr [] = r /\ Forall (fun p => length p = length pop /\ Forall evaluated p) tr /\
  stops_at_first_no cont tr.
Proof.
  intros Hp H. unfold easy_ea in H. apply rbind_ok in H as ([[e pop0] w0] & E & H).
  apply Hpe in E as (_ & A & _ & L); auto. rewrite <- L. eapply ea_loop_spec; eauto.
Qed.

(** best fitness never lost by an elitist replacement *)
Variable ltb : I -> I -> bool.
Hypothesis Hswo : strict_weak_order ltb.
Hypothesis Hpe_par : forall par off w par' off' w', pop_eval par off w = Ok (par', off', w') -> par' = par.
Hypothesis Hel : forall par off w par' w', replace par off w = Ok (par', w') -> dominates_best ltb par par'.
Lemma dominates_trans (p q r : list I) : dominates_best ltb p q -> dominates_best ltb q r -> dominates_best ltb p r.
Proof.
  intros H1 H2 x Hx. destruct (H1 x Hx) as (y & Hy & E1). destruct (H2 y Hy) as (z & Hz & E2).
  exists z. split; auto. eapply swo_ntrans; eauto.
Qed.
Lemma dominates_refl (p : list I) : dominates_best ltb p p.
Proof. intros x Hx. exists x. split; auto. apply swo_irrefl; auto. Qed.
Lemma ea_loop_monotone fuel : forall pop w r tr w',
  ea_loop pop_eval breed replace cont fuel pop w = Ok (r, tr, w') ->
  forall i j p q, i <= j -> nth_error (pop :: tr) i = Some p -> nth_error (pop :: tr) j = Some q -> dominates_best ltb p q.
Proof.
  induction fuel as [|fuel IH]; intros pop w r tr w' H; cbn [ea_loop] in H; [discriminate|].
  apply rbind_ok in H as ([off w1] & E1 & H). apply rbind_ok in H as ([[pop1 off1] w2] & E2 & H).
  apply rbind_ok in H as ([pop2 w3] & E3 & H).
  destruct (negb (length pop2 =? length pop)); [discriminate|].
  apply rbind_ok in H as ([b w4] & E4 & H). apply Hpe_par in E2. subst pop1. apply Hel in E3.
  assert (Htr : exists tr1, tr = pop2 :: tr1 /\ forall i j p q, i <= j -> nth_error (pop2 :: tr1) i = Some p ->
    nth_error (pop2 :: tr1) j = Some q -> dominates_best ltb p q).
  { destruct b.
    - apply rbind_ok in H as ([[r1 tr1] w5] & E5 & H). inversion H; subst. exists tr1. split; auto. eapply IH; eauto.
    - inversion H; subst. exists []. split; auto. intros i j p q Hij Hi Hj.
      destruct i as [|[|]]; try discriminate. destruct j as [|[|]]; try discriminate. inversion Hi; inversion Hj; subst.
      apply dominates_refl. }
  destruct Htr as (tr1 & -> & Hm). intros i j p q Hij Hi Hj.
  destruct i as [|i], j as [|j]; cbn [nth_error] in Hi, Hj.
  - inversion Hi; inversion Hj; subst. apply dominates_refl.
  - inversion Hi; subst. eapply dominates_trans; [exact E3|]. apply (Hm 0 j); auto. lia.
  - lia.
  - apply (Hm i j); auto. lia.
Qed.
End Easy.

(** exactly max(1,n) generations with eoGenContinue(n) *)
Section Gen.
Variable pop_eval : list I -> list I -> W -> res (list I * list I * W).
Variable breed : list I -> W -> res (list I * W).
Variable replace : list I -> list I -> W -> res (list I * W).
Variable cont : list I -> W -> res (bool * W).
Variable gen : W -> nat.
Variable total : nat.
Hypothesis Ge : forall p o w p' o' w', pop_eval p o w = Ok (p', o', w') -> gen w' = gen w.
Hypothesis Gb : forall p w o w', breed p w = Ok (o, w') -> gen w' = gen w.
Hypothesis Gr : forall p o w p' w', replace p o w = Ok (p', w') -> gen w' = gen w.
Hypothesis Gc : forall p w b w', cont p w = Ok (b, w') -> (b, gen w') = gen_continue total (gen w).
Lemma ea_loop_gens fuel : forall pop w r tr w', ea_loop pop_eval breed replace cont fuel pop w = Ok (r, tr, w') ->
  length tr = Nat.max 1 (total - gen w) /\ gen w' = gen w + length tr.
Proof.
  induction fuel as [|fuel IH]; intros pop w r tr w' H; cbn [ea_loop] in H; [discriminate|].
  apply rbind_ok in H as ([off w1] & E1 & H). apply rbind_ok in H as ([[pop1 off1] w2] & E2 & H).
  apply rbind_ok in H as ([pop2 w3] & E3 & H). destruct (negb (length pop2 =? length pop)); [discriminate|].
  apply rbind_ok in H as ([b w4] & E4 & H).
  apply Gb in E1. apply Ge in E2. apply Gr in E3. apply Gc in E4. unfold gen_continue in E4.
  assert (Hg : gen w4 = S (gen w)) by (inversion E4; congruence).
  assert (Hb : b = negb (total <=? S (gen w))) by (inversion E4; congruence).
  destruct b.
  - apply rbind_ok in H as ([[r1 tr1] w5] & E5 & H). inversion H; subst. apply IH in E5 as [L Gw].
    symmetry in Hb. apply negb_true_iff, Nat.leb_gt in Hb. cbn [length]. lia.
  - inversion H; subst. symmetry in Hb. apply negb_false_iff, Nat.leb_le in Hb. cbn [length]. lia.
Qed.
(** ... and such a run ends *)
Hypothesis Te : forall p o w, exists p' o' w', pop_eval p o w = Ok (p', o', w').
Hypothesis Tb : forall p w, exists o w', breed p w = Ok (o, w').
Hypothesis Tr : forall p o w, exists p' w', replace p o w = Ok (p', w') /\ length p' = length p.
Hypothesis Tc : forall p w, exists b w', cont p w = Ok (b, w').
Hypothesis Lep : forall p o w p' o' w', pop_eval p o w = Ok (p', o', w') -> length p' = length p.
Lemma ea_loop_ends fuel : forall pop w, total - gen w < fuel -> 0 < fuel ->
  exists r tr w', ea_loop pop_eval breed replace cont fuel pop w = Ok (r, tr, w').
Proof.
  induction fuel as [|fuel IH]; intros pop w Hf H0; [lia|]. cbn [ea_loop].
  destruct (Tb pop w) as (off & w1 & E1). rewrite E1. cbn [rbind].
  destruct (Te pop off w1) as (pop1 & off1 & w2 & E2). rewrite E2. cbn [rbind].
  destruct (Tr pop1 off1 w2) as (pop2 & w3 & E3 & L3). rewrite E3. cbn [rbind].
  pose proof (Lep _ _ _ _ _ _ E2) as L2. rewrite L3, L2, Nat.eqb_refl. cbn [negb].
  destruct (Tc pop2 w3) as (b & w4 & E4). rewrite E4. cbn [rbind].
  apply Gb in E1. apply Ge in E2. apply Gr in E3. apply Gc in E4. unfold gen_continue in E4.
  assert (Hg : gen w4 = S (gen w)) by (inversion E4; congruence).
  assert (Hb : b = negb (total <=? S (gen w))) by (inversion E4; congruence).
  destruct b; [|eauto].
  symmetry in Hb. apply negb_true_iff, Nat.leb_gt in Hb.
  destruct (IH pop2 w4) as (r & tr & w' & E); [lia|lia|]. rewrite E. cbn [rbind]. eauto.
Qed.
Lemma easy_ea_ends fuel pop w : total - gen w < fuel -> 0 < fuel ->
  exists r tr w', easy_ea pop_eval breed replace cont fuel pop w = Ok (r, tr, w') /\
    length tr = Nat.max 1 (total - gen w).
Proof.
  intros Hf H0. unfold easy_ea. destruct (Te [] pop w) as (e & pop0 & w0 & E0). rewrite E0. cbn [rbind].
  pose proof (Ge _ _ _ _ _ _ E0) as G0.
  destruct (ea_loop_ends fuel pop0 w0) as (r & tr & w' & E); [lia|lia|]. exists r, tr, w'. split; auto.
  apply ea_loop_gens in E as [L _]. rewrite L, G0. auto.
Qed.
Lemma easy_ea_gens fuel pop w r tr w' : easy_ea pop_eval breed replace cont fuel pop w = Ok (r, tr, w') ->
  length tr = Nat.max 1 (total - gen w).
Proof.
  unfold easy_ea. intros H. apply rbind_ok in H as ([[e pop0] w0] & E & H). apply Ge in E. apply ea_loop_gens in H as [L _].
  rewrite L, E. auto.
Qed.
End Gen.

(** eoSGA *)
Section Sga.
Variable select : list I -> W -> res (list I * W).
Variable flip : Q -> W -> res (bool * W).
Variable cross : quad_op (G:=G) (F:=F) (W:=W).
Variable crate : Q.
Variable mut : mon_op (G:=G) (F:=F) (W:=W).
Variable mrate : Q.
Variable eval : I -> W -> res (I * W).
Variable cont : list I -> W -> res (bool * W).
Hypothesis Hev : evaluates value eval.
Hypothesis Hcr : honest_quad cross.
Hypothesis Hmu : honest_mon mut.
Hypothesis Hse : forall pop w off w', select pop w = Ok (off, w') -> incl off pop /\ length off = length pop.
Lemma fos_right p q : Forall2 fresh_or_same p q -> Forall right p -> Forall right q.
Proof.
  induction 1 as [|x y p q Hxy H IH]; intros Hp; constructor; inversion Hp; subst; auto.
  destruct Hxy as [Hy| ->]; [left; auto|auto].
Qed.
Lemma fos_length (p q : list I) : Forall2 fresh_or_same p q -> length q = length p.
Proof. induction 1; simpl; auto. Qed.
Lemma sga_loop_spec fuel : forall pop w r tr w', Forall right pop ->
  sga_loop select flip cross crate mut mrate eval cont fuel pop w = Ok (r, tr, w') ->
  tr <> [] /\ last tr [] = r /\ Forall (fun p => length p = length pop /\ Forall evaluated p) tr /\
  stops_at_first_no cont tr.
Proof.
  induction fuel as [|fuel IH]; intros pop w r tr w' Hp H; cbn [sga_loop] in H; [discriminate|].
  apply rbind_ok in H as ([off w1] & E1 & H). apply rbind_ok in H as ([off1 w2] & E2 & H).
  apply rbind_ok in H as ([off2 w3] & E3 & H). apply rbind_ok in H as ([pop1 w4] & E4 & H).
  apply rbind_ok in H as ([b w5] & E5 & H).
  apply Hse in E1 as [Hin Hl]. apply sga_cross_spec in E2; auto. apply sga_mutate_spec in E3; auto.
  assert (Ho : Forall right off).
  { apply Forall_forall. intros x Hx. rewrite Forall_forall in Hp. auto. }
  pose proof (fos_right _ _ E3 (fos_right _ _ E2 Ho)) as Ho2.
  pose proof (fos_length _ _ E2) as L2. pose proof (fos_length _ _ E3) as L3. pose proof (apply_eval_length _ _ _ _ _ E4) as L4.
  apply apply_eval_spec in E4 as [_ B]; auto. assert (El : length pop1 = length pop) by lia.
  destruct b.
  - apply rbind_ok in H as ([[r1 tr1] w6] & E6 & H). inversion H; subst.
    apply IH in E6 as (N & L & Fa & St); auto using evaluated_right. split; [discriminate|]. split; [rewrite last_cons_ne; auto|].
    split.
    + constructor; auto. rewrite El in Fa. exact Fa.
    + intros i p Hi. destruct i as [|i]; cbn [nth_error] in Hi.
      * inversion Hi; subst. exists w4, w5. rewrite E5. do 2 f_equal. destruct tr1; [congruence|reflexivity].
      * destruct (St i p Hi) as (v & v' & Ev). exists v, v'. exact Ev.
  - inversion H; subst. split; [discriminate|]. split; auto. split; [constructor; auto|].
    intros i p Hi. destruct i as [|i]; [|destruct i; discriminate]. inversion Hi; subst. exists w4, w'. exact E5.
Qed.
End Sga.

(** evaluation accounting *)
Lemma n_unev_cons x (pop : list I) : n_unev (x :: pop) = (if is_unev x then 1 else 0) + n_unev pop.
Proof. unfold n_unev. cbn [filter]. destruct (is_unev x); auto. Qed.
Lemma counter_apply (func : I -> W -> res (I * W)) pop : forall s pop' s',
  apply_eval (W := nat * W) (counter_eval func) pop s = Ok (pop', s') ->
  fst s' = fst s + n_unev pop.
Proof.
  induction pop as [|x r IH]; intros s pop' s' H; cbn [apply_eval] in H.
  - inversion H; subst. unfold n_unev. simpl. lia.
  - apply rbind_ok in H as ([x' s1] & E & H). apply rbind_ok in H as ([r' s2] & E2 & H). inversion H; subst.
    apply IH in E2. rewrite E2, n_unev_cons. unfold counter_eval in E. unfold is_unev. destruct (fit x).
    + inversion E; subst. lia.
    + apply rbind_ok in E as ([y w1] & E & E'). inversion E'; subst. cbn [fst]. lia.
Qed.
(** the function is really called on every unevaluated individual and on no other *)
Lemma counter_values (func : I -> W -> res (I * W)) pop : computes value func -> forall s pop' s',
  apply_eval (W := nat * W) (counter_eval func) pop s = Ok (pop', s') ->
  pop' = map (fun x => match fit x with None => Ind (geno x) (Some (value (geno x))) | Some _ => x end) pop.
Proof.
  intros Hc. induction pop as [|x r IH]; intros s pop' s' H; cbn [apply_eval] in H.
  - inversion H; subst. auto.
  - apply rbind_ok in H as ([x' s1] & E & H). apply rbind_ok in H as ([r' s2] & E2 & H). inversion H; subst.
    apply IH in E2 as ->. cbn [map]. f_equal. unfold counter_eval in E. destruct (fit x).
    + inversion E; subst. auto.
    + apply rbind_ok in E as ([y w1] & E & E'). inversion E'; subst. eapply Hc; eauto.
Qed.

Lemma throw_apply (func : I -> W -> res (I * W)) threshold pop : computes value func -> forall s r,
  fst s < threshold ->
  apply_throw func threshold pop s = Ok r ->
  match r with
  | inl (pop', s') => fst s' = fst s + n_unev pop /\ fst s' < threshold /\
      pop' = map (fun x => match fit x with None => Ind (geno x) (Some (value (geno x))) | Some _ => x end) pop
  | inr (pop', s') => fst s' = threshold /\ threshold <= fst s + n_unev pop /\
      exists l1 x l2, pop = l1 ++ x :: l2 /\ fit x = None /\ fst s + n_unev l1 + 1 = threshold /\
        pop' = map (fun x => match fit x with None => Ind (geno x) (Some (value (geno x))) | Some _ => x end) (l1 ++ [x]) ++ l2
  end.
Proof.
  intros Hc. induction pop as [|x r IH]; intros s res Hs H; cbn [apply_throw] in H.
  - inversion H; subst. unfold n_unev. cbn. repeat split; auto; lia.
  - apply rbind_ok in H as (y & E & H). unfold throw_eval in E. rewrite n_unev_cons. unfold is_unev.
    destruct (fit x) as [v|] eqn:Ex.
    + inversion E; subst y. apply rbind_ok in H as (z & Ez & H). specialize (IH _ _ Hs Ez). destruct z as [[r' s2]|[r' s2]];
        inversion H; subst; clear H.
      * destruct IH as (A & B & ->). cbn [map]. rewrite Ex. repeat split; auto; lia.
      * destruct IH as (A & B & l1 & x1 & l2 & -> & Hx1 & C & ->). repeat split; auto; try lia.
        exists (x :: l1), x1, l2. rewrite n_unev_cons. unfold is_unev. rewrite Ex. cbn [app map]. rewrite Ex. repeat split; auto; lia.
    + apply rbind_ok in E as ([x' s1] & E & E'). unfold counter_eval in E. rewrite Ex in E.
      apply rbind_ok in E as ([x2 w1] & Ef & E). inversion E; subst x2 s1. clear E. apply Hc in Ef as ->.
      cbn [fst] in E'. destruct (Nat.leb_spec threshold (S (fst s))); inversion E'; subst y; clear E'.
      * inversion H; subst. cbn [fst]. split; [lia|]. split; [lia|].
        exists [], x, r. cbn [app map]. rewrite Ex. unfold n_unev. cbn. repeat split; auto; lia.
      * apply rbind_ok in H as (z & Ez & H). specialize (IH (S (fst s), w1) _ H0 Ez). cbn [fst] in IH. destruct z as [[r' s2]|[r' s2]];
          inversion H; subst; clear H.
        -- destruct IH as (A & B & ->). cbn [map]. rewrite Ex. repeat split; auto; lia.
        -- destruct IH as (A & B & l1 & x1 & l2 & -> & Hx1 & C & ->). repeat split; auto; try lia.
           exists (x :: l1), x1, l2. rewrite n_unev_cons. unfold is_unev. rewrite Ex. cbn [app map]. rewrite Ex. repeat split; auto; lia.
Qed.

(** eoEvalKeepBest *)
Variable ltb : F -> F -> bool.
Hypothesis Hswo : strict_weak_order ltb.
Notation first_best := (@first_best G F ltb).
Lemma keep_step (func : I -> W -> res (I * W)) x seen kept fl w x' s' :
  (fit kept = None /\ seen = [] \/ first_best seen kept) ->
  keep_eval ltb func x (kept, fl, w) = Ok (x', s') ->
  first_best (seen ++ [x']) (fst (fst s')).
Proof.
  intros Hk H. unfold keep_eval in H. apply rbind_ok in H as ([y w1] & E & H).
  destruct (fit y) as [f|] eqn:Ey; [|discriminate]. destruct Hk as [[Hk ->]|(l1 & l2 & k & -> & Ek & H1 & H2)].
  - rewrite Hk in H. inversion H; subst. cbn [fst]. exists [], [], f. repeat split; auto; intros ? [].
  - rewrite Ek in H. destruct (ltb k f) eqn:El; inversion H; subst; cbn [fst].
    + exists (l1 ++ kept :: l2), [], f. split; auto. split; auto. split; [|intros ? []].
      intros x0 Hx0. apply in_app_iff in Hx0 as [Hx0|[->|Hx0]].
      * destruct (H1 _ Hx0) as (g & Eg & Lg). exists g. split; auto. eapply swo_trans; eauto.
      * eauto.
      * destruct (H2 _ Hx0) as (g & Eg & Lg). exists g. split; auto. eapply swo_le_lt; eauto.
    + exists l1, (l2 ++ [x']), k. rewrite <- app_assoc. split; auto. split; auto. split; auto.
      intros x0 Hx0. apply in_app_iff in Hx0 as [Hx0|[<-|[]]]; eauto.
Qed.
Lemma keep_all_spec (func : I -> W -> res (I * W)) xs : forall seen s ys s',
  (fit (fst (fst s)) = None /\ seen = [] \/ first_best seen (fst (fst s))) ->
  keep_all ltb func xs s = Ok (ys, s') -> xs <> [] \/ seen <> [] -> first_best (seen ++ ys) (fst (fst s')).
Proof.
  induction xs as [|x r IH]; intros seen s ys s' Hk H Hne; cbn [keep_all] in H.
  - inversion H; subst. rewrite app_nil_r. destruct Hk as [[_ ->]|Hk]; auto. destruct Hne; congruence.
  - apply rbind_ok in H as ([x' s1] & E & H). apply rbind_ok in H as ([r' s2] & E2 & H). inversion H; subst.
    destruct s as [[kept fl] w]. pose proof (keep_step _ _ _ _ _ _ _ _ Hk E) as Hs.
    replace (seen ++ x' :: r') with ((seen ++ [x']) ++ r') by (rewrite <- app_assoc; auto).
    eapply IH; eauto. right. destruct seen; discriminate.
Qed.
End Runs.

Section Cont.
Variable F : Type.
Variable ltb : F -> F -> bool.
Variable nth_el : forall T : Type, (T -> T -> bool) -> nat -> list T -> list T.
Hypothesis Hswo : strict_weak_order ltb.
Hypothesis Hnth : std_nth_ok nth_el.
Notation best0 := (nth_element_fitness F ltb nth_el 0).
Variable mg sg : nat.

Lemma best0_is_best pop v : best0 pop = Ok v -> is_best ltb pop v.
Proof.
  intros H. destruct pop as [|x pop].
  - exfalso. unfold nth_element_fitness in H. cbn in H.
    destruct (Hnth F (fun a b => ltb b a) 0 [] (swo_flip _ Hswo) (Nat.le_refl _)) as [P _].
    apply Permutation.Permutation_nil in P. rewrite P in H. discriminate.
  - destruct (nth_element_fitness_spec F ltb nth_el Hswo Hnth 0 (x :: pop)) as (v' & E & Hb); [simpl; lia|].
    rewrite E in H. inversion H; subst. destruct Hb as (above & below & P & La & _ & Hbe).
    destruct above; [|discriminate]. cbn [app] in P. split.
    + eapply Permutation.Permutation_in; [apply Permutation.Permutation_sym; exact P|left; auto].
    + intros y Hy. eapply Permutation.Permutation_in in Hy; [|exact P]. destruct Hy as [->|Hy]; [apply swo_irrefl; auto|auto].
Qed.

Definition st_inv (b : nat -> F) (k : nat) (st : steady F) : Prop :=
  sf_gen F st = k /\
  ((k <= mg /\ sf_steady F st = false) \/
   (mg < k /\ sf_steady F st = true /\ exists last, sf_mem F st = Some (b last, last) /\ mg < last <= k /\
     (forall j, mg < j <= k -> ltb (b last) (b j) = false) /\
     (forall i, mg < i < last -> ltb (b i) (b last) = true))).
Lemma steady_step b k st pop v st' : st_inv b k st -> best0 pop = Ok (b (S k)) ->
  steady_continue F ltb nth_el mg sg st pop = Ok (v, st') ->
  st_inv b (S k) st' /\ (v = false <-> stagnant ltb mg sg b (S k)).
Proof.
  intros [Hg Hi] Eb H. unfold steady_continue in H. rewrite Eb in H. cbn [rbind] in H. rewrite Hg in H.
  destruct Hi as [[Hk Hs]|(Hk & Hs & last & Hm & Hl & Hle & Hlt)]; rewrite Hs in H.
  - assert (Hns : ~ stagnant ltb mg sg b (S k)) by (intros (i & A & B & _); lia).
    destruct (Nat.ltb_spec mg (S k)); inversion H; subst; (split; [|split; [discriminate|contradiction]]).
    + split; [reflexivity|]. right. cbn [sf_steady sf_mem]. split; auto. split; auto. exists (S (sf_gen F st)). split; auto. split; [lia|]. split.
      * intros j Hj. replace j with (S (sf_gen F st)) by lia. apply swo_irrefl; auto.
      * intros i Hi. lia.
    + split; [reflexivity|]. left. cbn [sf_steady]. split; [lia|auto].
  - rewrite Hm in H. destruct (ltb (b last) (b (S k))) eqn:El.
    + inversion H; subst. split.
      * split; [reflexivity|]. right. cbn [sf_steady sf_mem]. split; [lia|]. split; auto. exists (S (sf_gen F st)).
        split; auto. split; [lia|]. split.
        -- intros j Hj. destruct (Nat.eq_dec j (S (sf_gen F st))) as [->|]; [apply swo_irrefl; auto|].
           eapply swo_asym; auto. eapply swo_le_lt; [auto| |exact El]. apply Hle. lia.
        -- intros i Hi. eapply swo_le_lt; [auto| |exact El]. apply Hle. lia.
      * split; [discriminate|]. intros (i & A & B & C). exfalso.
        specialize (C (S (sf_gen F st)) ltac:(lia)).
        assert (ltb (b i) (b (S (sf_gen F st))) = true); [|congruence].
        eapply swo_le_lt; [auto| |exact El]. apply Hle. lia.
    + assert (Hinv : st_inv b (S k) (Steady F (S k) true (Some (b last, last)))).
      { split; [reflexivity|]. right. cbn [sf_steady sf_mem]. split; [lia|]. split; auto. exists last. split; auto. split; [lia|]. split; auto.
        intros j Hj. destruct (Nat.eq_dec j (S k)) as [->|]; auto. apply Hle. lia. }
      destruct (Nat.ltb_spec sg (S k - last)); inversion H; subst; (split; [exact Hinv|]).
      * split; auto. intros _. exists last. split; [lia|]. split; [lia|].
        intros j Hj. destruct (Nat.eq_dec j (S (sf_gen F st))) as [->|]; auto. apply Hle. lia.
      * split; [discriminate|]. intros (i & A & B & C). exfalso.
        assert (Hi : mg < i < last) by lia. specialize (Hlt i Hi). specialize (C last ltac:(lia)). congruence.
Qed.
Lemma steady_run_inv b pops : forall k st bs st', st_inv b k st ->
  (forall j p, nth_error pops j = Some p -> best0 p = Ok (b (S (k + j)))) ->
  steady_run F ltb nth_el mg sg st pops = Ok (bs, st') ->
  length bs = length pops /\ forall j v, nth_error bs j = Some v -> (v = false <-> stagnant ltb mg sg b (S (k + j))).
Proof.
  induction pops as [|p r IH]; intros k st bs st' Hi Hb H; cbn [steady_run] in H.
  - inversion H; subst. split; auto. intros j v Hj. destruct j; discriminate.
  - apply rbind_ok in H as ([v0 st1] & E & H). apply rbind_ok in H as ([bs1 st2] & E2 & H). inversion H; subst.
    pose proof (Hb 0 p eq_refl) as Hb0. rewrite Nat.add_0_r in Hb0.
    destruct (steady_step b k st p v0 st1 Hi Hb0 E) as [Hi1 Hv].
    destruct (IH (S k) st1 bs1 st' Hi1) as [L Hr]; auto.
    { intros j q Hj. replace (S (S k + j)) with (S (k + S j)) by lia. apply Hb. exact Hj. }
    split; [simpl; lia|]. intros j v Hj. destruct j as [|j]; cbn [nth_error] in Hj.
    + inversion Hj; subst. rewrite Nat.add_0_r. exact Hv.
    + replace (k + S j) with (S k + j) by lia. apply Hr. exact Hj.
Qed.
Lemma stagnant_ext (b b' : nat -> F) k : (forall j, 0 < j <= k -> ltb (b j) (b' j) = false /\ ltb (b' j) (b j) = false) ->
  stagnant ltb mg sg b k -> stagnant ltb mg sg b' k.
Proof.
  intros He (i & A & B & C). exists i. split; auto. split; auto. intros j Hj. specialize (C j Hj).
  destruct (He i ltac:(lia)) as [E1 E2]. destruct (He j ltac:(lia)) as [E3 E4].
  eapply swo_ntrans; [auto|exact E2|]. eapply swo_ntrans; [auto|exact C|exact E3].
Qed.
Lemma steady_run_spec pops bs st' b :
  steady_run F ltb nth_el mg sg (steady_new F) pops = Ok (bs, st') ->
  (forall j p, nth_error pops j = Some p -> is_best ltb p (b (S j))) ->
  length bs = length pops /\
  forall j v, nth_error bs j = Some v -> (v = false <-> stagnant ltb mg sg b (S j)).
Proof.
  intros H Hb.
  set (b' := fun k => match nth_error pops (k - 1) with Some p => match best0 p with Ok v => v | _ => b k end | None => b k end).
  assert (Hall : forall j p, nth_error pops j = Some p -> exists v, best0 p = Ok v).
  { intros j p Hj. destruct (Hb j p Hj) as [Hin _]. destruct p as [|x p]; [destruct Hin|].
    destruct (nth_element_fitness_spec F ltb nth_el Hswo Hnth 0 (x :: p)) as (v' & E & _); [simpl; lia|]. eauto. }
  assert (Hb' : forall j p, nth_error pops j = Some p -> best0 p = Ok (b' (S j))).
  { intros j p Hj. unfold b'. replace (S j - 1) with j by lia. rewrite Hj. destruct (Hall j p Hj) as [v Ev]. rewrite Ev. auto. }
  destruct (steady_run_inv b' pops 0 (steady_new F) bs st') as [L Hr]; auto.
  { split; auto. left. split; [lia|auto]. }
  split; auto. intros j v Hj. rewrite (Hr j v Hj). cbn [Nat.add].
  assert (Hlen : j < length pops) by (rewrite <- L; apply nth_error_Some; congruence).
  assert (He : forall i, 0 < i <= S j -> ltb (b i) (b' i) = false /\ ltb (b' i) (b i) = false).
  { intros i Hi. destruct i as [|i]; [lia|]. destruct (nth_error_in_some pops i ltac:(lia)) as [p Hp].
    destruct (Hb i p Hp) as [I1 B1]. pose proof (Hb' i p Hp) as E. apply best0_is_best in E as [I2 B2]. auto. }
  split; apply stagnant_ext; intros i Hi; destruct (He i Hi); auto.
Qed.

Lemma fit_continue_spec optimum pop b : fit_continue F ltb optimum pop = Ok b ->
  (b = false <-> exists x, In x pop /\ ltb x optimum = false).
Proof.
  unfold fit_continue. intros H. apply rbind_ok in H as (v & E & H). inversion H; subst.
  destruct pop as [|x0 pop]; [discriminate|].
  destruct (best_element_spec F ltb Hswo (x0 :: pop)) as [_ Hb]. destruct (Hb ltac:(discriminate)) as (i & v' & E' & _ & [Hin Hmax] & _).
  rewrite E in E'. inversion E'; subst v'. split.
  - intros Hv. exists v. auto.
  - intros (x & Hx & Ho). eapply swo_ntrans; [auto|apply Hmax; exact Hx|exact Ho].
Qed.
Lemma gen_continue_spec total k : forall this i, i < k ->
  nth_error (answers (gen_continue total) k this) i = Some (this + S i <? total).
Proof.
  induction k as [|k IH]; intros this i Hi; [lia|]. cbn [answers gen_continue]. destruct i as [|i]; cbn [nth_error].
  - f_equal. rewrite Nat.ltb_antisym. do 2 f_equal. lia.
  - rewrite IH by lia. f_equal. f_equal. lia.
Qed.

Lemma combined_spec {P S : Type} (cs : list (P -> S -> res (bool * S))) pop : forall s b s',
  combined_continue cs pop s = Ok (b, s') ->
  exists n ss, n <= length cs /\ length ss = Datatypes.S n /\ nth_error ss 0 = Some s /\ nth_error ss n = Some s' /\
    (b = true -> n = length cs) /\ (b = false -> 0 < n) /\
    forall i c si si', i < n -> nth_error cs i = Some c -> nth_error ss i = Some si -> nth_error ss (Datatypes.S i) = Some si' ->
      c pop si = Ok (if (Datatypes.S i =? n) then b else true, si').
Proof.
  induction cs as [|c r IH]; intros s b s' H; cbn [combined_continue] in H.
  - inversion H; subst. exists 0, [s']. repeat split; auto; intros; lia || discriminate.
  - apply rbind_ok in H as ([b1 s1] & E & H). destruct b1.
    + apply IH in H as (n & ss & Hn & Ls & H0 & Hlast & Ht & Hf & Hc).
      exists (Datatypes.S n), (s :: ss). cbn [length nth_error]. repeat split; auto; try lia.
      intros i c' si si' Hi Hci Hsi Hsi'. destruct i as [|i]; cbn [nth_error] in *.
      * inversion Hci; inversion Hsi; subst. rewrite H0 in Hsi'. inversion Hsi'; subst. rewrite E.
        destruct n as [|n]; cbn [Nat.eqb]; auto. destruct b; auto. specialize (Hf eq_refl). lia.
      * rewrite (Hc i c' si si'); auto; try lia.
    + inversion H; subst. exists 1, [s; s']. cbn. repeat split; auto; try lia; try discriminate.
      intros i c' si si' Hi Hci Hsi Hsi'. replace i with 0 in * by lia. cbn in *. inversion Hci; inversion Hsi; inversion Hsi'; subst. auto.
Qed.
Lemma periodic_iter period k : 0 < period -> forall c b c',
  periodic_continue period (c + k) = Ok (b, c') -> c' = c + Datatypes.S k /\ (b = false <-> (c + Datatypes.S k) mod period = 0).
Proof.
  intros Hp c b c' H. unfold periodic_continue in H. destruct (Nat.eqb_spec period 0); [lia|]. inversion H; subst.
  replace (S (c + k)) with (c + S k) by lia. split; auto. rewrite negb_false_iff, Nat.eqb_eq. reflexivity.
Qed.
End Cont.
