(** Proofs about eoFastGA and the foundry (C114, C115). *)
From Coq Require Import List Arith Bool Lia QArith.
From Verif Require Import Lib Outcome PopModel BreedModel BreedSpec AlgoModel AlgoSpec AlgoProofs BoundsModel FoundSpec FoundModel.
Import ListNotations.
Close Scope Q_scope.
Open Scope nat_scope.

Section Fast.
Context {G F W : Type}.
Notation I := (indiv G F).
Variable value : G -> F.
Variable flip : Q -> W -> res (bool * W).
Variable peval : list I -> W -> res ((list I * W) + W).
Variable ops : operators G F W.
Hypothesis Hev : evaluates_all value peval.
Hypothesis Hsc : takes_members (pick (select_cross ops)).
Hypothesis Hsa : takes_members (pick (select_after ops)).
Hypothesis Hsm : takes_members (pick (select_mut ops)).
Hypothesis Hm : honest_mon (mutation ops).
Hypothesis Hq : honest_quad (crossover ops).
Hypothesis Hr : keeps_members (replace ops).

Lemma touch_geno b (x : I) : geno (touch b x) = geno x.
Proof. destruct b; reflexivity. Qed.
Lemma touch_right b (x : I) : (b = false -> evaluated value x) -> right value (touch b x).
Proof. intros H. destruct b; [left; reflexivity|right; auto]. Qed.
Lemma all_evaluated_in l (x : I) : Forall (right value) l -> In x (all_evaluated value l) -> evaluated value x /\ exists y, In y l /\ geno y = geno x.
Proof.
  intros Hl Hx. unfold all_evaluated in Hx. apply in_map_iff in Hx as (y & <- & Hy).
  rewrite Forall_forall in Hl. specialize (Hl y Hy). split.
  - destruct Hl as [E|E]; unfold evaluated in *; rewrite E; [reflexivity|exact E].
  - exists y. split; [exact Hy|]. destruct (fit y); reflexivity.
Qed.
Lemma all_evaluated_right l : Forall (right value) l -> Forall (evaluated value) (all_evaluated value l).
Proof. intros H. apply Forall_forall. intros x Hx. exact (proj1 (all_evaluated_in l x H Hx)). Qed.

Lemma mutate_ok (x : I) w z b w' : evaluated value x -> mutation ops x w = Ok (z, b, w') ->
  right value (touch b z) /\ mutant (mutation ops) x (geno (touch b z)).
Proof.
  intros Hx H. split.
  - apply touch_right. intros ->. rewrite (Hm _ _ _ _ H). exact Hx.
  - rewrite touch_geno. exists w, z, b, w'. auto.
Qed.
Lemma evaluated_ind (x : I) : evaluated value x -> x = Ind (geno x) (Some (value (geno x))).
Proof. destruct x as [g f]. unfold evaluated. cbn. intros ->. reflexivity. Qed.

Lemma offspring_ok pop w x w' : Forall (evaluated value) pop -> make_offspring flip peval ops pop w = Ok (inl (x, w')) ->
  right value x /\ offspring_of (crossover ops) (mutation ops) value pop (geno x).
Proof.
  intros Hp H. rewrite Forall_forall in Hp. unfold make_offspring in H.
  apply rbind_ok in H as ([c w1] & Hf & H). destruct c.
  - apply rbind_ok in H as (w2 & H1 & H). apply rbind_ok in H as ([x1 w3] & H2 & H).
    apply rbind_ok in H as ([x2 w4] & H3 & H). apply rbind_ok in H as ([[[y1 y2] b] w5] & H4 & H).
    apply rbind_ok in H as (r & H5 & H). destruct r as [[crossed w6]|w6]; [|discriminate].
    apply rbind_ok in H as (w7 & H6 & H). apply rbind_ok in H as ([x3 w8] & H7 & H).
    apply rbind_ok in H as ([m w9] & H8 & H).
    apply Hsc in H2. apply Hsc in H3. apply Hsa in H7. apply Hev in H5. subst crossed.
    assert (Forall (right value) [touch b y1; touch b y2]) as Hr2.
    { apply Forall_cons; [|apply Forall_cons; [|apply Forall_nil]]; apply touch_right; intros ->; destruct (Hq _ _ _ _ _ _ H4) as [-> ->]; auto. }
    destruct (all_evaluated_in _ _ Hr2 H7) as [E3 (y & Hy & Eg)].
    assert (crossed_from (crossover ops) x1 x2 (geno x3)) as Hc.
    { exists w4, y1, y2, b, w5. split; [exact H4|]. destruct Hy as [Y|[Y|[]]]; rewrite <- Y, touch_geno in Eg; auto. }
    destruct m.
    + apply rbind_ok in H as ([[z b'] w10] & H9 & H). injection H as <- <-.
      destruct (mutate_ok _ _ _ _ _ E3 H9) as [R M]. split; [exact R|]. right. exists x1, x2, (geno x3).
      repeat split; auto. right. rewrite <- evaluated_ind by exact E3. exact M.
    + injection H as <- <-. split; [right; exact E3|]. right. exists x1, x2, (geno x3). auto.
  - apply rbind_ok in H as (w2 & H1 & H). apply rbind_ok in H as ([x3 w3] & H2 & H).
    apply rbind_ok in H as ([[z b] w4] & H3 & H). injection H as <- <-. apply Hsm in H2.
    destruct (mutate_ok _ _ _ _ _ (Hp _ H2) H3) as [R M]. split; [exact R|]. left. eauto.
Qed.
Lemma offsprings_ok n pop : Forall (evaluated value) pop -> forall w l w', make_offsprings flip peval ops n pop w = Ok (inl (l, w')) ->
  length l = n /\ Forall (right value) l /\ Forall (fun x => offspring_of (crossover ops) (mutation ops) value pop (geno x)) l.
Proof.
  intros Hp. induction n as [|n IH]; intros w l w' H; cbn [make_offsprings] in H.
  - injection H as <- <-. auto.
  - apply rbind_ok in H as (r & H1 & H). destruct r as [[x w1]|w1]; [|discriminate].
    apply rbind_ok in H as (r & H2 & H). destruct r as [[l1 w2]|w2]; [|discriminate]. injection H as <- <-.
    destruct (IH _ _ _ H2) as (L & R & O). destruct (offspring_ok _ _ _ _ Hp H1) as [Rx Ox]. cbn. auto.
Qed.
Lemma generation_ok lambda pop w p w' : Forall (evaluated value) pop -> generation flip peval ops lambda pop w = Ok (inl (p, w')) ->
  exists off w1, length off = lambda /\ Forall (evaluated value) off /\
    Forall (fun x => offspring_of (crossover ops) (mutation ops) value pop (geno x)) off /\
    replace ops pop off w1 = Ok (p, w') /\ Forall (evaluated value) p.
Proof.
  intros Hp H. unfold generation in H. apply rbind_ok in H as (r & H1 & H). destruct r as [[l w1]|w1]; [|discriminate].
  apply rbind_ok in H as (r & H2 & H). destruct r as [[off w2]|w2]; [|discriminate].
  apply rbind_ok in H as (o & H3 & H). injection H as ->.
  destruct (offsprings_ok _ _ Hp _ _ _ H1) as (L & R & O). apply Hev in H2. subst off.
  exists (all_evaluated value l), w2. pose proof (all_evaluated_right _ R) as E.
  split; [unfold all_evaluated; rewrite map_length; exact L|]. split; [exact E|]. split.
  - apply Forall_forall. intros x Hx. destruct (all_evaluated_in _ _ R Hx) as (_ & y & Hy & <-).
    rewrite Forall_forall in O. auto.
  - split; [exact H3|]. apply Forall_forall. intros x Hx. apply (Hr _ _ _ _ _ H3), in_app_or in Hx.
    rewrite Forall_forall in Hp, E. destruct Hx; auto.
Qed.
(** each population of the trace comes from the one before *)
Fixpoint linked (R : list I -> list I -> Prop) (p : list I) (tr : list (list I)) : Prop :=
  match tr with [] => True | q :: tr => R p q /\ linked R q tr end.
Lemma linked_nth R tr : forall p, linked R p tr -> forall k q d, nth_error tr k = Some q -> R (nth k (p :: tr) d) q.
Proof.
  induction tr as [|a l IH]; intros p L k q d Hk; [destruct k; discriminate|]. destruct L as [B L].
  destruct k as [|k]; cbn in Hk; [injection Hk as <-; exact B|]. exact (IH a L k q d Hk).
Qed.
Definition bred (lambda : nat) (pop p : list I) : Prop :=
  exists off w1 w', length off = lambda /\ Forall (evaluated value) off /\
    Forall (fun x => offspring_of (crossover ops) (mutation ops) value pop (geno x)) off /\ replace ops pop off w1 = Ok (p, w').
Lemma loop_ok fuel lambda : forall pop w p tr e w', Forall (evaluated value) pop ->
  fastga_loop flip peval ops fuel lambda pop w = Ok (p, tr, e, w') ->
  p = last tr pop /\ Forall (Forall (evaluated value)) tr /\ linked (bred lambda) pop tr /\ (e = false -> tr <> []).
Proof.
  induction fuel as [|f IH]; intros pop w p tr e w' Hp H; cbn [fastga_loop] in H; [discriminate|].
  apply rbind_ok in H as (r & H1 & H). destruct r as [[q w1]|w1].
  - destruct (generation_ok _ _ _ _ _ Hp H1) as (off & w0 & L & E & O & Rp & Eq).
    assert (bred lambda pop q) as B by (exists off, w0, w1; auto).
    apply rbind_ok in H as ([b w2] & H2 & H). destruct b.
    + apply rbind_ok in H as ([[[p1 tr1] e1] w3] & H3 & H). injection H as <- <- <- <-.
      destruct (IH _ _ _ _ _ _ Eq H3) as (-> & T & K & N). split.
      * destruct tr1 as [|a tr1]; [reflexivity|]. cbn [last].
        clear. revert a. induction tr1 as [|b tr1 IH]; intros a; [reflexivity|]. cbn [last]. apply IH.
      * split; [constructor; auto|]. split; [split; auto|discriminate].
    + injection H as <- <- <- <-. split; [reflexivity|]. split; [constructor; auto|]. split; [split; [exact B|cbn; auto]|discriminate].
  - injection H as <- <- <- <-. split; [reflexivity|]. split; [constructor|]. split; [cbn; auto|discriminate].
Qed.
End Fast.

(** ** the budget *)
Section Budget.
Context {G F W : Type}.
Notation I := (indiv G F).
Variable value : G -> F.
Variable flip : Q -> W -> res (bool * W).
Variable func : I -> W -> res (I * W).
Hypothesis Hc : computes value func.
Variable max_evals : nat.
Notation budget := (Nat.max 1 max_evals).
Notation peval := (budget_eval func max_evals).

Lemma throw_zero l : forall s, apply_throw func 0 l s = apply_throw func 1 l s.
Proof.
  induction l as [|x l IH]; intros s; [reflexivity|]. cbn [apply_throw]. unfold throw_eval.
  unfold counter_eval. destruct (fit x); cbn [rbind]; [rewrite IH; reflexivity|].
  destruct (func x (snd s)) as [[x' w']| | |]; reflexivity.
Qed.
Lemma throw_budget l s : apply_throw func max_evals l s = apply_throw func budget l s.
Proof. destruct max_evals; [apply throw_zero|reflexivity]. Qed.
Lemma peval_inl l s l' s' : fst s < budget -> peval l s = Ok (inl (l', s')) ->
  l' = all_evaluated value l /\ fst s' = fst s + n_unev l /\ fst s' < budget.
Proof.
  intros Hs H. unfold budget_eval in H. rewrite throw_budget in H. apply rbind_ok in H as (r & H1 & H).
  pose proof (throw_apply value func budget l Hc s r Hs H1) as T. destruct r as [[a b]|[a b]]; [|discriminate].
  injection H as -> ->. tauto.
Qed.
Lemma peval_inr l s s' : fst s < budget -> peval l s = Ok (inr s') -> fst s' = budget /\ budget <= fst s + n_unev l.
Proof.
  intros Hs H. unfold budget_eval in H. rewrite throw_budget in H. apply rbind_ok in H as (r & H1 & H).
  pose proof (throw_apply value func budget l Hc s r Hs H1) as T. destruct r as [[a b]|[a b]]; [discriminate|].
  injection H as ->. tauto.
Qed.
Lemma peval_any l : forall s l' s', peval l s = Ok (inl (l', s')) -> l' = all_evaluated value l.
Proof.
  unfold budget_eval. induction l as [|x l IH]; intros s l' s' H; apply rbind_ok in H as (r & H1 & H); cbn [apply_throw] in H1.
  - injection H1 as <-. injection H as <- <-. reflexivity.
  - apply rbind_ok in H1 as (y & H2 & H1). destruct y as [[x' s1]|[x' s1]]; [|injection H1 as <-; discriminate].
    apply rbind_ok in H1 as (z & H3 & H1). destruct z as [[r' s2]|[r' s2]]; injection H1 as <-; [|discriminate].
    injection H as <- <-. specialize (IH s1 r' s2). rewrite H3 in IH. specialize (IH eq_refl). subst r'. cbn [all_evaluated map]. f_equal.
    unfold throw_eval, counter_eval in H2. destruct (fit x); [congruence|].
    apply rbind_ok in H2 as ([x2 s3] & H4 & H2). destruct (max_evals <=? fst s3); [discriminate|].
    injection H2 as <- <-. apply rbind_ok in H4 as ([x4 w4] & H5 & H4). injection H4 as <- <-. exact (Hc _ _ _ _ H5).
Qed.
Variable ops : operators G F W.
Notation flip' := (fun q => aside (flip q)).
Notation ops' := (lift_ops ops).
Lemma aside_ok {A} (f : W -> res (A * W)) s a s' : aside f s = Ok (a, s') -> fst s' = fst s /\ f (snd s) = Ok (a, snd s').
Proof. unfold aside. intros H. apply rbind_ok in H as ([a1 w1] & H1 & H). injection H as <- <-. auto. Qed.

(** the cost of an offspring: evaluations made, and whether it is still unevaluated *)
Definition changing_mon (f : mon_op (G:=G) (F:=F) (W:=W)) : Prop := forall x w z b w', f x w = Ok (z, b, w') -> b = true.
Definition changing_quad (f : quad_op (G:=G) (F:=F) (W:=W)) : Prop := forall x y w x' y' b w', f x y w = Ok (x', y', b, w') -> b = true.

Lemma offspring_cost pop s r : fst s < budget -> make_offspring flip' peval ops' pop s = Ok r ->
  match r with
  | inl (x, s') => fst s <= fst s' < budget /\
      (changing_mon (mutation ops) -> changing_quad (crossover ops) -> fst s + 1 <= fst s' + n_unev [x])
  | inr s' => fst s' = budget
  end.
Proof.
  intros Hs H. unfold make_offspring in H.
  apply rbind_ok in H as ([c w1] & Hf & H). apply aside_ok in Hf as [E1 _]. destruct c.
  - apply rbind_ok in H as (w2 & H1 & H). apply rbind_ok in H1 as (u & _ & H1). injection H1 as <-.
    apply rbind_ok in H as ([x1 w3] & H2 & H). apply aside_ok in H2 as [E3 _].
    apply rbind_ok in H as ([x2 w4] & H3 & H). apply aside_ok in H3 as [E4 _].
    apply rbind_ok in H as ([[[y1 y2] b] w5] & H4 & H). apply aside_ok in H4 as [E5 H4]. cbn [fst] in *.
    assert (fst w5 = fst s) as E by congruence.
    apply rbind_ok in H as (r5 & H5 & H). destruct r5 as [[crossed w6]|w6].
    2:{ injection H as <-. apply peval_inr in H5; [tauto|lia]. }
    apply peval_inl in H5 as (-> & E6 & L6); [|lia].
    apply rbind_ok in H as (w7 & H6 & H). apply rbind_ok in H6 as (u' & _ & H6). injection H6 as <-.
    apply rbind_ok in H as ([x3 w8] & H7 & H). apply aside_ok in H7 as [E8 _].
    apply rbind_ok in H as ([m w9] & H8 & H). apply aside_ok in H8 as [E9 _]. cbn [fst] in *.
    destruct m.
    + apply rbind_ok in H as ([[z b'] w10] & H9 & H). apply aside_ok in H9 as [E10 H9]. injection H as <-.
      split; [lia|]. intros Cm _. apply Cm in H9. subst b'. unfold n_unev. cbn. lia.
    + injection H as <-. split; [lia|]. intros _ Cq. apply Cq in H4. subst b. unfold n_unev in E6. cbn in E6. lia.
  - apply rbind_ok in H as (w2 & H1 & H). apply rbind_ok in H1 as (u & _ & H1). injection H1 as <-.
    apply rbind_ok in H as ([x3 w3] & H2 & H). apply aside_ok in H2 as [E3 _].
    apply rbind_ok in H as ([[z b] w4] & H3 & H). apply aside_ok in H3 as [E4 H3]. injection H as <-. cbn [fst] in *.
    split; [lia|]. intros Cm _. apply Cm in H3. subst b. unfold n_unev. cbn. lia.
Qed.
Lemma n_unev_cons x (l : list I) : n_unev (x :: l) = n_unev [x] + n_unev l.
Proof. unfold n_unev. cbn. destruct (is_unev x); reflexivity. Qed.
Lemma offsprings_cost n pop : forall s r, fst s < budget -> make_offsprings flip' peval ops' n pop s = Ok r ->
  match r with
  | inl (l, s') => fst s <= fst s' < budget /\
      (changing_mon (mutation ops) -> changing_quad (crossover ops) -> fst s + n <= fst s' + n_unev l)
  | inr s' => fst s' = budget
  end.
Proof.
  induction n as [|n IH]; intros s r Hs H; cbn [make_offsprings] in H.
  - injection H as <-. split; [lia|]. intros _ _. cbn [n_unev filter length]. lia.
  - apply rbind_ok in H as (r1 & H1 & H). apply offspring_cost in H1; [|exact Hs]. destruct r1 as [[x s1]|s1].
    2:{ injection H as <-. exact H1. }
    destruct H1 as [L1 C1]. apply rbind_ok in H as (r2 & H2 & H). apply IH in H2; [|lia]. destruct r2 as [[l s2]|s2]; injection H as <-.
    + destruct H2 as [L2 C2]. split; [lia|]. intros Cm Cq. rewrite n_unev_cons. specialize (C1 Cm Cq). specialize (C2 Cm Cq). lia.
    + exact H2.
Qed.
Lemma generation_cost lambda pop s r : fst s < budget -> generation flip' peval ops' lambda pop s = Ok r ->
  match r with
  | inl (p, s') => fst s <= fst s' < budget /\
      (changing_mon (mutation ops) -> changing_quad (crossover ops) -> fst s + lambda <= fst s')
  | inr s' => fst s' = budget
  end.
Proof.
  intros Hs H. unfold generation in H. apply rbind_ok in H as (r1 & H1 & H). apply offsprings_cost in H1; [|exact Hs].
  destruct r1 as [[l s1]|s1]; [|injection H as <-; exact H1]. destruct H1 as [L1 C1].
  apply rbind_ok in H as (r2 & H2 & H). destruct r2 as [[off s2]|s2].
  - apply peval_inl in H2 as (_ & E & L); [|lia]. apply rbind_ok in H as ([p s3] & H3 & H). injection H as <-.
    apply aside_ok in H3 as [E3 _]. split; [lia|]. intros Cm Cq. specialize (C1 Cm Cq). lia.
  - injection H as <-. apply peval_inr in H2; [tauto|lia].
Qed.
Lemma loop_cost fuel lambda : forall pop s p tr e s', fst s < budget ->
  fastga_loop flip' peval ops' fuel lambda pop s = Ok (p, tr, e, s') ->
  fst s' <= budget /\ (e = true <-> fst s' = budget) /\
  (changing_mon (mutation ops) -> changing_quad (crossover ops) -> fst s + lambda * length tr <= fst s').
Proof.
  induction fuel as [|f IH]; intros pop s p tr e s' Hs H; cbn [fastga_loop] in H; [discriminate|].
  apply rbind_ok in H as (r & H1 & H). apply generation_cost in H1; [|exact Hs]. destruct r as [[q s1]|s1].
  - destruct H1 as [L1 C1]. apply rbind_ok in H as ([b s2] & H2 & H). apply aside_ok in H2 as [E2 _]. destruct b.
    + apply rbind_ok in H as ([[[p1 tr1] e1] s3] & H3 & H). injection H as <- <- <- <-.
      apply IH in H3; [|lia]. destruct H3 as (A & B & C). split; [exact A|]. split; [exact B|]. intros Cm Cq.
      specialize (C Cm Cq). specialize (C1 Cm Cq). cbn [length]. lia.
    + injection H as <- <- <- <-. split; [lia|]. split; [split; [discriminate|lia]|]. intros Cm Cq. specialize (C1 Cm Cq). cbn. lia.
  - injection H as <- <- <- <-. split; [lia|]. split; [tauto|]. intros _ _. cbn. lia.
Qed.
Lemma loop_fuel lambda : lambda > 0 -> changing_mon (mutation ops) -> changing_quad (crossover ops) ->
  forall n fuel pop s, fst s < budget -> budget - fst s <= n -> n <= fuel ->
  fastga_loop flip' peval ops' fuel lambda pop s = fastga_loop flip' peval ops' n lambda pop s.
Proof.
  intros Hl Cm Cq. induction n as [|n IH]; intros fuel pop s Hs Hn Hf; [lia|].
  destruct fuel as [|fuel]; [lia|]. cbn [fastga_loop].
  destruct (generation flip' peval ops' lambda pop s) as [r| | |] eqn:Hg; cbn [rbind]; try reflexivity.
  apply generation_cost in Hg; [|exact Hs]. destruct r as [[q s1]|s1]; [|reflexivity]. destruct Hg as [L1 C1]. specialize (C1 Cm Cq).
  destruct (cont ops' q s1) as [[b s2]| | |] eqn:Hk; cbn [rbind]; try reflexivity. destruct b; [|reflexivity].
  apply aside_ok in Hk as [E2 _]. rewrite (IH fuel q s2) by lia. reflexivity.
Qed.
End Budget.

(** ** what the foundry assembles *)
Lemma value_ok encs i q : value encs i = Ok q -> nth_error encs i = Some (inr q).
Proof. unfold value. destruct (nth_error encs i) as [[n|q']|]; try discriminate. intros H. injection H as ->. reflexivity. Qed.
Lemma taken_ok {A} encs i (l : list A) a : taken encs i l = Ok a -> exists r, nth_error encs i = Some (inl r) /\ nth_error l r = Some a.
Proof.
  unfold taken. intros H. apply rbind_ok in H as (r & H1 & H). exists r. unfold rank in H1. unfold shelf in H.
  destruct (nth_error encs i) as [[n|q']|]; try discriminate. injection H1 as ->. destruct (nth_error l r); [|discriminate]. injection H as ->. auto.
Qed.
Lemma scalar_capped lo hi v : (lo <= hi)%Q -> capped lo hi v (scalar lo hi v).
Proof.
  intros Hl. unfold scalar, qltb.
  destruct (Qle_bool lo v) eqn:A; destruct (Qle_bool v hi) eqn:B; cbn [negb andb];
  try (rewrite Qle_bool_iff in A); try (rewrite Qle_bool_iff in B);
  try (assert (v < lo)%Q by (apply Qnot_le_lt; intros C; apply Qle_bool_iff in C; congruence));
  try (assert (hi < v)%Q by (apply Qnot_le_lt; intros C; apply Qle_bool_iff in C; congruence));
  unfold capped; repeat split; intros; try assumption; try reflexivity; try apply Qle_refl;
  try (exfalso; eapply Qlt_not_le; eassumption); try (exfalso; destruct H0 as [? ?]; eapply Qlt_not_le; eassumption);
  try (exfalso; destruct H1 as [? ?]; eapply Qlt_not_le; eassumption).
  - exfalso. apply (Qlt_irrefl v). eapply Qlt_le_trans; [exact H|]. eapply Qle_trans; [exact Hl|]. apply Qlt_le_weak. assumption.
Qed.
