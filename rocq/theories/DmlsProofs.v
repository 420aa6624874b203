(** Proofs about the dominance-based local searches (C111-C113). *)
From Coq Require Import List Bool QArith Arith Lia Lqa Permutation.
From Verif Require Import Lib Outcome NeighModel ParetoModel ParetoSpec ParetoProofs ArchModel ArchSpec ArchProofs ArchReal DmlsSpec DmlsModel.
Import ListNotations.
Close Scope Q_scope.
Open Scope nat_scope.

(** ** order on vectors *)
Section Order.
Variable dirs : list bool.
Notation ok v := (length v = length dirs).
Notation le v w := (dominates dirs w v \/ equal_vectors v w).
Lemma dominates_trans u v w : ok u -> ok v -> ok w -> dominates dirs v u -> dominates dirs w v -> dominates dirs w u.
Proof. intros Hu Hv Hw H1 H2. apply pareto_exact; auto. apply (pareto_trans dirs u v w); auto; apply pareto_exact; auto. Qed.
Lemma dominates_irrefl v : ok v -> ~ dominates dirs v v.
Proof. intros Hv H. apply pareto_exact in H; auto. rewrite pareto_irrefl in H; [discriminate|lra|auto]. Qed.
Lemma le_trans u v w : ok u -> ok v -> ok w -> le u v -> le v w -> le u w.
Proof.
  intros Hu Hv Hw [H1|H1] [H2|H2].
  - left. exact (dominates_trans u v w Hu Hv Hw H1 H2).
  - left. eapply dominates_equal; [exact H2|apply equal_vectors_refl|exact H1].
  - left. eapply dominates_equal; [apply equal_vectors_refl|apply equal_vectors_sym; exact H1|exact H2].
  - right. eapply equal_vectors_trans; eauto.
Qed.
Lemma le_lt u v w : ok u -> ok v -> ok w -> le u v -> dominates dirs w v -> dominates dirs w u.
Proof.
  intros Hu Hv Hw [H1|H1] H2; [exact (dominates_trans u v w Hu Hv Hw H1 H2)|].
  eapply dominates_equal; [apply equal_vectors_refl|apply equal_vectors_sym; exact H1|exact H2].
Qed.
Lemma lt_le u v w : ok u -> ok v -> ok w -> dominates dirs v u -> le v w -> dominates dirs w u.
Proof. intros Hu Hv Hw H1 [H2|H2]; [exact (dominates_trans u v w Hu Hv Hw H1 H2)|]. eapply dominates_equal; [exact H2|apply equal_vectors_refl|exact H1]. Qed.
End Order.

Section Archive.
Variable A : Type.
Variable obj : A -> list Q.
Variable dirs : list bool.
Variable replace : bool.
Notation P := (fun a => length (obj a) = length dirs).
Notation le v w := (dominates dirs w v \/ equal_vectors v w).
Notation chain := (antichain (fun a b => dominates dirs (obj b) (obj a)) (fun a b => equal_vectors (obj a) (obj b))).
Notation update_pop := (update_pop A (list Q) obj (pareto 0 dirs) (same_vector 0) replace).
Lemma chain_bool l : Forall P l -> (chain l <-> antichain (fun a b => pareto 0 dirs (obj a) (obj b) = true) (fun a b => same_vector 0 (obj a) (obj b) = true) l).
Proof.
  intros F. rewrite Forall_forall in F. split; intros H i j a b Hij Ha Hb; pose proof (H i j a b Hij Ha Hb) as [H1 H2]; apply nth_error_In in Ha, Hb;
    [rewrite (cmp_dom A obj dirs), (cmp_eqv A obj dirs) by auto; auto|rewrite (cmp_dom A obj dirs) in H1 by auto; rewrite (cmp_eqv A obj dirs) in H2 by auto; auto].
Qed.
Lemma archive_step init offered : Forall P (init ++ offered) -> chain init ->
  exists l b, update_pop init offered false = Ok (l, b) /\ (forall m, In m l -> In m (init ++ offered)) /\ chain l /\ forall x, In x (init ++ offered) -> exists m, In m l /\ le (obj x) (obj m).
Proof.
  intros F Hc. assert (Fi : Forall P init) by (apply Forall_app in F; tauto).
  destruct (update_pop_inv A (list Q) obj (pareto 0 dirs) (same_vector 0) replace (good A (list Q) obj (pareto 0 dirs) (same_vector 0) P)) with (pop := offered) (seen := init) (l := init) (acc := false) as (l & b & E & Hg).
  - intros seen l x l' b. apply (update_good A (list Q) obj (pareto 0 dirs) (same_vector 0) replace).
    + intros a b0. apply same_vector_sym.
    + intros a b0 c. cbv beta. intros. eapply pareto_trans; [..|eassumption]; eauto.
    + intros a Pa. apply (cmp_eqv A obj dirs); auto. apply equal_vectors_refl.
    + intros a b0 c Pa Pb Pc H1 H2. apply (cmp_eqv A obj dirs) in H1, H2; auto. apply (cmp_eqv A obj dirs); auto. eapply equal_vectors_trans; eauto.
    + intros a b0 c Pa Pb Pc H1 H2. apply (cmp_dom A obj dirs) in H1; auto. apply (cmp_eqv A obj dirs) in H2; auto. apply (cmp_dom A obj dirs); auto. eapply dominates_equal; eauto using equal_vectors_refl.
    + intros a b0 c Pa Pb Pc H1 H2. apply (cmp_dom A obj dirs) in H2; auto. apply (cmp_eqv A obj dirs) in H1; auto. apply (cmp_dom A obj dirs); auto. eapply dominates_equal; [..|exact H2]; eauto using equal_vectors_refl, equal_vectors_sym.
  - intros _. split; auto. rewrite Forall_forall in Fi. split; [intros x Hx; exists x; split; auto; right; apply (cmp_eqv A obj dirs); auto; apply equal_vectors_refl|].
    apply antichain_sep. apply chain_bool; [apply Forall_forall; auto|auto].
  - destruct (Hg F) as (G1 & G2 & G3). exists l, b. split; auto. split; auto. rewrite Forall_forall in F. split.
    + apply chain_bool; [apply Forall_forall; auto|]. apply antichain_sep in G3; auto.
    + intros x Hx. destruct (G2 x Hx) as (m & Hm & Hd). exists m. split; auto. rewrite (cmp_dom A obj dirs), (cmp_eqv A obj dirs) in Hd by auto. auto.
Qed.
End Archive.

Section Dmls.
Variables G K S : Type.
Variable dirs : list bool.
Variable has : G -> bool.
Variable nh : G -> iterator S K.
Variable move : K -> G -> G.
Variable eval : G -> K -> list Q.
Variable evaluate : G -> list Q.
Variable keys : G -> list K.
Variable good : S -> Prop.
Notation ok v := (length v = length dirs).
Notation le v w := (dominates dirs w v \/ equal_vectors v w).
Hypothesis eval_right : forall g k, eval g k = evaluate (move k g).
Hypothesis lengths : forall g, ok (evaluate g).
Hypothesis nh_ok : forall g, has g = true -> enumerates good (nh g) (keys g).
Notation neighbour := (neighbour G K move eval).
Notation cycle := (cycle G K dirs move eval).
Notation right x := (vec x = evaluate (geno x)).

(** what an explorer does for one solution *)
Definition explorer_ok (explore : sol G -> S -> list nat -> res (list (sol G) * bool * S * list nat)) : Prop :=
  forall src s ds new fl s' ds', right src -> good s -> explore src s ds = Ok (new, fl, s', ds') ->
    good s' /\ (forall y, In y new -> exists k, y = neighbour src k) /\
    (fl = true -> forall k, In k (keys (geno src)) -> exists m, In m (src :: new) /\ le (evaluate (move k (geno src))) (vec m)).
Definition explorer_progress (explore : sol G -> S -> list nat -> res (list (sol G) * bool * S * list nat)) : Prop :=
  forall src s ds new fl s' ds', right src -> good s -> explore src s ds = Ok (new, fl, s', ds') -> fl = true \/ exists y, In y new /\ dominates dirs (vec y) (vec src).

Lemma exhaustive_loop_ok src : right src -> has (geno src) = true -> forall fuel s ds new s' ds', good s -> exhaustive_loop G K S nh move eval fuel src s ds = Ok (new, s', ds') ->
  good s' /\ exists l, continue (nh (geno src)) fuel s ds = Ok (l, s', ds') /\ new = map (neighbour src) l.
Proof.
  intros Hr Hh. destruct (nh_ok _ Hh) as (_ & Hn & _). induction fuel as [|fuel IH]; intros s ds new s' ds' Hg E; cbn [exhaustive_loop continue] in *; destruct (i_cont (nh (geno src)) s) eqn:Ec; try discriminate.
  - assert (new = [] /\ s' = s /\ ds' = ds) as (-> & -> & ->) by (split; [|split]; congruence). split; auto. exists []. auto.
  - apply rbind_ok in E as ([[s1 k] ds1] & E1 & E). apply rbind_ok in E as ([[n1 s2] ds2] & E2 & E). assert (new = neighbour src k :: n1 /\ s' = s2 /\ ds' = ds2) as (-> & -> & ->) by (split; [|split]; congruence).
    destruct (IH s1 ds1 n1 s2 ds2 (Hn _ _ _ _ _ Hg Ec E1) E2) as (G' & l & El & ->). split; auto. rewrite E1. cbn [rbind]. rewrite El. cbn [rbind]. exists (k :: l). auto.
  - assert (new = [] /\ s' = s /\ ds' = ds) as (-> & -> & ->) by (split; [|split]; congruence). split; auto. exists []. auto.
Qed.
Lemma explore_is it fuel s ds s1 (k : K) ds1 l s' ds' : i_init it s ds = Ok (s1, k, ds1) -> continue it fuel s1 ds1 = Ok (l, s', ds') -> explore (S := S) it fuel s ds = Ok (k :: l, s', ds').
Proof. intros E1 E2. unfold explore. rewrite E1. cbn [rbind]. rewrite E2. auto. Qed.
Lemma matched_new src new l k : (forall j, In j l -> In (neighbour src j) new) -> In k l -> exists m, In m (src :: new) /\ le (evaluate (move k (geno src))) (vec m).
Proof. intros H Hk. exists (neighbour src k). split; [right; auto|]. right. unfold DmlsModel.neighbour. cbn [vec]. rewrite eval_right. apply equal_vectors_refl. Qed.
Lemma exhaustive_ok fuel : explorer_ok (exhaustive G K S has nh move eval fuel).
Proof.
  intros src s ds new fl s' ds' Hr Hg E. unfold exhaustive in E. destruct (has (geno src)) eqn:Hh; [|assert (new = [] /\ fl = false /\ s' = s) as (-> & -> & ->) by (split; [|split]; congruence); split; auto; split; [intros y []|discriminate]].
  apply rbind_ok in E as ([[s1 k] ds1] & E1 & E). apply rbind_ok in E as ([[n1 s2] ds2] & E2 & E). assert (new = neighbour src k :: n1 /\ s' = s2 /\ ds' = ds2) as (-> & -> & ->) by (split; [|split]; congruence).
  destruct (nh_ok _ Hh) as (Hi & Hn & Ha). destruct (exhaustive_loop_ok src Hr Hh fuel s1 ds1 n1 s2 ds2 (Hi _ _ _ _ _ Hg E1) E2) as (G' & l & El & ->). split; auto. change (neighbour src k :: map (neighbour src) l) with (map (neighbour src) (k :: l)). split.
  - intros y Hy. apply in_map_iff in Hy as (j & <- & _). eauto.
  - intros _ j Hj. apply (matched_new _ _ (k :: l)); [intros; apply in_map; auto|]. eapply Ha; [exact Hg|eapply explore_is; eauto|auto].
Qed.
Lemma exhaustive_progress fuel : (forall g, has g = true) -> explorer_progress (exhaustive G K S has nh move eval fuel).
Proof.
  intros Hh src s ds new fl s' ds' Hr Hg E. unfold exhaustive in E. rewrite Hh in E. apply rbind_ok in E as ([[s1 k] ds1] & E1 & E). apply rbind_ok in E as ([[n1 s2] ds2] & E2 & E). left. congruence.
Qed.
Lemma cycle_new src k y : In y (cycle src k) -> y = neighbour src k.
Proof. unfold DmlsModel.cycle. destruct (pareto _ _ _ _); [intros []|intros [<-|[]]; auto]. Qed.
Lemma cycle_matched src new k : right src -> (forall y, In y (cycle src k) -> In y new) -> exists m, In m (src :: new) /\ le (evaluate (move k (geno src))) (vec m).
Proof.
  intros Hr H. destruct (pareto 0 dirs (eval (geno src) k) (vec src)) eqn:E.
  - exists src. split; [left; auto|]. left. rewrite eval_right in E. apply pareto_exact in E; auto. rewrite Hr. auto.
  - apply (matched_new _ _ [k]); [|left; auto]. intros j [<-|[]]. apply H. unfold DmlsModel.cycle. rewrite E. left. auto.
Qed.
Lemma improving_loop_ok src : right src -> has (geno src) = true -> forall fuel k0 s ds new s' ds', good s -> improving_loop G K S dirs nh move eval fuel src k0 s ds = Ok (new, s', ds') ->
  good s' /\ (forall y, In y new -> exists k, y = neighbour src k) /\
  (i_cont (nh (geno src)) s' = false -> exists l, continue (nh (geno src)) fuel s ds = Ok (l, s', ds') /\ forall k, In k l -> forall y, In y (cycle src k) -> In y new) /\
  (i_cont (nh (geno src)) s' = true -> dominates dirs (eval (geno src) k0) (vec src) \/ exists y, In y new /\ dominates dirs (vec y) (vec src)).
Proof.
  intros Hr Hh. destruct (nh_ok _ Hh) as (_ & Hn & _).
  assert (D : forall k, pareto 0 dirs (vec src) (eval (geno src) k) = true -> dominates dirs (eval (geno src) k) (vec src)) by (intros k H; apply pareto_exact in H; [auto|rewrite Hr; auto|rewrite eval_right; auto]).
  induction fuel as [|fuel IH]; intros k0 s ds new s' ds' Hg E; cbn [improving_loop continue] in *; destruct (pareto 0 dirs (vec src) (eval (geno src) k0)) eqn:Ep; cbn [negb andb] in E.
  - assert (new = [] /\ s' = s /\ ds' = ds) as (-> & -> & ->) by (split; [|split]; congruence). split; auto. split; [intros y []|]. split; [intros ->; exists []; split; auto; intros k []|intros _; left; auto].
  - destruct (i_cont (nh (geno src)) s) eqn:Ec; [discriminate|]. assert (new = [] /\ s' = s /\ ds' = ds) as (-> & -> & ->) by (split; [|split]; congruence). split; auto. split; [intros y []|]. split; [exists []; split; auto; intros k []|congruence].
  - assert (new = [] /\ s' = s /\ ds' = ds) as (-> & -> & ->) by (split; [|split]; congruence). split; auto. split; [intros y []|]. split; [intros ->; exists []; split; auto; intros k []|intros _; left; auto].
  - destruct (i_cont (nh (geno src)) s) eqn:Ec.
    + apply rbind_ok in E as ([[s1 k] ds1] & E1 & E). apply rbind_ok in E as ([[n1 s2] ds2] & E2 & E). assert (new = cycle src k ++ n1 /\ s' = s2 /\ ds' = ds2) as (-> & -> & ->) by (split; [|split]; congruence).
      destruct (IH k s1 ds1 n1 s2 ds2 (Hn _ _ _ _ _ Hg Ec E1) E2) as (G' & N' & A' & B'). split; auto. split; [intros y Hy; apply in_app_or in Hy as [Hy|Hy]; eauto using cycle_new|]. rewrite E1. cbn [rbind]. split.
      * intros C. destruct (A' C) as (l & El & Hl). rewrite El. cbn [rbind]. exists (k :: l). split; auto. intros j [->|Hj] y Hy; apply in_or_app; [left; auto|right; eauto].
      * intros C. right. destruct (B' C) as [H|(y & Hy & H)]; [|exists y; split; auto; apply in_or_app; auto]. exists (neighbour src k). split; [|auto]. apply in_or_app. left.
        unfold DmlsModel.cycle. destruct (pareto 0 dirs (eval (geno src) k) (vec src)) eqn:Eq; [|left; auto]. exfalso. apply pareto_exact in Eq; [|rewrite eval_right; auto|rewrite Hr; auto].
        apply (dominates_irrefl dirs (vec src)); [rewrite Hr; auto|]. eapply (dominates_trans dirs (vec src)); [| |..|exact Eq]; [rewrite Hr; auto|rewrite eval_right; auto|rewrite Hr; auto|exact H].
    + assert (new = [] /\ s' = s /\ ds' = ds) as (-> & -> & ->) by (split; [|split]; congruence). split; auto. split; [intros y []|]. split; [exists []; split; auto; intros k []|congruence].
Qed.
Lemma first_improving_both fuel : explorer_ok (first_improving G K S dirs has nh move eval fuel) /\ ((forall g, has g = true) -> explorer_progress (first_improving G K S dirs has nh move eval fuel)).
Proof.
  assert (B : forall src s ds new fl s' ds', right src -> good s -> first_improving G K S dirs has nh move eval fuel src s ds = Ok (new, fl, s', ds') ->
    (good s' /\ (forall y, In y new -> exists k, y = neighbour src k) /\ (fl = true -> forall k, In k (keys (geno src)) -> exists m, In m (src :: new) /\ le (evaluate (move k (geno src))) (vec m))) /\
    (has (geno src) = true -> fl = true \/ exists y, In y new /\ dominates dirs (vec y) (vec src))).
  { intros src s ds new fl s' ds' Hr Hg E. unfold first_improving in E. destruct (has (geno src)) eqn:Hh; [|assert (new = [] /\ fl = false /\ s' = s) as (-> & -> & ->) by (split; [|split]; congruence); split; [split; auto; split; [intros y []|discriminate]|discriminate]].
    apply rbind_ok in E as ([[s1 k] ds1] & E1 & E). apply rbind_ok in E as ([[n1 s2] ds2] & E2 & E). assert (new = cycle src k ++ n1 /\ s' = s2 /\ ds' = ds2 /\ fl = negb (i_cont (nh (geno src)) s2)) as (-> & -> & -> & ->) by (split; [|split; [|split]]; congruence).
    destruct (nh_ok _ Hh) as (Hi & Hn & Ha). destruct (improving_loop_ok src Hr Hh fuel k s1 ds1 n1 s2 ds2 (Hi _ _ _ _ _ Hg E1) E2) as (G' & N' & A' & B'). split; [split; auto; split|].
    - intros y Hy. apply in_app_or in Hy as [Hy|Hy]; eauto using cycle_new.
    - intros C j Hj. apply negb_true_iff in C. destruct (A' C) as (l & El & Hl). apply cycle_matched; auto. intros y Hy. apply in_or_app.
      destruct (Ha _ _ _ _ _ _ Hg (explore_is _ _ _ _ _ _ _ _ _ _ E1 El) j Hj) as [->|Hin]; [left; auto|right; eauto].
    - intros _. destruct (i_cont (nh (geno src)) s2) eqn:Ec; [|left; auto]. right. destruct (B' eq_refl) as [H|(y & Hy & H)]; [|exists y; split; auto; apply in_or_app; auto].
      exists (neighbour src k). split; [|auto]. apply in_or_app. left. unfold DmlsModel.cycle. destruct (pareto 0 dirs (eval (geno src) k) (vec src)) eqn:Eq; [|left; auto]. exfalso. apply pareto_exact in Eq; [|rewrite eval_right; auto|rewrite Hr; auto].
      apply (dominates_irrefl dirs (vec src)); [rewrite Hr; auto|]. eapply (dominates_trans dirs (vec src)); [| |..|exact Eq]; [rewrite Hr; auto|rewrite eval_right; auto|rewrite Hr; auto|exact H]. }
  split; [intros src s ds new fl s' ds' Hr Hg E; apply (B src s ds new fl s' ds'); auto|intros Hh src s ds new fl s' ds' Hr Hg E; apply (B src s ds new fl s' ds'); auto].
Qed.
Lemma no_desimproving_loop_ok src : right src -> has (geno src) = true -> forall fuel tmp s ds new s' ds', good s -> no_desimproving_loop G K S dirs nh move eval fuel src tmp s ds = Ok (new, s', ds') ->
  good s' /\ (forall y, In y new -> exists k, y = neighbour src k) /\
  (i_cont (nh (geno src)) s' = false -> exists l, continue (nh (geno src)) fuel s ds = Ok (l, s', ds') /\ forall k, In k l -> forall y, In y (cycle src k) -> In y new).
Proof.
  intros Hr Hh. destruct (nh_ok _ Hh) as (_ & Hn & _). induction fuel as [|fuel IH]; intros tmp s ds new s' ds' Hg E; cbn [no_desimproving_loop continue] in *; destruct (i_cont (nh (geno src)) s) eqn:Ec; cbn [andb] in E; try destruct tmp; try discriminate;
    try (assert (new = [] /\ s' = s /\ ds' = ds) as (-> & -> & ->) by (split; [|split]; congruence); split; auto; split; [intros y []|]; first [congruence|intros _; exists []; split; auto; intros k []]).
  apply rbind_ok in E as ([[s1 k] ds1] & E1 & E). apply rbind_ok in E as ([[n1 s2] ds2] & E2 & E). assert (new = cycle src k ++ n1 /\ s' = s2 /\ ds' = ds2) as (-> & -> & ->) by (split; [|split]; congruence).
  destruct (IH _ s1 ds1 n1 s2 ds2 (Hn _ _ _ _ _ Hg Ec E1) E2) as (G' & N' & A'). split; auto. split; [intros y Hy; apply in_app_or in Hy as [Hy|Hy]; eauto using cycle_new|]. rewrite E1. cbn [rbind].
  intros C. destruct (A' C) as (l & El & Hl). rewrite El. cbn [rbind]. exists (k :: l). split; auto. intros j [->|Hj] y Hy; apply in_or_app; [left; auto|right; eauto].
Qed.
Lemma no_desimproving_ok fuel : explorer_ok (no_desimproving G K S dirs has nh move eval fuel).
Proof.
  intros src s ds new fl s' ds' Hr Hg E. unfold no_desimproving in E. destruct (has (geno src)) eqn:Hh; [|assert (new = [] /\ fl = false /\ s' = s) as (-> & -> & ->) by (split; [|split]; congruence); split; auto; split; [intros y []|discriminate]].
  apply rbind_ok in E as ([[s1 k] ds1] & E1 & E). apply rbind_ok in E as ([[n1 s2] ds2] & E2 & E). assert (new = cycle src k ++ n1 /\ s' = s2 /\ ds' = ds2 /\ fl = negb (i_cont (nh (geno src)) s2)) as (-> & -> & -> & ->) by (split; [|split; [|split]]; congruence).
  destruct (nh_ok _ Hh) as (Hi & Hn & Ha). destruct (no_desimproving_loop_ok src Hr Hh fuel _ s1 ds1 n1 s2 ds2 (Hi _ _ _ _ _ Hg E1) E2) as (G' & N' & A'). split; auto. split.
  - intros y Hy. apply in_app_or in Hy as [Hy|Hy]; eauto using cycle_new.
  - intros C j Hj. apply negb_true_iff in C. destruct (A' C) as (l & El & Hl). apply cycle_matched; auto. intros y Hy. apply in_or_app.
    destruct (Ha _ _ _ _ _ _ Hg (explore_is _ _ _ _ _ _ _ _ _ _ E1 El) j Hj) as [->|Hin]; [left; auto|right; eauto].
Qed.
Lemma sub_loop_ok src : right src -> has (geno src) = true -> forall tmp s ds new s' ds', good s -> sub_loop G K S nh move eval tmp src s ds = Ok (new, s', ds') ->
  good s' /\ (forall y, In y new -> exists k, y = neighbour src k) /\
  (i_cont (nh (geno src)) s' = false -> exists l, continue (nh (geno src)) tmp s ds = Ok (l, s', ds') /\ new = map (neighbour src) l).
Proof.
  intros Hr Hh. destruct (nh_ok _ Hh) as (_ & Hn & _). induction tmp as [|tmp IH]; intros s ds new s' ds' Hg E; cbn [sub_loop continue] in *; destruct (i_cont (nh (geno src)) s) eqn:Ec;
    try (assert (new = [] /\ s' = s /\ ds' = ds) as (-> & -> & ->) by (split; [|split]; congruence); split; auto; split; [intros y []|]; first [congruence|intros _; exists []; split; auto; intros k []]).
  apply rbind_ok in E as ([[s1 k] ds1] & E1 & E). apply rbind_ok in E as ([[n1 s2] ds2] & E2 & E). assert (new = neighbour src k :: n1 /\ s' = s2 /\ ds' = ds2) as (-> & -> & ->) by (split; [|split]; congruence).
  destruct (IH s1 ds1 n1 s2 ds2 (Hn _ _ _ _ _ Hg Ec E1) E2) as (G' & N' & A'). split; auto. split; [intros y [<-|Hy]; eauto|]. rewrite E1. cbn [rbind].
  intros C. destruct (A' C) as (l & El & ->). rewrite El. cbn [rbind]. exists (k :: l). auto.
Qed.
Lemma simple_sub_ok number : explorer_ok (simple_sub G K S has nh move eval number).
Proof.
  intros src s ds new fl s' ds' Hr Hg E. unfold simple_sub in E. destruct (has (geno src)) eqn:Hh; cbn [andb] in E; [destruct (0 <? number)|]; try (assert (new = [] /\ fl = false /\ s' = s) as (-> & -> & ->) by (split; [|split]; congruence); split; auto; split; [intros y []|discriminate]).
  apply rbind_ok in E as ([[s1 k] ds1] & E1 & E). apply rbind_ok in E as ([[n1 s2] ds2] & E2 & E). assert (new = neighbour src k :: n1 /\ s' = s2 /\ ds' = ds2 /\ fl = negb (i_cont (nh (geno src)) s2)) as (-> & -> & -> & ->) by (split; [|split; [|split]]; congruence).
  destruct (nh_ok _ Hh) as (Hi & Hn & Ha). destruct (sub_loop_ok src Hr Hh (number - 1) s1 ds1 n1 s2 ds2 (Hi _ _ _ _ _ Hg E1) E2) as (G' & N' & A'). split; auto. split.
  - intros y [<-|Hy]; eauto.
  - intros C j Hj. apply negb_true_iff in C. destruct (A' C) as (l & El & ->). change (neighbour src k :: map (neighbour src) l) with (map (neighbour src) (k :: l)). apply (matched_new _ _ (k :: l)); [intros; apply in_map; auto|]. eapply Ha; [exact Hg|eapply explore_is; eauto|auto].
Qed.

(** ** the selected solutions *)
Variable explore : sol G -> S -> list nat -> res (list (sol G) * bool * S * list nat).
Hypothesis explore_ok : explorer_ok explore.
Definition flags (x y : sol G) : Prop := geno y = geno x /\ vec y = vec x /\ (flag y = flag x \/ flag y = 1).
Lemma flags_refl l : Forall2 flags l l.
Proof. induction l; constructor; auto. split; auto. Qed.
Lemma flags_trans l1 l2 l3 : Forall2 flags l1 l2 -> Forall2 flags l2 l3 -> Forall2 flags l1 l3.
Proof.
  intros H. revert l3. induction H as [|x y l1 l2 (A & B & C) H IH]; intros l3 H3; inversion H3 as [|y' z ? l3' (A' & B' & C') H3']; subst; constructor; auto. split; [congruence|]. split; [congruence|]. destruct C', C; auto; [left|right]; congruence.
Qed.
Lemma flags_set l i x : nth_error l i = Some x -> Forall2 flags l (set l i (Sol (geno x) (vec x) 1)).
Proof.
  revert i. induction l as [|a l IH]; intros [|i] E; cbn in *; try discriminate.
  - injection E as ->. constructor; [split; auto|apply flags_refl].
  - constructor; [split; auto|auto].
Qed.
Lemma Forall2_at' {A B} (R : A -> B -> Prop) : forall l l', Forall2 R l l' -> forall i b, nth_error l' i = Some b -> exists a, nth_error l i = Some a /\ R a b.
Proof. induction 1; intros [|i] c Hc; cbn in *; try discriminate; [injection Hc as <-; eauto|eauto]. Qed.
Definition settled_by (x : sol G) (new : list (sol G)) : Prop := forall k, In k (keys (geno x)) -> exists v, (In v (map vec new) \/ v = vec x) /\ le (evaluate (move k (geno x))) v.
Lemma selected_ok : forall sel arch dest s ds arch' dest' s' ds', Forall (fun x => right x) arch -> good s -> explore_selected G S explore sel arch dest s ds = Ok (arch', dest', s', ds') ->
  good s' /\ Forall2 flags arch arch' /\ exists new, dest' = dest ++ new /\ (forall y, In y new -> exists x k, In x arch /\ y = neighbour x k) /\
  (forall i x y, nth_error arch i = Some x -> nth_error arch' i = Some y -> flag y = 1 -> flag x = 1 \/ settled_by x new) /\
  (explorer_progress explore -> forall i x y, In i sel -> nth_error arch i = Some x -> nth_error arch' i = Some y -> flag y = 1 \/ exists z, In z new /\ dominates dirs (vec z) (vec x)).
Proof.
  induction sel as [|i sel IH]; intros arch dest s ds arch' dest' s' ds' Hr Hg E; cbn [explore_selected] in E.
  - assert (arch' = arch /\ dest' = dest /\ s' = s) as (-> & -> & ->) by (split; [|split]; congruence). split; auto. split; [apply flags_refl|]. exists []. rewrite app_nil_r. split; auto. split; [intros y []|]. split; [intros i x y Hx Hy; left; congruence|intros _ i x y []].
  - apply rbind_ok in E as (src & E0 & E). apply of_opt_ok in E0. apply rbind_ok in E as ([[[n1 fl] s1] ds1] & E1 & E). apply rbind_ok in E as (a1 & Ea & E).
    assert (Rs : right src) by (rewrite Forall_forall in Hr; apply Hr; eapply nth_error_In; eauto).
    destruct (explore_ok src s ds n1 fl s1 ds1 Rs Hg E1) as (Hg1 & Hn1 & Hf1).
    assert (F1 : Forall2 flags arch a1). { destruct fl; [apply of_opt_ok, upd_some in Ea as (_ & ->); apply flags_set; auto|assert (a1 = arch) as -> by congruence; apply flags_refl]. }
    assert (Hr1 : Forall (fun x => right x) a1). { clear -F1 Hr. induction F1 as [|x y l l' (A & B & C) F IHf]; constructor; inversion_clear Hr; auto. rewrite A, B. auto. }
    destruct (IH a1 (dest ++ n1) s1 ds1 arch' dest' s' ds' Hr1 Hg1 E) as (Hg' & F' & new & -> & Hnew & Hset & Hprog). split; auto. split; [eapply flags_trans; eauto|]. exists (n1 ++ new). rewrite app_assoc. split; auto.
    assert (Back : forall j z, nth_error a1 j = Some z -> exists x, nth_error arch j = Some x /\ flags x z) by (intros j z Hz; eapply Forall2_at'; eauto).
    split; [|split].
    + intros y Hy. apply in_app_or in Hy as [Hy|Hy].
      * destruct (Hn1 y Hy) as (k & ->). exists src, k. split; auto. eapply nth_error_In; eauto.
      * destruct (Hnew y Hy) as (z & k & Hz & ->). apply In_nth_error in Hz as (j & Hj). destruct (Back j z Hj) as (x & Hx & (A & B & _)). exists x, k. split; [eapply nth_error_In; eauto|]. unfold DmlsModel.neighbour. rewrite A. auto.
    + intros j x y Hx Hy Hfy. destruct (Forall2_at' _ _ _ F' j y Hy) as (z & Hz & (Az & Bz & Cz)). destruct (Hset j z y Hz Hy Hfy) as [Hfz|Hs].
      * destruct (Back j z Hz) as (x' & Hx' & (A & B & C)). assert (x' = x) as -> by congruence. destruct C as [C|_]; [left; congruence|].
        destruct fl; [|assert (a1 = arch) as -> by congruence; left; congruence]. apply of_opt_ok, upd_some in Ea as (Hil & ->). destruct (Nat.eq_dec j i) as [->|Hne].
        -- right. assert (src = x) as -> by congruence. intros k Hk. destruct (Hf1 eq_refl k Hk) as (m & Hm & Hl). exists (vec m). split; auto. destruct Hm as [->|Hm]; auto. left. apply in_map. apply in_or_app. auto.
        -- left. rewrite nth_error_set_neq in Hz by auto. congruence.
      * right. destruct (Back j z Hz) as (x' & Hx' & (A & B & C)). assert (x' = x) as -> by congruence. intros k Hk. unfold settled_by in Hs. rewrite A, B in Hs. destruct (Hs k Hk) as (v & Hv & Hl). exists v. split; auto. destruct Hv as [Hv|Hv]; auto. left. rewrite map_app. apply in_or_app. auto.
    + intros Hp j x y [<-|Hj] Hx Hy.
      * assert (src = x) as -> by congruence. destruct (Hp x s ds n1 fl s1 ds1 Rs Hg E1) as [->|(z & Hz & Hd)]; [|right; exists z; split; auto; apply in_or_app; auto].
        apply of_opt_ok, upd_some in Ea as (Hil & ->). destruct (Forall2_at' _ _ _ F' i y Hy) as (z & Hz & (Az & Bz & Cz)). rewrite nth_error_set_eq in Hz by auto. injection Hz as <-. cbn [flag] in Cz. destruct Cz; auto.
      * destruct (Forall2_at' _ _ _ F' j y Hy) as (z & Hz & _). destruct (Back j z Hz) as (x' & Hx' & (A & B & C)). assert (x' = x) as -> by congruence. destruct (Hprog Hp j z y Hj Hz Hy) as [H|(u & Hu & Hd)]; auto. right. exists u. split; [apply in_or_app; auto|]. rewrite <- B. auto.
Qed.

(** ** one turn keeps the archive settled *)
Variable replace : bool.
Variable select : list (sol G) -> list nat -> res (list nat * list nat).
Variable C : Type.
Variable continuator : C -> list (sol G) -> bool * C.
Variable starts : list G.
Notation chain := (antichain (fun a b : sol G => dominates dirs (vec b) (vec a)) (fun a b => equal_vectors (vec a) (vec b))).
Notation cov l v := (exists m, In m l /\ le v (vec m)).
Notation turn := (dmls_turn G S dirs explore replace select C continuator).
Notation archive_pop l pop := (update_pop (sol G) (list Q) vec (pareto 0 dirs) (same_vector 0) replace l pop false).
Definition settled (a : list (sol G)) : Prop :=
  chain a /\ (forall x, In x a -> right x /\ descends G K move starts (geno x) /\ flag x <= 1) /\
  (forall x, In x a -> flag x = 1 -> forall k, In k (keys (geno x)) -> cov a (evaluate (move k (geno x)))).
Lemma chain_flags a a' : Forall2 flags a a' -> chain a -> chain a'.
Proof.
  intros F H i j x y Hij Hx Hy. destruct (Forall2_at' _ _ _ F i x Hx) as (x0 & Hx0 & (_ & Bx & _)). destruct (Forall2_at' _ _ _ F j y Hy) as (y0 & Hy0 & (_ & By & _)). rewrite Bx, By. apply (H i j x0 y0); auto.
Qed.
Lemma right_ok x : right x -> ok (vec x).
Proof. intros ->. auto. Qed.
Lemma cov_flags a a' v : Forall2 flags a a' -> cov a v -> cov a' v.
Proof.
  intros F (m & Hm & Hl). apply In_nth_error in Hm as (i & Hi). assert (Hex : exists m', nth_error a' i = Some m' /\ flags m m'). { clear -F Hi. revert i Hi. induction F; intros [|i] Hi; cbn in *; try discriminate; [injection Hi as <-; eauto|eauto]. }
  destruct Hex as (m' & Hm' & (_ & B & _)). exists m'. split; [eapply nth_error_In; eauto|]. rewrite B. auto.
Qed.
(** offering new, unvisited solutions *)
Lemma offer_settled a pop : settled a -> (forall y, In y pop -> right y /\ descends G K move starts (geno y) /\ flag y = 0) ->
  exists a' b, archive_pop a pop = Ok (a', b) /\ settled a' /\ (forall m, In m a' -> In m (a ++ pop)) /\ forall x, In x (a ++ pop) -> cov a' (vec x).
Proof.
  intros (Hc & Hr & Hs) Hp.
  assert (F : Forall (fun x => ok (vec x)) (a ++ pop)). { apply Forall_forall. intros x Hx. apply right_ok. apply in_app_or in Hx as [Hx|Hx]; [apply Hr|apply Hp]; auto. }
  destruct (archive_step (sol G) vec dirs replace a pop F Hc) as (a' & b & E & Hin & Hc' & Hcov). exists a', b. split; auto. split; [split; auto; split|].
  - intros x Hx. specialize (Hin x Hx). apply in_app_or in Hin as [Hin|Hin]; [apply Hr; auto|]. destruct (Hp x Hin) as (A & B & D). rewrite D. auto.
  - intros x Hx Hf k Hk. pose proof (Hin x Hx) as Hi. apply in_app_or in Hi as [Hi|Hi]; [|destruct (Hp x Hi) as (_ & _ & D); congruence].
    destruct (Hs x Hi Hf k Hk) as (m & Hm & Hl). destruct (Hcov m (in_or_app _ _ _ (or_introl Hm))) as (m' & Hm' & Hl'). exists m'. split; auto.
    eapply (le_trans dirs); [| | |exact Hl|exact Hl']; auto; [apply right_ok, Hr; auto|]. rewrite Forall_forall in F. apply F. auto.
  - auto.
Qed.
(** after the exploration *)
Lemma explored_settled a sel s ds a1 new s1 ds1 : settled a -> good s -> explore_selected G S explore sel a [] s ds = Ok (a1, new, s1, ds1) ->
  exists a2 b, archive_pop a1 new = Ok (a2, b) /\ settled a2 /\ (forall m, In m a2 -> In m (a1 ++ new)) /\ (forall x, In x (a1 ++ new) -> cov a2 (vec x)) /\ Forall2 flags a a1 /\ good s1 /\
    (forall y, In y new -> right y /\ descends G K move starts (geno y) /\ flag y = 0) /\
    (explorer_progress explore -> forall i x y, In i sel -> nth_error a i = Some x -> nth_error a1 i = Some y -> flag y = 1 \/ exists z, In z new /\ dominates dirs (vec z) (vec x)).
Proof.
  intros (Hc & Hr & Hs) Hg E. assert (Fr : Forall (fun x => right x) a) by (apply Forall_forall; intros x Hx; apply Hr; auto).
  destruct (selected_ok sel a [] s ds a1 new s1 ds1 Fr Hg E) as (Hg1 & F & new' & -> & Hnew & Hset & Hprog). cbn [app] in *.
  assert (Hn : forall y, In y new' -> right y /\ descends G K move starts (geno y) /\ flag y = 0). { intros y Hy. destruct (Hnew y Hy) as (x & k & Hx & ->). split; [apply eval_right|]. split; auto. cbn [geno DmlsModel.neighbour]. apply is_moved. apply Hr. auto. }
  assert (Hr1 : forall x, In x a1 -> right x /\ descends G K move starts (geno x) /\ flag x <= 1). { intros y Hy. apply In_nth_error in Hy as (i & Hi). destruct (Forall2_at' _ _ _ F i y Hi) as (x & Hx & (A & B & D)). apply nth_error_In in Hx. destruct (Hr x Hx) as (R1 & R2 & R3). rewrite A, B. split; auto. split; auto. destruct D as [-> | ->]; auto. }
  assert (Hc1 : chain a1) by (eapply chain_flags; eauto).
  assert (Fp : Forall (fun x => ok (vec x)) (a1 ++ new')). { apply Forall_forall. intros x Hx. apply right_ok. apply in_app_or in Hx as [Hx|Hx]; [apply Hr1|apply Hn]; auto. }
  destruct (archive_step (sol G) vec dirs replace a1 new' Fp Hc1) as (a2 & b & E2 & Hin & Hc2 & Hcov). exists a2, b. split; auto. split; [|split; [auto|split; [auto|split; [auto|split; [auto|split; [auto|auto]]]]]].
  split; auto. split.
  - intros x Hx. specialize (Hin x Hx). apply in_app_or in Hin as [Hin|Hin]; [apply Hr1; auto|]. destruct (Hn x Hin) as (A & B & D). rewrite D. auto.
  - intros y Hy Hf k Hk. pose proof (Hin y Hy) as Hi. apply in_app_or in Hi as [Hi|Hi]; [|destruct (Hn y Hi) as (_ & _ & D); congruence].
    apply In_nth_error in Hi as (i & Hi). destruct (Forall2_at' _ _ _ F i y Hi) as (x & Hx & Fxy). pose proof Fxy as (A & B & D).
    assert (Up : forall v w, ok v -> In w (map vec (a1 ++ new')) -> le v w -> cov a2 v).
    { intros v w Hv Hw Hl. apply in_map_iff in Hw as (m & <- & Hm). destruct (Hcov m Hm) as (m' & Hm' & Hl'). exists m'. split; auto. rewrite Forall_forall in Fp. eapply (le_trans dirs); [| | |exact Hl|exact Hl']; auto. }
    destruct (Hset i x y Hx Hi Hf) as [Hfx|Hs'].
    + destruct (cov_flags a a1 (evaluate (move k (geno y))) F) as (m & Hm & Hl); [rewrite A; apply Hs; auto; [eapply nth_error_In; eauto|rewrite <- A; auto]|]. eapply Up; [auto| |exact Hl]. apply in_map. apply in_or_app. auto.
    + rewrite A in Hk |- *. destruct (Hs' k Hk) as (v & Hv & Hl). eapply Up; [auto| |exact Hl]. rewrite map_app. apply in_or_app. destruct Hv as [Hv|Hv]; [right; auto|left]. rewrite Hv, <- B. apply in_map. eapply nth_error_In; eauto.
Qed.
Lemma turn_settled st st' go : settled (arch st) -> good (nstate st) -> turn st = Ok (st', go) -> settled (arch st') /\ good (nstate st') /\ (go = false -> natural_continue G (arch st') = false \/ fst (continuator (cstate st) (arch st')) = false).
Proof.
  intros Hs Hg E. unfold dmls_turn in E. apply rbind_ok in E as ([sel ds] & E0 & E). apply rbind_ok in E as ([[[a1 new] s1] ds1] & E1 & E). apply rbind_ok in E as ([a2 b] & E2 & E).
  destruct (explored_settled _ _ _ _ _ _ _ _ Hs Hg E1) as (a2' & b' & E2' & H1 & H2 & H3 & H4 & H5 & _). assert (a2' = a2) as -> by congruence.
  destruct (continuator (cstate st) a2) as [go' c] eqn:Ec. assert (st' = State a2 s1 c ds1 /\ go = go' && natural_continue G a2) as (-> & ->) by (split; congruence). cbn [arch nstate]. split; auto. split; auto. rewrite Ec. cbn [fst]. intros H. apply andb_false_iff in H. tauto.
Qed.
Lemma loop_settled : forall fuel st st', settled (arch st) -> good (nstate st) -> dmls_loop G S dirs explore replace select C continuator fuel st = Ok st' -> settled (arch st') /\ good (nstate st').
Proof.
  induction fuel as [|fuel IH]; intros st st' Hs Hg E; cbn [dmls_loop] in E; [discriminate|]. apply rbind_ok in E as ([st1 go] & E1 & E). destruct (turn_settled st st1 go Hs Hg E1) as (H1 & H2 & _). destruct go; [eauto|]. assert (st' = st1) as -> by congruence. auto.
Qed.
Lemma settled_optimum a : settled a -> natural_continue G a = false -> pareto_local_optimum G K dirs evaluate keys move (map geno a).
Proof.
  intros (Hc & Hr & Hs) Hn. split.
  - intros i j g h Hij Hg Hh. rewrite nth_error_map' in Hg, Hh. destruct (nth_error a i) as [x|] eqn:Ex; [|discriminate]. destruct (nth_error a j) as [y|] eqn:Ey; [|discriminate]. cbn in Hg, Hh. injection Hg as <-. injection Hh as <-.
    rewrite <- (proj1 (Hr x (nth_error_In _ _ Ex))), <- (proj1 (Hr y (nth_error_In _ _ Ey))). apply (Hc i j); auto.
  - intros g Hg. apply in_map_iff in Hg as (x & <- & Hx). intros k Hk. assert (Hf : flag x = 1). { destruct (Nat.eqb_spec (flag x) 1); auto. exfalso. assert (natural_continue G a = true); [|congruence]. unfold natural_continue. apply existsb_exists. exists x. split; auto. destruct (Nat.eqb_spec (flag x) 1); auto. }
    destruct (Hs x Hx Hf k Hk) as (m & Hm & Hl). exists (evaluate (geno m)). split; [apply in_map, in_map; auto|]. rewrite <- (proj1 (Hr m Hm)). auto.
Qed.
End Dmls.
