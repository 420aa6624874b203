(** Proofs of the operator-level facts about PopModel. *)
From Coq Require Import List Arith Lia Bool ZArith QArith Permutation Sorted.
From Verif Require Import Lib Outcome OrderSpec OrderLemmas PopModel PopSpec PopProofs.
Import ListNotations.
Close Scope Q_scope.
Open Scope nat_scope.

Ltac bdest E :=
  match goal with
  | |- context [?a =? ?b] => destruct (a =? b) eqn:E; [apply Nat.eqb_eq in E | apply Nat.eqb_neq in E]
  | |- context [?a <? ?b] => destruct (a <? b) eqn:E; [apply Nat.ltb_lt in E | apply Nat.ltb_ge in E]
  end.

Section Ops.
Variable A : Type.
Variable ltb : A -> A -> bool.
Variable sort : forall T : Type, (T -> T -> bool) -> list T -> list T.
Variable nth_el : forall T : Type, (T -> T -> bool) -> nat -> list T -> list T.
Variable shuf : list nat -> list A -> list A * list nat.
Hypothesis Hswo : strict_weak_order ltb.
Hypothesis Hsort : std_sort_ok sort.
Hypothesis Hnth : std_nth_ok nth_el.
Hypothesis Hshuf : forall ds l, Permutation l (fst (shuf ds l)).

Lemma cmp2_swo : strict_weak_order (cmp2 A ltb).
Proof. apply (swo_flip ltb Hswo). Qed.

Lemma truncate_spec pop n ds :
  (length pop < n -> truncate A ltb sort pop n ds = Throw) /\
  (n <= length pop ->
     exists kept, truncate A ltb sort pop n ds = Ok (kept, ds) /\ best_n ltb pop n kept).
Proof.
  unfold truncate. split; intros H.
  - bdest E; [lia|]. bdest F; [auto|lia].
  - bdest E.
    + exists pop; split; auto. subst n. apply best_n_refl.
    + bdest F; [lia|]. eexists; split; [reflexivity|].
      apply sorted_best_n; auto. apply Hsort. apply cmp2_swo.
Qed.

Lemma linear_truncate_spec pop n ds :
  (length pop < n -> linear_truncate A ltb pop n ds = Throw) /\
  (n <= length pop ->
     exists kept, linear_truncate A ltb pop n ds = Ok (kept, ds) /\ best_n ltb pop n kept).
Proof.
  unfold linear_truncate. split; intros H.
  - bdest E; [lia|]. bdest F; [auto|lia].
  - bdest E.
    + exists pop; split; auto. subst n. apply best_n_refl.
    + bdest F; [lia|].
      destruct (erase_worst_spec A ltb Hswo (length pop - n) pop) as (kept & -> & Hb); [lia|].
      simpl. exists kept; split; auto. replace (length pop - (length pop - n)) with n in Hb by lia. auto.
Qed.

Lemma spec_contract (R : reducer A) :
  (forall pop n ds, (length pop < n -> R pop n ds = Throw) /\
     (n <= length pop -> exists kept, R pop n ds = Ok (kept, ds) /\ best_n ltb pop n kept)) ->
  reduce_contract R.
Proof.
  intros H pop n ds. destruct (H pop n ds) as [H1 H2]. split; auto.
  intros Hn. destruct (H2 Hn) as (k & -> & Hb). split; [apply Hb | eapply best_n_sub; eauto].
Qed.

Lemma truncate_contract : reduce_contract (truncate A ltb sort).
Proof. apply spec_contract. apply truncate_spec. Qed.
Lemma linear_truncate_contract : reduce_contract (linear_truncate A ltb).
Proof. apply spec_contract. apply linear_truncate_spec. Qed.

Lemma random_reduce_contract : reduce_contract (random_reduce A shuf).
Proof.
  intros pop n ds. unfold random_reduce. split; intros H.
  - bdest E; [lia|]. bdest F; [auto|lia].
  - bdest E; [split; auto; apply sub_pop_refl|]. bdest F; [lia|].
    pose proof (Hshuf ds pop) as HP. destruct (shuf ds pop) as [p d]; simpl in *.
    split; [|apply sub_pop_firstn; auto].
    rewrite firstn_length, <- (Permutation_length HP). lia.
Qed.

Lemma random_reduce_stuck : never_stuck (random_reduce A shuf).
Proof.
  intros pop n ds. exists []. unfold random_reduce.
  destruct (length pop =? n); [discriminate|]. destruct (length pop <? n); [discriminate|].
  destruct (shuf (ds ++ []) pop); discriminate.
Qed.

Lemma nonempty_of_length (pop : list A) : 0 < length pop -> pop <> [].
Proof. destruct pop; simpl; [lia|congruence]. Qed.

Lemma ep_reduce_contract t : reduce_contract (ep_reduce A ltb nth_el t).
Proof.
  intros pop n ds. unfold ep_reduce. set (t' := if t <? 2 then 2 else t). split; intros H.
  - bdest E; [lia|]. bdest F; [auto|lia].
  - bdest E; [split; auto; apply sub_pop_refl|]. bdest F; [lia|].
    pose proof (ep_scores_valid A ltb pop t' ltac:(apply nonempty_of_length; lia) pop ds) as Hv.
    destruct (ep_scores A ltb pop t' pop ds) as [[sc ds']| | |]; simpl; auto.
    assert (Hl : length sc = length pop) by (rewrite <- Hv; rewrite map_length; auto).
    destruct (Hnth (nat * A)%type (ep_cmp A ltb) n sc (ep_cmp_swo A ltb Hswo)) as [HP _]; [lia|].
    split.
    + rewrite map_length, firstn_length, <- (Permutation_length HP). lia.
    + rewrite <- firstn_map. apply sub_pop_firstn. rewrite <- Hv at 1.
      apply Permutation_map; auto.
Qed.

Lemma ep_reduce_stuck t : never_stuck (ep_reduce A ltb nth_el t).
Proof.
  intros pop n ds. unfold ep_reduce. set (t' := if t <? 2 then 2 else t).
  bdest E; [exists []; discriminate|]. bdest F; [exists []; discriminate|].
  destruct (ep_scores_ext A ltb pop t' ltac:(apply nonempty_of_length; lia) pop ds)
    as (more & sc & rest & H).
  exists more. rewrite H; simpl. discriminate.
Qed.

Lemma tourn_contract pick :
  good_pick A pick 0 ->
  reduce_contract (fun pop n ds =>
    if n =? 0 then Ok ([], ds)
    else if length pop =? n then Ok (pop, ds)
    else if length pop <? n then Throw
    else
      let! (r, ds') := erase_loop A pick (length pop - n) pop ds in
      Ok (fst r, ds')).
Proof.
  intros Hg pop n ds. split; intros H.
  - bdest G; [lia|]. bdest E; [lia|]. bdest F; [auto|lia].
  - bdest G; [subst; split; auto; exists pop; auto|].
    bdest E; [split; auto; apply sub_pop_refl|]. bdest F; [lia|].
    pose proof (erase_loop_no_ub A pick 0 (length pop - n) pop ds Hg ltac:(lia)) as Hv.
    destruct (erase_loop A pick (length pop - n) pop ds) as [[[s o] d]| | |] eqn:EL; simpl; auto.
    destruct (erase_loop_spec _ _ _ _ _ _ _ _ EL) as [Ho HP].
    split; [lia|exists o; auto].
Qed.

Lemma tourn_stuck pick :
  good_pick A pick 0 -> pick_mono A pick -> pick_can_finish A pick 1 ->
  never_stuck (fun pop n ds =>
    if n =? 0 then Ok ([], ds)
    else if length pop =? n then Ok (pop, ds)
    else if length pop <? n then Throw
    else
      let! (r, ds') := erase_loop A pick (length pop - n) pop ds in
      Ok (fst r, ds')).
Proof.
  intros Hg Hm Hf pop n ds.
  bdest G; [exists []; discriminate|]. bdest E; [exists []; discriminate|].
  bdest F; [exists []; discriminate|].
  destruct (erase_loop_ext A pick 1 (length pop - n) Hm Hf) with (pop := pop) (ds := ds)
    as (more & r & rest & HE).
  - intros p d Hp. apply Hg; lia.
  - lia.
  - exists more. rewrite HE; simpl. discriminate.
Qed.

Lemma det_truncate_contract t : reduce_contract (det_tourn_truncate A ltb t).
Proof. apply (tourn_contract (fun p => inv_det_tournament A ltb p _)). apply inv_det_valid. Qed.
Lemma det_truncate_stuck t : never_stuck (det_tourn_truncate A ltb t).
Proof.
  apply (tourn_stuck (fun p => inv_det_tournament A ltb p _)).
  apply inv_det_valid. apply inv_det_mono. apply inv_det_ext.
Qed.
Lemma stoch_truncate_contract c : reduce_contract (stoch_tourn_truncate A ltb c).
Proof. apply (tourn_contract (fun p => inv_stoch_tournament A ltb p c)). apply inv_stoch_valid. Qed.
Lemma stoch_truncate_stuck c : never_stuck (stoch_tourn_truncate A ltb c).
Proof.
  apply (tourn_stuck (fun p => inv_stoch_tournament A ltb p c)).
  apply inv_stoch_valid. apply inv_stoch_mono. apply inv_stoch_ext.
Qed.

Lemma not_worse_refl pop : best_not_worse ltb pop pop.
Proof. intros b Hb; exists b; split; auto. apply (swo_irrefl _ Hswo). Qed.

Lemma det_truncate_best t pop n ds kept ds' :
  0 < n -> det_tourn_truncate A ltb t pop n ds = Ok (kept, ds') -> best_not_worse ltb pop kept.
Proof.
  intros Hn H. unfold det_tourn_truncate in H.
  destruct (n =? 0) eqn:G; [apply Nat.eqb_eq in G; lia|].
  destruct (length pop =? n); [inversion H; subst; apply not_worse_refl|].
  destruct (length pop <? n); [discriminate|]. inv_res. destruct v as [[s o] d]. inv_res.
  intros b Hb. simpl. eapply erase_loop_keeps_best; eauto.
  intros p d0 i d' Hp. eapply inv_det_beaten; [exact Hswo| |exact Hp].
  destruct (t <? 2) eqn:Et; [lia|]. apply Nat.ltb_ge in Et; auto.
Qed.

(** *** splits *)
Lemma erase_loop_worst k : forall pop ds,
  k <= length pop ->
  exists surv out,
    erase_loop A (fun p d => let! i := of_opt (it_worse_element A ltb p) in Ok (i, d)) k pop ds
      = Ok (surv, out, ds) /\ length out = k /\ Permutation pop (surv ++ out) /\
      best_n ltb pop (length pop - k) surv.
Proof.
  intros pop ds Hk.
  assert (HE : exists surv out, erase_loop A (fun p d => let! i := of_opt (it_worse_element A ltb p) in Ok (i, d)) k pop ds
      = Ok (surv, out, ds) /\ erase_worst A ltb k pop = Ok surv).
  { revert pop ds Hk; induction k as [|k IH]; intros pop ds Hk; simpl.
    - eauto.
    - destruct (it_worse_total A ltb pop) as [i Hi]; [apply nonempty_of_length; lia|].
      destruct (it_worse_spec _ _ Hswo _ _ Hi) as (w & Hw & _). rewrite Hi; simpl. rewrite Hw; simpl.
      destruct (erase_at_total pop i) as [pop' He]; [eapply nth_error_lt; eauto|].
      rewrite He; simpl. pose proof (erase_at_length _ _ _ He).
      destruct (IH pop' ds) as (s & o & -> & H2); [lia|]. simpl. eauto. }
  destruct HE as (surv & out & H1 & H2). exists surv, out.
  destruct (erase_loop_spec _ _ _ _ _ _ _ _ H1) as [H3 H4].
  destruct (erase_worst_spec A ltb Hswo k pop Hk) as (kept & H5 & H6).
  repeat split; auto; rewrite H2 in H5; inversion H5; subst; apply H6.
Qed.

Lemma pop_nth_ok n pop : 0 < length pop -> n <= length pop ->
  pop_nth_element A ltb nth_el n pop = Ok (nth_el A (fun a b => ltb b a) n pop) /\
  Permutation pop (nth_el A (fun a b => ltb b a) n pop) /\
  best_n ltb pop n (firstn n (nth_el A (fun a b => ltb b a) n pop)).
Proof.
  intros H0 Hn. unfold pop_nth_element. bdest E; [lia|].
  pose proof (Hnth A (fun a b => ltb b a) n pop (swo_flip _ Hswo) Hn) as HN.
  destruct pop; [simpl in H0; lia|]. split; auto. split; [apply HN|].
  apply nth_partitioned_best_n; auto.
Qed.

Lemma truncate_split_spec h pop elim ds k :
  hm_call h (length pop) = Ok k -> k <= length pop ->
  exists surv elim', truncate_split A ltb nth_el h true pop elim ds = Ok (surv, elim', ds) /\
    splits pop elim k surv elim' /\ best_n ltb pop (length pop - k) surv.
Proof.
  intros Hh Hk. unfold truncate_split. rewrite Hh; simpl. bdest E.
  - exists pop, elim. subst k. split; auto. split.
    + exists []. rewrite !app_nil_r; auto.
    + rewrite Nat.sub_0_r. apply best_n_refl.
  - bdest F; [lia|].
    destruct (pop_nth_ok (length pop - k) pop) as (-> & HP & HB); [lia|lia|]. simpl.
    eexists _, _; split; [reflexivity|]. split; auto.
    eexists; split; [reflexivity|]. pose proof (Permutation_length HP) as HL.
    assert (HF : firstn k (skipn (length pop - k) (nth_el A (fun a b => ltb b a) (length pop - k) pop))
             = skipn (length pop - k) (nth_el A (fun a b => ltb b a) (length pop - k) pop)).
    { apply firstn_all2. rewrite skipn_length. lia. }
    rewrite HF. split; [rewrite skipn_length; lia|]. rewrite firstn_skipn. auto.
Qed.

Lemma linear_truncate_split_spec h pop elim ds k :
  hm_call h (length pop) = Ok k ->
  (length pop < k -> linear_truncate_split A ltb h true pop elim ds = Throw) /\
  (k <= length pop ->
  exists surv elim', linear_truncate_split A ltb h true pop elim ds = Ok (surv, elim', ds) /\
    splits pop elim k surv elim' /\ best_n ltb pop (length pop - k) surv).
Proof.
  intros Hh. unfold linear_truncate_split. rewrite Hh; cbn [rbind]. split; intros Hk.
  - bdest E; [lia|]. bdest F; [auto|lia].
  - bdest E.
    + exists pop, elim. subst k. split; auto. split.
      * exists []. rewrite !app_nil_r; auto.
      * rewrite Nat.sub_0_r. apply best_n_refl.
    + bdest F; [lia|].
      destruct (erase_loop_worst k pop ds Hk) as (s & o & -> & Ho & HP & HB). simpl.
      eexists _, _; split; [reflexivity|]. split; auto. exists o; auto.
Qed.

Lemma random_split_spec h pop elim ds k :
  hm_call h (length pop) = Ok k -> k <= length pop ->
  exists surv elim' ds', random_split A shuf h true pop elim ds = Ok (surv, elim', ds') /\
    splits pop elim k surv elim'.
Proof.
  intros Hh Hk. unfold random_split. rewrite Hh; cbn [rbind]. bdest E.
  - exists pop, elim, ds. subst k. split; auto. exists []. rewrite !app_nil_r; auto.
  - bdest F; [lia|]. pose proof (Hshuf ds pop) as HP. destruct (shuf ds pop) as [p d]; simpl in *.
    eexists _, _, _; split; [reflexivity|]. pose proof (Permutation_length HP) as HL.
    eexists; split; [reflexivity|].
    assert (HF : firstn k (skipn (length pop - k) p) = skipn (length pop - k) p).
    { apply firstn_all2. rewrite skipn_length. lia. }
    rewrite HF. split; [rewrite skipn_length; lia|]. rewrite firstn_skipn. auto.
Qed.

Lemma loop_split_spec pick h pop elim ds k :
  good_pick A pick 0 ->
  hm_call h (length pop) = Ok k -> k <= length pop ->
  match (let! k := hm_call h (length pop) in
         if k =? 0 then Ok (pop, elim, ds)
         else let! (r, ds') := erase_loop A pick k pop ds in
              Ok (fst r, elim ++ snd r, ds')) with
  | Ok (surv, elim', _) => splits pop elim k surv elim'
  | NoDraw => True
  | _ => False
  end.
Proof.
  intros Hg Hh Hk. rewrite Hh; cbn [rbind]. bdest E.
  - subst k. exists []. rewrite !app_nil_r; auto.
  - pose proof (erase_loop_no_ub A pick 0 k pop ds Hg ltac:(lia)) as Hv.
    destruct (erase_loop A pick k pop ds) as [[[s o] d]| | |] eqn:EL; simpl; auto.
    destruct (erase_loop_spec _ _ _ _ _ _ _ _ EL) as [Ho HP]. exists o; auto.
Qed.

Lemma linear_random_split_spec h pop elim ds k :
  hm_call h (length pop) = Ok k -> k <= length pop ->
  match linear_random_split A h true pop elim ds with
  | Ok (surv, elim', _) => splits pop elim k surv elim'
  | NoDraw => True | _ => False end.
Proof. intros. apply (loop_split_spec (fun p => draw (length p))); auto. apply draw_valid. Qed.

Lemma det_tourn_split_spec t h pop elim ds k :
  hm_call h (length pop) = Ok k -> k <= length pop ->
  match det_tourn_split A ltb t h true pop elim ds with
  | Ok (surv, elim', _) => splits pop elim k surv elim'
  | NoDraw => True | _ => False end.
Proof.
  intros. apply (loop_split_spec (fun p => inv_det_tournament A ltb p (if t <? 2 then 2 else t))); auto.
  apply inv_det_valid.
Qed.

(** emptying a population with the tournament split never finishes *)
Lemma inv_det_single (x : A) r : forall ds, inv_det_loop A ltb [x] (S r) 0 ds = NoDraw.
Proof. induction ds as [|d ds IH]; [auto|]. simpl in *. auto. Qed.

Lemma erase_loop_all_stuck t : 2 <= t -> forall k pop ds,
  0 < k -> length pop = k ->
  erase_loop A (fun p => inv_det_tournament A ltb p t) k pop ds = NoDraw.
Proof.
  intros Ht. induction k as [|k IH]; intros pop ds Hk Hl; [lia|]. cbn [erase_loop].
  pose proof (inv_det_valid A ltb t pop ds ltac:(lia)) as Hv. cbn beta in *.
  destruct (inv_det_tournament A ltb pop t ds) as [[i ds1]| | |] eqn:E; try tauto; auto.
  cbn [rbind]. destruct (Nat.eq_dec k 0) as [->|Hk0].
  - exfalso. destruct pop as [|x [|y p]]; simpl in Hl; try lia.
    unfold inv_det_tournament in E. destruct ds as [|d ds]; simpl in E; [discriminate|].
    destruct t as [|[|t]]; try lia. simpl Nat.sub in E. rewrite inv_det_single in E. discriminate.
  - destruct (nth_error_in_some pop i Hv) as [x Hx]; rewrite Hx; cbn [rbind of_opt].
    destruct (erase_at_total pop i Hv) as [pop' He]; rewrite He; cbn [rbind of_opt].
    pose proof (erase_at_length _ _ _ He). rewrite IH; auto; lia.
Qed.

Lemma det_tourn_split_all_stuck t h pop elim ds :
  pop <> [] -> hm_call h (length pop) = Ok (length pop) ->
  det_tourn_split A ltb t h true pop elim ds = NoDraw.
Proof.
  intros Hne Hh. unfold det_tourn_split. rewrite Hh; cbn [rbind].
  assert (0 < length pop) by (destruct pop; simpl; [congruence|lia]).
  bdest E; [lia|]. rewrite erase_loop_all_stuck; auto.
  destruct (t <? 2) eqn:Et; [lia|]. apply Nat.ltb_ge in Et; auto.
Qed.

(** *** merge-reduce *)
Lemma merge_reduce_plus_spec (R : reducer A) par off ds :
  reduce_contract R ->
  match merge_reduce A (plus A) R par off ds with
  | Ok (par', off', _) => length par' = length par /\ sub_population (off ++ par) par' /\ off' = par
  | NoDraw => True
  | _ => False
  end.
Proof.
  intros HR. unfold merge_reduce, plus; cbn [rbind].
  destruct (HR (off ++ par) (length par) ds) as [_ H].
  specialize (H ltac:(rewrite app_length; lia)).
  destruct (R (off ++ par) (length par) ds) as [[k d]| | |]; simpl; intuition.
Qed.

Lemma best_n_perm pop pop' n k : Permutation pop pop' -> best_n ltb pop n k -> best_n ltb pop' n k.
Proof.
  intros HP [Hl (d & Hd & Hb)]. split; auto. exists d; split; auto. rewrite <- HP; auto.
Qed.

Lemma plus_replacement_spec par off ds :
  exists par', plus_replacement A ltb sort par off ds = Ok (par', par, ds) /\
    best_n ltb (par ++ off) (length par) par'.
Proof.
  unfold plus_replacement, merge_reduce, plus; cbn [rbind].
  destruct (truncate_spec (off ++ par) (length par) ds) as [_ H].
  destruct H as (k & -> & Hb); [rewrite app_length; lia|]. simpl.
  exists k; split; auto. eapply best_n_perm; [|exact Hb]. apply Permutation_app_comm.
Qed.

Lemma comma_replacement_spec par off ds :
  (length off < length par -> comma_replacement A ltb sort nth_el par off ds = Throw) /\
  (length par <= length off ->
   exists par', comma_replacement A ltb sort nth_el par off ds = Ok (par', par, ds) /\
    best_n ltb off (length par) par').
Proof.
  unfold comma_replacement, merge_reduce, no_elitism, elitism; cbn [rbind Nat.eqb].
  change (Qeq_bool 0 0) with true; cbn [andb rbind].
  destruct (truncate_spec off (length par) ds) as [H1 H2].
  split; intros H; [rewrite H1; auto|].
  destruct H2 as (k & -> & Hb); auto. simpl. eauto.
Qed.

(** *** reduce-merge *)
Lemma reduce_merge_throw (R : reducer A) par off ds :
  length par < length off -> reduce_merge A R (plus A) par off ds = Throw.
Proof. intros H. unfold reduce_merge. bdest E; [auto|lia]. Qed.

Lemma reduce_merge_spec (R : reducer A) par off ds :
  reduce_contract R -> length off <= length par ->
  match reduce_merge A R (plus A) par off ds with
  | Ok (par', off', _) => length par' = length par /\ off' = off /\
      exists surv, par' = surv ++ off /\ sub_population par surv
  | NoDraw => True
  | _ => False
  end.
Proof.
  intros HR Hl. unfold reduce_merge, plus. bdest E; [lia|].
  destruct (HR par (length par - length off) ds) as [_ H]. specialize (H ltac:(lia)).
  destruct (R par (length par - length off) ds) as [[k d]| | |]; simpl; auto.
  destruct H as [Hk Hs]. rewrite app_length. repeat split; [lia|]. eauto.
Qed.

Lemma ssga_worse_spec par off ds :
  length off <= length par ->
  exists surv, ssga_worse A ltb par off ds = Ok (surv ++ off, off, ds) /\
    best_n ltb par (length par - length off) surv.
Proof.
  intros Hl. unfold ssga_worse, reduce_merge, plus. bdest E; [lia|].
  destruct (linear_truncate_spec par (length par - length off) ds) as [_ H].
  destruct H as (k & -> & Hb); [lia|]. simpl. eauto.
Qed.

(** *** weak elitism *)
Lemma upd_app {T} (l : list T) i x l' : upd l i x = Some l' ->
  exists a, nth_error l i = Some a /\ l' = firstn i l ++ x :: skipn (S i) l.
Proof.
  revert i l'; induction l as [|y t IH]; intros [|i] l' H; simpl in *; try discriminate.
  - inversion H; subst; eauto.
  - destruct (upd t i x) eqn:E; simpl in H; [|discriminate]. inversion H; subst.
    destruct (IH _ _ E) as (a & Ha & ->). eauto.
Qed.

Lemma weak_elitist_spec (replace : replacement A) par off ds par2 off2 ds2 :
  weak_elitist A ltb replace par off ds = Ok (par2, off2, ds2) ->
  exists par1, replace par off ds = Ok (par1, off2, ds2) /\
    best_not_worse ltb par par2 /\ best_not_worse ltb par1 par2 /\ length par2 = length par1 /\
    (par2 = par1 \/
     exists pre post w champ, is_worst ltb par1 w /\ is_best ltb par champ /\
       par1 = pre ++ w :: post /\ par2 = pre ++ champ :: post).
Proof.
  intros H. unfold weak_elitist in H.
  apply rbind_ok in H as (champ & Hc & H).
  apply rbind_ok in H as ([[par1 off1] d] & Hr & H).
  apply rbind_ok in H as (best1 & Hb1 & H).
  apply (best_element_ok _ _ Hswo) in Hc. apply (best_element_ok _ _ Hswo) in Hb1.
  destruct (ltb best1 champ) eqn:E.
  - apply rbind_ok in H as (wi & Hwi & H). apply of_opt_ok in Hwi.
    apply rbind_ok in H as (p2 & Hp2 & H). apply of_opt_ok in Hp2. inversion H; subst. clear H.
    destruct (it_worse_spec _ _ Hswo _ _ Hwi) as (w & Hw & Hworst).
    pose proof (upd_length _ _ _ _ Hp2) as HL.
    destruct (upd_app _ _ _ _ Hp2) as (w' & Hw' & Hpe).
    assert (w' = w) by congruence; subst w'.
    assert (Hp1 : par1 = firstn wi par1 ++ w :: skipn (S wi) par1).
    { rewrite <- (firstn_skipn wi par1) at 1. f_equal. apply nth_error_split_skipn; auto. }
    exists par1; split; auto. split; [|split; [|split]]; auto.
    + intros b Hb. exists champ; split; [rewrite Hpe; apply in_or_app; simpl; auto|].
      apply Hc; auto.
    + intros b Hb. exists champ; split; [rewrite Hpe; apply in_or_app; simpl; auto|].
      apply (swo_ntrans _ Hswo champ best1 b); [apply (swo_asym _ Hswo); auto|]. apply Hb1; auto.
    + right. eexists _, _, w, champ; repeat split; try apply Hworst; try apply Hc; eauto.
  - inversion H; subst. exists par2; split; auto. split; [|split; [apply not_worse_refl|auto]].
    intros b Hb. exists best1; split; [apply Hb1|].
    apply (swo_ntrans _ Hswo best1 champ b); auto. apply Hc; auto.
Qed.

Lemma best_not_worse_trans a b c :
  best_not_worse ltb a b -> best_not_worse ltb b c -> best_not_worse ltb a c.
Proof.
  intros H1 H2 x Hx. destruct (H1 x Hx) as (y & Hy & Ey). destruct (H2 y Hy) as (z & Hz & Ez).
  exists z; split; auto. apply (swo_ntrans _ Hswo z y x); auto.
Qed.

Lemma weak_elitist_generations (replace : replacement A) par par' :
  generations (weak_elitist A ltb replace) par par' -> best_not_worse ltb par par'.
Proof.
  intros H. induction H; [apply not_worse_refl|].
  destruct (weak_elitist_spec _ _ _ _ _ _ _ H) as (p1 & _ & Hb & _).
  eapply best_not_worse_trans; eauto.
Qed.

Lemma nth_element_fitness_spec n pop :
  n < length pop -> exists v, nth_element_fitness A ltb nth_el n pop = Ok v /\ nth_best ltb pop n v.
Proof.
  intros Hn. unfold nth_element_fitness. bdest E; [lia|].
  destruct (Hnth A (fun a b => ltb b a) n pop (swo_flip _ Hswo) ltac:(lia)) as [HP HO].
  set (l := nth_el A (fun a b => ltb b a) n pop) in *.
  destruct (nth_error_in_some l n) as [v Hv]; [rewrite <- (Permutation_length HP); lia|].
  rewrite Hv. exists v; split; auto. exists (firstn n l), (skipn (S n) l).
  rewrite <- (nth_error_split_skipn _ _ _ Hv), firstn_skipn.
  split; auto. split; [rewrite firstn_length, <- (Permutation_length HP); lia|]. split.
  - intros x Hx. apply In_firstn_nth in Hx as (i & Hi & Ei). apply (HO i n); auto; lia.
  - intros y Hy. apply In_skipn_nth in Hy as (j & Hj & Ej). apply (HO n j); auto; lia.
Qed.

(** *** elitism *)
Lemma elitism_exact rate c pop off :
  pop <> [] -> c <> 0 -> c <= length pop ->
  exists copy, elitism A ltb nth_el rate c pop off = Ok (off ++ copy) /\ Permutation pop copy.
Proof.
  intros Hne Hc Hl. unfold elitism. destruct (c =? 0) eqn:E; [apply Nat.eqb_eq in E; lia|].
  cbn [andb]. bdest F; [lia|]. destruct pop as [|x t]; [congruence|].
  eexists; split; [reflexivity|]. apply Hnth; auto. apply (cmp2_swo).
Qed.

(** *** eoReduceMergeReduce *)
Lemma rmr_save_length saved : forall i final par par',
  rmr_save A i saved final par = Ok par' -> length par' = length par.
Proof.
  induction saved as [|x r IH]; intros i final par par' H; simpl in H.
  - inversion H; auto.
  - destruct (final <? S i); [discriminate|]. inv_res.
    rewrite (IH _ _ _ _ H0). eapply upd_length; eauto.
Qed.

Lemma reduce_ok (R : reducer A) pop n ds k d :
  reduce_contract R -> R pop n ds = Ok (k, d) -> n <= length pop /\ length k = n /\ sub_population pop k.
Proof.
  intros HR H. destruct (HR pop n ds) as [H1 H2].
  destruct (Nat.lt_ge_cases (length pop) n); [rewrite H1 in H; [discriminate|auto]|].
  specialize (H2 ltac:(lia)). rewrite H in H2. tauto.
Qed.

Lemma sub_pop_app {T} (a b a' b' : list T) :
  sub_population a a' -> sub_population b b' -> sub_population (a ++ b) (a' ++ b').
Proof.
  intros [d1 H1] [d2 H2]. exists (d1 ++ d2). rewrite H1, H2.
  rewrite <- !app_assoc. apply Permutation_app_head. rewrite !app_assoc.
  apply Permutation_app_tail. apply Permutation_app_comm.
Qed.

Lemma sub_pop_nil {T} (a : list T) : sub_population a [].
Proof. exists a; auto. Qed.

Lemma sub_pop_incl_perm {T} (a b : list T) : Permutation a b -> sub_population a b.
Proof. intros H; exists []; rewrite app_nil_r; auto. Qed.

Lemma rmr_strong he hp ho (Rp Ro Rf : reducer A) par off ds par' off' ds' :
  reduce_contract Rp -> reduce_contract Ro -> reduce_contract Rf ->
  reduce_merge_reduce A ltb sort nth_el he true hp ho Rp Ro Rf par off ds = Ok (par', off', ds') ->
  exists elite rest e, hm_call he (length par) = Ok e /\ par' = rest ++ elite /\
    best_n ltb par e elite /\ length par' = length par /\
    sub_population (par ++ off) par'.
Proof.
  intros HRp HRo HRf H. unfold reduce_merge_reduce in H.
  apply rbind_ok in H as (e & He & H).
  apply rbind_ok in H as ([temp par1] & Ht & H).
  apply rbind_ok in H as (rps & Hrps & H).
  apply rbind_ok in H as ([par2 ds1] & Hp2 & H).
  apply rbind_ok in H as (ros & Hros & H).
  destruct (ros =? 0); [discriminate|].
  apply rbind_ok in H as ([off2 ds2] & Ho2 & H).
  assert (Htemp : best_n ltb par e temp /\ Permutation par (temp ++ par1)).
  { destruct (e =? 0) eqn:Ee.
    - apply Nat.eqb_eq in Ee. inversion Ht; subst. split; auto.
      split; auto. exists par1; split; auto. intros ? ? [].
    - apply Nat.eqb_neq in Ee. inv_res.
      assert (Hle : e <= length par /\ 0 < length par).
      { unfold pop_nth_element in H0. destruct (length par <? e) eqn:F; [discriminate|].
        apply Nat.ltb_ge in F. lia. }
      destruct Hle as [Hle Hpos].
      destruct (pop_nth_ok e par Hpos Hle) as (E1 & HP & HB).
      assert (v = nth_el A (fun a b => ltb b a) e par) by congruence; subst v.
      split; auto. rewrite firstn_skipn. auto. }
  destruct Htemp as [Hbest Hperm]. clear Ht.
  assert (Hpar2 : sub_population par1 par2).
  { destruct (rps =? 0); [inversion Hp2; subst; apply sub_pop_nil|].
    destruct (rps =? length par1); [inversion Hp2; subst; apply sub_pop_refl|].
    eapply reduce_ok in Hp2; eauto. tauto. }
  assert (Hoff2 : sub_population off off2).
  { destruct (ros =? length off); [inversion Ho2; subst; apply sub_pop_refl|].
    eapply reduce_ok in Ho2; eauto. tauto. }
  assert (Helen : length temp = e) by apply Hbest.
  destruct (e =? 0) eqn:Ee; cbn [negb andb] in H.
  - apply Nat.eqb_eq in Ee. rewrite Ee in *. clear Ee.
    assert (temp = []) by (destruct temp; [auto|simpl in Helen; discriminate]). subst temp.
    apply rbind_ok in H as ([par4 ds3] & Hp4 & H). inv_res.
    exists [], par', 0. rewrite app_nil_r. repeat split; auto.
    + exists par. split; auto. intros ? ? [].
    + destruct (length (par2 ++ off') =? length par) eqn:E.
      * apply Nat.eqb_eq in E. inv_res. auto.
      * eapply reduce_ok in Hp4; eauto. tauto.
    + assert (HS : sub_population (par ++ off) (par2 ++ off')).
      { apply sub_pop_app; auto. eapply sub_pop_trans; [|exact Hpar2].
        apply sub_pop_incl_perm. simpl in Hperm. auto. }
      destruct (length (par2 ++ off') =? length par).
      * inv_res. auto.
      * eapply reduce_ok in Hp4; eauto. eapply sub_pop_trans; [exact HS|]. tauto.
  - apply rbind_ok in H as ([par4 ds3] & Hp4 & H). inv_res.
    exists temp, par4, (length temp). split; auto. split; auto. split; auto.
    assert (Hle : length temp <= length par) by (rewrite (Permutation_length Hperm), app_length; lia).
    assert (HS : sub_population (par2 ++ off') par4 /\ length par4 = length par - length temp).
    { destruct (length (par2 ++ off') =? length par - length temp) eqn:E.
      - apply Nat.eqb_eq in E. inv_res. split; auto. apply sub_pop_refl.
      - eapply reduce_ok in Hp4; eauto. tauto. }
    destruct HS as [HS HL]. rewrite app_length. split; [lia|].
    eapply sub_pop_trans with ((par2 ++ off') ++ temp).
    + eapply sub_pop_trans with ((par1 ++ off) ++ temp).
      * apply sub_pop_incl_perm. rewrite Hperm.
        rewrite <- !app_assoc. rewrite (Permutation_app_comm temp). rewrite <- !app_assoc. auto.
      * apply sub_pop_app; [|apply sub_pop_refl]. apply sub_pop_app; auto.
    + apply sub_pop_app; auto. apply sub_pop_refl.
Qed.

Lemma rmr_weak_size he hp ho (Rp Ro Rf : reducer A) s par off ds par' off' ds' :
  reduce_contract Rf ->
  reduce_contract Rp -> reduce_contract Ro ->
  reduce_merge_reduce A ltb sort nth_el he s hp ho Rp Ro Rf par off ds = Ok (par', off', ds') ->
  length par' = length par.
Proof.
  intros HRf HRp HRo H. destruct s.
  - destruct (rmr_strong _ _ _ _ _ _ _ _ _ _ _ _ HRp HRo HRf H) as (? & ? & ? & ? & ? & ? & ? & ?). auto.
  - unfold reduce_merge_reduce in H.
    apply rbind_ok in H as (e & He & H).
    apply rbind_ok in H as ([temp par1] & Ht & H).
    apply rbind_ok in H as (rps & Hrps & H).
    apply rbind_ok in H as ([par2 ds1] & Hp2 & H).
    apply rbind_ok in H as (ros & Hros & H).
    destruct (ros =? 0); [discriminate|].
    apply rbind_ok in H as ([off2 ds2] & Ho2 & H).
    rewrite andb_false_r in H.
    apply rbind_ok in H as ([par4 ds3] & Hp4 & H).
    assert (HL : length par4 = length par).
    { destruct (length (par2 ++ off2) =? length par) eqn:E.
      - apply Nat.eqb_eq in E. inv_res. auto.
      - eapply reduce_ok in Hp4; eauto. tauto. }
    destruct (e =? 0); inv_res; auto.
    rewrite (rmr_save_length _ _ _ _ _ H0).
    unfold pop_sort. destruct (Hsort A (cmp2 A ltb) par4 cmp2_swo) as [HP _].
    rewrite <- (Permutation_length HP). auto.
Qed.

(** *** survive and die *)
Lemma sad_step_spec surv die pop rem lucky :
  survive_and_die A ltb nth_el surv die pop = Ok (rem, lucky) ->
  exists s, hm_call surv (length pop) = Ok s /\ best_n ltb pop s lucky /\
    sub_population pop (rem ++ lucky).
Proof.
  intros H. unfold survive_and_die in H.
  apply rbind_ok in H as (s & Hs & H).
  apply rbind_ok in H as ([lk pop1] & Hl & H).
  apply rbind_ok in H as (d0 & Hd & H).
  assert (Hb : best_n ltb pop s lk /\ Permutation pop (lk ++ pop1)).
  { destruct (s =? 0) eqn:E.
    - apply Nat.eqb_eq in E. inversion Hl; subst. split; auto. split; auto.
      exists pop1; split; auto. intros ? ? [].
    - apply Nat.eqb_neq in E. inv_res.
      assert (Hle : s <= length pop /\ 0 < length pop).
      { unfold pop_nth_element in H0. destruct (length pop <? s) eqn:F; [discriminate|].
        apply Nat.ltb_ge in F. lia. }
      destruct Hle as [Hle Hpos].
      destruct (pop_nth_ok s pop Hpos Hle) as (E1 & HP & HB).
      assert (v = nth_el A (fun a b => ltb b a) s pop) by congruence; subst v.
      split; auto. rewrite firstn_skipn; auto. }
  destruct Hb as [Hb HP].
  set (nbd := Nat.min d0 (length pop - s)) in *.
  destruct (length pop1 <? nbd) eqn:F; [discriminate|]. apply Nat.ltb_ge in F.
  assert (HS : sub_population pop1 rem /\ lk = lucky).
  { destruct (nbd =? 0) eqn:E.
    - inversion H; subst. split; auto. apply sub_pop_refl.
    - apply Nat.eqb_neq in E. inv_res. split; auto.
      destruct (pop_nth_ok (length pop1 - nbd) pop1) as (E1 & HP1 & HB1); [lia|lia|].
      assert (v = nth_el A (fun a b => ltb b a) (length pop1 - nbd) pop1) by congruence; subst v.
      apply sub_pop_firstn; auto. }
  destruct HS as [HS ->].
  exists s. split; auto. split; auto.
  eapply sub_pop_trans; [|apply (sub_pop_app _ _ _ _ HS (sub_pop_refl lucky))].
  apply sub_pop_incl_perm. rewrite HP. apply Permutation_app_comm.
Qed.

Lemma sad_spec (R : reducer A) sp dp so dof par off ds par' off' ds' :
  reduce_contract R ->
  sad_replacement A ltb nth_el R sp dp so dof par off ds = Ok (par', off', ds') ->
  length par' = length par /\ sub_population (par ++ off) par' /\
  exists s so' lp lo rest, hm_call sp (length par) = Ok s /\ best_n ltb par s lp /\
    hm_call so (length off) = Ok so' /\ best_n ltb off so' lo /\ par' = rest ++ lp ++ lo.
Proof.
  intros HR H. unfold sad_replacement in H.
  apply rbind_ok in H as ([par1 lp] & Hsp & H).
  apply rbind_ok in H as ([off1 lo] & Hso & H).
  destruct (length par <? length lo + length lp) eqn:F; [discriminate|]. apply Nat.ltb_ge in F.
  unfold plus in H. cbn [rbind] in H.
  apply rbind_ok in H as ([off3 d3] & Hr & H). inv_res.
  destruct (sad_step_spec _ _ _ _ _ Hsp) as (s & Hs & Hbs & Hss).
  destruct (sad_step_spec _ _ _ _ _ Hso) as (s2 & Hs2 & Hbs2 & Hss2).
  eapply reduce_ok in Hr; eauto. destruct Hr as (_ & Hl & Hsub).
  rewrite !app_length. split; [lia|]. split.
  - eapply sub_pop_trans; [apply (sub_pop_app _ _ _ _ Hss Hss2)|].
    eapply sub_pop_trans; [|apply sub_pop_app; [apply sub_pop_app; [exact Hsub|apply sub_pop_refl]|apply sub_pop_refl]].
    apply sub_pop_incl_perm. rewrite <- !app_assoc.
    rewrite (Permutation_app_swap_app off1). apply Permutation_app_head.
    apply Permutation_app_swap_app.
  - exists s, s2, lp, lo, off3. rewrite app_assoc. repeat split; auto; try apply Hbs; try apply Hbs2.
Qed.

(** *** MGG and G3 *)
Lemma det_tourn_loop_valid pop : 0 < length pop -> forall rounds best ds,
  best < length pop ->
  match det_tourn_loop A ltb pop rounds best ds with
  | Ok (i, _) => i < length pop | NoDraw => True | _ => False end.
Proof.
  intros Hp. induction rounds as [|r IH]; intros best ds Hb; simpl; auto.
  destruct ds as [|d ds]; simpl; auto.
  assert (Hc : d mod length pop < length pop) by (apply Nat.mod_upper_bound; lia).
  destruct (nth_error_in_some _ _ Hb) as [w ->].
  destruct (nth_error_in_some _ _ Hc) as [x ->]. simpl.
  apply IH. destruct (ltb w x); auto.
Qed.

Lemma mgg_loop_spec t : forall k par off ds par' off' ds',
  mgg_loop A ltb k t par off ds = Ok (par', off', ds') ->
  length par' = length par + k /\ Permutation (par ++ off) (par' ++ off') /\
  exists add, par' = par ++ add.
Proof.
  induction k as [|k IH]; intros par off ds par' off' ds' H; simpl in H.
  - inversion H; subst. repeat split; auto. exists []; rewrite app_nil_r; auto.
  - inv_res. destruct v as [i ds1]. inv_res.
    destruct (IH _ _ _ _ _ _ H2) as (H3 & H4 & add & H5).
    rewrite app_length in H3; simpl in H3. split; [lia|]. split.
    + rewrite <- H4, <- app_assoc. apply Permutation_app_head. simpl. eapply erase_at_perm; eauto.
    + exists (v :: add). rewrite H5, <- app_assoc. auto.
Qed.

Lemma mgg_spec h t par off ds par' off' ds' :
  mgg_replacement A ltb h t par off ds = Ok (par', off', ds') ->
  length par' = length par /\ Permutation (par ++ off) (par' ++ off') /\
  best_not_worse ltb off par'.
Proof.
  intros H. unfold mgg_replacement in H.
  apply rbind_ok in H as ([[par1 temp] ds1] & Hs & H).
  assert (Hk : exists k, hm_call h (length par) = Ok k).
  { unfold linear_truncate_split in Hs. apply rbind_ok in Hs as (k & Hk & _). eauto. }
  destruct Hk as [k Hk].
  destruct (linear_truncate_split_spec h par [] ds k Hk) as [HT HS].
  destruct (Nat.lt_ge_cases (length par) k) as [Hlt|Hge]; [rewrite HT in Hs; [discriminate|auto]|].
  destruct (HS Hge) as (s & e & Hs' & (out & He & Hout & HP) & HB).
  rewrite Hs' in Hs. simpl in He.
  assert (s = par1 /\ e = temp /\ ds = ds1) as (-> & -> & ->) by (repeat split; congruence).
  clear Hs Hs'. subst out.
  destruct (length temp <? 2) eqn:E2; [discriminate|]. apply Nat.ltb_ge in E2.
  inv_res. unfold plus in H2. inv_res.
  destruct (mgg_loop_spec _ _ _ _ _ _ _ _ H3) as (H4 & H5 & add & H6).
  rewrite app_length in H4; simpl in H4.
  pose proof (Permutation_length HP) as HL. rewrite app_length in HL. split; [lia|]. split.
  - rewrite <- H5, HP. rewrite (erase_at_perm _ _ _ _ H0 H1).
    rewrite <- !app_assoc. apply Permutation_app_head. simpl.
    rewrite <- Permutation_middle. constructor. apply Permutation_app_comm.
  - destruct (it_best_spec _ _ Hswo _ _ H) as (b & Hb & Hbest).
    assert (b = v0) by congruence; subst b.
    intros x Hx. exists v0. split; [rewrite H6; apply in_or_app; left; apply in_or_app; simpl; auto|].
    apply Hbest; auto.
Qed.

Lemma g3_spec h par off ds par' off' ds' :
  g3_replacement A ltb nth_el h par off ds = Ok (par', off', ds') ->
  exists k par1 gone, hm_call h (length par) = Ok k /\ Permutation par (par1 ++ gone) /\
    length gone = k /\ best_n ltb par (length par - k) par1 /\
    best_n ltb (off ++ gone) k off' /\ par' = par1 ++ off'.
Proof.
  intros H. unfold g3_replacement in H.
  apply rbind_ok in H as ([[par1 temp] ds1] & Hs & H).
  assert (Hk : exists k, hm_call h (length par) = Ok k).
  { unfold linear_truncate_split in Hs. apply rbind_ok in Hs as (k & Hk & _). eauto. }
  destruct Hk as [k Hk].
  destruct (linear_truncate_split_spec h par [] ds k Hk) as [HT HS].
  destruct (Nat.lt_ge_cases (length par) k) as [Hlt|Hge]; [rewrite HT in Hs; [discriminate|auto]|].
  destruct (HS Hge) as (s & e & Hs' & (out & He & Hout & HP) & HB).
  rewrite Hs' in Hs. simpl in He.
  assert (s = par1 /\ e = temp /\ ds = ds1) as (-> & -> & ->) by (repeat split; congruence).
  clear Hs Hs'. subst out.
  unfold plus in H. cbn [rbind] in H.
  apply rbind_ok in H as ([[off2 temp2] ds2] & Hr & H).
  destruct (length off2 =? length temp) eqn:E; [|discriminate]. apply Nat.eqb_eq in E.
  cbn [rbind] in H. inv_res.
  exists (length temp), par1, temp. repeat split; auto; try apply HB.
  destruct HB as [HBl (d & HBp & HBb)].
  unfold truncate_split in Hr. apply rbind_ok in Hr as (k2 & Hk2 & Hr).
  destruct (k2 =? 0) eqn:E0.
  - inv_res. exists []. rewrite app_nil_r. split; auto. intros ? ? ? [].
  - apply Nat.eqb_neq in E0.
    destruct (length (off ++ temp) <? k2) eqn:F; [discriminate|]. apply Nat.ltb_ge in F.
    apply rbind_ok in Hr as (p & Hp & Hr). inv_res.
    destruct (pop_nth_ok (length (off ++ temp2) - k2) (off ++ temp2)) as (E1 & HP1 & HB1); [lia|lia|].
    assert (p = nth_el A (fun a b => ltb b a) (length (off ++ temp2) - k2) (off ++ temp2)) by congruence.
    subst p. destruct HB1 as [HBl1 (d1 & HBp1 & HBb1)]. exists d1. auto.
Qed.

End Ops.
