(** Exact behaviour of the EP reduction and of weak elitism in reduce-merge-reduce. *)
From Coq Require Import List Arith Lia Bool ZArith QArith Permutation Sorted.
From Verif Require Import Lib Outcome OrderSpec OrderLemmas PopModel PopSpec PopProofs PopOps.
Import ListNotations.
Close Scope Q_scope.
Open Scope nat_scope.

(** points of [a] against [c]: 2 for a win, 1 for a draw, 0 for a loss *)
Definition points {A} (ltb : A -> A -> bool) (a c : A) : nat :=
  if ltb c a then 2 else if ltb a c then 0 else 1.
(** lower total first; among equal totals, lower fitness first *)
Definition lower_score {A} (ltb : A -> A -> bool) (x y : nat * A) : bool :=
  (fst x <? fst y) || ((fst x =? fst y) && ltb (snd x) (snd y)).

Section More.
Variable A : Type.
Variable ltb : A -> A -> bool.
Variable sort : forall T : Type, (T -> T -> bool) -> list T -> list T.
Variable nth_el : forall T : Type, (T -> T -> bool) -> nat -> list T -> list T.
Hypothesis Hswo : strict_weak_order ltb.
Hypothesis Hsort : std_sort_ok sort.
Hypothesis Hnth : std_nth_ok nth_el.

Lemma ep_score_sum pop a : forall rounds acc ds s ds',
  ep_score A ltb pop a rounds acc ds = Ok (s, ds') ->
  exists opps, length opps = rounds /\ incl opps pop /\ s = acc + list_sum (map (points ltb a) opps).
Proof.
  induction rounds as [|r IH]; intros acc ds s ds' H; cbn [ep_score] in H.
  - inversion H; subst. exists []. split; auto. split; [intros x []|simpl; lia].
  - apply rbind_ok in H as ([i ds1] & E1 & H). apply rbind_ok in H as (c & E2 & H).
    apply of_opt_ok in E2. apply IH in H as (opps & L & I & S).
    exists (c :: opps). split; [simpl; lia|]. split.
    + intros x [<-|Hx]; auto. eapply nth_error_In; eauto.
    + cbn [map list_sum fold_right]. unfold list_sum in S. rewrite S. unfold points, ep_score1. lia.
Qed.
Lemma ep_scores_sum pop t : forall todo ds sc ds',
  ep_scores A ltb pop t todo ds = Ok (sc, ds') ->
  map snd sc = todo /\
  (forall s a, In (s, a) sc -> exists opps, length opps = t /\ incl opps pop /\ s = list_sum (map (points ltb a) opps)).
Proof.
  induction todo as [|a todo IH]; intros ds sc ds' H; cbn [ep_scores] in H.
  - inversion H; subst. split; auto. intros s a [].
  - apply rbind_ok in H as ([s1 ds1] & E1 & H). apply rbind_ok in H as ([l ds2] & E2 & H).
    inversion H; subst. apply IH in E2 as [M1 M2]. split; [simpl; f_equal; auto|].
    intros s b [E|Hin]; [inversion E; subst; eapply ep_score_sum in E1; auto|auto].
Qed.
Lemma ep_cmp_lower x y : ep_cmp A ltb x y = lower_score ltb y x.
Proof.
  unfold ep_cmp, lower_score. destruct x as [s a], y as [s' b]. cbn [fst snd].
  destruct (Nat.eqb_spec s' s) as [->|Hne].
  - rewrite Nat.ltb_irrefl. cbn [orb andb]. auto.
  - cbn [andb]. rewrite orb_false_r. auto.
Qed.
Lemma ep_reduce_scores t pop n ds kept ds' : n < length pop ->
  ep_reduce A ltb nth_el t pop n ds = Ok (kept, ds') ->
  exists scored kept_scored, map snd scored = pop /\ kept = map snd kept_scored /\
    (forall s a, In (s, a) scored ->
       exists opps, length opps = Nat.max 2 t /\ incl opps pop /\ s = list_sum (map (points ltb a) opps)) /\
    best_n (lower_score ltb) scored n kept_scored.
Proof.
  intros Hn H. unfold ep_reduce in H. destruct (Nat.eqb_spec (length pop) n); [lia|].
  destruct (Nat.ltb_spec (length pop) n); [lia|].
  apply rbind_ok in H as ([sc ds1] & E & H). inversion H; subst.
  replace (if t <? 2 then 2 else t) with (Nat.max 2 t) in E by (destruct (Nat.ltb_spec t 2); lia).
  apply ep_scores_sum in E as [M1 M2].
  assert (HL : length sc = length pop) by (rewrite <- M1, map_length; auto).
  exists sc, (firstn n (nth_el (nat * A)%type (ep_cmp A ltb) n sc)). split; auto. split; auto. split; auto.
  apply nth_partitioned_best_n; [|lia].
  destruct (Hnth (nat * A)%type (ep_cmp A ltb) n sc (ep_cmp_swo A ltb Hswo)) as [P1 P2]; [lia|].
  split; auto. intros i j a b Hi Hj Ha Hb. rewrite <- ep_cmp_lower. eapply P2; eauto.
Qed.

(** *** weak elitism *)
Lemma rmr_to_save_spec limit : forall temp, let k := rmr_to_save A ltb temp limit in
  (forall x, In x (firstn k temp) -> ltb limit x = true) /\
  (temp <> [] -> k < length temp) /\
  (S k = length temp \/ temp = [] \/ exists x, nth_error temp k = Some x /\ ltb limit x = false).
Proof.
  induction temp as [|x temp IH]; cbn [rmr_to_save].
  - split; [intros x []|]. split; [congruence|auto].
  - destruct (ltb limit x) eqn:E.
    + destruct temp as [|y temp].
      * split; [intros z []|]. split; [simpl; lia|]. left; auto.
      * destruct IH as (I1 & I2 & I3). cbn [firstn]. split.
        -- intros z [<-|Hz]; auto.
        -- split; [intros _; specialize (I2 ltac:(congruence)); simpl in *; lia|].
           destruct I3 as [I3|[I3|I3]]; [left; simpl in *; lia|congruence|right; right; exact I3].
    + split; [intros z []|]. split; [simpl; lia|]. right; right. exists x. auto.
Qed.
Lemma rmr_save_spec : forall saved i final par par',
  i <= final -> rmr_save A i saved final par = Ok par' -> length par = final ->
  i + length saved <= final /\
  par' = firstn (final - i - length saved) par ++ rev saved ++ skipn (final - i) par.
Proof.
  induction saved as [|x saved IH]; intros i final par par' Hi H HL; cbn [rmr_save] in H.
  - inversion H; subst. cbn [length rev app]. split; [lia|]. rewrite Nat.sub_0_r, firstn_skipn. auto.
  - destruct (Nat.ltb_spec final (S i)); [discriminate|].
    apply rbind_ok in H as (p1 & E & H). apply of_opt_ok, upd_some in E as [Hlt ->].
    apply IH in H as [I1 I2]; [|lia|rewrite set_length; auto]. cbn [length rev]. split; [lia|].
    rewrite I2. set (p := final - 1 - i) in *.
    replace (final - S i - length saved) with (final - i - S (length saved)) by lia.
    rewrite <- app_assoc. cbn [app].
    assert (HS : skipn (final - S i) (set par p x) = x :: skipn (final - i) par).
    { apply nth_error_ext. intros k. rewrite skipn_nth_error. destruct k as [|k].
      - replace (final - S i + 0) with p by lia. rewrite nth_error_set_eq by lia. reflexivity.
      - cbn [nth_error]. rewrite nth_error_set_neq by lia. rewrite skipn_nth_error. f_equal. lia. }
    rewrite HS. f_equal.
    apply nth_error_ext. intros k. destruct (Nat.lt_ge_cases k (final - i - S (length saved))).
    + rewrite !firstn_nth_error by auto. apply nth_error_set_neq. lia.
    + rewrite !nth_error_ge; auto; rewrite firstn_length; lia.
Qed.

Lemma rmr_weak_exact he hp ho (Rp Ro Rf : reducer A) par off ds par' off' ds' e :
  reduce_contract Rp -> reduce_contract Ro -> reduce_contract Rf ->
  hm_call he (length par) = Ok e -> 0 < e ->
  reduce_merge_reduce A ltb sort nth_el he false hp ho Rp Ro Rf par off ds = Ok (par', off', ds') ->
  exists elite sorted limit k, best_n ltb par e elite /\
    length sorted = length par /\ StronglySorted (fun a b => ltb a b = false) sorted /\
    sub_population (par ++ off) sorted /\
    nth_error sorted (e - 1) = Some limit /\
    k < e /\ (forall x, In x (firstn k elite) -> ltb limit x = true) /\
    (S k = e \/ exists x, nth_error elite k = Some x /\ ltb limit x = false) /\
    par' = firstn (length par - k) sorted ++ rev (firstn k elite).
Proof.
  intros HRp HRo HRf He0 Hepos H. unfold reduce_merge_reduce in H.
  rewrite He0 in H. cbn [rbind] in H.
  apply rbind_ok in H as ([temp par1] & Ht & H).
  apply rbind_ok in H as (rps & Hrps & H).
  apply rbind_ok in H as ([par2 ds1] & Hp2 & H).
  apply rbind_ok in H as (ros & Hros & H).
  destruct (ros =? 0); [discriminate|].
  apply rbind_ok in H as ([off2 ds2] & Ho2 & H).
  destruct (Nat.eqb_spec e 0) as [|Ee]; [lia|].
  apply rbind_ok in Ht as (p0 & Hp0 & Ht).
  assert (Hle : e <= length par /\ 0 < length par).
  { unfold pop_nth_element in Hp0. destruct (length par <? e) eqn:F; [discriminate|].
    apply Nat.ltb_ge in F. lia. }
  destruct Hle as [Hle Hpos].
  destruct (pop_nth_ok A ltb nth_el Hswo Hnth e par Hpos Hle) as (E1 & HP & HB).
  assert (p0 = nth_el A (fun a b => ltb b a) e par) by congruence. subst p0.
  inversion Ht; subst temp par1. clear Ht.
  set (elite := firstn e (nth_el A (fun a b => ltb b a) e par)) in *.
  set (par1 := skipn e (nth_el A (fun a b => ltb b a) e par)) in *.
  assert (HS1 : sub_population par par1).
  { exists elite. rewrite Permutation_app_comm. unfold elite, par1. rewrite firstn_skipn. auto. }
  assert (Hpar2 : sub_population par1 par2).
  { destruct (rps =? 0); [inversion Hp2; subst; apply sub_pop_nil|].
    destruct (rps =? length par1); [inversion Hp2; subst; apply sub_pop_refl|].
    eapply reduce_ok in Hp2; eauto. tauto. }
  assert (Hoff2 : sub_population off off2).
  { destruct (ros =? length off); [inversion Ho2; subst; apply sub_pop_refl|].
    eapply reduce_ok in Ho2; eauto. tauto. }
  rewrite andb_false_r in H.
  apply rbind_ok in H as ([par4 ds3] & Hp4 & H).
  assert (HS4 : sub_population (par2 ++ off2) par4 /\ length par4 = length par).
  { destruct (Nat.eqb_spec (length (par2 ++ off2)) (length par)).
    - inversion Hp4; subst. split; auto. apply sub_pop_refl.
    - eapply reduce_ok in Hp4; eauto. tauto. }
  destruct HS4 as [HS4 HL4].
  apply rbind_ok in H as (limit & Hlim & H). apply of_opt_ok in Hlim.
  apply rbind_ok in H as (par6 & H6 & H). inversion H; subst par6 off' ds'. clear H.
  destruct (Hsort A (cmp2 A ltb) par4 (cmp2_swo A ltb Hswo)) as [HPs HSs].
  fold (pop_sort A ltb sort par4) in *. set (sorted := pop_sort A ltb sort par4) in *.
  assert (HLs : length sorted = length par) by (rewrite <- (Permutation_length HPs); auto).
  set (k := rmr_to_save A ltb elite limit) in *.
  assert (Hel : length elite = e) by apply HB.
  destruct (rmr_to_save_spec limit elite) as (K1 & K2 & K3). fold k in K1, K2, K3.
  specialize (K2 ltac:(destruct elite; simpl in *; [lia|congruence])).
  apply rmr_save_spec in H6 as [S1 S2]; auto; [|lia].
  exists elite, sorted, limit, k. split; auto. split; auto. split; [exact HSs|]. split.
  { eapply sub_pop_trans; [|apply sub_pop_incl_perm; exact HPs].
    eapply sub_pop_trans; [|exact HS4]. eapply sub_pop_trans with (par1 ++ off).
    - apply sub_pop_app; auto. apply sub_pop_refl.
    - apply sub_pop_app; auto. }
  split; auto. split; [lia|]. split; auto. split.
  { destruct K3 as [K3|[K3|K3]]; auto; [left; lia|]. rewrite K3 in Hel. simpl in Hel. lia. }
  rewrite S2. rewrite Nat.sub_0_r.
  assert (Hk : length (firstn k elite) = k) by (apply firstn_length_le; lia). rewrite Hk.
  rewrite (skipn_all2 sorted) by lia. rewrite app_nil_r. auto.
Qed.
End More.
