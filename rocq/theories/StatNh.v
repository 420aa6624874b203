(** The statistics of a neighborhood. *)
From Coq Require Import Bool QArith Arith Lia Lqa Permutation Sorted.
From Verif Require Import Lib Outcome OrderSpec OrderLemmas BoundsModel BoundsProofs EvalModel EvalProofs DivProofs NeighModel LsModel StatModel StatSpec StatProofs StatCorr.
From Coq Require Import List.
Import ListNotations.
Close Scope Q_scope.
Open Scope nat_scope.

(** the value at rank [k] of a sorted list *)
Lemma sorted_ranked l s k v : sorted_by qltb l s -> nth_error s k = Some v -> ranked l k v.
Proof.
  intros [P So] E. assert (Sp : exists a b, s = a ++ v :: b /\ length a = k) by (apply nth_error_split in E as (a & b & -> & L); eauto).
  destruct Sp as (a & b & -> & L). assert (Hl : forall p, length (filter p l) = length (filter p (a ++ v :: b))) by (intros p; apply Permutation_length, filter_permutes; auto).
  assert (Fa : Forall (fun x => (x <= v)%Q) a /\ Forall (fun x => (v <= x)%Q) b).
  { clear -So. induction a as [|x a IH]; cbn in So; inversion So as [|? ? S1 F1]; subst.
    - split; [constructor|]. eapply Forall_impl; [|exact F1]. intros y H. apply qltb_ge in H. auto.
    - destruct (IH S1) as [Ha Hb]. split; auto. constructor; auto. rewrite Forall_forall in F1. specialize (F1 v ltac:(apply in_or_app; cbn; auto)). apply qltb_ge in F1. auto. }
  destruct Fa as [Fa Fb]. unfold ranked. rewrite !Hl, !filter_app. split; [apply (Permutation_in _ (Permutation_sym P)), in_or_app; cbn; auto|]. split.
  - rewrite app_length. cbn [filter]. replace (Qle_bool v v) with true by (symmetry; apply Qle_bool_iff; lra). cbn [negb].
    rewrite (filter_none _ b); [|intros x J; rewrite Forall_forall in Fb; specialize (Fb x J); apply Qle_bool_iff in Fb; rewrite Fb; auto].
    cbn [length]. assert (length (filter (fun x => negb (Qle_bool v x)) a) <= length a); [|lia]. clear. induction a as [|x a IH]; cbn; auto. destruct (negb _); cbn; lia.
  - rewrite (filter_id _ a); [|intros x J; rewrite Forall_forall in Fa; specialize (Fa x J); apply Qle_bool_iff; auto].
    rewrite app_length. cbn [filter]. replace (Qle_bool v v) with true by (symmetry; apply Qle_bool_iff; lra). cbn [length]. lia.
Qed.

Section N.
Variables (G F S I : Type).
Variables (lt eq : F -> F -> bool).
Variables (has : G -> bool) (nh : G -> iterator S I).
Variable neval : sol G F -> I -> res F.
Variables (val : F -> Q) (as_fit : Q -> F).
Variable sqrt : Q -> Q.
Variable sort : forall T : Type, (T -> T -> bool) -> list T -> list T.
Notation first_seen := (first_seen G F I lt eq val).
Notation next_seen := (next_seen G F I lt eq val).

Definition worse_or_same (f0 f : F) : bool := negb (eq f0 f) && negb (lt f0 f).
Definition seen_ok (f0 : F) (fs : list F) (a : seen F) : Prop :=
  is_best lt fs (s_best F a) /\ is_worst lt fs (s_low F a) /\ (s_sum F a == total (map val fs))%Q /\ s_all F a = map val fs /\ s_nb F a = length fs /\
  s_inf F a = how_many (worse_or_same f0) fs /\ s_equal F a = how_many (eq f0) fs /\ s_sup F a = how_many (fun f => negb (eq f0 f) && lt f0 f) fs.
Hypothesis lt_ok : strict_weak_order lt.

Lemma how_many_snoc {A} (p : A -> bool) l x : how_many p (l ++ [x]) = (if p x then Datatypes.S (how_many p l) else how_many p l).
Proof. unfold how_many. rewrite filter_app, app_length. cbn. destruct (p x); cbn; lia. Qed.
Lemma first_seen_ok s f0 i f : fit s = Some f0 -> exists a, first_seen s (i, f) = Ok a /\ seen_ok f0 [f] a.
Proof.
  intros E. unfold StatModel.first_seen, fitness. rewrite E. cbn [rbind snd].
  assert (Be : is_best lt [f] f) by (split; [left; auto|intros y [<-|[]]; apply (swo_irrefl lt lt_ok)]).
  assert (Lo : is_worst lt [f] f) by (split; [left; auto|intros y [<-|[]]; apply (swo_irrefl lt lt_ok)]).
  unfold count. destruct (eq f0 f) eqn:E1; [|destruct (lt f0 f) eqn:E2]; eexists; (split; [reflexivity|]);
    unfold seen_ok, how_many, worse_or_same; cbn [s_best s_low s_sum s_all s_nb s_inf s_equal s_sup filter map length total]; rewrite ?E1, ?E2; cbn [andb negb length];
    (split; [exact Be|]); (split; [exact Lo|]); (split; [ring|]); auto 10.
Qed.
Lemma next_seen_ok s f0 fs a i f : fit s = Some f0 -> seen_ok f0 fs a -> exists a', next_seen s a (i, f) = Ok a' /\ seen_ok f0 (fs ++ [f]) a'.
Proof.
  intros E ([B1 B2] & [W1 W2] & Su & Al & Nb & Ci & Ce & Cs). unfold StatModel.next_seen, fitness. rewrite E. cbn [rbind snd].
  assert (Be : is_best lt (fs ++ [f]) (if lt (s_best F a) f then f else s_best F a)).
  { destruct (lt (s_best F a) f) eqn:L; split; try (apply in_or_app; cbn; auto; fail); intros y J; apply in_app_or in J as [J|[<-|[]]]; auto; try apply (swo_irrefl lt lt_ok).
    destruct (lt f y) eqn:X; auto. rewrite <- (B2 y J). symmetry. eapply swo_trans; eauto. }
  assert (Lo : is_worst lt (fs ++ [f]) (if lt f (s_low F a) then f else s_low F a)).
  { destruct (lt f (s_low F a)) eqn:L; split; try (apply in_or_app; cbn; auto; fail); intros y J; apply in_app_or in J as [J|[<-|[]]]; auto; try apply (swo_irrefl lt lt_ok).
    destruct (lt y f) eqn:X; auto. rewrite <- (W2 y J). symmetry. eapply swo_trans; eauto. }
  unfold count. destruct (eq f0 f) eqn:E1; [|destruct (lt f0 f) eqn:E2]; eexists; (split; [reflexivity|]);
    unfold seen_ok; rewrite !how_many_snoc, !map_app, app_length; unfold worse_or_same in *; rewrite ?E1, ?E2; cbn [s_best s_low s_sum s_all s_nb s_inf s_equal s_sup andb negb map length];
    (split; [exact Be|]); (split; [exact Lo|]); (split; [rewrite total_app, Su; cbn [total]; ring|]); rewrite Al, Nb, Ci, Ce, Cs; repeat split; lia.
Qed.
Lemma scan_ok s f0 : fit s = Some f0 -> forall fuel seen_fs a n ds xs n' ds' fs, seen_ok f0 seen_fs a ->
  continue (nh (geno s)) fuel n ds = Ok (xs, n', ds') -> Forall2 (fun i f => neval s i = Ok f) xs fs ->
  exists a', scan G F S I nh neval (fun _ => false) (next_seen s) fuel s a n ds = Ok (a', n', ds') /\ seen_ok f0 (seen_fs ++ fs) a'.
Proof.
  intros E. induction fuel as [|fuel IH]; intros sf a n ds xs n' ds' fs Ha H Hf; cbn [continue] in H; cbn [scan]; destruct (i_cont (nh (geno s)) n) eqn:Ec; try discriminate.
  - injection H as <- <- <-. inversion Hf; subst. exists a. rewrite app_nil_r. auto.
  - apply rbind_ok in H as ([[n1 i] ds1] & E1 & H). apply rbind_ok in H as ([[xs1 n2] ds2] & E2 & H). injection H as <- <- <-. inversion Hf as [|? f ? fs1 N1 N2]; subst.
    rewrite E1. cbn [rbind]. rewrite N1. cbn [rbind]. destruct (next_seen_ok s f0 sf a i f E Ha) as (a1 & -> & Ha1). cbn [rbind].
    destruct (IH _ _ _ _ _ _ _ _ Ha1 E2 N2) as (a' & E3 & H3). exists a'. split; [exact E3|]. rewrite <- app_assoc in H3. exact H3.
  - injection H as <- <- <-. inversion Hf; subst. exists a. rewrite app_nil_r. auto.
Qed.
Hypothesis sort_ok : std_sort_ok sort.
Hypothesis sqrt_eq : forall x y, (x == y -> sqrt x == sqrt y)%Q.
Definition nstat_ok (f0 : F) (fs : list F) (r : nstat F) : Prop :=
  is_best lt fs (n_max F r) /\ is_worst lt fs (n_min F r) /\ (n_mean F r == average (map val fs))%Q /\
  n_nb F r = length fs /\ n_inf F r = how_many (worse_or_same f0) fs /\ n_equal F r = how_many (eq f0) fs /\ n_sup F r = how_many (fun f => negb (eq f0 f) && lt f0 f) fs /\
  (2 <= length fs -> (n_sd F r == sqrt (scatter (map val fs) / (inject_Z (Z.of_nat (length fs)) - 1)))%Q /\
     exists v1 v2 v3, ranked (map val fs) (length fs / 4) v1 /\ ranked (map val fs) (length fs / 2) v2 /\ ranked (map val fs) (3 * length fs / 4) v3 /\
       n_q1 F r = as_fit v1 /\ n_q2 F r = as_fit v2 /\ n_q3 F r = as_fit v3) /\
  (length fs = 1 -> n_sd F r = 0%Q /\ n_q1 F r = n_max F r /\ n_q2 F r = n_max F r /\ n_q3 F r = n_max F r).
Lemma finish_ok f0 fs a : fs <> [] -> seen_ok f0 fs a -> exists r, finish F as_fit sqrt sort a = Ok r /\ nstat_ok f0 fs r.
Proof.
  intros Hn (Be & Lo & Su & Al & Nb & Ci & Ce & Cs). unfold finish. rewrite Al, Nb.
  assert (Mean : (s_sum F a / qnat (length fs) == average (map val fs))%Q) by (unfold average, size; rewrite map_length, Su; reflexivity).
  destruct (Nat.ltb_spec 1 (length fs)) as [Hl|Hl].
  - match goal with |- context [for_in (seq 0 (length fs)) ?b 0%Q] => destruct (for_in_seq (fun k acc => acc == total (map (fun x => (x - average (map val fs)) * (x - average (map val fs))) (firstn k (map val fs))))%Q b (length fs) 0 0%Q) as (sd & E & Hsd) end.
    + reflexivity.
    + intros k m Hk Hm. destruct (nth_error (map val fs) k) as [x|] eqn:Ex; [|apply nth_error_None in Ex; rewrite map_length in Ex; lia]. cbn [of_opt rbind]. eexists. split; [reflexivity|].
      assert (Fs : firstn (Datatypes.S k) (map val fs) = firstn k (map val fs) ++ [x]).
      { clear -Ex. revert k Ex. induction (map val fs) as [|y l IH]; intros [|k] Ex; cbn in *; try discriminate; [injection Ex as ->; auto|]. f_equal. apply IH. auto. }
      rewrite Fs, map_app, total_app. cbn [map total]. rewrite Hm, Mean. ring.
    + rewrite E. cbn [rbind]. cbn [Nat.add] in Hsd. rewrite firstn_all2 in Hsd by (rewrite map_length; auto).
      destruct (sort_ok Q qltb (map val fs) (qltb_swo (fun x => x))) as [P So]. assert (L : length (sort Q qltb (map val fs)) = length fs) by (rewrite <- (Permutation_length P), map_length; auto).
      assert (D1 : length fs / 4 < length fs) by (apply Nat.div_lt; lia). assert (D2 : length fs / 2 < length fs) by (apply Nat.div_lt; lia).
      assert (D3 : 3 * length fs / 4 < length fs) by (apply Nat.div_lt_upper_bound; lia).
      destruct (nth_error (sort Q qltb (map val fs)) (length fs / 4)) as [v1|] eqn:V1; [|apply nth_error_None in V1; lia]. cbn [of_opt rbind].
      destruct (nth_error (sort Q qltb (map val fs)) (length fs / 2)) as [v2|] eqn:V2; [|apply nth_error_None in V2; lia]. cbn [of_opt rbind].
      destruct (nth_error (sort Q qltb (map val fs)) (3 * length fs / 4)) as [v3|] eqn:V3; [|apply nth_error_None in V3; lia]. cbn [of_opt rbind].
      eexists. split; [reflexivity|]. unfold nstat_ok. cbn [n_max n_min n_mean n_sd n_q1 n_q2 n_q3 n_nb n_inf n_equal n_sup]. do 7 (split; [auto|]). split; [|lia]. intros _. split.
      * apply sqrt_eq. rewrite Hsd. reflexivity.
      * exists v1, v2, v3. split; [|split; [|split]]; [eapply sorted_ranked; [split; eassumption|exact V1]|eapply sorted_ranked; [split; eassumption|exact V2]|eapply sorted_ranked; [split; eassumption|exact V3]|auto].
  - eexists. split; [reflexivity|]. unfold nstat_ok. cbn [n_max n_min n_mean n_sd n_q1 n_q2 n_q3 n_nb n_inf n_equal n_sup]. do 7 (split; [auto|]). split; [lia|]. auto.
Qed.
Lemma neighborhood_stat_ok fuel s f0 st n ds xs n' ds' fs : has (geno s) = true -> fit s = Some f0 ->
  explore (nh (geno s)) fuel n ds = Ok (xs, n', ds') -> Forall2 (fun i f => neval s i = Ok f) xs fs ->
  exists r, neighborhood_stat G F S I lt eq has nh neval val as_fit sqrt sort fuel s st n ds = Ok (true, Some r, n', ds') /\ nstat_ok f0 fs r.
Proof.
  intros Hh E Ex Hf. unfold neighborhood_stat, start. rewrite Hh. unfold explore in Ex.
  apply rbind_ok in Ex as ([[n1 i] ds1] & E1 & Ex). apply rbind_ok in Ex as ([[xs1 n2] ds2] & E2 & Ex). injection Ex as <- <- <-. inversion Hf as [|? f ? fs1 N1 N2]; subst.
  rewrite E1. cbn [rbind]. rewrite N1. cbn [rbind]. destruct (first_seen_ok s f0 i f E) as (a & -> & Ha). cbn [rbind].
  destruct (scan_ok s f0 E fuel [f] a n1 ds1 xs1 n2 ds2 fs1 Ha E2 N2) as (a' & -> & Ha'). cbn [rbind].
  destruct (finish_ok f0 (f :: fs1) a' ltac:(discriminate) Ha') as (r & -> & Hr). cbn [rbind]. eauto.
Qed.
End N.
