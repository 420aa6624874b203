(** Proofs about the truncation of the SPEA2 archive. *)
From Coq Require Import Bool QArith Arith Lia Lqa Permutation Sorted.
From Verif Require Import Lib Outcome OrderSpec OrderLemmas BoundsModel BoundsProofs EvalModel EvalProofs DivProofs DivNear SpeaModel SpeaSpec.
From Coq Require Import List.
Import ListNotations.
Close Scope Q_scope.
Open Scope nat_scope.

(** ** the order of the lines *)
Lemma closer_irrefl a k : closer a a k k = false.
Proof.
  induction a as [|x a IH]; cbn; [apply Nat.ltb_irrefl|]. destruct (qltb (snd x) (snd x)) eqn:E; auto. apply qltb_lt in E. lra.
Qed.
Lemma closer_trans a : forall b c ka kb kc, closer a b ka kb = true -> closer b c kb kc = true -> closer a c ka kc = true.
Proof.
  induction a as [|x a IH]; intros [|y b] [|z c] ka kb kc H1 H2; cbn in *; try discriminate; auto.
  - apply Nat.ltb_lt in H1, H2. apply Nat.ltb_lt. lia.
  - destruct (qltb (snd x) (snd y)) eqn:A1; [apply qltb_lt in A1|apply qltb_ge in A1; destruct (qltb (snd y) (snd x)) eqn:A2; [discriminate|apply qltb_ge in A2]];
    (destruct (qltb (snd y) (snd z)) eqn:B1; [apply qltb_lt in B1|apply qltb_ge in B1; destruct (qltb (snd z) (snd y)) eqn:B2; [discriminate|apply qltb_ge in B2]]);
    (destruct (qltb (snd x) (snd z)) eqn:C1; [reflexivity|apply qltb_ge in C1]); try (exfalso; lra).
    destruct (qltb (snd z) (snd x)) eqn:C2; [apply qltb_lt in C2; exfalso; lra|]. eauto.
Qed.
Lemma closer_ntrans a : forall b c ka kb kc, closer a b ka kb = false -> closer b c kb kc = false -> closer a c ka kc = false.
Proof.
  induction a as [|x a IH]; intros [|y b] [|z c] ka kb kc H1 H2; cbn in *; try discriminate; auto.
  - apply Nat.ltb_ge in H1, H2. apply Nat.ltb_ge. lia.
  - destruct (qltb (snd x) (snd y)) eqn:A1; [discriminate|apply qltb_ge in A1].
    destruct (qltb (snd y) (snd z)) eqn:B1; [discriminate|apply qltb_ge in B1].
    destruct (qltb (snd x) (snd z)) eqn:C1; [apply qltb_lt in C1; exfalso; lra|apply qltb_ge in C1].
    destruct (qltb (snd z) (snd x)) eqn:C2; [reflexivity|apply qltb_ge in C2].
    destruct (qltb (snd y) (snd x)) eqn:A2; [apply qltb_lt in A2; exfalso; lra|].
    destruct (qltb (snd z) (snd y)) eqn:B2; [apply qltb_lt in B2; exfalso; lra|]. eauto.
Qed.
Lemma cmp_rows_swo : strict_weak_order cmp_rows.
Proof.
  split; [|split]; unfold cmp_rows.
  - intros [a k]. apply closer_irrefl.
  - intros [a ka] [b kb] [c kc]. apply closer_trans.
  - intros [a ka] [b kb] [c kc]. apply closer_ntrans.
Qed.
Lemma lex_closer a : forall b ka kb, lex_lt (map snd a) (map snd b) -> closer a b ka kb = true.
Proof.
  induction a as [|x a IH]; intros [|y b] ka kb H; cbn in H; inversion H; subst; cbn.
  - replace (qltb (snd x) (snd y)) with true; auto. symmetry. apply qltb_lt. auto.
  - destruct (qltb (snd x) (snd y)) eqn:E; auto. destruct (qltb (snd y) (snd x)) eqn:E2; [apply qltb_lt in E2; lra|]. auto.
Qed.

(** ** truncation *)
Section Cut.
Variable sort : forall T : Type, (T -> T -> bool) -> list T -> list T.
Hypothesis sort_ok : std_sort_ok sort.
Lemma in_others alive i j : In j (others alive i) <-> In j alive /\ j <> i.
Proof. unfold others. rewrite filter_In. destruct (Nat.eqb_spec j i); cbn; intuition (try discriminate; auto). Qed.
Lemma others_nodup alive i : NoDup alive -> NoDup (others alive i).
Proof. apply NoDup_filter. Qed.
Lemma others_perm a b i : Permutation a b -> Permutation (others a i) (others b i).
Proof. apply filter_permutes. Qed.
Lemma others_length alive i : NoDup alive -> In i alive -> S (length (others alive i)) = length alive.
Proof.
  intros N J. assert (P : Permutation alive (i :: others alive i)).
  { apply NoDup_Permutation; auto.
    - constructor; [rewrite in_others; tauto|apply others_nodup; auto].
    - intros x. cbn. rewrite in_others. destruct (Nat.eq_dec i x) as [->|]; [tauto|]. split; [intros; right; split; auto|tauto]. }
  rewrite (Permutation_length P). auto.
Qed.

Variable d : nat -> nat -> Q.
Record row_ok (alive : list nat) (r : row) : Prop := RowOk {
  row_perm : Permutation (map fst (fst r)) (others alive (snd r));
  row_sorted : StronglySorted Qle (map snd (fst r));
  row_dist : forall x, In x (fst r) -> snd x = d (snd r) (fst x) }.
Definition rows_ok (alive : list nat) (rows : list row) : Prop :=
  Permutation (map snd rows) alive /\ Forall (row_ok alive) rows.
Lemma row_from alive r : row_ok alive r -> distances_from d alive (snd r) (map snd (fst r)).
Proof.
  intros [P S D]. split; auto. replace (map snd (fst r)) with (map (d (snd r)) (map fst (fst r))).
  - apply Permutation_map. auto.
  - rewrite map_map. apply map_ext_in. intros x J. symmetry. auto.
Qed.
Lemma first_crowded alive r rest : rows_ok alive (r :: rest) -> StronglySorted (fun a b => cmp_rows b a = false) (r :: rest) ->
  most_crowded d alive (snd r).
Proof.
  intros [P F] S. split.
  - apply (Permutation_in _ P). left. auto.
  - exists (map snd (fst r)). split; [apply row_from; inversion F; auto|]. intros j J.
    apply (Permutation_in _ (Permutation_sym P)), in_map_iff in J as (r' & <- & J). exists (map snd (fst r')).
    rewrite Forall_forall in F. split; [apply row_from; auto|]. intros L.
    assert (X : cmp_rows r' r = false).
    { destruct J as [<-|J]; [apply (swo_irrefl _ cmp_rows_swo)|]. inversion S as [|? ? _ Fs]; subst. rewrite Forall_forall in Fs. auto. }
    unfold cmp_rows in X. rewrite (lex_closer _ _ _ _ L) in X. discriminate.
Qed.
Lemma SS_remove {A} (R : A -> A -> Prop) pre x post : StronglySorted R (pre ++ x :: post) -> StronglySorted R (pre ++ post).
Proof.
  induction pre as [|a pre IH]; cbn; intros H; inversion H as [|? ? S F]; subst; auto. constructor; auto.
  apply Forall_app in F as [F1 F2]. inversion F2; subst. apply Forall_app. auto.
Qed.
Lemma erase_index_ok t l : In t (map fst l) -> exists pre x post, l = pre ++ x :: post /\ fst x = t /\ erase_index t l = Ok (pre ++ post).
Proof.
  induction l as [|y l IH]; intros J; [destruct J|]. cbn. destruct (Nat.eqb_spec (fst y) t) as [E|N].
  - exists [], y, l. auto.
  - destruct J as [J|J]; [cbn in J; congruence|]. destruct (IH J) as (pre & x & post & -> & E & ->). exists (y :: pre), x, post. auto.
Qed.
Lemma erase_row alive t r : NoDup alive -> In t alive -> t <> snd r -> row_ok alive r ->
  exists l, erase_index t (fst r) = Ok l /\ row_ok (others alive t) (l, snd r).
Proof.
  intros N J Ne [P S D]. destruct (erase_index_ok t (fst r)) as (pre & x & post & E & Ex & ->).
  { apply (Permutation_in _ (Permutation_sym P)), in_others. auto. }
  exists (pre ++ post). split; [auto|]. rewrite E in *. split; cbn [fst snd].
  - rewrite map_app in *. cbn [map] in P. rewrite Ex in P.
    assert (Nd : NoDup (map fst pre ++ t :: map fst post)) by (eapply Permutation_NoDup; [apply Permutation_sym; exact P|apply others_nodup; auto]).
    apply NoDup_Permutation.
    + eapply NoDup_remove_1; eauto.
    + do 2 apply others_nodup. auto.
    + intros y. pose proof (NoDup_remove_2 _ _ _ Nd) as Nt. rewrite !in_others. split.
      * intros Jy. assert (y <> t) by (intros ->; auto). 
        assert (K : In y (others alive (snd r))) by (apply (Permutation_in _ P); apply in_app_or in Jy as [|]; apply in_or_app; [auto|right; right; auto]).
        apply in_others in K. tauto.
      * intros [[Ja Jt] Jr]. assert (K : In y (map fst pre ++ t :: map fst post)) by (apply (Permutation_in _ (Permutation_sym P)), in_others; auto).
        apply in_app_or in K as [|[|]]; [apply in_or_app; auto|congruence|apply in_or_app; auto].
  - rewrite map_app in *. cbn [map] in S. eapply SS_remove; eauto.
  - intros y Jy. apply D. apply in_app_or in Jy as [|]; apply in_or_app; [auto|right; right; auto].
Qed.
Lemma erase_rows alive t : forall rows, NoDup alive -> In t alive -> ~ In t (map snd rows) -> Forall (row_ok alive) rows ->
  exists rows', erase_in_rows t rows = Ok rows' /\ map snd rows' = map snd rows /\ Forall (row_ok (others alive t)) rows'.
Proof.
  induction rows as [|r rows IH]; intros N J Nt F; cbn [erase_in_rows]; [exists []; auto|]. inversion F; subst. cbn in Nt.
  destruct (erase_row alive t r) as (l & -> & R); auto. cbn [rbind]. destruct IH as (rs & -> & M & F'); auto. cbn [rbind].
  exists ((l, snd r) :: rs). cbn. rewrite M. auto.
Qed.
Lemma sort_rows alive rows : rows_ok alive rows -> rows_ok alive (sort _ cmp_rows rows) /\ StronglySorted (fun a b => cmp_rows b a = false) (sort _ cmp_rows rows).
Proof.
  intros [P F]. destruct (sort_ok _ cmp_rows rows cmp_rows_swo) as [P' S]. split; auto. split.
  - eapply Permutation_trans; [apply Permutation_sym, Permutation_map; exact P'|auto].
  - eapply Permutation_Forall; eauto.
Qed.
Lemma cut_ok borne : forall p alive rows nk, NoDup alive -> p <= length alive -> rows_ok alive rows ->
  (p <> 0 -> StronglySorted (fun a b => cmp_rows b a = false) rows) ->
  exists rows' removed, cut sort p borne rows nk = Ok (rows', nk ++ filter (fun t => t <? borne) removed) /\
  truncated d p alive (map snd rows') /\ Permutation alive (removed ++ map snd rows').
Proof.
  induction p as [|p IH]; intros alive rows nk N L R S; cbn [cut].
  - exists rows, []. cbn. rewrite app_nil_r. split; [auto|]. split; [constructor; apply Permutation_sym, R|apply Permutation_sym, R].
  - destruct rows as [|r rest].
    { destruct R as [P _]. apply Permutation_length in P. cbn in P. lia. }
    specialize (S ltac:(discriminate)). pose proof (first_crowded _ _ _ R S) as C. destruct R as [P F]. cbn [map] in P. inversion F as [|? ? F1 F2]; subst.
    assert (J : In (snd r) alive) by (apply (Permutation_in _ P); left; auto).
    assert (Nd : NoDup (snd r :: map snd rest)) by (eapply Permutation_NoDup; [apply Permutation_sym; exact P|auto]).
    inversion Nd as [|? ? Nt Nd']; subst.
    destruct (erase_rows alive (snd r) rest N J Nt F2) as (rest' & -> & M & F').
    assert (P' : Permutation (map snd rest') (others alive (snd r))).
    { rewrite M. apply NoDup_Permutation; auto; [apply others_nodup; auto|]. intros y. rewrite in_others. split.
      - intros Jy. split; [apply (Permutation_in _ P); right; auto|]. intros ->. auto.
      - intros [Jy Ny]. apply (Permutation_in _ (Permutation_sym P)) in Jy as [|]; [congruence|auto]. }
    cbn [rbind].
    destruct (IH (others alive (snd r)) (if p =? 0 then rest' else sort _ cmp_rows rest') (if snd r <? borne then nk ++ [snd r] else nk))
      as (rows' & removed & E & T & Q).
    + apply others_nodup. auto.
    + pose proof (others_length alive (snd r) N J). lia.
    + destruct (p =? 0); [split; auto|]. apply sort_rows. split; auto.
    + intros Hp. destruct (Nat.eqb_spec p 0); [lia|]. apply (sort_rows (others alive (snd r))). split; auto.
    + exists rows', (snd r :: removed). rewrite E. split; [|split].
      * cbn [filter]. destruct (snd r <? borne); [rewrite <- app_assoc; auto|auto].
      * econstructor; eauto.
      * cbn [app]. eapply Permutation_trans; [apply Permutation_sym; exact P|]. constructor. rewrite <- M. eapply Permutation_trans; [exact P'|auto].
Qed.
End Cut.
