(** Dominance depth with two objectives and the flag unset, repeated vectors allowed: the numbers
    given respect domination (used for NSGA-II, C149). *)
From Coq Require Import List Arith Lia Bool ZArith QArith Lqa Permutation Sorted.
From Verif Require Import Outcome Lib OrderSpec OrderLemmas BoundsModel BoundsProofs ParetoModel ParetoSpec ParetoProofs RankModel RankSpec RankProofs RankSorted RankTwo.
Import ListNotations.
Close Scope Q_scope.

Section Place.
Variable m : bool.
Variable top : Q.
Variable size : nat.
Notation ky := (ky m top).
Notation lexlt := (lexlt m top).
Notation same2 := (same2 m top).
Notation dom2 := (dom2 m top).

(** members processed so far with their number: a positive number comes after the previous one
    held by a member at least as good, and the dominating ones have smaller numbers *)
Definition stacked (l : list ((Q * Q) * nat)) : Prop :=
  forall w g, In (w, g) l -> (0 < g -> exists w' g', In (w', g') l /\ S g' = g /\ (dom2 w w' \/ same2 w w')) /\
                             (forall w' g', In (w', g') l -> dom2 w w' -> g' < g).
Definition going_ok (d : list Q) (last : nat) (l : list ((Q * Q) * nat)) : Prop :=
  length d = size /\ last <= length l /\ StronglySorted Qle (firstn last d) /\
  (forall w g, In (w, g) l -> exists x, g < last /\ nth_error d g = Some x /\ (x <= ky w)%Q) /\
  (forall k x, k < last -> nth_error d k = Some x -> exists w, In (w, k) l /\ (ky w == x)%Q) /\
  stacked l.

Lemma place_any d last prev l v : going_ok d last l -> length l < size ->
  (forall w g, In (w, g) l -> ~ lexlt v w) ->
  exists d' last' k, place false [m; m] 0 top size (d, last, prev) v = Ok ((d', last', Some v), k) /\
  going_ok d' last' (l ++ [(v, k)]).
Proof.
  intros (Ld & Ll & Sd & Hmem & Hmin & Hlay) Hsz Hsorted.
  assert (Hordered : forall w g, In (w, g) l -> lexlt w v \/ same2 w v) by (intros w g Hw; apply not_lex; eauto).
  unfold place. replace (match prev with Some w => false && same_vector 0 (vec2 v) (vec2 w) | None => false end) with false by (destruct prev; auto).
  change (if nth 1 [m; m] true then snd v else (top - snd v)%Q) with (ky v).
  assert (Lf : length (firstn last d) = last).
  { rewrite firstn_length. destruct (le_lt_dec last (length d)); [lia|]. exfalso. lia. }
  destruct (upper_bound_ok (firstn last d) (ky v) Sd) as (k & Eu & Hk & Below & Above). rewrite Eu. cbn [rbind].
  rewrite Lf in Hk. assert (Hkd : k < length d) by lia.
  assert (Below' : forall i x, i < k -> nth_error d i = Some x -> (x <= ky v)%Q).
  { intros i x Hi Hx. apply (Below i); auto. rewrite nth_firstn, (proj2 (Nat.ltb_lt i last)); auto. lia. }
  assert (Above' : forall i x, k <= i -> i < last -> nth_error d i = Some x -> (ky v < x)%Q).
  { intros i x Hi Hil Hx. apply (Above i); auto. rewrite nth_firstn, (proj2 (Nat.ltb_lt i last)); auto. }
  rewrite upd_set by auto. cbn [of_opt rbind].
  set (last' := if k =? last then S last else last). exists (set d k (ky v)), last', k. split; auto.
  assert (Ll' : last <= last') by (unfold last'; destruct (k =? last); lia).
  assert (Hkl : k < last') by (unfold last'; destruct (Nat.eqb_spec k last); lia).
  split; [rewrite set_length; auto|]. split; [rewrite app_length; cbn; unfold last'; destruct (k =? last); lia|].
  split; [apply sorted_set; auto; lia|]. split; [|split].
  - intros w g H. apply in_app_or in H as [H|[H|[]]].
    + destruct (Hmem w g H) as (x & X1 & X2 & X3). rewrite nth_error_set, (proj2 (Nat.ltb_lt k (length d))) by auto. rewrite andb_true_r.
      destruct (Nat.eqb_spec g k) as [->|].
      * exists (ky v). split; [lia|]. split; auto. specialize (Above' k x ltac:(lia) X1 X2). lra.
      * exists x. repeat split; auto. lia.
    + inversion H; subst w g. exists (ky v). split; auto. rewrite nth_error_set_eq by auto. split; auto. lra.
  - intros i x Hi Hx. rewrite nth_error_set, (proj2 (Nat.ltb_lt k (length d))) in Hx by auto. rewrite andb_true_r in Hx.
    destruct (Nat.eqb_spec i k) as [->|].
    + inversion Hx; subst x. exists v. split; [apply in_or_app; right; left; auto|lra].
    + destruct (Hmin i x) as (w & W1 & W2); auto. { unfold last' in Hi. destruct (Nat.eqb_spec k last); lia. } exists w. split; auto. apply in_or_app; auto.
  - intros w g H. apply in_app_or in H as [H|[H|[]]].
    + destruct (Hlay w g H) as [A1 A2]. split.
      * intros Hg0. destruct (A1 Hg0) as (w' & g' & B1 & B2 & B3). exists w', g'. split; auto. apply in_or_app; auto.
      * intros w' g' H' Hd'. apply in_app_or in H' as [H'|[H'|[]]]; eauto. inversion H'; subst w' g'. exfalso.
        destruct (Hordered w g H) as [C|C]; [exact (lex_not_dom _ _ w v C Hd')|]. exact (same_not_dom _ _ w v C Hd').
    + inversion H; subst w g. split.
      * intros Hk0. destruct (nth_error d (k - 1)) as [x|] eqn:Ex; [|apply nth_error_None in Ex; lia].
        destruct (Hmin (k - 1) x ltac:(lia) Ex) as (w & W1 & W2). exists w, (k - 1). split; [apply in_or_app; auto|]. split; [lia|].
        destruct (Hordered w _ W1) as [C|C]; [left; apply lex_le_dom; auto; specialize (Below' (k - 1) x ltac:(lia) Ex); lra|right; apply same2_sym; auto].
      * intros w' g' H' Hd'. apply in_app_or in H' as [H'|[H'|[]]].
        -- destruct (le_lt_dec k g') as [C|]; auto. exfalso. destruct (Hmem w' g' H') as (x & X1 & X2 & X3).
           specialize (Above' g' x C X1 X2). destruct Hd' as (_ & Hd' & _). lra.
        -- inversion H'; subst w' g'. exfalso. apply (same_not_dom m top v v); auto. unfold RankSorted.same2. split; lra.
Qed.

Lemma place_all_any : forall ws d last prev l, going_ok d last l -> length l + length ws <= size ->
  (forall i j a b, i < j -> nth_error (map fst l ++ ws) i = Some a -> nth_error (map fst l ++ ws) j = Some b -> ~ lexlt b a) ->
  exists ks, place_all false [m; m] 0 top size (d, last, prev) ws = Ok ks /\ length ks = length ws /\ stacked (l ++ combine ws ks).
Proof.
  induction ws as [|v ws IH]; intros d last prev l Hok Hsz Hs.
  - exists []. split; [reflexivity|]. split; [reflexivity|]. cbn [combine]. rewrite app_nil_r. apply Hok.
  - cbn [length] in Hsz. destruct (place_any d last prev l v Hok) as (d' & last' & k & E & Hok'); [lia|..].
    + intros w g Hw. apply (in_map fst) in Hw. cbn in Hw. apply In_nth_error in Hw as [i Hi]. pose proof (nth_error_lt _ _ _ Hi).
      apply (Hs i (length (map fst l))); [auto|rewrite nth_error_app1; auto|]. rewrite nth_error_app2, Nat.sub_diag by lia. auto.
    + assert (Em : map fst (l ++ [(v, k)]) ++ ws = map fst l ++ v :: ws) by (rewrite map_app, <- app_assoc; auto).
      destruct (IH d' last' (Some v) (l ++ [(v, k)])) as (ks & E2 & L1 & Lay); auto.
      * rewrite app_length. cbn. lia.
      * rewrite Em. auto.
      * exists (k :: ks). cbn [place_all]. rewrite E. cbn [rbind]. rewrite E2. cbn [rbind]. split; auto.
        split; [cbn; lia|]. cbn. rewrite <- app_assoc in Lay. auto.
Qed.
End Place.

Section Two.
Variable sort : forall T : Type, (T -> T -> bool) -> list T -> list T.
Hypothesis Hsort : std_sort_ok sort.
Variable m : bool.
Variable vs : list (Q * Q).
Notation n := (length vs).
(** every position has a number from 1; a position with a number above 1 has, just below, one at
    least as good; the dominating positions have smaller numbers *)
Lemma two_any f0 : length f0 = n ->
  exists f', twoObjectives sort false 0 [m; m] vs f0 = Ok f' /\ length f' = n /\
  exists R : nat -> nat, (forall i, i < n -> nth_error f' i = Some (Some (Z.of_nat (R i))) /\ 0 < R i) /\
  (forall i a, nth_error vs i = Some a -> 1 < R i -> exists j b, nth_error vs j = Some b /\ S (R j) = R i /\
     (dominates [m; m] (vec2 b) (vec2 a) \/ equal_vectors (vec2 a) (vec2 b))) /\
  (forall i j a b, nth_error vs i = Some a -> nth_error vs j = Some b -> dominates [m; m] (vec2 b) (vec2 a) -> R j < R i).
Proof.
  intros Lf. unfold twoObjectives, sorted_ptrs. set (dflt := (0, 0)%Q).
  destruct (Hsort nat (fun i j => obj_before 0 [m; m] (vec2 (nth i vs dflt)) (vec2 (nth j vs dflt))) (seq 0 n)) as [P S].
  { apply (before2_swo m (fun i => nth i vs dflt)). }
  set (ptrs := sort nat _ (seq 0 n)) in *. clearbody ptrs. apply Permutation_sym in P.
  assert (Lp : length ptrs = n) by (rewrite (Permutation_length P), seq_length; auto).
  assert (Np : NoDup ptrs) by (eapply Permutation_NoDup; [apply Permutation_sym; exact P|apply seq_NoDup]).
  assert (Rp : forall p, In p ptrs -> p < n) by (intros p Hp; apply (Permutation_in _ P), in_seq in Hp; lia).
  set (ws := map (fun i => nth i vs dflt) ptrs). set (top := max_obj1 vs).
  assert (Lw : length ws = n) by (unfold ws; rewrite map_length; auto).
  assert (Sw : forall i j a b, i < j -> nth_error ws i = Some a -> nth_error ws j = Some b -> ~ lexlt m top b a).
  { intros i j a b Hij Ha Hb C. apply (before2 m top) in C. unfold ws in Ha, Hb. rewrite nth_error_map in Ha, Hb.
    destruct (nth_error ptrs i) as [p|] eqn:Ep; [|discriminate]. destruct (nth_error ptrs j) as [q|] eqn:Eq; [|discriminate]. cbn in Ha, Hb.
    pose proof (StronglySorted_nth _ _ _ _ _ _ S Hij Ep Eq) as H. cbv beta in H. inversion Ha; inversion Hb; subst. congruence. }
  assert (Eqv : forall a b, same2 m top a b <-> equal_vectors (vec2 a) (vec2 b)).
  { intros a b. rewrite <- same2_spec, same_vector_exact by auto. tauto. }
  destruct (place_all_any m top n ws (repeat top n) 0 None []) as (ks & E & L1 & Lay).
  { split; [apply repeat_length|]. split; auto. split; [constructor|]. split; [intros w g []|]. split; [intros; lia|]. intros w g []. }
  { cbn. lia. }
  { exact Sw. }
  rewrite E. cbn [rbind]. cbn [app] in Lay.
  destruct (assign_fronts_spec ptrs ks f0) as (A1 & _ & A3); [lia|auto|intros p Hp; rewrite Lf; auto|].
  exists (assign_fronts f0 ptrs ks). split; auto. split; [lia|].
  (* the place of a position among the pointers *)
  assert (At : forall p, p < n -> exists i k, nth_error ptrs i = Some p /\ nth_error ks i = Some k /\ nth_error ws i = Some (nth p vs dflt) /\ In (nth p vs dflt, k) (combine ws ks)).
  { intros p Hp. assert (In p ptrs) as Hin by (apply (Permutation_in _ (Permutation_sym P)), in_seq; lia). apply In_nth_error in Hin as [i Hi].
    pose proof (nth_error_lt _ _ _ Hi). destruct (nth_error ks i) as [k|] eqn:Ek; [|apply nth_error_None in Ek; lia].
    assert (Ew : nth_error ws i = Some (nth p vs dflt)) by (unfold ws; rewrite nth_error_map, Hi; auto).
    exists i, k. repeat split; auto. apply nth_error_In with i. apply combine_nth_error; auto. }
  set (R := fun p => match nth p (assign_fronts f0 ptrs ks) None with Some z => Z.to_nat z | None => 0 end).
  assert (HR : forall i p k, nth_error ptrs i = Some p -> nth_error ks i = Some k -> nth_error (assign_fronts f0 ptrs ks) p = Some (Some (Z.of_nat (R p))) /\ R p = k + 1).
  { intros i p k Hi Hk. pose proof (A3 i p k Hi Hk) as H. assert (R p = k + 1) as Er by (unfold R; rewrite (nth_error_nth _ _ None H); apply Nat2Z.id). rewrite Er. auto. }
  exists R. split; [|split].
  - intros i Hi. destruct (At i Hi) as (j & k & H1 & H2 & _ & _). destruct (HR j i k H1 H2) as [H3 H4]. split; auto. lia.
  - intros i a Ha Hr. pose proof (nth_error_lt _ _ _ Ha) as Hi. destruct (At i Hi) as (j & k & H1 & H2 & H3 & H4). destruct (HR j i k H1 H2) as [_ Ek].
    assert (a = nth i vs dflt) as -> by (symmetry; apply nth_error_nth; auto). destruct (Lay _ _ H4) as [Y1 _]. destruct Y1 as (w' & g' & Z1 & Z2 & Z3); [lia|].
    apply in_combine_nth in Z1 as (j' & J1 & J2). pose proof (nth_error_lt _ _ _ J1). destruct (nth_error ptrs j') as [q|] eqn:Eq; [|apply nth_error_None in Eq; lia].
    destruct (HR j' q g' Eq J2) as [_ Eg]. assert (Hq : q < n) by (apply Rp; eapply nth_error_In; eauto).
    unfold ws in J1. rewrite nth_error_map, Eq in J1. cbn in J1. inversion J1; subst w'. exists q, (nth q vs dflt). split; [apply nth_error_nth'; auto|]. split; [lia|].
    destruct Z3 as [Z3|Z3]; [left; apply (dominates2 m top); auto|right; apply Eqv; auto].
  - intros i j a b Ha Hb Hd. pose proof (nth_error_lt _ _ _ Ha) as Hi. pose proof (nth_error_lt _ _ _ Hb) as Hj.
    destruct (At i Hi) as (i' & k & H1 & H2 & _ & H4). destruct (HR i' i k H1 H2) as [_ Ek]. destruct (At j Hj) as (j' & k' & H1' & H2' & _ & H4'). destruct (HR j' j k' H1' H2') as [_ Ek'].
    assert (a = nth i vs dflt) as -> by (symmetry; apply nth_error_nth; auto). assert (b = nth j vs dflt) as -> by (symmetry; apply nth_error_nth; auto).
    destruct (Lay _ _ H4) as [_ Y2]. specialize (Y2 _ _ H4' (proj1 (dominates2 m top _ _) Hd)). lia.
Qed.
End Two.
