(** Archives of individuals with real objective vectors. *)
From Coq Require Import List Arith Lia Bool Permutation QArith Lqa.
From Verif Require Import Outcome Lib OrderSpec OrderLemmas BoundsProofs ParetoModel ParetoSpec ParetoProofs ArchModel ArchSpec ArchProofs.
Import ListNotations.
Close Scope Q_scope.

Lemma same_vector_sym tol : forall v w, same_vector tol v w = true -> same_vector tol w v = true.
Proof.
  induction v as [|a v IH]; intros [|b w] H; cbn in *; auto. destruct (differ tol a b) eqn:D; [discriminate|].
  replace (differ tol b a) with false; [auto|]. symmetry. rewrite differ_false in *. tauto.
Qed.
Lemma antichain_nil {A} (dom eqv : A -> A -> Prop) : antichain dom eqv [].
Proof. intros [|i] j a b _ H; discriminate. Qed.
Lemma represents_front_iff {A} (d d' e e' : A -> A -> Prop) seen arch :
  (forall m, In m arch -> In m seen) \/ (forall m, In m arch -> In m seen) ->
  (forall a b, In a seen -> In b seen -> (d a b <-> d' a b) /\ (e a b <-> e' a b)) ->
  represents_front d e seen arch -> represents_front d' e' seen arch.
Proof.
  intros Hs H (A1 & A2 & A3). assert (Hin : forall m, In m arch -> In m seen) by tauto. split; [|split].
  - intros i j a b Hij Ha Hb. destruct (A1 i j a b Hij Ha Hb). apply nth_error_In, Hin in Ha. apply nth_error_In, Hin in Hb. destruct (H a b); auto. tauto.
  - intros m Hm. destruct (A2 m Hm) as [B1 B2]. split; auto. intros y Hy C. apply (B2 y Hy). apply H; auto.
  - intros x [B1 B2]. destruct (A3 x) as (m & Hm & He).
    + split; auto. intros y Hy C. apply (B2 y Hy). apply H; auto.
    + exists m. split; auto. apply H; auto.
Qed.

Section Real.
Variable A : Type.
Variable obj : A -> list Q.
Variable dirs : list bool.
Variable replace : bool.
Notation dom := (fun a b => dominates dirs (obj b) (obj a)).
Notation eqv := (fun a b => equal_vectors (obj a) (obj b)).
Notation update := (update A (list Q) obj (pareto 0 dirs) (same_vector 0) replace).
Notation update_pop := (update_pop A (list Q) obj (pareto 0 dirs) (same_vector 0) replace).
Notation P := (fun a => length (obj a) = length dirs).
Lemma len_eq a b : P a -> P b -> length (obj a) = length (obj b).
Proof. congruence. Qed.
Lemma cmp_dom a b : P a -> P b -> (pareto 0 dirs (obj a) (obj b) = true <-> dom a b).
Proof. intros. apply pareto_exact; auto. Qed.
Lemma cmp_eqv a b : P a -> P b -> (same_vector 0 (obj a) (obj b) = true <-> eqv a b).
Proof. intros. apply same_vector_exact, len_eq; auto. Qed.

Lemma real_more init offered : Forall P (init ++ offered) -> antichain dom eqv init ->
  exists l b, update_pop init offered false = Ok (l, b) /\ represents_front dom eqv (init ++ offered) l.
Proof.
  intros F Ha. destruct (archive_more A (list Q) obj (pareto 0 dirs) (same_vector 0) replace) with (P := P) (init := init) (offered := offered) as (l & b & E & R); auto.
  - intros a b. apply same_vector_sym.
  - intros a Pa. rewrite pareto_irrefl; [discriminate|lra|auto].
  - intros a b c. cbv beta. intros. eapply pareto_trans; [..|eassumption]; eauto.
  - intros a Pa. apply cmp_eqv; auto. apply equal_vectors_refl.
  - intros a b c Pa Pb Pc H1 H2. apply cmp_eqv in H1, H2; auto. apply cmp_eqv; auto. eapply equal_vectors_trans; eauto.
  - intros a b c Pa Pb Pc H1 H2. apply cmp_dom in H1; auto. apply cmp_eqv in H2; auto. apply cmp_dom; auto. eapply dominates_equal; eauto using equal_vectors_refl.
  - intros a b c Pa Pb Pc H1 H2. apply cmp_dom in H2; auto. apply cmp_eqv in H1; auto. apply cmp_dom; auto. eapply dominates_equal; [..|exact H2]; eauto using equal_vectors_refl, equal_vectors_sym.
  - intros i j a b Hij Hi Hj. rewrite Forall_forall in F. destruct (Ha i j a b Hij Hi Hj) as [H1 H2].
    assert (P a) by (apply F, in_or_app; left; eapply nth_error_In; eauto). assert (P b) by (apply F, in_or_app; left; eapply nth_error_In; eauto).
    rewrite cmp_dom, cmp_eqv; auto.
  - exists l, b. split; auto. rewrite Forall_forall in F. eapply represents_front_iff; [left; intros m Hm; apply R; auto| |exact R].
    intros a c Ia Ic. split; [apply cmp_dom|apply cmp_eqv]; auto.
Qed.
Lemma real_front offered : Forall P offered -> exists l b, update_pop [] offered false = Ok (l, b) /\ represents_front dom eqv offered l.
Proof. intros F. apply (real_more [] offered); auto. apply antichain_nil. Qed.

Lemma real_equals offered offered' l l' b b' : Forall P offered -> Permutation offered offered' ->
  update_pop [] offered false = Ok (l, b) -> update_pop [] offered' false = Ok (l', b') -> equals A (list Q) obj (same_vector 0) l l' = true.
Proof.
  intros F Hp E E'. assert (F' : Forall P offered') by (eapply Permutation_Forall; eauto).
  destruct (real_front offered F) as (l1 & b1 & E1 & R1). destruct (real_front offered' F') as (l2 & b2 & E2 & R2).
  assert (l1 = l) as -> by congruence. assert (l2 = l') as -> by congruence.
  assert (Hin : forall x, In x offered <-> In x offered') by (intros x; split; apply Permutation_in; auto; apply Permutation_sym; auto).
  destruct R1 as (_ & A1 & B1), R2 as (_ & A2 & B2). rewrite Forall_forall in F, F'.
  assert (T : forall x, in_front dom offered x <-> in_front dom offered' x).
  { intros x. unfold in_front. rewrite Hin. split; intros [H1 H2]; split; auto; intros y Hy; apply H2; apply Hin; auto. }
  unfold equals, contains. rewrite andb_true_iff, !forallb_forall. split; intros m Hm; apply existsb_exists.
  - destruct (B2 m) as (m' & Hm' & He); [apply T; auto|]. exists m'. split; auto.
    apply cmp_eqv; [apply F'; apply A2; auto|apply F; apply A1; auto|]. apply equal_vectors_sym; auto.
  - destruct (B1 m) as (m' & Hm' & He); [apply T; auto|]. exists m'. split; auto.
    apply cmp_eqv; [apply F; apply A1; auto|apply F'; apply A2; auto|]. apply equal_vectors_sym; auto.
Qed.

(** whether an individual enters, and what leaves *)
Lemma real_update l x : Forall P (x :: l) -> exists l' b, update l x = Ok (l', b) /\
  (b = true <-> forall y, In y l -> ~ dom x y /\ ~ (replace = false /\ eqv x y)) /\
  (forall y, In y l' <-> (In y l /\ ~ dom y x /\ ~ (replace = true /\ eqv x y)) \/ (b = true /\ y = x)).
Proof.
  intros F. inversion F as [|? ? Px Fl]; subst. rewrite Forall_forall in Fl.
  destruct (update_ok A (list Q) obj (pareto 0 dirs) (same_vector 0) replace l x) as (l' & b & E & Hb & Hin & _).
  exists l', b. split; auto. split.
  - rewrite Hb. split.
    + intros N y Hy. assert (Py : P y) by auto. split.
      * intros Hd. apply N. exists y. split; auto. split; [|left; apply cmp_dom; auto]. apply keep_true. rewrite cmp_dom, cmp_eqv by auto. split.
        -- intros C. apply cmp_dom in C, Hd; auto. rewrite (pareto_asym 0 dirs (obj y) (obj x)) in Hd; try discriminate; auto; lra.
        -- intros [_ C]. apply (dominates_equal dirs (obj y) (obj x) (obj x) (obj x)) in Hd; auto using equal_vectors_refl, equal_vectors_sym.
           apply cmp_dom in Hd; auto. rewrite pareto_irrefl in Hd; [discriminate|lra|auto].
      * intros [Hr He]. apply N. exists y. split; auto. split; [|right; split; auto; apply cmp_eqv; auto]. apply keep_true. rewrite cmp_dom, cmp_eqv by auto. split.
        -- intros C. apply (dominates_equal dirs (obj x) (obj y) (obj y) (obj y)) in C; auto using equal_vectors_refl.
           apply cmp_dom in C; auto. rewrite pareto_irrefl in C; [discriminate|lra|auto].
        -- intros [C _]. congruence.
    + intros N (y & Hy & Hk & Hd). destruct (N y Hy) as [N1 N2]. rewrite cmp_dom, cmp_eqv in Hd by auto. tauto.
  - intros y. rewrite Hin. split; (intros [[Hy Hk]|H]; [left; split; auto; assert (P y) by auto|right; auto]).
    + apply keep_true in Hk. rewrite cmp_dom, cmp_eqv in Hk by auto. auto.
    + apply keep_true. rewrite cmp_dom, cmp_eqv by auto. auto.
Qed.
End Real.

(** a positive tolerance loses coverage *)
Lemma tol_coverage t : (0 < t)%Q -> exists offered l b x,
  update_pop (list Q) (list Q) (fun v => v) (pareto t [true; true]) (same_vector t) true [] offered false = Ok (l, b) /\
  Forall (fun v => length v = 2%nat) offered /\ In x offered /\
  forall m, In m l -> pareto t [true; true] x m = false /\ same_vector t x m = false.
Proof.
  intros Ht.
  assert (D : forall a b, (b - a > t \/ a - b > t)%Q -> differ t a b = true) by (intros; apply differ_true; auto).
  assert (N : forall a b, (b - a <= t /\ a - b <= t)%Q -> differ t a b = false) by (intros; apply differ_false; auto).
  assert (L : forall a b, (a < b)%Q -> BoundsModel.qltb a b = true) by (intros; apply qltb_lt; auto).
  assert (G : forall a b, (b <= a)%Q -> BoundsModel.qltb a b = false) by (intros; apply qltb_ge; auto).
  set (u := [4 * t; 0]%Q). set (v := [2 * t; t]%Q). set (w := [0; 2 * t]%Q).
  assert (Tac : pareto t [true; true] u v = true /\ pareto t [true; true] v u = false /\ pareto t [true; true] v w = true /\
    pareto t [true; true] w v = false /\ pareto t [true; true] u w = false /\ same_vector t u w = false /\
    pareto t [true; true] u u = false).
  { unfold pareto, u, v, w. cbn [pareto_loop same_vector].
    repeat split; repeat first [rewrite D by lra|rewrite N by lra|rewrite L by lra|rewrite G by lra]; reflexivity. }
  destruct Tac as (H1 & H2 & H3 & H4 & H5 & H6 & H7).
  exists [u; v; w], [w], true, u. split; [|split; [repeat constructor|split; [left; auto|intros m [<-|[]]; auto]]].
  cbn [update_pop]. unfold update. cbn [purge nth_error length rbind rejected existsb app].
  rewrite H1. cbn [drop_at obind nth_error length Nat.sub upd option_map removelast of_opt rbind purge rejected existsb app orb].
  cbn [length purge nth_error]. rewrite H3. cbn [drop_at obind nth_error length Nat.sub upd option_map removelast of_opt rbind purge rejected existsb app orb].
  reflexivity.
Qed.

Section FitdivReal.
Variable A : Type.
Variable obj : A -> list Q.
Variable tol : Q.
Variable dirs : list bool.
Variable replace : bool.
Variable assign : list A -> list A.
Variable worse : A -> A -> bool.
Variable sort : forall T : Type, (T -> T -> bool) -> list T -> list T.
Hypothesis Hsort : std_sort_ok sort.
Hypothesis Hworse : strict_weak_order worse.
Hypothesis Hassign : forall l, Permutation (map obj l) (map obj (assign l)).
Notation dom := (fun a b => pareto tol dirs (obj a) (obj b) = true).
Notation eqv := (fun a b => same_vector tol (obj a) (obj b) = true).

Definition vsep (v w : list Q) : Prop :=
  (pareto tol dirs v w <> true /\ pareto tol dirs w v <> true) /\ (same_vector tol v w <> true /\ same_vector tol w v <> true).
Lemma vsep_sym v w : vsep v w -> vsep w v.
Proof. unfold vsep. tauto. Qed.
Lemma vsep_map l : antichain dom eqv l <-> ForallOrdPairs vsep (map obj l).
Proof.
  rewrite FOP_index by exact vsep_sym. split.
  - intros H i j v w Hij Hv Hw. rewrite nth_error_map in Hv, Hw. destruct (nth_error l i) as [a|] eqn:Ha; [|discriminate].
    destruct (nth_error l j) as [b|] eqn:Hb; [|discriminate]. cbn in Hv, Hw. inversion Hv; inversion Hw; subst.
    pose proof (H i j a b Hij Ha Hb). pose proof (H j i b a (fun e => Hij (eq_sym e)) Hb Ha). unfold vsep. tauto.
  - intros H i j a b Hij Ha Hb. specialize (H i j (obj a) (obj b) Hij). rewrite !nth_error_map, Ha, Hb in H. cbn in H.
    specialize (H eq_refl eq_refl). unfold vsep in H. tauto.
Qed.
Lemma FOP_app_l {B} (R : B -> B -> Prop) l r : ForallOrdPairs R (l ++ r) -> ForallOrdPairs R l.
Proof.
  induction l as [|x l IH]; cbn; intros H; [constructor|]. inversion H as [|? ? F1 F2]; subst. apply Forall_app in F1 as [F1 _]. constructor; auto.
Qed.
Lemma fitdiv_inv maxSize l pop : antichain dom eqv l -> exists l' b,
  fitdiv_pop A (list Q) obj (pareto tol dirs) (same_vector tol) replace assign worse sort maxSize l pop = Ok (l', b) /\
  antichain dom eqv l' /\ length l' <= maxSize /\ incl (map obj l') (map obj (l ++ pop)).
Proof.
  intros Ha. unfold fitdiv_pop.
  assert (Hs : forall a b, eqv a b -> eqv b a) by (intros a b; apply same_vector_sym).
  destruct (update_pop_inv A (list Q) obj (pareto tol dirs) (same_vector tol) replace
    (fun seen m => ForallOrdPairs (sep A (list Q) obj (pareto tol dirs) (same_vector tol)) m /\ incl m seen)) with (pop := pop) (seen := l) (l := l) (acc := false) as (l1 & b1 & E1 & H1 & I1).
  - intros seen m x m' b [H1 H2] E. split; [eapply update_antichain; eauto|].
    destruct (update_ok A (list Q) obj (pareto tol dirs) (same_vector tol) replace m x) as (m1 & b1 & E1 & _ & Hin & _).
    assert (m1 = m') as -> by congruence. intros y Hy. apply Hin in Hy as [[Hy _]|[_ ->]]; apply in_or_app; [left; auto|right; left; auto].
  - split; [apply antichain_sep; auto|apply incl_refl].
  - rewrite E1. cbn [rbind]. exists (shrink A assign worse sort maxSize l1), b1. split; auto.
    destruct (shrink_vectors A (list Q) obj assign worse sort Hsort Hworse Hassign maxSize l1) as (rest & P).
    split; [|split; [apply shrink_size|]].
    + apply vsep_map. apply FOP_app_l with rest. eapply FOP_perm; [exact vsep_sym|exact P|]. apply vsep_map. apply antichain_sep; auto.
    + intros v Hv. assert (In v (map obj l1)) as Hv1 by (eapply Permutation_in; [apply Permutation_sym, P|apply in_or_app; auto]).
      apply in_map_iff in Hv1 as (a & <- & Ha1). apply in_map. auto.
Qed.
End FitdivReal.

Lemma fitdiv_not_best sort : std_sort_ok sort -> exists l' b,
  fitdiv_update (nat * list Q) (list Q) snd (pareto 0 [true; true]) (same_vector 0) false (fun l => l) (fun a b => fst a <? fst b) sort
    1 [(1, [0; 1]%Q)] (2, [1; 0]%Q) = Ok (l', b) /\
  ~ best_n (fun a b => fst a <? fst b) [(1, [0; 1]%Q); (2, [1; 0]%Q)] 1 l'.
Proof.
  intros Hs. unfold fitdiv_update. eexists. exists true. split; [reflexivity|].
  set (l := [(1, [0; 1]%Q); (2, [1; 0]%Q)]).
  assert (S : strict_weak_order (fun a b : nat * list Q => fst a <? fst b)) by (apply (swo_preimage fst), ltb_nat_swo).
  pose proof (shrink_worst (nat * list Q) (list Q) snd (fun l => l) _ sort Hs S (fun l => Permutation_refl _) 1 l ltac:(cbn; auto)) as [_ W].
  change ([(1, [0; 1]%Q)] ++ [(2, [1; 0]%Q)]) with l. set (k := shrink _ _ _ _ _ _) in *. clearbody k. intros [Lk (d & Pd & B)].
  destruct W as (d' & Pd' & W). destruct k as [|a [|? k]]; try discriminate. cbn in *.
  assert (Ld : length d = 1) by (apply Permutation_length in Pd; cbn in Pd; lia). assert (Ld' : length d' = 1) by (apply Permutation_length in Pd'; cbn in Pd'; lia).
  destruct d as [|b [|? ?]]; try discriminate. destruct d' as [|b' [|? ?]]; try discriminate.
  apply Permutation_length_2_inv in Pd. apply Permutation_length_2_inv in Pd'.
  specialize (B a b (or_introl eq_refl) (or_introl eq_refl)). specialize (W a b' (or_introl eq_refl) (or_introl eq_refl)).
  destruct Pd as [Pd|Pd]; inversion Pd; subst a; subst b; cbn in B; try discriminate;
  destruct Pd' as [Pd'|Pd']; inversion Pd'; subst; cbn in W; discriminate.
Qed.

Lemma real_queries : forall A (obj : A -> list Q) dirs l l' v,
  Forall (fun a => length (obj a) = length dirs) (l ++ l') -> length v = length dirs ->
  (arch_dominates A (list Q) obj (pareto 0 dirs) l v = true <-> exists a, In a l /\ dominates dirs (obj a) v) /\
  (contains A (list Q) obj (same_vector 0) l v = true <-> exists a, In a l /\ equal_vectors (obj a) v) /\
  (equals A (list Q) obj (same_vector 0) l l' = true <->
     (forall a, In a l -> exists b, In b l' /\ equal_vectors (obj b) (obj a)) /\ (forall b, In b l' -> exists a, In a l /\ equal_vectors (obj a) (obj b))).
Proof.
  intros A obj dirs l l' v F Lv. assert (F1 : forall a, In a l -> length (obj a) = length dirs) by (intros a Ha; apply (proj1 (Forall_forall _ _) F); apply in_or_app; auto).
  assert (F2 : forall a, In a l' -> length (obj a) = length dirs) by (intros a Ha; apply (proj1 (Forall_forall _ _) F); apply in_or_app; auto).
  assert (C : forall (l : list A) v, (forall a, In a l -> length (obj a) = length dirs) -> length v = length dirs -> (contains A (list Q) obj (same_vector 0) l v = true <-> exists a, In a l /\ equal_vectors (obj a) v)).
  { intros m w Fm Lw. unfold contains. rewrite existsb_exists. split; intros (a & Ha & E); exists a; split; auto; apply same_vector_exact; auto; rewrite Fm; auto. }
  split; [|split; [apply C; auto|]].
  - unfold arch_dominates. rewrite existsb_exists. split; intros (a & Ha & E); exists a; split; auto; apply (pareto_exact dirs); auto.
  - unfold equals. rewrite andb_true_iff, !forallb_forall. split; intros [H1 H2]; split; intros a Ha; apply C; auto.
Qed.
