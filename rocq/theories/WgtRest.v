(** Proofs about the weight strategies of more than two objectives, and the dichotomic one. *)
From Coq Require Import List Bool Arith QArith Qabs Lia Lqa Sorted Permutation.
From Verif Require Import Lib Outcome OrderSpec OrderLemmas BoundsModel BoundsProofs ParetoModel ParetoSpec ParetoProofs ArchModel ArchProofs ArchReal DivProofs WgtModel WgtSpec WgtScal WgtSeq.
From Coq Require Import List.
Import ListNotations.
Local Open Scope Q_scope.

Section Counts.
Local Open Scope nat_scope.
Definition sum (l : list nat) : nat := fold_right Nat.add 0 l.
Lemma sum_set : forall l i x v, nth_error l i = Some x -> sum (set l i v) + x = sum l + v.
Proof. induction l as [|y l IH]; intros [|i] x v H; cbn in H; try discriminate; cbn [set sum fold_right]; [inversion H; subst; lia|]. specialize (IH i x v H). unfold sum in IH. lia. Qed.
Lemma tally_ok depth dim : forall nums w w', length w = dim -> (forall i, In i nums -> i < dim) -> (1 < depth -> forall c, In c w -> c < depth) -> tally depth nums w = Some w' ->
  length w' = dim /\ sum w' = sum w + length nums /\ (1 < depth -> forall c, In c w' -> c < depth).
Proof.
  induction nums as [|i nums IH]; intros w w' L Hi Hw E; cbn [tally] in E; [inversion E; subst; cbn; split; [reflexivity|]; split; [lia|exact Hw]|].
  destruct ((1 <? depth) && (S (nth i w 0) =? depth)) eqn:T; [discriminate|]. assert (Li : i < length w) by (rewrite L; apply Hi; left; reflexivity).
  apply IH in E; [|rewrite set_length; exact L|intros j Hj; apply Hi; right; exact Hj|].
  - destruct E as (E1 & E2 & E3). split; [exact E1|]. split; [|exact E3]. pose proof (sum_set w i (nth i w 0) (S (nth i w 0)) (nth_error_nth' w 0 Li)). cbn [length]. lia.
  - intros D c Hc. apply In_nth_error in Hc as (j & Hj). destruct (Nat.eq_dec j i) as [->|N].
    + rewrite nth_error_set_eq in Hj by exact Li. inversion Hj; subst c. apply andb_false_iff in T as [T|T]; [apply Nat.ltb_ge in T; lia|apply Nat.eqb_neq in T].
      specialize (Hw D (nth i w 0) (nth_In w 0 Li)). lia.
    + rewrite nth_error_set_neq in Hj by auto. apply Hw; [exact D|]. apply nth_error_In in Hj. exact Hj.
Qed.
(** the depths are the powers of two *)
Inductive doubling : nat -> Prop := D1 : doubling 1 | DD n : doubling n -> doubling (n * 2).
Definition g_inv (dim : nat) (s : gstate) : Prop := doubling (g_depth s) /\ length (g_nums s) = g_depth s /\ forall i, In i (g_nums s) -> i < dim.
Lemma doubling_pos n : doubling n -> 1 <= n.
Proof. induction 1; lia. Qed.
Lemma sum_repeat n : sum (repeat 0 n) = 0.
Proof. induction n; cbn; auto. Qed.
Lemma last_not_ok max nums : forall fuel idx, idx <= fuel -> let r := last_not fuel max nums idx in r <= idx /\ (r = 0 \/ nth r nums 0 <> max).
Proof.
  induction fuel as [|fuel IH]; intros idx H; cbn [last_not]; [split; [lia|left; lia]|].
  destruct (0 <? idx) eqn:Z; cbn [andb]; [apply Nat.ltb_lt in Z|apply Nat.ltb_ge in Z; split; [lia|left; lia]].
  destruct (Nat.eqb_spec (nth idx nums 0) max) as [E|E]; [destruct (IH (idx - 1) ltac:(lia)) as [A1 A2]; split; [lia|exact A2]|split; [lia|right; exact E]].
Qed.
Lemma reset_inv dim s : 0 < dim -> (g_depth s = 0 \/ doubling (g_depth s)) -> g_inv dim (do_reset s).
Proof.
  intros Hd H. unfold do_reset, g_inv. cbn [g_depth g_nums]. rewrite repeat_length. split; [|split; [reflexivity|intros i Hi; apply repeat_spec in Hi; lia]].
  destruct (Nat.eqb_spec (g_depth s) 0) as [E|E]; [constructor|]. destruct H; [lia|]. constructor. assumption.
Qed.
Lemma next_inv dim s : 0 < dim -> g_inv dim s -> let s' := next_num dim s in g_inv dim (if dim - 1 <? nth 0 (g_nums s') 0 then do_reset s' else s').
Proof.
  intros Hd (Hp & Hl & Hi) s'. assert (Pos := doubling_pos _ Hp). destruct (dim - 1 <? nth 0 (g_nums s') 0) eqn:E; [apply reset_inv; [exact Hd|right; exact Hp]|].
  apply Nat.ltb_ge in E. unfold s', next_num in *. cbn [g_depth g_nums] in *. destruct (last_not_ok (dim - 1) (g_nums s) (length (g_nums s)) (length (g_nums s) - 1) ltac:(lia)) as [L1 L2].
  set (idx := last_not _ _ _ _) in *. unfold g_inv. cbn [g_depth g_nums]. split; [exact Hp|]. split; [rewrite app_length, firstn_length, repeat_length; lia|].
  intros i Ii. apply in_app_or in Ii as [Ii|Ii]; [apply Hi; rewrite <- (firstn_skipn idx); apply in_or_app; left; exact Ii|]. apply repeat_spec in Ii. subst i.
  destruct L2 as [Z|N].
  - rewrite Z in *. cbn [firstn app] in E. replace (length (g_nums s) - 0) with (S (length (g_nums s) - 1)) in E by lia. cbn [repeat nth] in E. lia.
  - assert (nth idx (g_nums s) 0 < dim) by (apply Hi; apply nth_In; lia). lia.
Qed.
Lemma is2pow_doubling : forall n, doubling n -> forall fuel, n < fuel -> is2pow fuel n = true.
Proof.
  induction 1 as [|n D IH]; intros [|fuel] L; try lia; cbn [is2pow]; [reflexivity|]. destruct ((n * 2 =? 1) || (n * 2 =? 0)); [reflexivity|].
  rewrite Nat.mod_mul by lia. cbn [Nat.eqb negb]. rewrite Nat.div_mul by lia. apply IH. pose proof (doubling_pos n D). lia.
Qed.
Lemma translate_ok dim s w : g_inv dim s -> translate dim s = Some w -> exists cs, w = map (fun c => (natq c / natq (g_depth s))%Q) cs /\ length cs = dim /\ sum cs = g_depth s /\
  (forall c, In c cs -> c < g_depth s) /\ (exists c, In c cs /\ Nat.gcd c (g_depth s) = 1) /\ exists c, In c cs /\ ~ doubling c.
Proof.
  intros (Hp & Hl & Hi) E. unfold translate in E. assert (Pos := doubling_pos _ Hp). destruct (tally (g_depth s) (g_nums s) (repeat 0 dim)) as [cs|] eqn:T; [|discriminate].
  apply (tally_ok _ dim) in T; [|apply repeat_length|exact Hi|intros D c Hc; apply repeat_spec in Hc; lia].
  destruct T as (T1 & T2 & T3). rewrite sum_repeat, Hl in T2. cbn [Nat.add] in T2.
  destruct (existsb (fun c => coprim (S (S (g_depth s))) c (g_depth s)) cs) eqn:P; cbn [andb] in E; [|discriminate].
  destruct (existsb (fun c => negb (c =? 1) && negb (is2pow (S c) c)) cs) eqn:W; [|discriminate]. inversion E; subst w. exists cs.
  apply existsb_exists in P as (a & Ha & Pa). apply existsb_exists in W as (b & Hb & Wb). apply andb_true_iff in Wb as [Wb1 Wb2]. apply negb_true_iff in Wb1, Wb2. rewrite coprim_ok in Pa by lia. apply Nat.eqb_eq in Pa.
  split; [reflexivity|]. split; [exact T1|]. split; [exact T2|]. assert (ND : ~ doubling b) by (intros D; rewrite is2pow_doubling in Wb2; [discriminate|exact D|lia]).
  split; [|split; [eauto|eauto]]. apply T3. destruct (Nat.eq_dec (g_depth s) 1) as [D|]; [exfalso|lia].
  assert (b <= sum cs). { clear -Hb. induction cs as [|x cs IH]; [contradiction|]. destruct Hb as [->|Hb]; cbn [sum fold_right]; [lia|]. apply IH in Hb. unfold sum in Hb. lia. }
  apply Nat.eqb_neq in Wb1. assert (b = 0) as -> by lia. discriminate.
Qed.
Lemma augmented_ok' dim : 0 < dim -> forall fuel s w s', g_inv dim s -> augmented_loop fuel dim s = Ok (w, s') -> g_inv dim s' /\ exists s1, g_inv dim s1 /\ translate dim s1 = Some w.
Proof.
  intros Hd. induction fuel as [|fuel IH]; intros s w s' G E; cbn [augmented_loop] in E; [discriminate|]. pose proof (next_inv dim s Hd G) as G'. cbv zeta in G'.
  destruct (translate dim s) as [r|] eqn:T; [inversion E; subst; split; [exact G'|exists s; auto]|]. exact (IH _ _ _ G' E).
Qed.
End Counts.
Lemma total_counts cs d : (0 < d)%nat -> total_of (map (fun c => natq c / natq d) cs) == natq (sum cs) / natq d.
Proof.
  intros Hd. induction cs as [|c cs IH]; cbn [map total_of fold_right sum]; [change (natq 0) with 0; unfold Qdiv; ring|]. unfold total_of in IH. rewrite IH. fold (sum cs). rewrite natq_plus. unfold Qdiv. ring.
Qed.

(** ** the dichotomic strategy *)
Section Dicho.
Variables (dirs : list bool) (replace : bool).
Variable sort : forall T : Type, (T -> T -> bool) -> list T -> list T.
Hypothesis sort_ok : std_sort_ok sort.
Notation vsep := (sep (list Q) (list Q) (fun x => x) (pareto 0 dirs) (same_vector 0)).
Definition two (v : list Q) : Prop := length v = 2%nat.
Definition d_good (s : dstate) : Prop := ForallOrdPairs vsep (d_arch s) /\ Forall two (d_arch s) /\ Forall two (d_toadd s).
Lemma update_good' l x l' b : ForallOrdPairs vsep l -> Forall two l -> two x -> update (list Q) (list Q) (fun x => x) (pareto 0 dirs) (same_vector 0) replace l x = Ok (l', b) -> ForallOrdPairs vsep l' /\ Forall two l'.
Proof.
  intros F T Tx E. split; [eapply update_antichain; [|exact F|exact E]; intros a c; apply same_vector_sym|].
  destruct (update_ok (list Q) (list Q) (fun x => x) (pareto 0 dirs) (same_vector 0) replace l x) as (l1 & b1 & E1 & _ & M & _). rewrite E in E1. inversion E1; subst l1 b1.
  rewrite Forall_forall in *. intros y Hy. apply M in Hy as [[Hy _]|[_ ->]]; auto.
Qed.
Lemma sort_good l : ForallOrdPairs vsep l -> Forall two l -> ForallOrdPairs vsep (sort_arch sort l) /\ Forall two (sort_arch sort l).
Proof.
  intros F T. assert (P : Permutation l (sort_arch sort l)). { destruct (sort_ok _ (fun a b => qltb (first_of b) (first_of a)) l) as [P _]; [|exact P]. 
    exact (swo_flip _ (qltb_swo first_of)). }
  split; [eapply FOP_perm; [intros a b; apply sep_sym|exact P|exact F]|eapply Permutation_Forall; [exact P|exact T]].
Qed.
Lemma normal_two a b w : two a -> two b -> vsep a b -> pair_of (normal_of a b) = Ok w -> two_weights w.
Proof.
  intros Ta Tb (_ & N & _) E. destruct a as [|a0 [|a1 [|]]]; try discriminate. destruct b as [|b0 [|b1 [|]]]; try discriminate.
  unfold normal_of in E. cbn [combine map fst snd fold_left pair_of] in E. apply (f_equal (fun r => match r with Ok x => x | _ => w end)) in E. cbv beta iota in E. subst w.
  assert (P0 := Qabs_nonneg (a0 - b0)). assert (P1 := Qabs_nonneg (a1 - b1)). set (s := 0 + Qabs (a0 - b0) + Qabs (a1 - b1)) in *.
  assert (Ps : 0 < s).
  { destruct (Qlt_le_dec 0 s) as [|L]; [assumption|]. exfalso. apply N. apply same_vector_exact; [reflexivity|]. split; [reflexivity|]. unfold s in L.
    assert (Z0 : Qabs (a0 - b0) <= 0) by lra. assert (Z1 : Qabs (a1 - b1) <= 0) by lra. apply Qabs_Qle_condition in Z0, Z1.
    intros [|[|[|i]]] x y Hx Hy; cbn in Hx, Hy; inversion Hx; inversion Hy; subst; lra. }
  unfold two_weights. cbn [fst snd]. assert (S1 : Qabs (a0 - b0) <= s) by (unfold s; lra). assert (S2 : Qabs (a1 - b1) <= s) by (unfold s; lra).
  split; [split; [apply Qle_shift_div_l; lra|apply Qle_shift_div_r; lra]|]. split; [split; [apply Qle_shift_div_l; lra|apply Qle_shift_div_r; lra]|].
  assert (Es : s == Qabs (a0 - b0) + Qabs (a1 - b1)) by (unfold s; ring). clearbody s. transitivity ((Qabs (a0 - b0) + Qabs (a1 - b1)) / s); [field; lra|]. rewrite <- Es. field. lra.
Qed.
Lemma dicho_ok : forall fuel s v w s', d_good s -> two v -> dicho 0 dirs replace sort fuel s v = Ok (w, s') -> two_weights w /\ d_good s'.
Proof.
  induction fuel as [|fuel IH]; intros s v w s' (F & T & A) Tv E; cbn [dicho] in E; [discriminate|]. destruct (length (d_arch s) <? 2)%nat.
  - apply rbind_ok in E as ([arch b] & U & E). destruct (update_good' _ _ _ _ F T Tv U) as [F' T']. destruct (d_num s =? 0)%nat; inversion E; subst.
    + split; [unfold two_weights; cbn; lra|]. split; [exact F'|]. split; [exact T'|exact A].
    + split; [unfold two_weights; cbn; lra|]. destruct (sort_good arch F' T') as [F2 T2]. split; [exact F2|]. split; [exact T2|exact A].
  - apply rbind_ok in E as (i & _ & E). destruct (nth_error (d_arch s) i) as [a|] eqn:Ha.
    + destruct (nth_error (d_arch s) (S i)) as [b|] eqn:Hb.
      * apply rbind_ok in E as (w' & Ew & E). inversion E; subst. rewrite Forall_forall in T. split.
        -- apply (normal_two a b); [apply T; eapply nth_error_In; exact Ha|apply T; eapply nth_error_In; exact Hb| |exact Ew].
           eapply FOP_index; [intros x y; apply sep_sym|exact F| |exact Ha|exact Hb]. lia.
        -- split; [exact F|]. split; [apply Forall_forall; exact T|]. cbn [d_toadd]. apply Forall_app. split; [exact A|constructor; [exact Tv|constructor]].
      * apply IH in E; [exact E| |exact Tv]. split; [exact F|]. split; [exact T|exact A].
    + apply rbind_ok in E as ([arch b] & U & E). apply IH in E; [exact E| |exact Tv].
      assert (G : ForallOrdPairs vsep arch /\ Forall two arch).
      { clear -F T A U. revert U. generalize false at 1. generalize dependent (d_arch s). induction A as [|x l Tx A IH]; intros arch0 F T acc U; cbn [update_pop] in U; [inversion U; subst; auto|].
        apply rbind_ok in U as ([l1 b1] & U1 & U). destruct (update_good' _ _ _ _ F T Tx U1) as [F1 T1]. exact (IH l1 F1 T1 _ U). }
      destruct G as [F1 T1]. destruct (sort_good arch F1 T1) as [F2 T2]. split; [exact F2|]. split; [exact T2|constructor].
Qed.
End Dicho.
