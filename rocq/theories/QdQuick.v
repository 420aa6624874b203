(** Proofs about moeoQuickUnboundedArchiveIndex: two objectives. *)
From Coq Require Import List Bool Arith QArith ZArith Lia Lqa Permutation Sorted.
From Verif Require Import Lib Outcome BoundsModel BoundsProofs ParetoModel ParetoSpec ParetoProofs ArchSpec ArchProofs QdModel QdSpec QdQuad QdTree QdRun.
From Coq Require Import List.
Import ListNotations.
Close Scope Q_scope.

Section Quick.
Variables d0 d1 : bool.
Notation dirs := [d0; d1].
Notation P := (QdQuad.P dirs).
Notation wd := (weakly_dominates dirs).
Notation dm := (dominates dirs).
(** both objectives as objectives to minimise *)
Definition a0 (v : list Q) : Q := if d0 then nth 0 v 0%Q else (- nth 0 v 0)%Q.
Definition a1 (v : list Q) : Q := if d1 then nth 1 v 0%Q else (- nth 1 v 0)%Q.
Lemma two v : P v -> exists x y, v = [x; y].
Proof. unfold QdQuad.P. destruct v as [|x [|y [|]]]; cbn; intros H; try discriminate. exists x, y. reflexivity. Qed.
Lemma wd_two v w : P v -> P w -> (wd v w <-> (a0 v <= a0 w /\ a1 v <= a1 w)%Q).
Proof.
  intros Hv Hw. destruct (two v Hv) as (x & y & ->), (two w Hw) as (x' & y' & ->). unfold a0, a1. cbn [nth]. split.
  - intros H. assert (H0 := H 0 d0 x x' (conj eq_refl (conj eq_refl eq_refl))). assert (H1 := H 1 d1 y y' (conj eq_refl (conj eq_refl eq_refl))). unfold better, better_by in *. destruct d0, d1; split; lra.
  - intros [H0 H1] i d u u' (O1 & O2 & O3). unfold better, better_by. destruct i as [|[|i]]; cbn in O1, O2, O3.
    + inversion O1; inversion O2; inversion O3; subst. destruct d; lra.
    + inversion O1; inversion O2; inversion O3; subst. destruct d; lra.
    + destruct i; discriminate.
Qed.
Lemma ds : dirs <> []. Proof. discriminate. Qed.
Lemma dm_two v w : P v -> P w -> (dm v w <-> (a0 v <= a0 w /\ a1 v <= a1 w /\ (a0 v < a0 w \/ a1 v < a1 w))%Q).
Proof.
  intros Hv Hw. split.
  - intros D. assert (W := proj1 (wd_two v w Hv Hw) (dm_wd dirs _ _ D)). assert (N := dm_not dirs v w Hv Hw D). rewrite (wd_two w v Hw Hv) in N. split; [apply W|]. split; [apply W|].
    destruct (Qlt_le_dec (a0 v) (a0 w)); [left; assumption|]. destruct (Qlt_le_dec (a1 v) (a1 w)); [right; assumption|]. destruct N. split; assumption.
  - intros (H0 & H1 & H2). destruct (dm_split dirs v w Hv Hw) as [D|W]; [apply wd_two; [assumption|assumption|split; assumption]|exact D|]. apply wd_two in W; [|assumption|assumption]. lra.
Qed.
Lemma pareto_two v w : P v -> P w -> (pareto 0 dirs v w = true <-> (a0 w <= a0 v /\ a1 w <= a1 v /\ (a0 w < a0 v \/ a1 w < a1 v))%Q).
Proof. intros Hv Hw. rewrite <- (dm_two w v Hw Hv). apply pareto_exact; assumption. Qed.
Lemma same_two v w : P v -> P w -> (same_vector 0 v w = true <-> (a0 v == a0 w /\ a1 v == a1 w)%Q).
Proof.
  intros Hv Hw. rewrite same_vector_exact by (unfold QdQuad.P in *; congruence). split.
  - intros E. assert (W := equal_wd dirs v w E). assert (W' := equal_wd dirs w v (equal_vectors_sym _ _ E)). apply wd_two in W; [|assumption|assumption]. apply wd_two in W'; [|assumption|assumption]. split; lra.
  - intros [E0 E1]. apply (both_equal dirs); try assumption; apply wd_two; try assumption; split; lra.
Qed.
Lemma by_last_two v w : by_last dirs v w = true <-> (a1 v < a1 w)%Q.
Proof. unfold by_last, a1. cbn [nth]. destruct d1; rewrite qltb_lt; split; lra. Qed.
Lemma by_last_false v w : by_last dirs v w = false <-> (a1 w <= a1 v)%Q.
Proof. rewrite <- not_true_iff_false, by_last_two. split; [intros H; destruct (Qlt_le_dec (a1 v) (a1 w)); [contradiction|assumption]|intros H G; lra]. Qed.
(** ** the set *)
Definition lt (e f : list Q * Z) : Prop := (a1 (fst e) < a1 (fst f) /\ a0 (fst f) < a0 (fst e))%Q.
Definition stairs (l : quick) : Prop := StronglySorted lt l /\ forall v, In v (vectors l) -> P v.
Lemma lower_split l v : exists A B, l = A ++ B /\ lower_bound dirs l v = length A /\ (forall e, In e A -> a1 (fst e) < a1 v)%Q /\ match B with [] => True | e :: _ => (a1 v <= a1 (fst e))%Q end.
Proof.
  induction l as [|e l IH]; cbn [lower_bound].
  - exists [], []. split; [reflexivity|]. split; [reflexivity|]. split; [intros e []|exact I].
  - destruct (by_last dirs (fst e) v) eqn:E.
    + destruct IH as (A & B & -> & L & HA & HB). exists (e :: A), B. split; [reflexivity|]. split; [cbn; lia|]. split; [|exact HB]. intros f [<-|H]; [apply by_last_two; exact E|exact (HA f H)].
    + exists [], (e :: l). split; [reflexivity|]. split; [reflexivity|]. split; [intros f []|]. apply by_last_false. exact E.
Qed.
Lemma sorted_app A B : StronglySorted lt (A ++ B) <-> StronglySorted lt A /\ StronglySorted lt B /\ forall e f, In e A -> In f B -> lt e f.
Proof.
  induction A as [|x A IH]; cbn [app].
  - split; [intros H; split; [constructor|split; [exact H|intros e f []]]|intros (_ & H & _); exact H].
  - split.
    + intros H. inversion H as [|? ? H1 H2]; subst. apply IH in H1 as (H3 & H4 & H5). rewrite Forall_forall in H2. split; [constructor; [exact H3|apply Forall_forall; intros y Hy; apply H2; apply in_or_app; left; exact Hy]|]. split; [exact H4|].
      intros e f [<-|He] Hf; [apply H2; apply in_or_app; right; exact Hf|exact (H5 e f He Hf)].
    + intros (H1 & H2 & H3). inversion H1 as [|? ? H4 H5]; subst. constructor; [apply IH; split; [exact H4|split; [exact H2|intros e f He Hf; apply H3; [right; exact He|exact Hf]]]|].
      apply Forall_forall. intros y Hy. apply in_app_or in Hy as [Hy|Hy]; [rewrite Forall_forall in H5; exact (H5 y Hy)|apply H3; [left; reflexivity|exact Hy]].
Qed.
Lemma nth_mid {X} (A : list X) x B : nth_error (A ++ x :: B) (length A) = Some x.
Proof. rewrite nth_error_app2 by lia. rewrite Nat.sub_diag. reflexivity. Qed.
Lemma erase_mid A e B : StronglySorted lt (A ++ e :: B) -> set_erase dirs (A ++ e :: B) (fst e) = A ++ B.
Proof.
  intros H. unfold set_erase. destruct (lower_split (A ++ e :: B) (fst e)) as (A' & B' & E & L & HA & HB). apply sorted_app in H as (S1 & S2 & S3).
  assert (EA : length A' = length A).
  { destruct (Nat.lt_trichotomy (length A') (length A)) as [H|[H|H]]; [|exact H|]; exfalso.
    - assert (N := f_equal (fun l => nth_error l (length A')) E). cbv beta in N. destruct B' as [|f B'].
      + apply (f_equal (@length _)) in E. rewrite !app_length in E. cbn in E. lia.
      + rewrite nth_mid, nth_error_app1 in N by lia. apply nth_error_In in N. assert (G := S3 f e N (or_introl eq_refl)). unfold lt in G. lra.
    - assert (N := f_equal (fun l => nth_error l (length A)) E). cbv beta in N. rewrite nth_mid, nth_error_app1 in N by lia. symmetry in N. apply nth_error_In in N. specialize (HA e N). lra. }
  rewrite L, EA, nth_mid. assert (F : by_last dirs (fst e) (fst e) = false) by (apply by_last_false; lra). rewrite F.
  rewrite firstn_app, Nat.sub_diag, firstn_all, firstn_O, app_nil_r. f_equal. rewrite skipn_app. rewrite skipn_all2 by lia. replace (S (length A) - length A) with 1 by lia. reflexivity.
Qed.
Lemma erase_all : forall D A B, StronglySorted lt (A ++ D ++ B) -> fold_left (fun l e => set_erase dirs l (fst e)) D (A ++ D ++ B) = A ++ B.
Proof.
  induction D as [|e D IH]; intros A B H; [reflexivity|]. cbn [fold_left app]. cbn [app] in H. rewrite erase_mid by exact H. apply IH. apply sorted_app in H as (S1 & S2 & S3). apply sorted_app. split; [exact S1|]. inversion S2; subst. split; [assumption|].
  intros f g Hf Hg. apply S3; [exact Hf|right; exact Hg].
Qed.
Lemma insert_mid A B v i : (forall e, In e A -> a1 (fst e) < a1 v)%Q -> match B with [] => True | e :: _ => (a1 v < a1 (fst e))%Q end -> set_insert dirs (A ++ B) (v, i) = A ++ (v, i) :: B.
Proof.
  intros HA HB. unfold set_insert. cbn [fst]. assert (L : lower_bound dirs (A ++ B) v = length A).
  { induction A as [|x A IH]; cbn [app lower_bound length].
    - destruct B as [|e B]; [reflexivity|]. cbn [lower_bound]. rewrite (proj2 (by_last_false (fst e) v)) by lra. reflexivity.
    - rewrite (proj2 (by_last_two (fst x) v) (HA x (or_introl eq_refl))). f_equal. apply IH. intros e He. apply HA. right. exact He. }
  rewrite L. destruct B as [|e B].
  - rewrite app_nil_r, (proj2 (nth_error_None A (length A))) by lia. reflexivity.
  - rewrite nth_mid, (proj2 (by_last_two v (fst e)) HB). rewrite firstn_app, Nat.sub_diag, firstn_all, firstn_O, app_nil_r. f_equal. f_equal. rewrite skipn_app, skipn_all, Nat.sub_diag. reflexivity.
Qed.
(** the dominated entries are together *)
Lemma run_split v : forall B, StronglySorted lt B -> (forall e, In e B -> P (fst e)) -> P v -> (forall e, In e B -> a1 v <= a1 (fst e))%Q -> match B with [] => True | e :: _ => ~ (a0 v == a0 (fst e) /\ a1 v == a1 (fst e))%Q end ->
  exists B', B = dominated_run 0 dirs v B ++ B' /\ (forall e, In e (dominated_run 0 dirs v B) -> dm v (fst e)) /\ forall e, In e B' -> (a0 (fst e) < a0 v)%Q.
Proof.
  induction B as [|e B IH]; intros Ss Pb Pv Hb Hn; cbn [dominated_run].
  - exists []. split; [reflexivity|]. split; intros e [].
  - inversion Ss as [|? ? S1 S2]; subst. rewrite Forall_forall in S2. destruct (pareto 0 dirs (fst e) v) eqn:E.
    + destruct IH as (B' & E1 & E2 & E3); [exact S1|intros f Hf; apply Pb; right; exact Hf|exact Pv|intros f Hf; apply Hb; right; exact Hf| |].
      * destruct B as [|f B]; [exact I|]. intros [_ G]. assert (G2 := S2 f (or_introl eq_refl)). assert (G3 := Hb e (or_introl eq_refl)). unfold lt in G2. lra.
      * exists B'. split; [cbn [app]; rewrite <- E1; reflexivity|]. split; [|exact E3]. intros f [<-|Hf]; [|exact (E2 f Hf)]. apply pareto_two in E; [|apply Pb; left; reflexivity|exact Pv]. apply dm_two; [exact Pv|apply Pb; left; reflexivity|exact E].
    + exists (e :: B). split; [reflexivity|]. split; [intros f []|]. assert (G : (a0 (fst e) < a0 v)%Q).
      { destruct (Qlt_le_dec (a0 (fst e)) (a0 v)) as [H|H]; [exact H|]. exfalso. assert (H1 := Hb e (or_introl eq_refl)). apply not_true_iff_false in E. apply E. apply pareto_two; [apply Pb; left; reflexivity|exact Pv|]. split; [exact H|]. split; [exact H1|].
        destruct (Qlt_le_dec (a0 v) (a0 (fst e))); [left; assumption|]. destruct (Qlt_le_dec (a1 v) (a1 (fst e))); [right; assumption|]. destruct Hn. split; lra. }
      intros f [<-|Hf]; [exact G|]. assert (G2 := S2 f Hf). unfold lt in G2. lra.
Qed.
Lemma in_vec e (l : quick) : In e l -> In (fst e) (vectors l).
Proof. intros H. apply in_map. exact H. Qed.
Lemma vectors_app (a b : quick) : vectors (a ++ b) = vectors a ++ vectors b.
Proof. apply map_app. Qed.
(** the offers *)
Definition quick_step (l : quick) (v : list Q) (r : bool * list deletion * quick) : Prop :=
  stairs (snd r) /\ step dirs (vectors l) v (fst (fst r)) (snd (fst r)) [] (vectors (snd r)).
Lemma stairs_apart l : stairs l -> QdQuad.apart dirs (vectors l).
Proof.
  intros [Ss Pl]. induction Ss as [|e l Ss IH F]; cbn [vectors map]; constructor.
  - rewrite Forall_forall in *. intros v Hv. apply in_map_iff in Hv as (f & <- & Hf). specialize (F f Hf). unfold lt in F. assert (Pe : P (fst e)) by (apply Pl; left; reflexivity). assert (Pf : P (fst f)) by (apply Pl; right; apply in_vec; exact Hf).
    split; intros W; apply wd_two in W; try assumption; lra.
  - apply IH. intros v Hv. apply Pl. right. exact Hv.
Qed.
Lemma refuse l v e : stairs l -> In e l -> wd (fst e) v -> quick_step l v (false, [], l).
Proof.
  intros St He W. split; [exact St|]. cbn [fst snd]. split; [split; [intros _; exists (fst e); split; [exact (in_vec _ _ He)|exact W]|reflexivity]|]. split; [intros _; split; reflexivity|discriminate].
Qed.
Lemma accept A D B v i : stairs (A ++ D ++ B) -> P v -> (forall e, In e A -> a1 (fst e) < a1 v /\ a0 v < a0 (fst e))%Q -> (forall e, In e D -> dm v (fst e)) ->
  (forall e, In e B -> a1 v < a1 (fst e) /\ a0 (fst e) < a0 v)%Q -> quick_step (A ++ D ++ B) v (true, D, A ++ (v, i) :: B).
Proof.
  intros [Ss Pl] Pv HA HD HB. rewrite !vectors_app in Pl. assert (PA : forall e, In e A -> P (fst e)) by (intros e He; apply Pl; apply in_or_app; left; exact (in_vec _ _ He)).
  assert (PD : forall e, In e D -> P (fst e)) by (intros e He; apply Pl; apply in_or_app; right; apply in_or_app; left; exact (in_vec _ _ He)). assert (PB : forall e, In e B -> P (fst e)) by (intros e He; apply Pl; apply in_or_app; right; apply in_or_app; right; exact (in_vec _ _ He)).
  apply sorted_app in Ss as (S1 & S2 & S3). apply sorted_app in S2 as (S4 & S5 & S6). unfold quick_step. cbn [fst snd]. split; [split|split; [|split; [discriminate|]]].
  - apply sorted_app. split; [exact S1|]. split.
    + constructor; [exact S5|]. apply Forall_forall. intros e He. exact (HB e He).
    + intros e f He [<-|Hf]; [exact (HA e He)|]. apply S3; [exact He|apply in_or_app; right; exact Hf].
  - rewrite vectors_app. cbn [vectors map fst]. intros u Hu. apply in_app_or in Hu as [Hu|[<-|Hu]]; [apply Pl; apply in_or_app; left; exact Hu|exact Pv|]. apply Pl. apply in_or_app. right. apply in_or_app. right. exact Hu.
  - split; [discriminate|]. intros (u & Hu & W). exfalso. rewrite !vectors_app in Hu. apply in_app_or in Hu as [Hu|Hu]; [|apply in_app_or in Hu as [Hu|Hu]]; apply in_map_iff in Hu as (e & <- & He).
    + apply wd_two in W; [|exact (PA e He)|exact Pv]. specialize (HA e He). lra.
    + specialize (HD e He). apply dm_two in HD; [|exact Pv|exact (PD e He)]. apply wd_two in W; [|exact (PD e He)|exact Pv]. lra.
    + apply wd_two in W; [|exact (PB e He)|exact Pv]. specialize (HB e He). lra.
  - intros _. exists (vectors A ++ vectors B). rewrite !vectors_app. cbn [vectors map fst]. fold (vectors B). fold (vectors A). fold (vectors D). split; [symmetry; apply Permutation_middle|]. split; [|split; [|split]].
    + rewrite app_nil_r, <- app_assoc. apply Permutation_app_head. apply Permutation_app_comm.
    + intros u Hu W. apply in_app_or in Hu as [Hu|Hu]; apply in_map_iff in Hu as (e & <- & He).
      * apply wd_two in W; [|exact Pv|exact (PA e He)]. specialize (HA e He). lra.
      * apply wd_two in W; [|exact Pv|exact (PB e He)]. specialize (HB e He). lra.
    + intros d Hd. exact (dm_wd dirs _ _ (HD d Hd)).
    + intros H. split; [|reflexivity]. destruct D as [|e D]; [reflexivity|]. destruct (H (fst e)); [apply in_or_app; right; left; reflexivity|]. apply dm_wd. apply HD. left. reflexivity.
Qed.
Lemma snoc_cases {X} (A : list X) : A = [] \/ exists A' y, A = A' ++ [y].
Proof. destruct A as [|x A]; [left; reflexivity|right]. destruct (exists_last (l := x :: A)) as (A' & y & E); [discriminate|eauto]. Qed.
Lemma quick_ok l v : stairs l -> P v -> quick_step l v (quick_insert 0 dirs true l v).
Proof.
  intros St Pv. unfold quick_insert. destruct (lower_split l v) as (A & B & El & L & HA & HB). rewrite L. destruct St as [Ss Pl]. assert (Ss0 := Ss). rewrite El in Ss0. apply sorted_app in Ss0 as (S1 & S2 & S3).
  assert (PA : forall e, In e A -> P (fst e)) by (intros e He; apply Pl; rewrite El, vectors_app; apply in_or_app; left; exact (in_vec _ _ He)).
  assert (PB : forall e, In e B -> P (fst e)) by (intros e He; apply Pl; rewrite El, vectors_app; apply in_or_app; right; exact (in_vec _ _ He)).
  (** the last entry before the place of v is the best of them in the first objective *)
  assert (Best : forall A' y, A = A' ++ [y] -> ~ wd (fst y) v -> forall e, In e A -> (a1 (fst e) < a1 v /\ a0 v < a0 (fst e))%Q).
  { intros A' y EA N e He. split; [exact (HA e He)|]. assert (Hy : In y A) by (rewrite EA; apply in_or_app; right; left; reflexivity). assert (Gy : (a0 v < a0 (fst y))%Q).
    { destruct (Qlt_le_dec (a0 v) (a0 (fst y))) as [H|H]; [exact H|]. destruct N. apply wd_two; [exact (PA y Hy)|exact Pv|]. specialize (HA y Hy). split; lra. }
    rewrite EA in He, S1. apply in_app_or in He as [He|[<-|[]]]; [|exact Gy]. apply sorted_app in S1 as (_ & _ & S4). specialize (S4 e y He (or_introl eq_refl)). unfold lt in S4. lra. }
  assert (Dom : forall A' y, A = A' ++ [y] -> (pareto 0 dirs v (fst y) = true <-> wd (fst y) v)).
  { intros A' y EA. assert (Hy : In y A) by (rewrite EA; apply in_or_app; right; left; reflexivity). rewrite pareto_two, wd_two; [|exact (PA y Hy)|exact Pv|exact Pv|exact (PA y Hy)]. specialize (HA y Hy). split; [intros (H0 & H1 & _); split; assumption|intros [H0 H1]; split; [exact H0|split; [exact H1|right; exact HA]]]. }
  destruct l as [|e0 l0] eqn:El0.
  - destruct A; [|discriminate]. destruct B; [|discriminate]. cbn [set_insert lower_bound nth_error app]. apply (accept [] [] [] v (index_size [])); [split; [constructor|intros u []]|exact Pv|intros e []|intros e []|intros e []].
  - assert (Ne : l <> []) by (rewrite El0; discriminate). rewrite <- El0 in *. clear El0 e0 l0. destruct B as [|x B].
    + rewrite app_nil_r in El. subst l. rewrite (proj2 (nth_error_None A (length A))) by lia. destruct (snoc_cases A) as [EA|(A' & y & EA)]; [contradiction|].
      assert (Ny : nth_error A (length A - 1) = Some y) by (rewrite EA, app_length; cbn [length]; replace (length A' + 1 - 1) with (length A') by lia; apply nth_mid). rewrite Ny. destruct (pareto 0 dirs v (fst y)) eqn:Ey.
      * apply (refuse A v y); [split; assumption|rewrite EA; apply in_or_app; right; left; reflexivity|]. apply (Dom A' y EA). exact Ey.
      * assert (Nw : ~ wd (fst y) v) by (intros W; apply (Dom A' y EA) in W; congruence). rewrite <- (app_nil_r A) at 2. rewrite (insert_mid A [] v); [|exact HA|exact I].
        assert (G := accept A [] [] v (index_size A)). cbn [app] in G. rewrite app_nil_r in G. apply G; [split; assumption|exact Pv|exact (Best A' y EA Nw)|intros e []|intros e []].
    + assert (Nx : nth_error l (length A) = Some x) by (rewrite El; apply nth_mid). rewrite Nx. assert (Hx : In x l) by (rewrite El; apply in_or_app; right; left; reflexivity). assert (Px : P (fst x)) by (apply PB; left; reflexivity).
      destruct (same_vector 0 v (fst x) || pareto 0 dirs v (fst x)) eqn:Ex.
      * apply (refuse l v x); [split; assumption|exact Hx|]. apply wd_two; [exact Px|exact Pv|]. apply orb_true_iff in Ex as [Ex|Ex]; [apply same_two in Ex; [|assumption|assumption]; split; lra|apply pareto_two in Ex; [|assumption|assumption]; split; apply Ex].
      * apply orb_false_iff in Ex as [Ex1 Ex2]. assert (NS : ~ (a0 v == a0 (fst x) /\ a1 v == a1 (fst x))%Q) by (rewrite <- same_two by assumption; congruence).
        assert (Hb : forall e, In e (x :: B) -> (a1 v <= a1 (fst e))%Q). { intros e [<-|He]; [exact HB|]. inversion S2 as [|? ? _ F]; subst. rewrite Forall_forall in F. specialize (F e He). unfold lt in F. lra. }
        destruct (run_split v (x :: B) S2 PB Pv Hb NS) as (B' & EB & HD & HB'). set (D := dominated_run 0 dirs v (x :: B)) in *.
        assert (Strict : forall e, In e B' -> (a1 v < a1 (fst e) /\ a0 (fst e) < a0 v)%Q).
        { intros e He. specialize (HB' e He). split; [|exact HB']. assert (He' : In e (x :: B)) by (rewrite EB; apply in_or_app; right; exact He). destruct (Qlt_le_dec (a1 v) (a1 (fst e))) as [H|H]; [exact H|]. exfalso. assert (G := Hb e He').
          destruct He' as [<-|He']; [|inversion S2 as [|? ? _ F]; subst; rewrite Forall_forall in F; specialize (F e He'); unfold lt in F; lra].
          apply not_true_iff_false in Ex2. apply Ex2. apply pareto_two; [exact Pv|exact Px|]. split; [lra|]. split; [lra|left; exact HB']. }
        assert (Sk : skipn (length A) l = x :: B) by (rewrite El, skipn_app, skipn_all, Nat.sub_diag; reflexivity). rewrite Sk. fold D.
        assert (Er : fold_left (fun l e => set_erase dirs l (fst e)) D l = A ++ B'). { rewrite El, EB. apply erase_all. rewrite <- EB, <- El. exact Ss. }
        rewrite Er. rewrite (insert_mid A B' v); [|exact HA|destruct B' as [|e B']; [exact I|apply (Strict e); left; reflexivity]].
        destruct (snoc_cases A) as [EA|(A' & y & EA)].
        -- rewrite EA. cbn [length Nat.eqb app]. rewrite El, EB, EA. apply (accept [] D B' v); [rewrite EA in El; cbn [app] in *; rewrite <- EB, <- El; split; assumption|exact Pv|intros e []|exact HD|exact Strict].
        -- assert (Ny : nth_error l (length A - 1) = Some y) by (rewrite El, nth_error_app1, EA, app_length by (rewrite EA, app_length; cbn; lia); cbn [length]; replace (length A' + 1 - 1) with (length A') by lia; apply nth_mid). rewrite Ny.
           assert (Z : (length A =? 0) = false) by (apply Nat.eqb_neq; rewrite EA, app_length; cbn; lia). rewrite Z. destruct (pareto 0 dirs v (fst y)) eqn:Ey.
           ++ apply (refuse l v y); [split; assumption|rewrite El, EA; apply in_or_app; left; apply in_or_app; right; left; reflexivity|]. apply (Dom A' y EA). exact Ey.
           ++ assert (Nw : ~ wd (fst y) v) by (intros W; apply (Dom A' y EA) in W; congruence). rewrite El at 1. rewrite EB. apply accept; [rewrite <- EB, <- El; split; assumption|exact Pv|exact (Best A' y EA Nw)|exact HD|exact Strict].
Qed.
(** asking without modifying *)
Lemma quick_ask l v : fst (quick_insert 0 dirs false l v) = fst (quick_insert 0 dirs true l v) /\ snd (quick_insert 0 dirs false l v) = l.
Proof.
  unfold quick_insert. destruct l as [|e l]; [split; reflexivity|]. destruct (nth_error (e :: l) (lower_bound dirs (e :: l) v)).
  - destruct (_ || _); [split; reflexivity|]. destruct (if _ =? 0 then _ else _); split; reflexivity.
  - destruct (nth_error (e :: l) (lower_bound dirs (e :: l) v - 1)); [|split; reflexivity]. destruct (pareto _ _ _ _); split; reflexivity.
Qed.
Definition quick_adds (l : quick) (v : list Q) : res (bool * list deletion * quick) := Ok (quick_insert 0 dirs true l v).
Lemma quick_runs : forall vs seen l, stairs l -> (forall v, In v (seen ++ vs) -> P v) -> incl (vectors l) seen -> covers dirs seen (vectors l) ->
  exists bs l', offer quick_adds l vs = Ok (bs, l') /\ stairs l' /\ incl (vectors l') (seen ++ vs) /\ covers dirs (seen ++ vs) (vectors l') /\ length bs = length vs.
Proof.
  induction vs as [|v vs IH]; intros seen l St Ps I C; cbn [offer].
  - exists [], l. rewrite app_nil_r. split; [reflexivity|]. split; [exact St|]. split; [exact I|]. split; [exact C|reflexivity].
  - assert (Pv : P v) by (apply Ps; apply in_or_app; right; left; reflexivity). assert (Ps0 : forall x, In x seen -> P x) by (intros x Hx; apply Ps; apply in_or_app; left; exact Hx).
    unfold quick_adds at 1. destruct (quick_insert 0 dirs true l v) as [[b del] l1] eqn:E. assert (G := quick_ok l v St Pv). rewrite E in G. destruct G as [St1 G]. cbn [fst snd] in St1, G. cbn [rbind].
    destruct (IH (seen ++ [v]) l1) as (bs & l' & E' & St' & I' & C' & Lb).
    + exact St1.
    + rewrite <- app_assoc. exact Ps.
    + intros u Hu. destruct (step_in dirs _ _ _ _ _ _ u G Hu) as [->|H]; apply in_or_app; [right; left; reflexivity|left; exact (I u H)].
    + exact (step_covers dirs seen _ v b del _ Pv Ps0 I C G).
    + rewrite E'. cbn [rbind]. exists (b :: bs), l'. rewrite <- app_assoc in I', C'. cbn [app] in I', C'. split; [reflexivity|]. split; [exact St'|]. split; [exact I'|]. split; [exact C'|cbn; lia].
Qed.
Lemma quick_run vs : sized dirs vs -> exists bs l, offer quick_adds [] vs = Ok (bs, l) /\ stairs l /\ length bs = length vs /\ represents_front (dominated_by dirs) equal_vectors vs (vectors l).
Proof.
  intros Sz. destruct (quick_runs vs [] []) as (bs & l & E & St & I & C & Lb); [split; [constructor|intros u []]|exact Sz|intros u []|intros x []|]. cbn [app] in *. exists bs, l. split; [exact E|]. split; [exact St|]. split; [exact Lb|].
  apply front_of; [exact Sz|exact (stairs_apart l St)|exact I|exact C].
Qed.
Lemma quick_answers before v : sized dirs (before ++ [v]) ->
  exists bs l b del l', offer quick_adds [] before = Ok (bs, l) /\ quick_insert 0 dirs true l v = (b, del, l') /\ right_answer dirs (vectors l) v b del (vectors l') /\ complete_answer dirs (vectors l) v b del (vectors l') /\
    quick_insert 0 dirs false l v = (b, del, l) /\ offer quick_adds [] (before ++ [v]) = Ok (bs ++ [b], l').
Proof.
  intros Sz. assert (Sb : sized dirs before) by (intros u Hu; apply Sz; apply in_or_app; left; exact Hu). destruct (quick_run before Sb) as (bs & l & E & St & _ & _). assert (Pv : P v) by (apply Sz; apply in_or_app; right; left; reflexivity).
  destruct (quick_insert 0 dirs true l v) as [[b del] l'] eqn:Ei. assert (G := quick_ok l v St Pv). rewrite Ei in G. destruct G as [St' G]. cbn [fst snd] in *. exists bs, l, b, del, l'. split; [exact E|]. split; [exact Ei|].
  assert (Pq := proj2 St). split; [exact (step_right dirs _ _ _ _ _ _ Pv Pq G)|]. split; [exact (step_complete dirs _ _ _ _ _ Pv Pq (stairs_apart l St) G)|]. split.
  - assert (K := quick_ask l v). rewrite Ei in K. destruct (quick_insert 0 dirs false l v) as [[b' del'] l2]. cbn [fst snd] in K. destruct K as [K ->]. inversion K; subst. reflexivity.
  - rewrite (offer_app _ before [v] _ _ _ E). cbn [offer]. unfold quick_adds at 1. rewrite Ei. reflexivity.
Qed.
End Quick.
