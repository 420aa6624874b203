(** Proofs about the two-objective archive: the set. *)
From Coq Require Import Bool Arith QArith Lqa Lia Permutation.
From Verif Require Import Lib Outcome BoundsModel BoundsProofs StairModel StairSpec.
From Coq Require Import List.
Import ListNotations.
Close Scope Q_scope.
Open Scope nat_scope.

Section P.
Context {G : Type}.
Notation pt := (pt G).
Notation member := (member G).
Implicit Types (a b v : pt) (A B : list pt).

Definition step a b : Prop := (py a < py b)%Q /\ (px b < px a)%Q.

Lemma comp_true a b : comp a b = true <-> (py a < py b)%Q \/ ((py a == py b)%Q /\ (px a < px b)%Q).
Proof. unfold comp. rewrite orb_true_iff, andb_true_iff, !qltb_lt, Qeq_bool_iff. tauto. Qed.
Lemma comp_false a b : comp a b = false <-> ((py b < py a)%Q \/ ((py a == py b)%Q /\ (px b <= px a)%Q)).
Proof.
  rewrite <- not_true_iff_false, comp_true. split.
  - intros H. destruct (Q_dec (py a) (py b)) as [[X|X]|X]; [tauto|tauto|].
    destruct (Qlt_le_dec (px a) (px b)); [exfalso; apply H; tauto|]. right. split; auto.
  - intros H K. destruct H as [H|[H1 H2]], K as [K|[K1 K2]]; lra.
Qed.

Lemma staircase_nil : staircase (@nil pt).
Proof. intros i j a b L H. destruct i; discriminate. Qed.
Lemma staircase_cons a (l : list pt) : staircase (a :: l) <-> (forall b, In b l -> step a b) /\ staircase l.
Proof.
  split.
  - intros H. split.
    + intros b I. apply In_nth_error in I as [k Ik]. apply (H 0 (S k) a b); auto; lia.
    + intros i j x y L Hi Hj. apply (H (S i) (S j)); auto; lia.
  - intros [H1 H2] i j x y L Hi Hj. destruct j as [|j]; [lia|]. cbn in Hj. destruct i as [|i].
    + cbn in Hi. injection Hi as ->. apply H1. eapply nth_error_In; eauto.
    + cbn in Hi. apply (H2 i j); auto; lia.
Qed.
Lemma staircase_app A B : staircase (A ++ B) <-> staircase A /\ staircase B /\ (forall a b, In a A -> In b B -> step a b).
Proof.
  induction A as [|x A IH]; cbn [app].
  - split; [intros H; split; [apply staircase_nil|split; [exact H|intros a b []]] | tauto].
  - rewrite !staircase_cons, IH. split.
    + intros (H1 & H2 & H3 & H4). split; [split|split]; auto.
      * intros b I. apply H1, in_or_app; auto.
      * intros a b [<-|I] J; [apply H1, in_or_app; auto | auto].
    + intros ((H1 & H2) & H3 & H4). split; [|split; [|split]]; auto.
      * intros b I. apply in_app_or in I as [I|I]; auto. apply H4; auto. left; auto.
      * intros a b I J. apply H4; auto. right; auto.
Qed.

(** ** positions *)
Notation pts := (map (@mpt G)).

Lemma upper_app (U W : list member) v :
  (forall e, In e U -> comp v (mpt e) = false) -> (forall e W', W = e :: W' -> comp v (mpt e) = true) ->
  upper (U ++ W) v = length U.
Proof.
  induction U as [|e U IH]; cbn; intros H1 H2.
  - destruct W as [|e W]; cbn; auto. rewrite (H2 e W); auto.
  - rewrite (H1 e); [|auto]. f_equal. apply IH; auto.
Qed.
Lemma upper_split (l : list member) v : exists U W, l = U ++ W /\ upper l v = length U /\
  (forall e, In e U -> comp v (mpt e) = false) /\ (forall e W', W = e :: W' -> comp v (mpt e) = true).
Proof.
  induction l as [|e l IH]; cbn.
  - exists [], []. cbn. repeat split; auto; try tauto; discriminate.
  - destruct (comp v (mpt e)) eqn:E.
    + exists [], (e :: l). cbn. repeat split; auto; try tauto. intros e' W' [= <- <-]. auto.
    + destruct IH as (U & W & -> & H1 & H2 & H3). exists (e :: U), W. cbn. rewrite H1. repeat split; auto.
      intros e' [<-|I]; auto.
Qed.
Lemma drop_split (l : list member) x : exists D W, l = D ++ W /\ drop_covered l x = W /\
  (forall e, In e D -> (x <= px (mpt e))%Q) /\ (forall e W', W = e :: W' -> (px (mpt e) < x)%Q).
Proof.
  induction l as [|e l IH]; cbn.
  - exists [], []. cbn. repeat split; auto; try tauto; discriminate.
  - destruct (Qle_bool x (px (mpt e))) eqn:E.
    + apply Qle_bool_iff in E. destruct IH as (D & W & -> & H1 & H2 & H3). exists (e :: D), W. cbn. rewrite H1.
      repeat split; auto. intros e' [<-|I]; auto.
    + exists [], (e :: l). cbn. repeat split; auto; try tauto. intros e' W' [= <- <-].
      destruct (Qlt_le_dec (px (mpt e)) x) as [X|X]; auto. apply Qle_bool_iff in X. congruence.
Qed.

Lemma in_pts (l : list member) e : In e l -> In (mpt e) (pts l).
Proof. apply in_map. Qed.
Lemma pts_in (l : list member) a : In a (pts l) -> exists e, In e l /\ mpt e = a.
Proof. intros H. apply in_map_iff in H as (e & <- & H). eauto. Qed.
Lemma last_split {X} (l : list X) : l = [] \/ exists l' x, l = l' ++ [x].
Proof. destruct l as [|y l]; auto. right. destruct (@exists_last X (y :: l)) as (l' & x & E); [discriminate|]. eauto. Qed.

(** the place of a point that is taken *)
Definition room (U D W : list member) v : Prop :=
  (forall e, In e U -> (py (mpt e) < py v)%Q /\ (px v < px (mpt e))%Q) /\
  (forall e, In e D -> covers v (mpt e)) /\
  (forall e, In e W -> (py v < py (mpt e))%Q /\ (px (mpt e) < px v)%Q).

Lemma insert_test_ok (l : list member) v : l <> [] -> staircase (pts l) ->
  (insert_test l v = Ok None /\ exists e, In e (pts l) /\ covers e v) \/
  (exists U D W, l = U ++ D ++ W /\ insert_test l v = Ok (Some (U ++ W, length U)) /\
   room U D W v /\ forall e, In e (pts l) -> ~ covers e v).
Proof.
  intros N Hst. unfold insert_test.
  destruct (upper_split l v) as (U & R & -> & HU & H1 & H2). rewrite HU.
  destruct (drop_split R (px v)) as (D & W & -> & HD & H3 & H4).
  destruct (nth_error (U ++ D ++ W) 0) as [b|] eqn:Eb; [|exfalso; apply nth_error_None in Eb; destruct (U ++ D ++ W); [auto|cbn in Eb; lia]].
  cbn [of_opt rbind].
  rewrite !map_app in Hst. apply staircase_app in Hst as (SU & SR & SUR). pose proof SR as SR0.
  apply staircase_app in SR as (SD & SW & SDW).
  assert (HR : forall e, In e (D ++ W) -> comp v (mpt e) = true).
  { intros e I. destruct (D ++ W) as [|r R] eqn:ER; [destruct I|].
    pose proof (H2 r R eq_refl) as Hr. destruct I as [<-|I]; auto.
    assert (St : step (mpt r) (mpt e)).
    { rewrite <- map_app in SR0. rewrite ER in SR0. cbn in SR0. apply staircase_cons in SR0 as [X _]. apply X, in_pts; auto. }
    apply comp_true in Hr. apply comp_true. destruct St. left. destruct Hr as [Hr|[Hr _]]; lra. }
  assert (HW : forall e, In e W -> (px (mpt e) < px v)%Q).
  { intros e I. destruct W as [|w W]; [destruct I|]. pose proof (H4 w W eq_refl) as Hw. destruct I as [<-|I]; auto.
    cbn in SW. apply staircase_cons in SW as [X _]. destruct (X (mpt e)); [apply in_pts; auto|]. lra. }
  assert (Good : (forall e, In e U -> (py (mpt e) < py v)%Q /\ (px v < px (mpt e))%Q) ->
     room U D W v /\ forall e, In e (pts (U ++ D ++ W)) -> ~ covers e v).
  { intros HUv. split.
    - split; [auto|split].
      + intros e I. pose proof (HR e (in_or_app _ _ _ (or_introl I))) as C. apply comp_true in C. split; [auto|].
        destruct C as [C|[C _]]; lra.
      + intros e I. pose proof (HR e (in_or_app _ _ _ (or_intror I))) as C. apply comp_true in C. pose proof (HW e I).
        destruct C as [C|[C1 C2]]; [split; lra|lra].
    - intros e I [C1 C2]. apply pts_in in I as (e0 & I & <-). apply in_app_or in I as [I|I].
      + destruct (HUv e0 I). lra.
      + pose proof (HR e0 I) as C. apply comp_true in C. destruct C as [C|[Ca Cb]]; lra. }
  destruct (last_split U) as [->|(U' & p & ->)].
  - right. exists [], D, W. cbn [length app]. destruct Good as [G1 G2]; [intros e []|].
    split; [auto|]. split; [|split; auto]. cbn [Nat.eqb orb rbind]. unfold StairModel.remove. cbn [firstn skipn app]. rewrite HD. auto.
  - rewrite app_length. cbn [length]. replace (length U' + 1 =? 0) with false by (symmetry; apply Nat.eqb_neq; lia).
    cbn [orb]. replace (length U' + 1 - 1) with (length U') by lia.
    rewrite <- app_assoc. cbn [app]. rewrite nth_error_app2 by lia. rewrite Nat.sub_diag. cbn [nth_error of_opt rbind].
    pose proof (H1 p ltac:(apply in_or_app; right; left; auto)) as Cp. apply comp_false in Cp.
    destruct (qltb (px v) (px (mpt p))) eqn:Q.
    + apply qltb_lt in Q. right. exists (U' ++ [p]), D, W.
      assert (Hp : (py (mpt p) < py v)%Q) by (destruct Cp as [Cp|[Cp1 Cp2]]; lra).
      destruct Good as [G1 G2].
      { intros e I. apply in_app_or in I as [I|[<-|[]]]; [|auto].
        rewrite map_app in SU. apply staircase_app in SU as (_ & _ & SU).
        destruct (SU (mpt e) (mpt p)); [apply in_pts; auto|left; auto|]. split; lra. }
      split; [rewrite <- app_assoc; auto|]. split; [|split; auto].
      * do 3 f_equal; [|rewrite app_length; cbn; lia]. unfold StairModel.remove.
        replace (length U' + 1) with (length (U' ++ [p])) by (rewrite app_length; auto).
        change (U' ++ p :: D ++ W) with (U' ++ [p] ++ (D ++ W)). rewrite (app_assoc U' [p] (D ++ W)).
        rewrite firstn_app, Nat.sub_diag, firstn_all, skipn_app, Nat.sub_diag, skipn_all. cbn [firstn skipn app].
        rewrite app_nil_r, HD. auto.
      * intros e I. apply G2. rewrite <- app_assoc. exact I.
    + left. split; auto. exists (mpt p). split.
      * apply in_pts, in_or_app. right. left. auto.
      * assert (px (mpt p) <= px v)%Q. { destruct (Qlt_le_dec (px v) (px (mpt p))) as [X|X]; auto. apply qltb_lt in X. congruence. }
        split; auto. destruct Cp as [Cp|[Cp1 Cp2]]; lra.
Qed.

Lemma room_stairs U D W v : staircase (pts (U ++ D ++ W)) -> room U D W v -> staircase (pts U ++ v :: pts W).
Proof.
  intros Hst (R1 & R2 & R3). rewrite !map_app in Hst. apply staircase_app in Hst as (SU & SR & SUR).
  apply staircase_app in SR as (SD & SW & SDW).
  apply staircase_app. split; [auto|split].
  - apply staircase_cons. split; auto. intros b I. apply pts_in in I as (e & I & <-). destruct (R3 e I). split; auto.
  - intros a b I J. apply pts_in in I as (e & I & <-). destruct J as [<-|J].
    + destruct (R1 e I). split; auto.
    + apply SUR; [apply in_pts; auto|apply in_or_app; auto].
Qed.

Lemma set_insert_room U D W (v : member) : room U D W (mpt v) -> set_insert (U ++ W) v = (U ++ v :: W, Some (length U)).
Proof.
  intros (R1 & R2 & R3). unfold set_insert.
  rewrite upper_app.
  2:{ intros e I. apply comp_false. destruct (R1 e I). left; auto. }
  2:{ intros e W' ->. apply comp_true. destruct (R3 e); [left; auto|]. left; auto. }
  destruct (last_split U) as [->|(U' & p & ->)]; [reflexivity|].
  rewrite app_length. cbn [length]. rewrite Nat.add_1_r, <- app_assoc.
  rewrite nth_error_app2 by lia. rewrite Nat.sub_diag. cbn [app nth_error].
  replace (comp (mpt p) (mpt v)) with true.
  2:{ symmetry. apply comp_true. destruct (R1 p); [apply in_or_app; right; left; auto|]. auto. }
  change (U' ++ p :: W) with (U' ++ [p] ++ W). rewrite app_assoc.
  replace (S (length U')) with (length (U' ++ [p])) by (rewrite app_length; cbn; lia).
  rewrite firstn_app, Nat.sub_diag, firstn_all, skipn_app, Nat.sub_diag, skipn_all. cbn [firstn skipn app].
  rewrite app_nil_r, <- app_assoc. reflexivity.
Qed.
End P.
