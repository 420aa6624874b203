(** The members of the epsilon hyperbox archive are incomparable. *)
From Coq Require Import Bool Arith ZArith QArith Qround Qabs Lqa Lia Permutation.
From Verif Require Import Lib Outcome BoundsModel BoundsProofs ParetoModel ParetoSpec ParetoProofs BoxModel BoxSpec BoxProofs.
From Coq Require Import List.
Import ListNotations.
Close Scope Q_scope.
Open Scope nat_scope.

Section P.
Context {G : Type}.
Variable obj : G -> list Q.
Variable tol : Q.
Variable dirs : list bool.
Variable eps : list Q.
Hypothesis Heps : length eps = length dirs.
Hypothesis Hpos : Forall (fun e => 0 < e)%Q eps.
Hypothesis Htol : (0 <= tol < 1)%Q.
Notation sized v := (length (obj v) = length dirs).

(** the corner [c] is at least as good as [c'] *)
Fixpoint leqc (ds : list bool) (c c' : list (option Z)) : Prop :=
  match ds, c, c' with
  | [], [], [] => True
  | d :: ds', Some z :: r, Some z' :: r' => (if d then (z <= z')%Z else (z' <= z)%Z) /\ leqc ds' r r'
  | _, _, _ => False
  end.
Lemma hyperbox_mono ds : forall es sc v w c c',
  Forall (fun e => 0 < e)%Q es -> Forall (fun s => exists k, fst s = Some k /\ (0 < k)%Q) sc ->
  hyperbox ds es sc v = Ok c -> hyperbox ds es sc w = Ok c' -> weakly_dominates ds v w -> leqc ds c c'.
Proof.
  induction ds as [|d ds IH]; intros es sc v w c c' He Hs H H' W; cbn [hyperbox] in H, H'.
  - injection H as <-. injection H' as <-. exact Logic.I.
  - destruct es as [|e es]; [discriminate|]. destruct sc as [|[k mn] sc]; [discriminate|].
    destruct v as [|x v]; [discriminate|]. destruct w as [|y w]; [discriminate|].
    inversion He as [|? ? E1 E2]; inversion Hs as [|? ? K1 K2]; subst. destruct K1 as (k0 & Ek & Pk). cbn in Ek. subst k. cbn [rbind] in H, H'.
    apply rbind_ok in H as (r & H & X). injection X as <-. apply rbind_ok in H' as (r' & H' & X). injection X as <-.
    apply (proj1 (all_objectives d ds x v y w (fun d x y => ~ better d y x))) in W as [W1 W2]. cbn [leqc]. split; [|eauto].
    assert (M : forall a b, (a <= b)%Q -> ((a - mn) * k0 * 1 / e <= (b - mn) * k0 * 1 / e)%Q).
    { intros a b Hab. unfold Qdiv. apply Qmult_le_compat_r; [|apply Qlt_le_weak, Qinv_lt_0_compat; auto].
      rewrite !Qmult_1_r. apply Qmult_le_compat_r; lra. }
    destruct d; unfold better, better_by in W1.
    + assert (X : (x <= y)%Q) by lra. exact (Qfloor_resp_le _ _ (M x y X)).
    + assert (X : (y <= x)%Q) by lra. exact (Qceiling_resp_le _ _ (M y x X)).
Qed.
Lemma differ_z z z' : differ tol (inject_Z z') (inject_Z z) = negb (Z.eqb z z').
Proof.
  destruct (Z.eqb_spec z z') as [->|N]; cbn.
  - apply differ_false. lra.
  - apply differ_true. assert (z + 1 <= z' \/ z' + 1 <= z)%Z as [L|L] by lia; rewrite Zle_Qle, inject_Z_plus in L; change (inject_Z 1) with 1%Q in L; lra.
Qed.
Lemma qltb_z z z' : qltb (inject_Z z) (inject_Z z') = Z.ltb z z'.
Proof.
  destruct (Z.ltb_spec z z').
  - apply qltb_lt. rewrite <- Zlt_Qlt. auto.
  - apply qltb_ge. rewrite <- Zle_Qle. auto.
Qed.
Lemma leqc_true ds : forall c c', leqc ds c c' -> corner_loop tol ds c' c true = true.
Proof.
  induction ds as [|d ds IH]; intros [|[z|] c] [|[z'|] c'] H; cbn in H; try tauto. destruct H as [H1 H2].
  cbn [corner_loop differ_c less_c]. rewrite differ_z, !qltb_z. destruct (Z.eqb_spec z z'); cbn [negb]; auto.
  destruct d; [destruct (Z.ltb_spec z z')|destruct (Z.ltb_spec z' z)]; auto; lia.
Qed.
Lemma leqc_cases ds : forall c c', leqc ds c c' -> corner_loop tol ds c' c false = true \/ (same_corner c' c = true /\ same_corner c c' = true).
Proof.
  induction ds as [|d ds IH]; intros [|[z|] c] [|[z'|] c'] H; cbn in H; try tauto.
  destruct H as [H1 H2]. cbn [corner_loop same_corner differ_c less_c]. rewrite differ_z, !qltb_z.
  destruct (Z.eqb_spec z z') as [->|N]; cbn [negb].
  - rewrite Z.eqb_refl. cbn [andb]. auto.
  - left. destruct d; [destruct (Z.ltb_spec z z')|destruct (Z.ltb_spec z' z)]; try lia; apply leqc_true; auto.
Qed.

(** on every objective the ideal is not the nadir, or the first scale is still in use *)
Lemma scale_positive : forall bs, (forall i n, In (i, n) bs -> ~ (i == n)%Q) ->
  Forall (fun s : option Q * Q => exists k, fst s = Some k /\ (0 < k)%Q) (scale_of bs).
Proof.
  intros bs N. unfold scale_of. apply Forall_forall. intros s I. apply in_map_iff in I as ([i n] & <- & I).
  destruct (scale1_cases i n) as [[E _]|(k & mn & E & P & _)]; [exfalso; exact (N _ _ I E)|]. exists k. rewrite E. auto.
Qed.
Lemma first_positive : Forall (fun s : option Q * Q => exists k, fst s = Some k /\ (0 < k)%Q) (first_scale dirs).
Proof. unfold first_scale. apply Forall_forall. intros s I. apply in_map_iff in I as (d & <- & _). exists 1%Q. split; [auto|reflexivity]. Qed.

Lemma spread_positive l v bs sc : fine obj dirs l bs sc -> within dirs bs (obj v) -> spread obj dirs l v ->
  Forall (fun s : option Q * Q => exists k, fst s = Some k /\ (0 < k)%Q) sc.
Proof.
  intros F W Sp. destruct (within_length _ _ _ W) as [Lb Lv]. destruct (fine_scale _ _ _ _ _ F) as [-> | ->]; [|apply first_positive].
  apply scale_positive. intros i n I E. apply In_nth_error in I as [k Ek].
  assert (Hk : k < length dirs) by (rewrite <- Lb; apply nth_error_Some; congruence).
  destruct (nth_error dirs k) as [d|] eqn:Ed; [|apply nth_error_None in Ed; lia].
  destruct (nth_error (obj v) k) as [x|] eqn:Ex; [|apply nth_error_None in Ex; lia].
  destruct (Sp k x Hk Ex) as (a & y & Ia & Ey & N).
  destruct (within_at _ _ _ _ _ _ _ _ W Ed Ek Ex) as [A1 A2].
  destruct (within_at _ _ _ _ _ _ _ _ (fine_in _ _ _ _ _ F a Ia) Ed Ek Ey) as [B1 B2].
  apply N. destruct d; cbn in *; lra.
Qed.
Lemma apart_incomparable sc v corner a : Forall (fun s : option Q * Q => exists k, fst s = Some k /\ (0 < k)%Q) sc ->
  hyperbox dirs eps sc (obj v) = Ok corner -> apart obj tol dirs eps sc corner a ->
  ~ weakly_dominates dirs (obj a) (obj v) /\ ~ weakly_dominates dirs (obj v) (obj a).
Proof.
  intros Hs Hc (c & Ec & D1 & D2 & N). unfold corner_dom in D1, D2. split; intros W.
  - pose proof (hyperbox_mono _ _ _ _ _ _ _ Hpos Hs Ec Hc W) as L. destruct (leqc_cases _ _ _ L) as [X|[X _]]; congruence.
  - pose proof (hyperbox_mono _ _ _ _ _ _ _ Hpos Hs Hc Ec W) as L. destruct (leqc_cases _ _ _ L) as [X|[_ X]]; congruence.
Qed.

(** ** pairs of members *)
Definition inc (a b : G) : Prop := ~ weakly_dominates dirs (obj a) (obj b) /\ ~ weakly_dominates dirs (obj b) (obj a).
Lemma fop_perm (l l' : list G) : Permutation l l' -> ForallOrdPairs inc l -> ForallOrdPairs inc l'.
Proof.
  induction 1 as [|x l l' P IH|x y l|l1 l2 l3 P1 IH1 P2 IH2]; auto; intros H.
  - inversion H; subst. constructor; auto. eapply Permutation_Forall; eauto.
  - inversion H as [|? ? F1 F2]; subst. inversion F2 as [|? ? F3 F4]; subst. inversion F1 as [|? ? F5 F6]; subst.
    constructor; [constructor; auto|constructor; auto]. destruct F5. split; auto.
Qed.
Lemma fop_app (l l' : list G) : ForallOrdPairs inc (l ++ l') -> ForallOrdPairs inc l.
Proof.
  induction l as [|a l IH]; intros H; [constructor|]. cbn in H. inversion H as [|? ? F1 F2]; subst. apply Forall_app in F1 as [F1 _].
  constructor; auto.
Qed.
Lemma fop_some new old : some_of new old -> ForallOrdPairs inc old -> ForallOrdPairs inc new.
Proof. intros [g P] H. eapply fop_app, fop_perm; eauto. Qed.
Lemma fop_snoc l v : ForallOrdPairs inc l -> (forall a, In a l -> inc a v) -> ForallOrdPairs inc (l ++ [v]).
Proof.
  intros H K. induction H as [|a l F H IH]; cbn; [repeat constructor|]. constructor; [|apply IH; intros; apply K; right; auto].
  apply Forall_app. split; auto. constructor; auto. apply K. left. auto.
Qed.
Lemma fop_incomparable l : ForallOrdPairs inc l -> incomparable obj dirs l.
Proof.
  intros H. induction H as [|x l F H IH]; intros i j a b N Ea Eb.
  - destruct i; discriminate.
  - rewrite Forall_forall in F. destruct i as [|i], j as [|j]; cbn in Ea, Eb; [lia| | |].
    + injection Ea as <-. apply F. eapply nth_error_In; eauto.
    + injection Eb as <-. apply F. eapply nth_error_In; eauto.
    + eapply (IH i j); eauto.
Qed.

(** ** histories *)
Fixpoint spread_all (st : box G) (vs : list G) : Prop :=
  match vs with
  | [] => True
  | v :: vs' => (mem st = [] \/ spread obj dirs (mem st) v) /\
                forall st' r, offer obj tol dirs eps st v = Ok (st', r) -> spread_all st' vs'
  end.
Lemma offers_front vs : forall st, inv obj dirs st -> all_sized obj dirs vs -> ForallOrdPairs inc (mem st) -> spread_all st vs ->
  exists st', offers obj tol dirs eps st vs = Ok st' /\ ForallOrdPairs inc (mem st').
Proof.
  induction vs as [|v vs IH]; intros st I Sz F Sp; cbn [offers]; [eauto|]. destruct Sp as [Sp Nx].
  destruct (offer_cases obj tol dirs eps Heps st v I) as (st' & r & E & I' & _ & C); [apply Sz; left; auto|]. rewrite E. cbn [rbind].
  apply IH; auto; [intros b J; apply Sz; right; auto| |eauto].
  destruct C as [(M & M' & _)|(N & st1 & ch & Ech & [(_ & -> & _)|(_ & W & Fi & corner & Hc & [So|(_ & kept & -> & So & Ap & _)])])].
  - rewrite M'. repeat constructor.
  - auto.
  - eapply fop_some; eauto.
  - destruct Sp as [Sp|Sp]; [tauto|]. apply fop_snoc; [eapply fop_some; eauto|]. intros a J. rewrite Forall_forall in Ap.
    apply (apart_incomparable (scale st1) v corner a); [eapply spread_positive; eauto|auto|auto].
Qed.
End P.
