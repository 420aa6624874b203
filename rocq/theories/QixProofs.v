(** Proofs for C217 and C218. *)
From Coq Require Import Arith ZArith Bool Lia Sorting.Sorted.
From Verif Require Import Lib Outcome QixModel QixSpec.
From Coq Require Import List.
Import ListNotations.
Open Scope Z_scope.

Section Dirs.
Variables d0 d1 : bool.
Definition c0 (v : vec2) : Z := if d0 then fst v else - fst v.
Definition c1 (v : vec2) : Z := if d1 then snd v else - snd v.

Lemma by_last_ok a b : by_last d1 a b = true <-> c1 a < c1 b.
Proof. unfold by_last, c1. destruct d1; rewrite Z.ltb_lt; lia. Qed.
Lemma by_last_no a b : by_last d1 a b = false <-> c1 b <= c1 a.
Proof. unfold by_last, c1. destruct d1; rewrite Z.ltb_ge; lia. Qed.
Lemma dominated_ok a b : dominated d0 d1 a b = true <-> c0 b <= c0 a /\ c1 b <= c1 a /\ (c0 b < c0 a \/ c1 b < c1 a).
Proof.
  unfold dominated, worse, c0, c1. rewrite !andb_true_iff, orb_true_iff, !negb_true_iff. destruct d0, d1; rewrite ?Z.ltb_lt, ?Z.ltb_ge; lia.
Qed.
Lemma dominated_no a b : dominated d0 d1 a b = false <-> ~ (c0 b <= c0 a /\ c1 b <= c1 a /\ (c0 b < c0 a \/ c1 b < c1 a)).
Proof. rewrite <- dominated_ok. destruct (dominated d0 d1 a b); split; congruence. Qed.
Lemma cost_eq a b : a = b <-> c0 a = c0 b /\ c1 a = c1 b.
Proof.
  unfold c0, c1. destruct a as [a a'], b as [b b']; cbn [fst snd]. split; [intro H; inversion H; auto|]. intros (H & K).
  f_equal; destruct d0, d1; lia.
Qed.
Lemma vec_eqb_ok a b : vec_eqb a b = true <-> a = b.
Proof. unfold vec_eqb. rewrite andb_true_iff, !Z.eqb_eq. destruct a, b; cbn. split; [intros (-> & ->); auto|intro H; inversion H; auto]. Qed.
Lemma covers_ok a b : covers d0 d1 a b <-> c0 a <= c0 b /\ c1 a <= c1 b.
Proof. unfold covers, as_good, c0, c1. destruct d0, d1; lia. Qed.
Lemma dominates_ok a b : pareto_dominates d0 d1 a b <-> dominated d0 d1 b a = true.
Proof. unfold pareto_dominates. rewrite covers_ok, dominated_ok, cost_eq. lia. Qed.

(** the index of a front *)
Definition ahead (x y : entry) : Prop := c1 (obj x) < c1 (obj y) /\ c0 (obj y) < c0 (obj x).
Definition front (l : list entry) : Prop := StronglySorted ahead l.

Lemma front_app a b : front (a ++ b) <-> front a /\ front b /\ forall x y, In x a -> In y b -> ahead x y.
Proof.
  induction a as [|x a IH]; cbn [app].
  - split; [intro H; split; [apply SSorted_nil|split; [exact H|easy]]|tauto].
  - split.
    + intro H. inversion H as [|? ? S F]; subst. apply IH in S as (A & B & C). rewrite Forall_forall in F. split; [|split].
      * constructor; [easy|]. apply Forall_forall. intros y K. apply F, in_or_app. now left.
      * easy.
      * intros u v [<-|U] V; [apply F, in_or_app; now right|auto].
    + intros (A & B & C). inversion A as [|? ? S F]; subst. constructor.
      * apply IH. repeat split; auto; apply C; auto; now right.
      * rewrite Forall_forall in *. intros y K. apply in_app_or in K as [K|K]; [auto|]. apply C; [now left|easy].
Qed.
Lemma front_cons x l : front (x :: l) <-> front l /\ forall y, In y l -> ahead x y.
Proof.
  split; [intro H; inversion H as [|? ? S F]; subst; split; [easy|now apply Forall_forall]|intros (A & B); constructor; [easy|now apply Forall_forall]].
Qed.

Lemma lower_bound_ok o l : forall a b, lower_bound d1 o l = (a, b) -> front l ->
  l = a ++ b /\ (forall x, In x a -> c1 (obj x) < c1 o) /\ (forall x, In x b -> c1 o <= c1 (obj x)).
Proof.
  induction l as [|x l IH]; intros a b H F; cbn [lower_bound] in H; [inversion H; subst; repeat split; easy|].
  apply front_cons in F as (F & A). destruct (by_last d1 (obj x) o) eqn:E.
  - destruct (lower_bound d1 o l) as [a' b'] eqn:L. inversion H. subst. destruct (IH a' b eq_refl F) as (-> & B & C). apply by_last_ok in E.
    split; [easy|]. split; [|easy]. intros y [<-|K]; auto.
  - inversion H. subst. apply by_last_no in E. split; [easy|]. split; [easy|]. intros y [<-|K]; [easy|]. apply A in K. unfold ahead in K. lia.
Qed.

Lemma span_ok p l : forall a b, span p l = (a, b) -> l = a ++ b /\ (forall x, In x a -> p x = true) /\ (forall y r, b = y :: r -> p y = false).
Proof.
  induction l as [|x l IH]; intros a b H; cbn [span] in H; [inversion H; subst; repeat split; easy|].
  destruct (p x) eqn:E.
  - destruct (span p l) as [a' b'] eqn:S. inversion H. subst. destruct (IH a' b eq_refl) as (-> & B & C). split; [easy|]. split; [|easy].
    intros y [<-|K]; auto.
  - inversion H. subst. split; [easy|]. split; [easy|]. intros y r K. now inversion K; subst.
Qed.

Lemma last_of_ok l e : last_of l = Some e -> exists a, l = a ++ [e].
Proof.
  unfold last_of. destruct l as [|x l] using rev_ind; [easy|]. rewrite app_length. cbn [length]. replace (length l + 1 - 1)%nat with (length l) by lia.
  rewrite nth_error_app2, Nat.sub_diag by lia. cbn. intro H. inversion H. subst. eauto.
Qed.
Lemma last_of_none l : last_of l = None -> l = [].
Proof. unfold last_of. intro H. apply nth_error_None in H. destruct l; [easy|cbn in H; lia]. Qed.

Lemma erase_one a g b : front (a ++ g :: b) -> set_erase d1 (obj g) (a ++ g :: b) = a ++ b.
Proof.
  induction a as [|x a IH]; intro F; cbn [app set_erase].
  - assert (E : by_last d1 (obj g) (obj g) = false) by (apply by_last_no; lia). now rewrite E.
  - apply front_cons in F as (F & A). assert (K : ahead x g) by (apply A, in_or_app; right; now left).
    assert (E : by_last d1 (obj x) (obj g) = true) by (apply by_last_ok, K). rewrite E. cbn [negb]. rewrite andb_false_r. f_equal. now apply IH.
Qed.
Lemma front_drop a g b : front (a ++ g :: b) -> front (a ++ b).
Proof.
  rewrite !front_app, front_cons. intros (A & (B & C) & D). repeat split; auto; apply D; auto; now right.
Qed.
Lemma erase_all gone : forall a b, front (a ++ gone ++ b) -> fold_left (fun l e => set_erase d1 (obj e) l) gone (a ++ gone ++ b) = a ++ b.
Proof.
  induction gone as [|g gone IH]; intros a b F; [easy|]. cbn [fold_left app]. cbn [app] in F. rewrite (erase_one a g (gone ++ b) F). apply IH.
  now apply front_drop in F.
Qed.
Lemma insert_between e a b : (forall x, In x a -> c1 (obj x) < c1 (obj e)) -> (forall x, In x b -> c1 (obj e) < c1 (obj x)) ->
  set_insert d1 e (a ++ b) = a ++ e :: b.
Proof.
  induction a as [|x a IH]; intros A B; cbn [app].
  - destruct b as [|y b]; [easy|]. cbn [set_insert]. assert (E : by_last d1 (obj e) (obj y) = true) by (apply by_last_ok, B; now left). now rewrite E.
  - cbn [set_insert]. assert (K : c1 (obj x) < c1 (obj e)) by (apply A; now left).
    assert (E : by_last d1 (obj e) (obj x) = false) by (apply by_last_no; lia). assert (E' : by_last d1 (obj x) (obj e) = true) by (now apply by_last_ok).
    rewrite E, E'. f_equal. apply IH; [intros; apply A; now right|easy].
Qed.

Lemma insert_ok o ins index ok gone index' : front index -> insert d0 d1 o ins index = (ok, gone, index') ->
  (ok = false /\ gone = [] /\ index' = index /\ exists e, In e index /\ covers d0 d1 (obj e) o) \/
  (ok = true /\ exists before rest, index = before ++ gone ++ rest /\ (forall e, In e gone -> pareto_dominates d0 d1 o (obj e)) /\
     (forall n, front (before ++ Entry o n :: rest)) /\
     index' = if ins then before ++ Entry o (length before + length rest) :: rest else index).
Proof.
  intros F H. unfold insert in H. destruct index as [|i0 index0] eqn:Ei.
  { inversion H. subst. right. split; [easy|]. exists [], []. repeat split; auto; try easy.
    intro n. apply front_cons. split; [apply SSorted_nil|easy]. }
  rewrite <- Ei in *. clear Ei i0 index0. destruct (lower_bound d1 o index) as [before from] eqn:L.
  destruct (lower_bound_ok o index before from L F) as (E & B & C).
  set (below := match last_of before with Some e => dominated d0 d1 o (obj e) | None => false end) in H.
  assert (Y : below = true -> exists e, In e index /\ covers d0 d1 (obj e) o).
  { unfold below. destruct (last_of before) as [e|] eqn:La; [|easy]. intro D. apply dominated_ok in D. apply last_of_ok in La as (a & ->).
    exists e. split; [rewrite E; apply in_or_app; left; apply in_or_app; right; now left|]. apply covers_ok. lia. }
  assert (N : below = false -> forall x, In x before -> c0 o < c0 (obj x)).
  { unfold below. destruct (last_of before) as [e|] eqn:La.
    - intros D x X. apply dominated_no in D. apply last_of_ok in La as (a & ->).
      assert (K : c1 (obj e) < c1 o) by (apply B, in_or_app; right; now left).
      rewrite E in F. apply front_app in F as (F & _). apply front_app in F as (_ & _ & F). apply in_app_or in X as [X|[<-|[]]].
      + specialize (F x e X (or_introl eq_refl)). unfold ahead in F. lia.
      + lia.
    - apply last_of_none in La. subst before. easy. }
  assert (FB : front before /\ front from) by (rewrite E in F; apply front_app in F; tauto).
  destruct from as [|it from'] eqn:Ef.
  - destruct below eqn:Eb; cbn [negb] in H; inversion H; subst ok gone index'.
    + left. auto.
    + right. split; [easy|]. exists before, []. cbn [app]. rewrite app_nil_r in E. subst before. rewrite app_nil_r. split; [easy|]. split; [easy|].
      specialize (N eq_refl).
      split.
      * intro n. apply front_app. split; [easy|]. split; [apply front_cons; split; [apply SSorted_nil|easy]|].
        intros x y X [<-|[]]. split; cbn [obj]; auto.
      * destruct ins; [|easy]. rewrite Nat.add_0_r. rewrite <- (app_nil_r index) at 2. apply insert_between; [exact B|easy].
  - rewrite <- Ef in *. assert (I : In it from) by (rewrite Ef; now left).
    destruct (vec_eqb o (obj it) || dominated d0 d1 o (obj it)) eqn:T.
    { inversion H. subst ok gone index'. left. repeat split; auto. exists it. split; [rewrite E; apply in_or_app; now right|]. apply covers_ok.
      apply orb_true_iff in T as [T|T]; [apply vec_eqb_ok in T; subst o; lia|apply dominated_ok in T; lia]. }
    apply orb_false_iff in T as (T1 & T2). assert (T1' : o <> obj it) by (intro K; apply vec_eqb_ok in K; congruence).
    rewrite cost_eq in T1'. apply dominated_no in T2.
    destruct below eqn:Eb; [inversion H; subst ok gone index'; left; auto|]. specialize (N eq_refl).
    destruct (span _ from) as [g rest] eqn:Sp. destruct (span_ok _ _ _ _ Sp) as (E2 & G & R). cbv beta in G, R. inversion H. subst ok gone index'.
    right. split; [easy|]. exists before, rest. rewrite E2 in E. split; [easy|]. split; [intros e K; apply dominates_ok; auto|].
    assert (X : forall y, In y from -> c1 o < c1 (obj y) \/ (y = it /\ c1 o = c1 (obj y))).
    { intros y K. pose proof (C it I). destruct FB as (_ & FF). rewrite Ef in FF, K. apply front_cons in FF as (_ & FF). destruct K as [<-|K].
      - destruct (Z.eq_dec (c1 o) (c1 (obj it))); [now right|]. left. lia.
      - left. specialize (FF y K). unfold ahead in FF. lia. }
    assert (Fr : front rest) by (destruct FB as (_ & FF); rewrite E2 in FF; apply front_app in FF; tauto).
    assert (RR : forall y, In y rest -> c1 o < c1 (obj y) /\ c0 (obj y) < c0 o).
    { destruct rest as [|y0 rest']; [easy|]. assert (K0 : In y0 from) by (rewrite E2; apply in_or_app; right; now left).
      assert (H0 : c1 o < c1 (obj y0) /\ c0 (obj y0) < c0 o).
      { specialize (R y0 rest' eq_refl). apply dominated_no in R. pose proof (C y0 K0). destruct (X y0 K0) as [K|(-> & K)]; lia. }
      apply front_cons in Fr as (_ & Fr). intros y [<-|K]; [exact H0|]. specialize (Fr y K). unfold ahead in Fr. lia. }
    split.
    + intro n. apply front_app. split; [tauto|]. split.
      * apply front_cons. split; [easy|]. intros y K. exact (RR y K).
      * intros x y Kx [<-|Ky].
        -- split; cbn [obj]; auto.
        -- specialize (RR y Ky). specialize (N x Kx). specialize (B x Kx). unfold ahead. lia.
    + destruct ins; [|easy]. rewrite E in F. rewrite E, (erase_all g before rest F). rewrite app_length. apply insert_between; [exact B|].
      intros y K. cbn [obj]. apply RR, K.
Qed.

Lemma front_no_cover l x y : front l -> In x l -> In y l -> covers d0 d1 (obj x) (obj y) -> x = y.
Proof.
  intros F. induction l as [|z l IH]; intros X Y K; [easy|]. apply front_cons in F as (F & A). apply covers_ok in K.
  destruct X as [<-|X], Y as [<-|Y]; auto.
  - specialize (A y Y). unfold ahead in A. lia.
  - specialize (A x X). unfold ahead in A. lia.
  - apply IH; auto. now apply covers_ok.
Qed.

(** a history of insertions *)
Definition inserted (os : list vec2) : list entry := fold_left (fun l o => snd (insert d0 d1 o true l)) os [].
Lemma covers_refl a : covers d0 d1 a a. Proof. apply covers_ok. lia. Qed.
Lemma covers_trans a b c : covers d0 d1 a b -> covers d0 d1 b c -> covers d0 d1 a c. Proof. rewrite !covers_ok. lia. Qed.
Lemma covers_antisym a b : covers d0 d1 a b -> covers d0 d1 b a -> a = b. Proof. rewrite !covers_ok, cost_eq. lia. Qed.

Lemma inserted_inv os : front (inserted os) /\ (forall e, In e (inserted os) -> In (obj e) os) /\
  forall v, In v os -> exists e, In e (inserted os) /\ covers d0 d1 (obj e) v.
Proof.
  induction os as [|o os IH] using rev_ind; [split; [apply SSorted_nil|easy]|]. destruct IH as (F & S & K).
  assert (E : inserted (os ++ [o]) = snd (insert d0 d1 o true (inserted os))) by (unfold inserted; rewrite fold_left_app; reflexivity).
  rewrite E. destruct (insert d0 d1 o true (inserted os)) as [[ok gone] index'] eqn:I. cbn [snd].
  destruct (insert_ok o true _ ok gone index' F I) as [(-> & -> & -> & e & He & Ce)|(-> & before & rest & Ei & G & Fr & ->)].
  - split; [easy|]. split; [intros; apply in_or_app; auto|]. intros v V. apply in_app_or in V as [V|[<-|[]]]; eauto.
  - split; [apply Fr|]. split.
    + intros x X. apply in_app_or in X as [X|[<-|X]]; cbn [obj]; apply in_or_app; [left|right; now left|left]; apply S; rewrite Ei;
        apply in_or_app; auto. right. apply in_or_app. now right.
    + intros v V. apply in_app_or in V as [V|[<-|[]]].
      * destruct (K v V) as (e & He & Ce). rewrite Ei in He. apply in_app_or in He as [He|He]; [exists e; split; [apply in_or_app; now left|easy]|].
        apply in_app_or in He as [He|He]; [|exists e; split; [apply in_or_app; right; now right|easy]].
        apply G in He as (He & _). exists (Entry o (length before + length rest)). split; [apply in_or_app; right; now left|].
        eapply covers_trans; eauto.
      * exists (Entry o (length before + length rest)). split; [apply in_or_app; right; now left|apply covers_refl].
Qed.
End Dirs.
