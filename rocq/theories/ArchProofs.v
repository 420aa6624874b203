(** Proofs about archives (C43, C49). *)
From Coq Require Import List Arith Lia Bool Permutation.
From Verif Require Import Outcome Lib OrderSpec OrderLemmas ArchModel ArchSpec.
Import ListNotations.

Lemma removelast_snoc {A} (l : list A) x : removelast (l ++ [x]) = l.
Proof. rewrite removelast_app by discriminate. cbn. apply app_nil_r. Qed.

Lemma FOP_perm {A} (R : A -> A -> Prop) : (forall a b, R a b -> R b a) -> forall l l', Permutation l l' ->
  ForallOrdPairs R l -> ForallOrdPairs R l'.
Proof.
  intros Hs. induction 1 as [|x l l' Hp IH|x y l|l l' l'' _ IH1 _ IH2]; intros H; auto.
  - inversion H; subst. constructor; auto. eapply Permutation_Forall; eauto.
  - inversion H as [|? ? F1 F2]; subst. inversion F2 as [|? ? F3 F4]; subst. inversion F1; subst.
    constructor; [constructor; auto|]. constructor; auto.
Qed.
Lemma FOP_index {A} (R : A -> A -> Prop) : (forall a b, R a b -> R b a) -> forall l, ForallOrdPairs R l <->
  (forall i j a b, i <> j -> nth_error l i = Some a -> nth_error l j = Some b -> R a b).
Proof.
  intros Hs. induction l as [|x l IH].
  - split; [intros _ [|i] j a b _ H; discriminate|constructor].
  - split.
    + intros H. inversion H as [|? ? F1 F2]; subst. rewrite Forall_forall in F1. intros [|i] [|j] a b Hij Ha Hb; cbn in Ha, Hb; try lia.
      * assert (x = a) as -> by congruence. apply F1. eapply nth_error_In; eauto.
      * assert (x = b) as -> by congruence. apply Hs, F1. eapply nth_error_In; eauto.
      * apply (proj1 IH F2 i j); auto.
    + intros H. constructor.
      * apply Forall_forall. intros y Hy. apply In_nth_error in Hy as [j Hj]. apply (H 0 (S j)); auto.
      * apply IH. intros i j a b Hij. apply (H (S i) (S j)). lia.
Qed.
Lemma FOP_filter {A} (R : A -> A -> Prop) f l : ForallOrdPairs R l -> ForallOrdPairs R (filter f l).
Proof.
  induction 1 as [|x l F1 F2 IH]; cbn; [constructor|]. destruct (f x); auto. constructor; auto.
  apply Forall_forall. intros y Hy. apply filter_In in Hy as [Hy _]. rewrite Forall_forall in F1. auto.
Qed.
Lemma FOP_snoc {A} (R : A -> A -> Prop) l x : (forall a b, R a b -> R b a) -> ForallOrdPairs R l -> (forall y, In y l -> R y x) -> ForallOrdPairs R (l ++ [x]).
Proof.
  intros Hs H Hx. eapply FOP_perm; [exact Hs|apply Permutation_cons_append|]. constructor; auto. apply Forall_forall. auto.
Qed.

Lemma set_mid {A} (p q : list A) y x : set (p ++ y :: q) (length p) x = p ++ x :: q.
Proof.
  destruct (set_split (p ++ y :: q) (length p) x y) as (l1 & l2 & E & L & ->).
  - rewrite nth_error_app2, Nat.sub_diag by lia. reflexivity.
  - assert (p = l1 /\ y :: q = y :: l2) as [-> E2]; [|congruence].
    clear - E L. revert l1 E L. induction p as [|a p IH]; intros [|b l1] E L; cbn in *; try lia; auto.
    inversion E; subst. destruct (IH l1) as [-> ->]; auto.
Qed.

Section Arch.
Variables A V : Type.
Variable obj : A -> V.
Variable dominated same : V -> V -> bool.
Variable replace : bool.
Notation dom a b := (dominated (obj a) (obj b) = true).
Notation eqv a b := (same (obj a) (obj b) = true).
Notation purge := (purge A V obj dominated same replace).
Notation rejected := (rejected A V obj dominated same replace).
Notation update := (update A V obj dominated same replace).
Notation update_pop := (update_pop A V obj dominated same replace).
Notation bounded_update := (bounded_update A V obj dominated same replace).
Notation bounded_pop := (bounded_pop A V obj dominated same replace).

Lemma drop_at_perm (p q : list A) y : exists q', drop_at A (p ++ y :: q) (length p) = Some (p ++ q') /\ Permutation q' q /\ length q' = length q.
Proof.
  unfold drop_at. destruct q as [|z q] using rev_ind.
  - exists []. rewrite app_length. cbn [length]. rewrite nth_error_app2 by lia. replace (length p + 1 - 1 - length p) with 0 by lia. cbn [nth_error obind].
    rewrite upd_set by (rewrite app_length; cbn; lia). cbn [option_map]. split; [|split; auto]. f_equal.
    rewrite set_mid. rewrite removelast_snoc, app_nil_r. reflexivity.
  - clear IHq. exists (z :: q).
    replace (p ++ y :: q ++ [z]) with ((p ++ y :: q) ++ [z]) by (rewrite <- app_assoc; reflexivity).
    rewrite app_length. cbn [length]. rewrite nth_error_app2 by lia. replace (length (p ++ y :: q) + 1 - 1 - length (p ++ y :: q)) with 0 by lia. cbn [nth_error obind].
    rewrite upd_set by (rewrite !app_length; cbn; lia). cbn [option_map]. split.
    + f_equal. replace ((p ++ y :: q) ++ [z]) with (p ++ y :: (q ++ [z])) by (rewrite <- app_assoc; reflexivity). rewrite set_mid.
      replace (p ++ z :: q ++ [z]) with ((p ++ z :: q) ++ [z]) by (rewrite <- app_assoc; reflexivity). apply removelast_snoc.
    + split; [apply Permutation_cons_append|rewrite app_length; cbn; lia].
Qed.
Definition keep (x y : A) : bool := negb (dominated (obj y) (obj x)) && negb (replace && same (obj x) (obj y)).
Lemma purge_perm x : forall fuel p q, length q < fuel ->
  exists l', purge fuel (p ++ q) (length p) x = Ok (p ++ l') /\ Permutation l' (filter (keep x) q).
Proof.
  induction fuel as [|fuel IH]; intros p q Hf; [lia|]. cbn [ArchModel.purge]. destruct q as [|y q].
  - rewrite app_nil_r. rewrite (proj2 (nth_error_None p (length p))) by lia. exists []. rewrite app_nil_r. auto.
  - rewrite nth_error_app2 by lia. rewrite Nat.sub_diag. cbn [nth_error filter]. cbn [length] in Hf.
    assert (Hdrop : exists l', (let! l' := of_opt (drop_at A (p ++ y :: q) (length p)) in purge fuel l' (length p) x) = Ok (p ++ l') /\ Permutation l' (filter (keep x) q)).
    { destruct (drop_at_perm p q y) as (q' & E & P & L). rewrite E. cbn [of_opt rbind]. destruct (IH p q' ltac:(lia)) as (l' & E' & P').
      exists l'. split; auto. rewrite P'. clear - P. induction P; cbn; auto; try destruct (keep x x0); try destruct (keep x y); auto; try constructor; eauto using Permutation_trans. }
    unfold keep at 1. destruct (dominated (obj y) (obj x)); cbn [negb andb]; auto.
    destruct (replace && same (obj x) (obj y)); cbn [negb andb]; auto.
    destruct (IH (p ++ [y]) q ltac:(lia)) as (l' & E' & P'). exists (y :: l'). split; [|constructor; auto].
    rewrite <- !app_assoc in E'. cbn [app] in E'. rewrite app_length in E'. cbn [length] in E'. rewrite Nat.add_1_r in E'. exact E'.
Qed.
Lemma purge_ok l x : exists l', purge (S (length l)) l 0 x = Ok l' /\ Permutation l' (filter (keep x) l).
Proof. destruct (purge_perm x (S (length l)) [] l ltac:(lia)) as (l' & E & P). eauto. Qed.
Lemma purge_in l l' x : Permutation l' (filter (keep x) l) -> forall y, In y l' <-> In y l /\ keep x y = true.
Proof.
  intros P y. rewrite <- filter_In. split; intros H; [eapply Permutation_in; [exact P|auto]|eapply Permutation_in; [apply Permutation_sym, P|auto]].
Qed.
Lemma keep_true x y : keep x y = true <-> ~ dom y x /\ ~ (replace = true /\ eqv x y).
Proof. unfold keep. rewrite andb_true_iff, !negb_true_iff, andb_false_iff. destruct (dominated (obj y) (obj x)), replace, (same (obj x) (obj y)); intuition congruence. Qed.
Lemma rejected_true l x : rejected l x = true <-> exists y, In y l /\ (dom x y \/ (replace = false /\ eqv x y)).
Proof.
  unfold ArchModel.rejected. rewrite existsb_exists. split; intros (y & Hy & H); exists y; split; auto.
  - apply orb_true_iff in H as [H|H]; auto. apply andb_true_iff in H as [H1 H2]. apply negb_true_iff in H1. auto.
  - apply orb_true_iff. destruct H as [H|[H1 H2]]; auto. right. rewrite H1, H2. auto.
Qed.

(** one update, whatever the comparator *)
Lemma update_ok l x : exists l' b, update l x = Ok (l', b) /\
  (b = true <-> ~ exists y, In y l /\ keep x y = true /\ (dom x y \/ (replace = false /\ eqv x y))) /\
  (forall y, In y l' <-> (In y l /\ keep x y = true) \/ (b = true /\ y = x)) /\
  Permutation l' (filter (keep x) l ++ (if b then [x] else [])).
Proof.
  destruct (purge_ok l x) as (p & Ep & Pp). unfold ArchModel.update. rewrite Ep. cbn [rbind].
  destruct (rejected p x) eqn:R.
  - exists p, false. split; auto. split; [|split].
    + split; [discriminate|]. intros H. exfalso. apply H. apply rejected_true in R as (y & Hy & Hd).
      apply (purge_in _ _ _ Pp) in Hy as [Hy Hk]. eauto.
    + intros y. rewrite (purge_in _ _ _ Pp). intuition discriminate.
    + rewrite app_nil_r. auto.
  - exists (p ++ [x]), true. split; auto. split; [|split].
    + split; auto. intros _ (y & Hy & Hk & Hd). assert (rejected p x = true); [|congruence].
      apply rejected_true. exists y. split; auto. apply (purge_in _ _ _ Pp). auto.
    + intros y. rewrite in_app_iff, (purge_in _ _ _ Pp). cbn. intuition.
    + apply Permutation_app_tail. auto.
Qed.

Hypothesis same_sym : forall a b, eqv a b -> eqv b a.
Definition sep (a b : A) : Prop := (~ dom a b /\ ~ dom b a) /\ (~ eqv a b /\ ~ eqv b a).
Lemma sep_sym a b : sep a b -> sep b a.
Proof. unfold sep. tauto. Qed.
Lemma update_antichain l x l' b : ForallOrdPairs sep l -> update l x = Ok (l', b) -> ForallOrdPairs sep l'.
Proof.
  intros H E. destruct (update_ok l x) as (l1 & b1 & E1 & Hb & Hin & P).
  assert (l1 = l') as -> by congruence. assert (b1 = b) as -> by congruence.
  eapply FOP_perm; [exact sep_sym|apply Permutation_sym, P|]. destruct b.
  - apply FOP_snoc; [exact sep_sym|apply FOP_filter; auto|]. intros y Hy. apply filter_In in Hy as [Hy Hk]. pose proof Hk as Hk'. apply keep_true in Hk' as [K1 K2].
    assert (N : ~ (dom x y \/ (replace = false /\ eqv x y))) by (intros C; apply (proj1 Hb eq_refl); eauto).
    assert (~ eqv x y) by (destruct replace; tauto). assert (~ eqv y x) by (intros C; apply same_sym in C; tauto). unfold sep. tauto.
  - rewrite app_nil_r. apply FOP_filter. auto.
Qed.
Lemma antichain_sep l : ForallOrdPairs sep l <-> antichain (fun a b => dom a b) (fun a b => eqv a b) l.
Proof.
  rewrite FOP_index by exact sep_sym. unfold antichain, sep. split; intros H i j a b Hij Ha Hb.
  - specialize (H i j a b Hij Ha Hb). tauto.
  - pose proof (H i j a b Hij Ha Hb). pose proof (H j i b a (fun e => Hij (eq_sym e)) Hb Ha). tauto.
Qed.
Lemma update_pop_inv (I : list A -> list A -> Prop) :
  (forall seen l x l' b, I seen l -> update l x = Ok (l', b) -> I (seen ++ [x]) l') ->
  forall pop seen l acc, I seen l -> exists l' b, update_pop l pop acc = Ok (l', b) /\ I (seen ++ pop) l'.
Proof.
  intros Hs. induction pop as [|x pop IH]; intros seen l acc H; cbn [ArchModel.update_pop].
  - rewrite app_nil_r. eauto.
  - destruct (update_ok l x) as (l1 & b1 & E1 & _). rewrite E1. cbn [rbind].
    destruct (IH (seen ++ [x]) l1 (b1 || acc) (Hs _ _ _ _ _ H E1)) as (l' & b & E & H'). exists l', b. split; auto. rewrite <- app_assoc in H'. exact H'.
Qed.
(** updating with a population reports whether some individual entered *)
Lemma update_pop_flag : forall pop l acc l' b, update_pop l pop acc = Ok (l', b) ->
  (b = true <-> acc = true \/ exists p x q l1 b1 l2, pop = p ++ x :: q /\ update_pop l p false = Ok (l1, b1) /\ update l1 x = Ok (l2, true)).
Proof.
  induction pop as [|x pop IH]; intros l acc l' b H; cbn [ArchModel.update_pop] in H.
  - assert (b = acc) as -> by congruence. split; auto. intros [|(p & x & q & _ & _ & _ & E & _)]; auto. destruct p; discriminate.
  - apply rbind_ok in H as ([l1 b1] & E1 & H). rewrite (IH _ _ _ _ H). rewrite orb_true_iff. split.
    + intros [[Hb1|Hacc]|(p & y & q & l2 & b2 & l3 & Ep & E2 & E3)]; [subst b1|auto|].
      * right. exists [], x, pop, l, false, l1. auto.
      * right. assert (exists b3, update_pop l (x :: p) false = Ok (l2, b3)) as [b3 E4].
        { cbn [ArchModel.update_pop]. rewrite E1. cbn [rbind]. rewrite orb_false_r.
          clear - E2. destruct b1; [|eauto]. revert l1 E2. generalize false at 1. generalize true. induction p as [|z p IHp]; intros c d l1 E2; cbn [ArchModel.update_pop] in *.
          - assert (l1 = l2) as -> by congruence. eauto.
          - destruct (update l1 z) as [[l4 b4]| | |]; cbn [rbind] in *; try discriminate. eapply IHp; eauto. }
        exists (x :: p), y, q, l2, b3, l3. subst. auto.
    + intros [Hacc|(p & y & q & l2 & b2 & l3 & Ep & E2 & E3)]; auto. destruct p as [|z p].
      * cbn in Ep, E2. inversion Ep; subst. assert (l2 = l) as -> by congruence. rewrite E1 in E3. inversion E3; subst. auto.
      * cbn in Ep. inversion Ep; subst. cbn [ArchModel.update_pop] in E2. rewrite E1 in E2. cbn [rbind] in E2. right.
        assert (exists b3, update_pop l1 p false = Ok (l2, b3)) as [b3 E4].
        { clear - E2. revert E2. generalize (b1 || false) as c. generalize false as d. revert l1. induction p as [|w p IHp]; intros l1 d c E2; cbn [ArchModel.update_pop] in *.
          - assert (l1 = l2) as -> by congruence. eauto.
          - destruct (update l1 w) as [[l4 b4]| | |]; cbn [rbind] in *; try discriminate. eapply IHp; eauto. }
        exists p, y, q, l2, b3, l3. auto.
Qed.
Lemma pop_antichain pop l acc l' b : ForallOrdPairs sep l -> update_pop l pop acc = Ok (l', b) -> ForallOrdPairs sep l'.
Proof.
  intros H E. destruct (update_pop_inv (fun _ l => ForallOrdPairs sep l)) with (pop := pop) (seen := @nil A) (l := l) (acc := acc) as (l1 & b1 & E1 & H1); auto.
  - intros seen l0 x l0' b0 H0 E0. eapply update_antichain; eauto.
  - assert (l1 = l') as -> by congruence. auto.
Qed.

(** with a strict order compatible with the equality, on the individuals satisfying [P] *)
Variable P : A -> Prop.
Hypothesis dom_irrefl : forall a, P a -> ~ dom a a.
Hypothesis dom_trans : forall a b c, P a -> P b -> P c -> dom a b -> dom b c -> dom a c.
Hypothesis same_refl : forall a, P a -> eqv a a.
Hypothesis same_trans : forall a b c, P a -> P b -> P c -> eqv a b -> eqv b c -> eqv a c.
Hypothesis dom_same : forall a b c, P a -> P b -> P c -> dom a b -> eqv b c -> dom a c.
Hypothesis same_dom : forall a b c, P a -> P b -> P c -> eqv a b -> dom b c -> dom a c.
Notation le a b := (dom a b \/ eqv a b).
Lemma le_trans a b c : P a -> P b -> P c -> le a b -> le b c -> le a c.
Proof. intros Pa Pb Pc [H1|H1] [H2|H2]; eauto. Qed.

Definition good (seen l : list A) : Prop :=
  Forall P seen -> (forall m, In m l -> In m seen) /\ covered (fun a b => dom a b) (fun a b => eqv a b) seen l /\ ForallOrdPairs sep l.
Lemma update_good seen l x l' b : good seen l -> update l x = Ok (l', b) -> good (seen ++ [x]) l'.
Proof.
  intros G E F. apply Forall_app in F as [F Fx]. inversion Fx as [|? ? Px _]; subst. specialize (G F) as (Gs & Gc & Gf).
  destruct (update_ok l x) as (l1 & b1 & E1 & Hb & Hin & Pm).
  assert (l1 = l') as -> by congruence. assert (b1 = b) as -> by congruence. clear E1.
  assert (Pin : forall m, In m l -> P m) by (intros m Hm; rewrite Forall_forall in F; auto).
  split; [|split].
  - intros m Hm. apply Hin in Hm as [[Hm _]|[_ ->]]; apply in_or_app; [left; auto|right; left; auto].
  - assert (Cx : exists m, In m l' /\ le x m).
    { destruct b.
      - exists x. split; [apply Hin; auto|]. right. auto.
      - assert (exists y, In y l /\ keep x y = true /\ (dom x y \/ (replace = false /\ eqv x y))) as (y & Hy & Hk & Hd).
        { destruct (existsb (fun y => keep x y && (dominated (obj x) (obj y) || (negb replace && same (obj x) (obj y)))) l) eqn:X.
          - apply existsb_exists in X as (y & Hy & X). apply andb_true_iff in X as [X1 X2]. exists y. split; auto. split; auto.
            apply orb_true_iff in X2 as [X2|X2]; auto. apply andb_true_iff in X2 as [X2 X3]. apply negb_true_iff in X2. auto.
          - exfalso. assert (false = true); [|discriminate]. apply Hb. intros (y & Hy & Hk & Hd).
            assert (T : existsb (fun y => keep x y && (dominated (obj x) (obj y) || (negb replace && same (obj x) (obj y)))) l = true); [|congruence].
            apply existsb_exists. exists y. split; auto. rewrite Hk. cbn. destruct Hd as [->|[-> ->]]; auto. destruct (dominated (obj x) (obj y)); auto. }
        exists y. split; [apply Hin; auto|]. tauto. }
    intros z Hz. apply in_app_or in Hz as [Hz|[<-|[]]]; auto.
    destruct (Gc z Hz) as (m & Hm & Hl). destruct (keep x m) eqn:K.
    + exists m. split; auto. apply Hin. auto.
    + assert (Hmx : le m x).
      { assert (~ (keep x m = true)) as NK by congruence. rewrite keep_true in NK.
        destruct (dominated (obj m) (obj x)) eqn:D; auto. right.
        destruct (same (obj x) (obj m)) eqn:S; [apply same_sym; auto|]. exfalso. apply NK. split; [congruence|]. intros [_ C]. congruence. }
      destruct Cx as (m' & Hm' & Hl'). exists m'. split; auto.
      assert (Pz : P z) by (rewrite Forall_forall in F; auto).
      assert (P m') by (apply Hin in Hm' as [[? _]|[_ ->]]; auto).
      eapply le_trans; [..|exact Hl']; auto. eapply le_trans; [..|exact Hmx]; auto.
  - eapply update_antichain; eauto.
Qed.
Lemma good_front seen l : Forall P seen -> good seen l -> represents_front (fun a b => dom a b) (fun a b => eqv a b) seen l.
Proof.
  intros F G. destruct (G F) as (Gs & Gc & Gf). rewrite Forall_forall in F.
  assert (Ga : antichain (fun a b => dom a b) (fun a b => eqv a b) l) by (apply antichain_sep; auto).
  split; [auto|]. split.
  - intros m Hm. split; auto. intros y Hy Hd. destruct (Gc y Hy) as (m' & Hm' & Hl).
    assert (Hmm : dom m m') by (destruct Hl as [Hl|Hl]; [apply (dom_trans m y m')|apply (dom_same m y m')]; auto).
    apply In_nth_error in Hm as [i Hi]. apply In_nth_error in Hm' as [j Hj]. destruct (Nat.eq_dec i j) as [->|Hij].
    + assert (m = m') as -> by congruence. apply (dom_irrefl m'); auto. apply F, Gs. eapply nth_error_In; eauto.
    + destruct (Ga i j m m' Hij Hi Hj) as [N _]. auto.
  - intros x [Hx Hn]. destruct (Gc x Hx) as (m & Hm & [Hd|He]); eauto. exfalso. apply (Hn m); auto.
Qed.
Lemma archive_front offered : Forall P offered -> exists l b, update_pop [] offered false = Ok (l, b) /\
  represents_front (fun a b => dom a b) (fun a b => eqv a b) offered l.
Proof.
  intros F. destruct (update_pop_inv good update_good offered [] [] false) as (l & b & E & G).
  - intros _. split; [intros m []|]. split; [intros x []|constructor].
  - cbn [app] in G. exists l, b. split; auto. apply good_front; auto.
Qed.
(** all the individuals seen so far are covered, starting from any archive *)
Lemma archive_more init offered : Forall P (init ++ offered) -> antichain (fun a b => dom a b) (fun a b => eqv a b) init ->
  exists l b, update_pop init offered false = Ok (l, b) /\ represents_front (fun a b => dom a b) (fun a b => eqv a b) (init ++ offered) l.
Proof.
  intros F Ha. destruct (update_pop_inv good update_good offered init init false) as (l & b & E & G).
  - intros Fi. rewrite Forall_forall in Fi. split; auto. split; [intros x Hx; exists x; auto|]. apply antichain_sep. auto.
  - exists l, b. split; auto. apply good_front; auto.
Qed.
Lemma front_equals seen seen' l l' : (forall x, In x seen <-> In x seen') -> Forall P seen ->
  represents_front (fun a b => dom a b) (fun a b => eqv a b) seen l -> represents_front (fun a b => dom a b) (fun a b => eqv a b) seen' l' ->
  equals A V obj same l l' = true.
Proof.
  intros Hs F (_ & A1 & B1) (_ & A2 & B2).
  assert (T : forall x, in_front (fun a b => dom a b) seen x <-> in_front (fun a b => dom a b) seen' x).
  { intros x. unfold in_front. rewrite Hs. split; intros [H1 H2]; split; auto; intros y Hy; apply H2; apply Hs; auto. }
  unfold equals, contains. rewrite andb_true_iff, !forallb_forall. split; intros m Hm; apply existsb_exists.
  - destruct (B2 m) as (m' & Hm' & He); [apply T; auto|]. exists m'. split; auto.
  - destruct (B1 m) as (m' & Hm' & He); [apply T; auto|]. exists m'. split; auto.
Qed.

(** ** bounded archives *)
Lemma bounded_update_ok maxSize l x : exists l' b, bounded_update maxSize l x = Ok (l', b) /\
  Permutation l' (filter (keep x) l ++ (if b then [x] else [])) /\
  (b = true <-> (~ exists y, In y l /\ keep x y = true /\ (dom x y \/ (replace = false /\ eqv x y))) /\ length (filter (keep x) l) < maxSize).
Proof.
  destruct (purge_ok l x) as (p & Ep & Pp). unfold ArchModel.bounded_update. rewrite Ep. cbn [rbind].
  rewrite <- (Permutation_length Pp).
  destruct (rejected p x) eqn:R.
  - exists p, false. split; auto. split; [rewrite app_nil_r; auto|]. split; [discriminate|]. intros [H _]. exfalso. apply H.
    apply rejected_true in R as (y & Hy & Hd). apply (purge_in _ _ _ Pp) in Hy as [Hy Hk]. eauto.
  - assert (N : ~ exists y, In y l /\ keep x y = true /\ (dom x y \/ (replace = false /\ eqv x y))).
    { intros (y & Hy & Hk & Hd). assert (rejected p x = true); [|congruence]. apply rejected_true. exists y. split; auto. apply (purge_in _ _ _ Pp). auto. }
    destruct (Nat.ltb_spec (length p) maxSize).
    + exists (p ++ [x]), true. split; auto. split; [apply Permutation_app_tail; auto|]. tauto.
    + exists p, false. split; auto. split; [rewrite app_nil_r; auto|]. split; [discriminate|]. intros [_ C]. lia.
Qed.
Lemma filter_length_le {B} (f : B -> bool) l : length (filter f l) <= length l.
Proof. induction l as [|x l IH]; cbn; auto. destruct (f x); cbn; lia. Qed.
Lemma bounded_update_inv maxSize l x l' b : ForallOrdPairs sep l -> length l <= maxSize -> bounded_update maxSize l x = Ok (l', b) ->
  ForallOrdPairs sep l' /\ length l' <= maxSize.
Proof.
  intros H L E. destruct (bounded_update_ok maxSize l x) as (l1 & b1 & E1 & Pm & Hb).
  assert (l1 = l') as -> by congruence. assert (b1 = b) as -> by congruence. split.
  - eapply FOP_perm; [exact sep_sym|apply Permutation_sym, Pm|]. destruct b.
    + apply FOP_snoc; [exact sep_sym|apply FOP_filter; auto|]. intros y Hy. apply filter_In in Hy as [Hy Hk]. pose proof Hk as Hk'. apply keep_true in Hk' as [K1 K2].
      assert (N : ~ (dom x y \/ (replace = false /\ eqv x y))) by (intros C; apply (proj1 (proj1 Hb eq_refl)); eauto).
      assert (~ eqv x y) by (destruct replace; tauto). assert (~ eqv y x) by (intros C; apply same_sym in C; tauto). unfold sep. tauto.
    + rewrite app_nil_r. apply FOP_filter. auto.
  - rewrite (Permutation_length Pm), app_length. pose proof (filter_length_le (keep x) l). destruct b; cbn; [|lia].
    destruct (proj1 Hb eq_refl). lia.
Qed.
Lemma bounded_pop_inv maxSize : forall pop l acc, ForallOrdPairs sep l -> length l <= maxSize ->
  exists l' b, bounded_pop maxSize l pop acc = Ok (l', b) /\ ForallOrdPairs sep l' /\ length l' <= maxSize /\ (forall y, In y l' -> In y (l ++ pop)).
Proof.
  induction pop as [|x pop IH]; intros l acc H L; cbn [ArchModel.bounded_pop].
  - exists l, acc. rewrite app_nil_r. auto.
  - destruct (bounded_update_ok maxSize l x) as (l1 & b1 & E1 & Pm & _). rewrite E1. cbn [rbind].
    destruct (bounded_update_inv maxSize l x l1 b1 H L E1) as [H1 L1]. destruct (IH l1 (b1 || acc) H1 L1) as (l' & b & E & H' & L' & I).
    exists l', b. split; auto. split; auto. split; auto. intros y Hy. specialize (I y Hy). apply in_app_or in I as [I|I].
    + apply (Permutation_in _ Pm) in I. apply in_app_or in I as [I|I]; [apply filter_In in I as [I _]; apply in_or_app; auto|].
      destruct b1; [destruct I as [<-|[]]; apply in_or_app; right; left; auto|destruct I].
    + apply in_or_app. right. right. auto.
Qed.
End Arch.

Section Fitdiv.
Variables A V : Type.
Variable obj : A -> V.
Variable dominated same : V -> V -> bool.
Variable replace : bool.
Variable assign : list A -> list A.
Variable worse : A -> A -> bool.
Variable sort : forall T : Type, (T -> T -> bool) -> list T -> list T.
Hypothesis Hsort : std_sort_ok sort.
Hypothesis Hworse : strict_weak_order worse.
(** the assignments keep the individuals' objective vectors *)
Hypothesis Hassign : forall l, Permutation (map obj l) (map obj (assign l)).
Notation shrink := (shrink A assign worse sort).

Lemma shrink_size maxSize l : length (shrink maxSize l) <= maxSize.
Proof. unfold ArchModel.shrink. destruct (Nat.ltb_spec maxSize (length l)); auto. apply firstn_le_length. Qed.
Lemma shrink_vectors maxSize l : exists rest, Permutation (map obj l) (map obj (shrink maxSize l) ++ rest).
Proof.
  unfold ArchModel.shrink. destruct (Nat.ltb_spec maxSize (length l)); [|exists []; rewrite app_nil_r; auto].
  destruct (Hsort A worse (assign l) Hworse) as [P _]. exists (map obj (skipn maxSize (sort A worse (assign l)))).
  rewrite <- map_app, firstn_skipn. rewrite (Hassign l). apply Permutation_map. auto.
Qed.
(** the individuals kept are the worst of the archive *)
Lemma shrink_worst maxSize l : maxSize < length l -> best_n (fun a b => worse b a) (assign l) maxSize (shrink maxSize l).
Proof.
  intros L. unfold ArchModel.shrink. replace (maxSize <? length l) with true by (symmetry; apply Nat.ltb_lt; auto).
  assert (La : length (assign l) = length l) by (rewrite <- (map_length obj), <- (Permutation_length (Hassign l)), map_length; auto).
  destruct (Hsort A worse (assign l) Hworse) as [P S]. split.
  - rewrite firstn_length, <- (Permutation_length P). lia.
  - exists (skipn maxSize (sort A worse (assign l))). rewrite firstn_skipn. split; auto.
    intros k d Hk Hd. apply In_firstn_nth in Hk as (i & Hi & Hik). apply In_skipn_nth in Hd as (j & Hj & Hjd).
    assert (Hij : i < j) by lia. exact (StronglySorted_nth _ _ _ _ _ _ S Hij Hik Hjd).
Qed.
End Fitdiv.
