From Coq Require Import Arith Bool QArith Permutation Lia.
From Verif Require Import Lib Outcome SelectModel SelectSpec SelectProofs VlModel VlSpec.
From Coq Require Import List.
Import ListNotations.
Local Open Scope nat_scope.

Section Genes.
Variable A : Type.
Implicit Types l x : list A.

(** ** add and delete *)
Lemma vl_add_ok init nMax l ds l' b ds' : vl_add A init nMax l ds = Ok (l', b, ds') ->
  (b = false /\ nMax <= length l /\ l' = l /\ ds' = ds) \/
  (b = true /\ length l < nMax /\
   exists before a after ds1, l = before ++ after /\ l' = before ++ a :: after /\ init ds = Ok (a, ds1)).
Proof.
  unfold vl_add. destruct (nMax <=? length l) eqn:E.
  - intros H. inversion H; subst. apply Nat.leb_le in E. left. auto.
  - apply Nat.leb_gt in E. intros H.
    apply rbind_ok in H as ([a ds1] & Ha & H). apply rbind_ok in H as ([p ds2] & Hp & H).
    apply rbind_ok in H as (l1 & Hl & H). apply of_opt_ok in Hl. unfold insert_at in Hl.
    destruct (p <=? length l); [|discriminate]. inversion Hl; subst. inversion H; subst.
    right. split; [reflexivity|]. split; [exact E|].
    exists (firstn p l), a, (skipn p l), ds1. rewrite firstn_skipn. auto.
Qed.

Lemma vl_add_at (init : list nat -> res (A * list nat)) nMax before after a d ds ds' :
  length (before ++ after) < nMax -> init ds = Ok (a, d :: ds') -> d = length before ->
  vl_add A init nMax (before ++ after) ds = Ok (before ++ a :: after, true, ds').
Proof.
  intros L E ->. unfold vl_add. replace (nMax <=? _) with false by (symmetry; apply Nat.leb_gt; lia).
  rewrite E. cbn [rbind draw]. rewrite Nat.mod_small by (rewrite app_length; lia). unfold insert_at.
  replace (_ <=? _) with true by (symmetry; apply Nat.leb_le; rewrite app_length; lia).
  cbn [of_opt rbind]. rewrite firstn_app, firstn_all, Nat.sub_diag, skipn_app, skipn_all, Nat.sub_diag. cbn.
  rewrite app_nil_r. reflexivity.
Qed.

Lemma vl_add_total (init : list nat -> res (A * list nat)) nMax l ds a d ds' :
  init ds = Ok (a, d :: ds') -> exists r, vl_add A init nMax l ds = Ok r.
Proof.
  intros E. unfold vl_add. destruct (nMax <=? length l); [eauto|]. rewrite E. cbn [rbind draw].
  assert (H : d mod (length l + 1) < length l + 1) by (apply Nat.mod_upper_bound; lia).
  unfold insert_at. replace (_ <=? _) with true by (symmetry; apply Nat.leb_le; lia). cbn. eauto.
Qed.

Lemma split_at l p : p < length l -> exists a, l = firstn p l ++ a :: skipn (S p) l.
Proof.
  intros H. destruct (nth_error l p) as [a|] eqn:E; [|apply nth_error_None in E; lia].
  exists a. revert l H E. induction p; intros [|y l] H E; cbn in *; try lia; try discriminate.
  - inversion E; subst. reflexivity.
  - f_equal. apply IHp; [lia|exact E].
Qed.

Lemma vl_del_ok chooser nMin l ds l' b ds' : vl_del A chooser nMin l ds = Ok (l', b, ds') ->
  (b = false /\ length l <= nMin /\ l' = l /\ ds' = ds) \/
  (b = true /\ nMin < length l /\
   exists before a after, l = before ++ a :: after /\ l' = before ++ after /\
     chooser l ds = Ok (length before, ds')).
Proof.
  unfold vl_del. destruct (length l <=? nMin) eqn:E.
  - intros H. inversion H; subst. apply Nat.leb_le in E. left. auto.
  - apply Nat.leb_gt in E. intros H.
    apply rbind_ok in H as ([p ds1] & Hp & H).
    apply rbind_ok in H as (l1 & Hl & H). apply of_opt_ok in Hl. unfold erase_at in Hl.
    destruct (p <? length l) eqn:Ep; [|discriminate]. apply Nat.ltb_lt in Ep. inversion Hl; subst. inversion H; subst.
    right. split; [reflexivity|]. split; [exact E|].
    destruct (split_at l p Ep) as (a & Ea).
    exists (firstn p l), a, (skipn (S p) l). split; [exact Ea|]. split; [reflexivity|].
    rewrite firstn_length_le by lia. exact Hp.
Qed.

Lemma vl_del_uniform_total nMin l d ds : exists r, vl_del A (uniform_chooser A) nMin l (d :: ds) = Ok r.
Proof.
  unfold vl_del, uniform_chooser. destruct (length l <=? nMin) eqn:E; [eauto|]. apply Nat.leb_gt in E.
  cbn [draw rbind]. unfold erase_at.
  replace (_ <? _) with true by (symmetry; apply Nat.ltb_lt; apply Nat.mod_upper_bound; lia). cbn. eauto.
Qed.

Lemma vl_del_at nMin before a after ds : nMin < length (before ++ a :: after) ->
  vl_del A (uniform_chooser A) nMin (before ++ a :: after) (length before :: ds) = Ok (before ++ after, true, ds).
Proof.
  intros L. unfold vl_del, uniform_chooser. replace (_ <=? nMin) with false by (symmetry; apply Nat.leb_gt; lia).
  cbn [draw rbind]. rewrite Nat.mod_small by (rewrite app_length; cbn; lia). unfold erase_at.
  replace (_ <? _) with true by (symmetry; apply Nat.ltb_lt; rewrite app_length; cbn; lia). cbn [of_opt rbind].
  rewrite firstn_app, firstn_all, Nat.sub_diag.
  replace (S (length before)) with (length before + 1) by lia.
  rewrite skipn_app, skipn_all2 by lia. replace (length before + 1 - length before) with 1 by lia. cbn.
  rewrite app_nil_r. reflexivity.
Qed.

Lemma lives_within init chooser nMin nMax l l' : lives init chooser nMin nMax l l' ->
  within nMin nMax (length l) -> within nMin nMax (length l').
Proof.
  unfold within. induction 1 as [|l l1 b ds ds' l2 H _ IH|l l1 b ds ds' l2 H _ IH]; auto; intros Hl; apply IH.
  - apply vl_add_ok in H as [(_ & _ & -> & _)|(_ & L & be & a & af & ds1 & E1 & E2 & _)]; [exact Hl|].
    subst l1. subst l. rewrite app_length in *. cbn. lia.
  - apply vl_del_ok in H as [(_ & _ & -> & _)|(_ & L & be & a & af & E1 & E2 & _)]; [exact Hl|].
    subst l1. subst l. rewrite app_length in *. cbn in *. lia.
Qed.

(** ** genes_at *)
Definition at_from (p : nat -> bool) (i : nat) l : list A :=
  map snd (filter (fun c => p (fst c)) (combine (seq i (length l)) l)).
Lemma genes_at_from p l : genes_at p l = at_from p 0 l.
Proof. reflexivity. Qed.
Lemma at_from_cons p i a l : at_from p i (a :: l) = if p i then a :: at_from p (S i) l else at_from p (S i) l.
Proof. unfold at_from. cbn. destruct (p i); reflexivity. Qed.
Lemma at_from_perm p i l : Permutation (at_from p i l ++ at_from (fun j => negb (p j)) i l) l.
Proof.
  revert i. induction l as [|a l IH]; intros i; [constructor|]. rewrite !at_from_cons.
  destruct (p i); cbn [negb].
  - cbn. constructor. apply IH.
  - rewrite <- Permutation_middle. constructor. apply IH.
Qed.
Lemma at_from_len p i l : length (at_from p i l) + length (at_from (fun j => negb (p j)) i l) = length l.
Proof. rewrite <- app_length. apply Permutation_length, at_from_perm. Qed.
Lemma at_from_ext p q i l : (forall j, i <= j < i + length l -> p j = q j) -> at_from p i l = at_from q i l.
Proof.
  revert i. induction l as [|a l IH]; intros i H; [reflexivity|]. rewrite !at_from_cons.
  rewrite (H i) by (cbn; lia). rewrite IH by (intros j Hj; apply H; cbn; lia). reflexivity.
Qed.

(** ** the exchange *)
Section Exchange.
Context {X : Type}.
Variable ex : exchanger A X.

Lemma deal_ok s i l y n : deal A ex s i l = Ok (y, n) ->
  exists p, y = at_from p i l /\ n = at_from (fun j => negb (p j)) i l /\
    forall j a, nth_error l j = Some a -> asks ex s (i + j) a = Ok (p (i + j)).
Proof.
  revert i y n. induction l as [|a l IH]; intros i y n H.
  - inversion H; subst. exists (fun _ => true). split; [reflexivity|]. split; [reflexivity|].
    intros [|j] b E; discriminate.
  - cbn [deal] in H. apply rbind_ok in H as (b & Hb & H). apply rbind_ok in H as ([y1 n1] & Hd & H).
    destruct (IH _ _ _ Hd) as (p & -> & -> & Hp).
    set (q := fun j => if j =? i then b else p j).
    assert (Eq : forall r, at_from q (S i) r = at_from p (S i) r).
    { intros r. apply at_from_ext. intros j Hj. unfold q. replace (j =? i) with false; [reflexivity|symmetry; apply Nat.eqb_neq; lia]. }
    assert (Eqn : forall r, at_from (fun j => negb (q j)) (S i) r = at_from (fun j => negb (p j)) (S i) r).
    { intros r. apply at_from_ext. intros j Hj. unfold q. replace (j =? i) with false; [reflexivity|symmetry; apply Nat.eqb_neq; lia]. }
    assert (Ei : q i = b) by (unfold q; rewrite Nat.eqb_refl; reflexivity).
    exists q. rewrite !at_from_cons, Eq, Eqn, Ei.
    split; [destruct b; inversion H; reflexivity|]. split; [destruct b; inversion H; reflexivity|].
    intros [|j] c E; cbn in E.
    + injection E as <-. rewrite Nat.add_0_r, Ei. exact Hb.
    + rewrite Nat.add_succ_r. unfold q. replace (S (i + j) =? i) with false by (symmetry; apply Nat.eqb_neq; lia).
      apply (Hp j c E).
Qed.

Lemma tally_deal s i l : tally A ex s i l = (let! (y, n) := deal A ex s i l in Ok (length y, length n)).
Proof.
  revert i. induction l as [|a l IH]; intros i; [reflexivity|]. cbn [tally deal].
  destruct (asks ex s i a) as [b| | |]; cbn [rbind]; try reflexivity. rewrite IH.
  destruct (deal A ex s (S i) l) as [[y n]| | |]; cbn [rbind]; try reflexivity.
  destruct b; reflexivity.
Qed.

Lemma bad_sizes_false mn mx a b : bad_sizes mn mx a b = false <-> within mn mx a /\ within mn mx b.
Proof.
  unfold bad_sizes, within. rewrite !orb_false_iff, !Nat.ltb_ge. lia.
Qed.

Lemma exchange_loop_ok mn mx todo : forall index s x1 x2 ds s' index' ds',
  exchange_loop A ex mn mx todo index s x1 x2 ds = Ok (s', index', ds') ->
  index' <= index + todo /\
  (index' < index + todo -> exists y1 n1 y2 n2,
     deal A ex s' 0 x1 = Ok (y1, n1) /\ deal A ex s' 0 x2 = Ok (y2, n2) /\
     within mn mx (length (y1 ++ n2)) /\ within mn mx (length (n1 ++ y2))).
Proof.
  induction todo as [|t IH]; intros index s x1 x2 ds s' index' ds' H; cbn [exchange_loop] in H.
  - inversion H; subst. split; [lia|lia].
  - apply rbind_ok in H as ([s1 ds1] & Hr & H). rewrite !tally_deal in H.
    destruct (deal A ex s1 0 x1) as [[y1 n1]| | |] eqn:E1; try discriminate. cbn [rbind] in H.
    destruct (deal A ex s1 0 x2) as [[y2 n2]| | |] eqn:E2; try discriminate. cbn [rbind] in H.
    destruct (bad_sizes mn mx (length y1 + length n2) (length n1 + length y2)) eqn:Eb.
    + destruct (IH _ _ _ _ _ _ _ _ H) as [L K]. split; [lia|]. intros Hi. apply K. lia.
    + inversion H; subst. split; [lia|]. intros _. exists y1, n1, y2, n2. rewrite !app_length.
      apply bad_sizes_false in Eb. tauto.
Qed.

Lemma vl_exchange_ok limit mn mx s x1 x2 ds x1' x2' b s' ds' :
  vl_exchange A ex limit mn mx s x1 x2 ds = Ok (x1', x2', b, s', ds') ->
  (b = false /\ x1' = x1 /\ x2' = x2) \/
  (b = true /\ within mn mx (length x1') /\ within mn mx (length x2') /\
   exists p q, x1' = genes_at p x1 ++ genes_at (fun i => negb (q i)) x2 /\
               x2' = genes_at (fun i => negb (p i)) x1 ++ genes_at q x2 /\
     (forall i a, nth_error x1 i = Some a -> asks ex s' i a = Ok (p i)) /\
     (forall i a, nth_error x2 i = Some a -> asks ex s' i a = Ok (q i))).
Proof.
  unfold vl_exchange. intros H. apply rbind_ok in H as ([[s1 index] ds1] & Hl & H).
  destruct (limit <=? index) eqn:E.
  - inversion H; subst. left. auto.
  - apply Nat.leb_gt in E. destruct (exchange_loop_ok _ _ _ _ _ _ _ _ _ _ _ Hl) as [_ K].
    destruct (K E) as (y1 & n1 & y2 & n2 & E1 & E2 & W1 & W2).
    rewrite E1, E2 in H. cbn [rbind] in H. inversion H; subst. right. split; [reflexivity|].
    split; [exact W1|]. split; [exact W2|].
    destruct (deal_ok _ _ _ _ _ E1) as (p & -> & -> & Hp). destruct (deal_ok _ _ _ _ _ E2) as (q & -> & -> & Hq).
    exists p, q. rewrite !genes_at_from. auto.
Qed.
End Exchange.

Lemma split_perm p q x1 x2 : Permutation
  ((genes_at p x1 ++ genes_at (fun i => negb (q i)) x2) ++ (genes_at (fun i => negb (p i)) x1 ++ genes_at q x2)) (x1 ++ x2).
Proof.
  rewrite !genes_at_from. pose proof (at_from_perm p 0 x1) as H1. pose proof (at_from_perm q 0 x2) as H2.
  eapply Permutation_trans; [|exact (Permutation_app H1 H2)]. rewrite <- !app_assoc. apply Permutation_app_head.
  rewrite (Permutation_app_comm (at_from (fun j => negb (q j)) 0 x2)). rewrite <- !app_assoc. apply Permutation_app_head.
  reflexivity.
Qed.

(** ** the uniform exchanger: one mask for both parents *)
Lemma flips_ok n ds m ds' : flips n ds = Ok (m, ds') -> length m = n /\ exists used, ds = used ++ ds' /\ length used = n /\ m = map Nat.odd used.
Proof.
  revert ds m ds'. induction n as [|n IH]; intros ds m ds' H; cbn [flips] in H.
  - inversion H; subst. split; [reflexivity|]. exists []. auto.
  - apply rbind_ok in H as ([b ds1] & Hd & H). apply rbind_ok in H as ([r ds2] & Hf & H). inversion H; subst.
    destruct ds as [|d ds]; [discriminate|]. inversion Hd; subst.
    destruct (IH _ _ _ Hf) as (L & u & -> & Lu & ->). split; [cbn; lia|]. exists (d :: u). cbn. auto.
Qed.
Lemma flips_total n ds : n <= length ds -> exists m, flips n ds = Ok (m, skipn n ds) /\ length m = n.
Proof.
  revert ds. induction n as [|n IH]; intros ds L; cbn [flips]; [exists []; auto|].
  destruct ds as [|d ds]; cbn in L; [lia|]. cbn [draw_flip rbind]. destruct (IH ds ltac:(lia)) as (m & -> & Lm).
  cbn [rbind skipn]. eexists. split; [reflexivity|]. cbn. lia.
Qed.

Lemma deal_uniform m i l : i + length l <= length m ->
  deal A (uniform_exchange A) m i l =
  Ok (at_from (fun j => nth j m false) i l, at_from (fun j => negb (nth j m false)) i l).
Proof.
  revert i. induction l as [|a l IH]; intros i L; [reflexivity|]. cbn [deal]. cbn [length] in L.
  change (asks (uniform_exchange A) m i a) with (of_opt (nth_error m i)).
  rewrite (nth_error_nth' m false) by lia. cbn [of_opt rbind]. rewrite IH by lia. cbn [rbind].
  rewrite !at_from_cons. destruct (nth i m false); reflexivity.
Qed.

(** two parents asked the same mask: the sizes of the children lie between those of the parents *)
Lemma at_from_app p i l l2 : at_from p i (l ++ l2) = at_from p i l ++ at_from p (i + length l) l2.
Proof.
  revert i. induction l as [|a l IH]; intros i; [cbn; rewrite Nat.add_0_r; reflexivity|].
  cbn [app length]. rewrite !at_from_cons, IH. replace (S i + length l) with (i + S (length l)) by lia.
  destruct (p i); reflexivity.
Qed.
Lemma at_from_len_same p i l (l2 : list A) : length l = length l2 -> length (at_from p i l) = length (at_from p i l2).
Proof.
  revert i l2. induction l as [|a l IH]; intros i [|b l2] L; cbn in L; try discriminate; [reflexivity|].
  injection L as L. rewrite !at_from_cons. destruct (p i); cbn [length]; rewrite (IH (S i) l2 L); reflexivity.
Qed.
Lemma children_between p x1 x2 :
  let c1 := length (genes_at p x1 ++ genes_at (fun i => negb (p i)) x2) in
  Nat.min (length x1) (length x2) <= c1 <= Nat.max (length x1) (length x2).
Proof.
  intros c1. unfold c1. rewrite app_length, !genes_at_from.
  assert (K : forall (f : nat -> bool) (x y : list A), length y <= length x ->
    length (at_from f 0 y) <= length (at_from f 0 x) <= length (at_from f 0 y) + (length x - length y)).
  { intros f x y L. assert (Lf : length (firstn (length y) x) = length y) by (apply firstn_length_le; exact L).
    assert (E : length (at_from f 0 x) = length (at_from f 0 y) + length (at_from f (length y) (skipn (length y) x))).
    { rewrite <- (firstn_skipn (length y) x) at 1. rewrite at_from_app, app_length, Lf.
      rewrite (at_from_len_same _ _ (firstn (length y) x) y Lf). reflexivity. }
    pose proof (at_from_len f (length y) (skipn (length y) x)) as H2. rewrite skipn_length in H2. lia. }
  pose proof (at_from_len p 0 x1) as H1. pose proof (at_from_len p 0 x2) as H2.
  destruct (Nat.le_ge_cases (length x1) (length x2)) as [L|L].
  - specialize (K (fun i => negb (p i)) x2 x1 L). lia.
  - specialize (K p x1 x2 L). lia.
Qed.

Lemma uniform_exchange_sizes limit mn mx s x1 x2 ds x1' x2' b s' ds' :
  vl_exchange A (uniform_exchange A) limit mn mx s x1 x2 ds = Ok (x1', x2', b, s', ds') ->
  (exists p, b = true -> x1' = genes_at p x1 ++ genes_at (fun i => negb (p i)) x2 /\
                         x2' = genes_at (fun i => negb (p i)) x1 ++ genes_at p x2) /\
  Nat.min (length x1) (length x2) <= length x1' <= Nat.max (length x1) (length x2) /\
  Nat.min (length x1) (length x2) <= length x2' <= Nat.max (length x1) (length x2).
Proof.
  intros H. destruct (vl_exchange_ok _ _ _ _ _ _ _ _ _ _ _ _ _ H) as [(-> & -> & ->)|(-> & _ & _ & p & q & E1 & E2 & Hp & Hq)].
  - split; [exists (fun _ => true); discriminate|]. lia.
  - set (r := fun j => nth j s' false).
    assert (Ep : forall l i, (forall j a, nth_error l j = Some a -> asks (uniform_exchange A) s' j a = Ok (i j)) ->
        genes_at i l = genes_at r l /\ genes_at (fun j => negb (i j)) l = genes_at (fun j => negb (r j)) l).
    { intros l i Hi. rewrite !genes_at_from.
      assert (K : forall j, 0 <= j < 0 + length l -> i j = r j).
      { intros j Hj. destruct (nth_error l j) as [a|] eqn:E; [|apply nth_error_None in E; lia].
        specialize (Hi j a E). cbn in Hi. apply of_opt_ok in Hi. unfold r. symmetry. apply nth_error_nth. exact Hi. }
      split; apply at_from_ext; [exact K|]. intros j Hj. rewrite K by lia. reflexivity. }
    destruct (Ep x1 p Hp) as [Ea Eb]. destruct (Ep x2 q Hq) as [Ec Ed]. rewrite Ea, Ed in E1. rewrite Eb, Ec in E2.
    split; [exists r; auto|]. subst x1' x2'. split; [apply children_between|].
    pose proof (children_between r x2 x1) as B. cbv zeta in B. rewrite Nat.min_comm, Nat.max_comm, app_length, Nat.add_comm in B.
    rewrite app_length. exact B.
Qed.

Lemma uniform_exchange_first limit mn mx s x1 x2 ds :
  within mn mx (length x1) -> within mn mx (length x2) -> 1 < limit -> length x1 + length x2 <= length ds ->
  exists x1' x2' s', vl_exchange A (uniform_exchange A) limit mn mx s x1 x2 ds =
    Ok (x1', x2', true, s', skipn (length x1 + length x2) ds) /\
    within mn mx (length x1') /\ within mn mx (length x2').
Proof.
  intros W1 W2 L D. destruct limit as [|t]; [lia|]. destruct (flips_total _ _ D) as (m & Ef & Lm).
  unfold vl_exchange. cbn [exchange_loop].
  change (randomize (uniform_exchange A) (length x1) (length x2) s ds) with (flips (length x1 + length x2) ds).
  rewrite Ef. cbn [rbind]. rewrite !tally_deal, !deal_uniform by lia. cbn [rbind].
  pose proof (children_between (fun j => nth j m false) x1 x2) as B1.
  pose proof (children_between (fun j => nth j m false) x2 x1) as B2. cbv zeta beta in B1, B2.
  rewrite app_length, !genes_at_from in B1, B2.
  assert (Eb : bad_sizes mn mx (length (at_from (fun j => nth j m false) 0 x1) + length (at_from (fun j => negb (nth j m false)) 0 x2))
     (length (at_from (fun j => negb (nth j m false)) 0 x1) + length (at_from (fun j => nth j m false) 0 x2)) = false).
  { apply bad_sizes_false. unfold within in *. lia. }
  rewrite Eb. cbn [rbind]. replace (S t <=? 1) with false by (symmetry; apply Nat.leb_gt; lia).
  rewrite !deal_uniform by lia. cbn [rbind]. do 3 eexists. split; [reflexivity|].
  apply bad_sizes_false in Eb. rewrite !app_length. exact Eb.
Qed.

(** ** the inner exchange *)
Lemma inner_ok op x1 x2 ds x1' x2' b ds' : inner_exchange A op x1 x2 ds = Ok (x1', x2', b, ds') ->
  length x1' = length x1 /\ length x2' = length x2 /\
  (forall i a c a' c', nth_error x1 i = Some a -> nth_error x2 i = Some c ->
     nth_error x1' i = Some a' -> nth_error x2' i = Some c' -> (a' = a /\ c' = c) \/ made_by_both op a c a' c') /\
  (forall i, length x2 <= i -> nth_error x1' i = nth_error x1 i) /\
  (forall i, length x1 <= i -> nth_error x2' i = nth_error x2 i) /\
  (honest_atoms op -> b = false -> x1' = x1 /\ x2' = x2).
Proof.
  revert x2 ds x1' x2' b ds'. induction x1 as [|a1 x1 IH]; intros x2 ds x1' x2' b ds' H.
  - cbn in H. inversion H; subst. repeat split; auto. intros [|i] ? ? ? ? E; discriminate.
  - destruct x2 as [|a2 x2].
    { cbn in H. inversion H; subst. repeat split; auto. intros [|i] ? ? ? ? ? E; discriminate. }
    cbn [inner_exchange] in H. apply rbind_ok in H as ([f ds1] & Hf & H).
    apply rbind_ok in H as ([[[a1' a2'] here] ds2] & Ho & H).
    apply rbind_ok in H as ([[[r1 r2] later] ds3] & Hr & H). inversion H; subst.
    destruct (IH _ _ _ _ _ _ Hr) as (L1 & L2 & K & T1 & T2 & Hh).
    split; [cbn; lia|]. split; [cbn; lia|]. split; [|split; [|split]].
    + intros [|i] a c a' c' E1 E2 E3 E4; cbn in E1, E2, E3, E4.
      * inversion E1; inversion E2; inversion E3; inversion E4; subst. destruct f.
        -- right. exists ds1, here, ds2. exact Ho.
        -- inversion Ho; subst. left. auto.
      * exact (K i a c a' c' E1 E2 E3 E4).
    + intros [|i] Hi; cbn in Hi; [lia|]. cbn. apply T1. lia.
    + intros [|i] Hi; cbn in Hi; [lia|]. cbn. apply T2. lia.
    + intros Ho' Hb. apply orb_false_iff in Hb as [-> ->]. destruct (Hh Ho' eq_refl) as [-> ->].
      destruct f; [apply Ho' in Ho as [-> ->]; auto|inversion Ho; subst; auto].
Qed.

(** ** the uniform crossovers *)
Lemma scatter_ok l : forall t1 t2 ds t1' t2' ds', scatter A l t1 t2 ds = Ok (t1', t2', ds') ->
  exists p, t1' = t1 ++ genes_at p l /\ t2' = t2 ++ genes_at (fun i => negb (p i)) l.
Proof.
  assert (G : forall i t1 t2 ds t1' t2' ds', scatter A l t1 t2 ds = Ok (t1', t2', ds') ->
    exists p, t1' = t1 ++ at_from p i l /\ t2' = t2 ++ at_from (fun j => negb (p j)) i l).
  { induction l as [|a r IH]; intros i t1 t2 ds t1' t2' ds' H; cbn [scatter] in H.
    - inversion H; subst. exists (fun _ => true). cbn. rewrite !app_nil_r. auto.
    - apply rbind_ok in H as ([f ds1] & Hf & H).
      assert (Q : forall (p : nat -> bool) (b : bool), let q := fun j => if j =? i then b else p j in
        q i = b /\ at_from q (S i) r = at_from p (S i) r /\ at_from (fun j => negb (q j)) (S i) r = at_from (fun j => negb (p j)) (S i) r).
      { intros p b q. unfold q. rewrite Nat.eqb_refl. split; [reflexivity|].
        split; apply at_from_ext; intros j Hj; replace (j =? i) with false by (symmetry; apply Nat.eqb_neq; lia); reflexivity. }
      destruct f; destruct (IH (S i) _ _ _ _ _ _ H) as (p & -> & ->).
      + destruct (Q p true) as (E1 & E2 & E3). exists (fun j => if j =? i then true else p j).
        rewrite !at_from_cons, E2, E3, Nat.eqb_refl. cbn [negb]. rewrite <- app_assoc. auto.
      + destruct (Q p false) as (E1 & E2 & E3). exists (fun j => if j =? i then false else p j).
        rewrite !at_from_cons, E2, E3, Nat.eqb_refl. cbn [negb]. rewrite <- app_assoc. auto. }
  intros t1 t2 ds t1' t2' ds' H. exact (G 0 _ _ _ _ _ _ H).
Qed.

Lemma scatter_perm l t1 t2 ds t1' t2' ds' : scatter A l t1 t2 ds = Ok (t1', t2', ds') ->
  Permutation (t1' ++ t2') ((t1 ++ t2) ++ l).
Proof.
  intros H. destruct (scatter_ok _ _ _ _ _ _ _ H) as (p & -> & ->).
  eapply Permutation_trans; [|exact (Permutation_app_head (t1 ++ t2) (at_from_perm p 0 l))].
  rewrite <- !genes_at_from. rewrite <- !app_assoc.
  apply Permutation_app_head. rewrite !app_assoc. apply Permutation_app_tail. apply Permutation_app_comm.
Qed.

Lemma copies_S {B} k (l : list B) : copies (S k) l = l ++ copies k l.
Proof. reflexivity. Qed.
Lemma copies_comm k l : Permutation (copies (S k) l) (copies k l ++ l).
Proof. rewrite copies_S. apply Permutation_app_comm. Qed.

Lemma vl_uniform_loop_ok mn mx x1 x2 todo : forall index t1 t2 ds t1' t2' index' ds',
  Permutation (t1 ++ t2) (copies index (x1 ++ x2)) ->
  vl_uniform_loop A mn mx todo index x1 x2 t1 t2 ds = Ok (t1', t2', index', ds') ->
  index' <= index + todo /\ Permutation (t1' ++ t2') (copies index' (x1 ++ x2)) /\
  (index' < index + todo -> index < index' /\ within mn mx (length t1') /\ within mn mx (length t2')).
Proof.
  induction todo as [|t IH]; intros index t1 t2 ds t1' t2' index' ds' P H; cbn [vl_uniform_loop] in H.
  - inversion H; subst. split; [lia|]. split; [exact P|lia].
  - apply rbind_ok in H as ([[u1 u2] ds1] & H1 & H). apply rbind_ok in H as ([[v1 v2] ds2] & H2 & H).
    assert (P' : Permutation (v1 ++ v2) (copies (S index) (x1 ++ x2))).
    { rewrite (scatter_perm _ _ _ _ _ _ _ H2), (scatter_perm _ _ _ _ _ _ _ H1), copies_comm, P, !app_assoc. reflexivity. }
    destruct (bad_sizes mn mx (length v1) (length v2)) eqn:E.
    + destruct (IH _ _ _ _ _ _ _ _ P' H) as (L & Q & K). split; [lia|]. split; [exact Q|]. intros Hi.
      destruct (K ltac:(lia)) as (K1 & K2). split; [lia|exact K2].
    + inversion H; subst. split; [lia|]. split; [exact P'|]. intros _. apply bad_sizes_false in E. split; [lia|tauto].
Qed.

Lemma vl_uniform_quad_ok limit mn mx x1 x2 ds x1' x2' b ds' :
  vl_uniform_quad A limit mn mx x1 x2 ds = Ok (x1', x2', b, ds') ->
  (b = false /\ x1' = x1 /\ x2' = x2) \/
  (b = true /\ within mn mx (length x1') /\ within mn mx (length x2') /\
   exists trials, 1 <= trials < limit /\ Permutation (x1' ++ x2') (copies trials (x1 ++ x2))).
Proof.
  unfold vl_uniform_quad. intros H. apply rbind_ok in H as ([[[t1 t2] index] ds1] & Hl & H).
  destruct (vl_uniform_loop_ok mn mx x1 x2 limit 0 [] [] ds t1 t2 index ds1) as (L & P & K); [constructor|exact Hl|].
  destruct (limit <=? index) eqn:E.
  - inversion H; subst. left. auto.
  - apply Nat.leb_gt in E. destruct (K ltac:(lia)) as (K1 & K2 & K3). inversion H; subst. right.
    split; [reflexivity|]. split; [exact K2|]. split; [exact K3|]. exists index. split; [lia|exact P].
Qed.

(** the binary version: what the temporaries and the flags say *)
Lemma gather_ok keep l : forall tmp own other ds tmp' own' other' ds',
  gather A keep l tmp own other ds = Ok (tmp', own', other', ds') ->
  exists p, tmp' = tmp ++ genes_at p l /\
    (own' = true -> own = true /\ tmp' = tmp ++ l) /\ (other' = true -> other = true /\ tmp' = tmp).
Proof.
  assert (G : forall i tmp own other ds tmp' own' other' ds',
    gather A keep l tmp own other ds = Ok (tmp', own', other', ds') ->
    exists p, tmp' = tmp ++ at_from p i l /\
      (own' = true -> own = true /\ tmp' = tmp ++ l) /\ (other' = true -> other = true /\ tmp' = tmp)).
  { induction l as [|a r IH]; intros i tmp own other ds tmp' own' other' ds' H; cbn [gather] in H.
    - inversion H; subst. exists (fun _ => true). cbn. rewrite !app_nil_r. auto.
    - apply rbind_ok in H as ([f ds1] & Hf & H).
      assert (Q : forall (p : nat -> bool) (b : bool), let q := fun j => if j =? i then b else p j in
        at_from q (S i) r = at_from p (S i) r).
      { intros p b q. unfold q.
        apply at_from_ext; intros j Hj; replace (j =? i) with false by (symmetry; apply Nat.eqb_neq; lia); reflexivity. }
      destruct (Bool.eqb f keep); destruct (IH (S i) _ _ _ _ _ _ _ _ H) as (p & -> & K1 & K2).
      + pose proof (Q p true) as E. exists (fun j => if j =? i then true else p j).
        rewrite !at_from_cons, E, Nat.eqb_refl. rewrite <- !app_assoc in *. cbn [app] in *. split; [reflexivity|]. split.
        * intros Ho. destruct (K1 Ho) as [-> E1]. split; [reflexivity|exact E1].
        * intros Ho. destruct (K2 Ho) as [E1 _]. discriminate.
      + pose proof (Q p false) as E. exists (fun j => if j =? i then false else p j).
        rewrite !at_from_cons, E, Nat.eqb_refl. split; [reflexivity|]. split.
        * intros Ho. destruct (K1 Ho) as [E1 _]. discriminate.
        * intros Ho. destruct (K2 Ho) as [-> E1]. auto. }
  intros tmp own other ds tmp' own' other' ds' H. exact (G 0 _ _ _ _ _ _ _ _ H).
Qed.

Lemma genes_at_in p l a : In a (genes_at p l) -> In a l.
Proof.
  intros H. apply (Permutation_in a (at_from_perm p 0 l)). apply in_app_iff. left. exact H.
Qed.

Lemma copies_snoc k l : copies (S k) l = copies k l ++ l.
Proof.
  induction k as [|k IH]; [cbn; rewrite app_nil_r; reflexivity|]. rewrite copies_S, IH at 1. rewrite copies_S at 1.
  rewrite app_assoc. reflexivity.
Qed.

Lemma vl_bin_loop_ok mn mx x1 x2 todo : forall index tmp isOne isTwo ds tmp' isOne' isTwo' index' ds',
  (forall a, In a tmp -> In a (x1 ++ x2)) ->
  (isOne = true -> tmp = copies index x1) -> (isTwo = true -> tmp = copies index x2) ->
  vl_bin_loop A mn mx todo index x1 x2 tmp isOne isTwo ds = Ok (tmp', isOne', isTwo', index', ds') ->
  index' <= index + todo /\ (forall a, In a tmp' -> In a (x1 ++ x2)) /\
  (isOne' = true -> tmp' = copies index' x1) /\ (isTwo' = true -> tmp' = copies index' x2) /\
  (index' < index + todo -> index < index' /\ within mn mx (length tmp')).
Proof.
  induction todo as [|t IH]; intros index tmp isOne isTwo ds tmp' isOne' isTwo' index' ds' Hin H1 H2 H; cbn [vl_bin_loop] in H.
  - inversion H; subst. repeat split; auto; lia.
  - apply rbind_ok in H as ([[[u o1] o2] ds1] & Ha & H). apply rbind_ok in H as ([[[v p2] p1] ds2] & Hb & H).
    destruct (gather_ok _ _ _ _ _ _ _ _ _ _ Ha) as (p & Eu & A1 & A2).
    destruct (gather_ok _ _ _ _ _ _ _ _ _ _ Hb) as (q & Ev & B2 & B1).
    assert (Hin' : forall a, In a v -> In a (x1 ++ x2)).
    { intros a Hi. rewrite Ev, Eu in Hi. rewrite !in_app_iff in Hi. rewrite in_app_iff.
      destruct Hi as [[Hi|Hi]|Hi]; [apply Hin in Hi; apply in_app_iff; exact Hi|left; eapply genes_at_in; exact Hi|right; eapply genes_at_in; exact Hi]. }
    assert (K1 : p1 = true -> v = copies (S index) x1).
    { intros E. destruct (B1 E) as [E1 ->]. destruct (A1 E1) as [E2 ->]. rewrite (H1 E2), copies_snoc. reflexivity. }
    assert (K2 : p2 = true -> v = copies (S index) x2).
    { intros E. destruct (B2 E) as [E1 ->]. destruct (A2 E1) as [E2 ->]. rewrite (H2 E2), copies_snoc. reflexivity. }
    destruct ((length v <? mn) || (mx <? length v)) eqn:E.
    + destruct (IH _ _ _ _ _ _ _ _ _ _ Hin' K1 K2 H) as (L & R1 & R2 & R3 & R4). split; [lia|].
      split; [exact R1|]. split; [exact R2|]. split; [exact R3|]. intros Hi. destruct (R4 ltac:(lia)). split; [lia|assumption].
    + inversion H; subst. split; [lia|]. split; [exact Hin'|]. split; [exact K1|]. split; [exact K2|]. intros _.
      apply orb_false_iff in E as [E1 E2]. apply Nat.ltb_ge in E1, E2. unfold within. lia.
Qed.

Lemma vl_uniform_bin_ok limit mn mx x1 x2 ds x1' b ds' :
  vl_uniform_bin A limit mn mx x1 x2 ds = Ok (x1', b, ds') ->
  x1' = x1 /\ b = false \/
  within mn mx (length x1') /\ (forall a, In a x1' -> In a x1 \/ In a x2) /\
  (b = false -> exists trials, 1 <= trials < limit /\ (x1' = copies trials x1 \/ x1' = copies trials x2)).
Proof.
  unfold vl_uniform_bin. intros H. apply rbind_ok in H as ([[[[t o1] o2] index] ds1] & Hl & H).
  destruct (vl_bin_loop_ok mn mx x1 x2 limit 0 [] true true ds t o1 o2 index ds1) as (L & R1 & R2 & R3 & R4);
    [intros a []|reflexivity|reflexivity|exact Hl|].
  destruct (limit <=? index) eqn:E; [inversion H; subst; auto|]. apply Nat.leb_gt in E.
  destruct (R4 ltac:(lia)) as [Hi Hw]. right.
  assert (T : x1' = t) by (destruct o2; [|destruct o1]; inversion H; reflexivity). subst t.
  split; [exact Hw|]. split; [intros a Ha; apply in_app_iff, R1, Ha|]. intros Hb. exists index. split; [lia|].
  destruct o2; [right; auto|]. destruct o1; [left; auto|]. inversion H; subst. discriminate.
Qed.

(** ** the gene-wise mutations *)
Lemma all_mutation_ok op l : forall ds l' b ds', all_mutation A op l ds = Ok (l', b, ds') ->
  Forall2 (fun a a' => a' = a \/ made_by op a a') l l' /\ (honest_atom op -> b = false -> l' = l).
Proof.
  induction l as [|a l IH]; intros ds l' b ds' H; cbn [all_mutation] in H.
  - inversion H; subst. auto.
  - apply rbind_ok in H as ([f ds1] & Hf & H). apply rbind_ok in H as ([[a' here] ds2] & Ho & H).
    apply rbind_ok in H as ([[r later] ds3] & Hr & H). inversion H; subst.
    destruct (IH _ _ _ _ Hr) as [F K]. split.
    + constructor; [|exact F]. destruct f; [right; exists ds1, here, ds2; exact Ho|inversion Ho; auto].
    + intros Hh Hb. apply orb_false_iff in Hb as [-> ->]. rewrite (K Hh eq_refl).
      destruct f; [apply Hh in Ho; subst; reflexivity|inversion Ho; reflexivity].
Qed.

Lemma k_mutation_ok op nb : forall l ds l' b ds', k_mutation A op nb l ds = Ok (l', b, ds') ->
  length l' = length l /\
  (exists touched, length touched <= nb /\ forall i, ~ In i touched -> nth_error l' i = nth_error l i) /\
  (honest_atom op -> b = false -> l' = l).
Proof.
  induction nb as [|k IH]; intros l ds l' b ds' H; cbn [k_mutation] in H.
  - inversion H; subst. split; [reflexivity|]. split; [exists []; auto|auto].
  - apply rbind_ok in H as ([i ds1] & Hi & H). apply rbind_ok in H as (a & Ha & H). apply of_opt_ok in Ha.
    apply rbind_ok in H as ([[a' here] ds2] & Ho & H). apply rbind_ok in H as (l1 & Hl & H). apply of_opt_ok in Hl.
    apply rbind_ok in H as ([[l2 later] ds3] & Hk & H). inversion H; subst.
    destruct (upd_some _ _ _ _ Hl) as [Li ->]. destruct (IH _ _ _ _ _ Hk) as (L & (t & Lt & Kt) & Kh).
    rewrite set_length in L. split; [exact L|]. split.
    + exists (i :: t). split; [cbn; lia|]. intros j Hj. rewrite Kt by (intros X; apply Hj; right; exact X).
      rewrite nth_error_set_neq; [reflexivity|]. intros E. apply Hj. left. auto.
    + intros Hh Hb. apply orb_false_iff in Hb as [-> ->]. rewrite (Kh Hh eq_refl). apply Hh in Ho. subst a'.
      apply nth_error_ext. intros j. destruct (Nat.eq_dec i j) as [<-|N].
      * rewrite nth_error_set_eq by exact Li. auto.
      * rewrite nth_error_set_neq by congruence. reflexivity.
Qed.

Lemma k_mutation_empty op nb d ds : k_mutation A op (S nb) [] (d :: ds) = UB.
Proof. cbn. destruct d; reflexivity. Qed.
Lemma k_mutation_total op nb l ds : l <> [] -> nb <= length ds ->
  (forall a ds, exists a' b, op a ds = Ok (a', b, ds)) -> exists r, k_mutation A op nb l ds = Ok r.
Proof.
  intros Hl L T. revert l ds Hl L. induction nb as [|k IH]; intros l ds Hl L; cbn [k_mutation]; [eauto|].
  destruct ds as [|d ds]; [cbn in L; lia|]. cbn [draw rbind].
  assert (Hn : d mod length l < length l) by (apply Nat.mod_upper_bound; destruct l; [congruence|cbn; lia]).
  destruct (nth_error l (d mod length l)) as [a|] eqn:E; [|apply nth_error_None in E; lia]. cbn [of_opt rbind].
  destruct (T a ds) as (a' & b & ->). cbn [rbind]. rewrite upd_set by exact Hn. cbn [of_opt rbind].
  destruct (IH (set l (d mod length l) a') ds) as ([[r b2] ds2] & ->); [|cbn in L; lia|cbn; eauto].
  intros X. apply (f_equal (@length A)) in X. rewrite set_length in X. destruct l; [congruence|discriminate].
Qed.
End Genes.

(** ** the combinations *)
Lemma combine_built {T R : Type} (op0 : T -> R) r0 more :
  fold_left (fun c or => combine_add c (fst or) (snd or)) more (combine_first op0 r0)
  = (op0 :: map fst more, r0 :: map snd more).
Proof.
  assert (G : forall c, fold_left (fun c (or : (T -> R) * Q) => combine_add c (fst or) (snd or)) more c
    = (fst c ++ map fst more, snd c ++ map snd more)).
  { induction more as [|[o r] more IH]; intros [os rs]; cbn [fold_left map fst snd].
    - rewrite !app_nil_r. reflexivity.
    - rewrite IH. unfold combine_add. cbn [fst snd]. rewrite <- !app_assoc. reflexivity. }
  rewrite G. reflexivity.
Qed.
