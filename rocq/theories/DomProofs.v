(** Proofs about the dominance matrix (C45). *)
From Coq Require Import List Arith Lia Bool ZArith Sorted Permutation.
From Verif Require Import Outcome Lib TopoModel TopoProofs RankSpec RankProofs DomModel DomSpec.
Import ListNotations.

Lemma loop_inv {S A} (I : list A -> S -> Prop) (body : S -> A -> res S) : forall l pre s, I pre s ->
  (forall p x q s, pre ++ l = p ++ x :: q -> I p s -> exists s', body s x = Ok s' /\ I (p ++ [x]) s') ->
  exists s', loop l body s = Ok s' /\ I (pre ++ l) s'.
Proof.
  induction l as [|x l IH]; intros pre m Hm Hs; cbn [loop].
  - rewrite app_nil_r. eauto.
  - destruct (Hs pre x l m eq_refl Hm) as (m1 & E1 & I1). rewrite E1. cbn [rbind].
    destruct (IH (pre ++ [x]) m1 I1) as (m' & E' & I').
    + intros p y q m2 Hp Hi. apply (Hs p y q m2); auto. rewrite <- Hp, <- app_assoc. reflexivity.
    + exists m'. split; auto. rewrite <- app_assoc in I'. auto.
Qed.

Definition zc (n : nat) (P : nat -> bool) : Z := Z.of_nat (count n P).
Lemma zc_add n P P' p : p < n -> P p = false -> P' p = true -> (forall i, i < n -> i <> p -> P' i = P i) -> zc n P' = (zc n P + 1)%Z.
Proof.
  intros Hp H0 H1 H. unfold zc. rewrite (count_remove n P' p Hp H1).
  rewrite (count_ext n (fun i => P' i && negb (i =? p)) P); [lia|]. intros i Hi. destruct (Nat.eqb_spec i p) as [->|Ne]; cbn [negb].
  - rewrite andb_false_r; auto.
  - rewrite andb_true_r. auto.
Qed.
Lemma zc_ext n P Q : (forall i, i < n -> P i = Q i) -> zc n P = zc n Q.
Proof. intros H. unfold zc. rewrite (count_ext n P Q); auto. Qed.

Lemma bump_ok n v i d : length v = n -> i < n -> exists v', bump v i d = Ok v' /\ length v' = n /\
  forall a, nth a v' 0%Z = if a =? i then (nth a v 0 + d)%Z else nth a v 0%Z.
Proof.
  intros L Hi. unfold bump. destruct (nth_error_in_some v i) as [x Ex]; [lia|]. rewrite Ex. cbn [obind]. rewrite upd_set by lia. cbn [of_opt].
  eexists. split; [reflexivity|]. rewrite set_length. split; auto. intros a. rewrite nth_set.
  destruct (Nat.eqb_spec a i) as [->|Ne]; cbn [andb]; auto. replace (i <? length v) with true by (symmetry; apply Nat.ltb_lt; lia).
  rewrite (nth_error_nth _ _ 0%Z Ex). reflexivity.
Qed.
Lemma mget_ok n m i j : sq n m -> i < n -> j < n -> mget m i j = Some (cell m i j).
Proof.
  intros Hs Hi Hj. destruct (sq_line n m i Hs Hi) as (l & El & Ll & Nl). unfold mget, cell. rewrite El, Nl. cbn [obind].
  apply nth_error_nth'. lia.
Qed.

(** contents of the object *)
Definition st (n : nat) (s : dmat) (f : nat -> nat -> bool) (c r : nat -> Z) : Prop :=
  sq n (mat s) /\ (forall a b, a < n -> b < n -> cell (mat s) a b = f a b) /\
  (length (cnt s) = n /\ forall a, a < n -> nth a (cnt s) 0%Z = c a) /\
  (length (rnk s) = n /\ forall a, a < n -> nth a (rnk s) 0%Z = r a).
Lemma st_ext n s f c r f' c' r' : st n s f c r -> (forall a b, a < n -> b < n -> f a b = f' a b) ->
  (forall a, a < n -> c a = c' a) -> (forall a, a < n -> r a = r' a) -> st n s f' c' r'.
Proof.
  intros (H1 & H2 & (H3 & H4) & H5 & H6) Ef Ec Er. split; auto. split; [intros; rewrite <- Ef; auto|].
  split; split; auto; intros; [rewrite <- Ec|rewrite <- Er]; auto.
Qed.
Lemma mark_ok n s f c r k l : st n s f c r -> k < n -> l < n -> exists s', mark s k l = Ok s' /\ cps s' = cps s /\
  st n s' (fun a b => if (a =? k) && (b =? l) then true else f a b) (fun a => if a =? k then (c a + 1)%Z else c a) (fun a => if a =? l then (r a + 1)%Z else r a).
Proof.
  intros (H1 & H2 & (H3 & H4) & H5 & H6) Hk Hl. unfold mark.
  destruct (mset_ok n (mat s) k l true H1 Hk Hl) as (m & Em & Sm & Cm). rewrite Em. cbn [rbind].
  destruct (bump_ok n (cnt s) k 1 H3 Hk) as (v & Ev & Lv & Nv). rewrite Ev. cbn [rbind].
  destruct (bump_ok n (rnk s) l 1 H5 Hl) as (w & Ew & Lw & Nw). rewrite Ew. cbn [rbind].
  eexists. split; [reflexivity|]. split; [reflexivity|]. split; cbn [mat cnt rnk]; auto. split; [|split; split; auto].
  - intros a b Ha Hb. rewrite Cm. destruct ((a =? k) && (b =? l)); auto.
  - intros a Ha. rewrite Nv. destruct (a =? k); rewrite H4; auto.
  - intros a Ha. rewrite Nw. destruct (a =? l); rewrite H6; auto.
Qed.
Lemma set_column_ok n s f c r x l : st n s f c r -> x < n -> l < n -> exists s', set_column s (x, l) = Ok s' /\ cps s' = cps s /\
  st n s' (fun a b => if (a =? l) && (b =? x) then true else f a b) (fun a => if (a =? l) && negb (f l x) then (c a + 1)%Z else c a) r.
Proof.
  intros H Hx Hl. pose proof H as (H1 & H2 & (H3 & H4) & H5 & H6). unfold set_column. rewrite (mget_ok n) by auto. cbn [of_opt rbind].
  rewrite H2 by auto. destruct (f l x) eqn:F; cbn [negb].
  - exists s. split; auto. split; auto. eapply st_ext; [apply H| |intros; rewrite andb_false_r; auto|auto].
    intros a b Ha Hb. cbn beta. destruct (Nat.eqb_spec a l), (Nat.eqb_spec b x); subst; auto.
  - destruct (mset_ok n (mat s) l x true H1 Hl Hx) as (m & Em & Sm & Cm). rewrite Em. cbn [rbind].
    destruct (bump_ok n (cnt s) l 1 H3 Hl) as (v & Ev & Lv & Nv). rewrite Ev. cbn [rbind].
    eexists. split; [reflexivity|]. split; [reflexivity|]. split; cbn [mat cnt rnk]; auto. split; [|split; split; auto].
    + intros a b Ha Hb. rewrite Cm. destruct ((a =? l) && (b =? x)); auto.
    + intros a Ha. rewrite Nv, andb_true_r. destruct (a =? l); rewrite H4; auto.
Qed.
Lemma clear_line_ok n s f c r x l : st n s f c r -> x < n -> l < n -> exists s', clear_line s (x, l) = Ok s' /\ cps s' = cps s /\
  st n s' (fun a b => if (a =? x) && (b =? l) then false else f a b) c (fun a => if (a =? l) && f x l then (r a - 1)%Z else r a).
Proof.
  intros H Hx Hl. pose proof H as (H1 & H2 & (H3 & H4) & H5 & H6). unfold clear_line. rewrite (mget_ok n) by auto. cbn [of_opt rbind].
  rewrite H2 by auto. destruct (f x l) eqn:F; cbn [negb].
  - destruct (mset_ok n (mat s) x l false H1 Hx Hl) as (m & Em & Sm & Cm). rewrite Em. cbn [rbind].
    destruct (bump_ok n (rnk s) l (-1) H5 Hl) as (v & Ev & Lv & Nv). rewrite Ev. cbn [rbind].
    eexists. split; [reflexivity|]. split; [reflexivity|]. split; cbn [mat cnt rnk]; auto. split; [|split; split; auto].
    + intros a b Ha Hb. rewrite Cm. destruct ((a =? x) && (b =? l)); auto.
    + intros a Ha. rewrite Nv, andb_true_r. destruct (a =? l); rewrite H6; auto.
  - exists s. split; auto. split; auto. eapply st_ext; [apply H| |auto|intros; rewrite andb_false_r; auto].
    intros a b Ha Hb. cbn beta. destruct (Nat.eqb_spec a x), (Nat.eqb_spec b l); subst; auto.
Qed.
Lemma set_copy_ok n s f c r x : st n s f c r -> x < n -> exists s', set_copy s x = Ok s' /\ cps s' = cps s /\
  st n s' f (fun a => if a =? x then 0%Z else c a) (fun a => if a =? x then (Z.of_nat n - Z.of_nat (length (cps s)))%Z else r a).
Proof.
  intros (H1 & H2 & (H3 & H4) & H5 & H6) Hx. unfold set_copy. rewrite upd_set by lia. cbn [of_opt rbind]. rewrite upd_set by lia. cbn [of_opt rbind].
  eexists. split; [reflexivity|]. split; [reflexivity|]. split; cbn [mat cnt rnk]; auto. split; auto. rewrite !set_length. split; split; auto; intros a Ha.
  - rewrite nth_set. replace (x <? length (cnt s)) with true by (symmetry; apply Nat.ltb_lt; lia). rewrite andb_true_r. destruct (a =? x); auto.
  - rewrite nth_set. replace (x <? length (rnk s)) with true by (symmetry; apply Nat.ltb_lt; lia). rewrite andb_true_r. destruct (a =? x); auto.
    destruct H1 as [-> _]. auto.
Qed.

(** ** the set of copies *)
Lemma insert_In x y l : In y (insert x l) <-> y = x \/ In y l.
Proof.
  induction l as [|z l IH]; cbn [insert In]; [intuition|]. destruct (x <? z); [cbn [In]; intuition|]. destruct (Nat.eqb_spec x z) as [->|]; cbn [In]; [intuition|]. rewrite IH. intuition.
Qed.
Lemma insert_sorted x l : StronglySorted lt l -> StronglySorted lt (insert x l).
Proof.
  induction l as [|z l IH]; cbn [insert]; intros H; [repeat constructor|]. inversion H as [|? ? Hs Hf]; subst.
  destruct (Nat.ltb_spec x z) as [Lt|Ge].
  - constructor; auto. constructor; auto. eapply Forall_impl; [|apply Hf]. cbn. lia.
  - destruct (Nat.eqb_spec x z) as [->|Ne]; auto. constructor; auto. rewrite Forall_forall in Hf |- *. intros y Hy. apply insert_In in Hy as [->|Hy]; [lia|auto].
Qed.
Lemma sorted_NoDup l : StronglySorted lt l -> NoDup l.
Proof.
  induction 1 as [|x l Hs IH Hf]; constructor; auto. intros Hi. rewrite Forall_forall in Hf. apply Hf in Hi. lia.
Qed.

Definition mem2 (a b : nat) (p : list (nat * nat)) : bool := existsb (fun q => (a =? fst q) && (b =? snd q)) p.
Lemma mem2_In a b p : mem2 a b p = true <-> In (a, b) p.
Proof.
  unfold mem2. rewrite existsb_exists. split.
  - intros ([x y] & Hi & H). cbn in H. apply andb_true_iff in H as [H1 H2]. apply Nat.eqb_eq in H1, H2. subst; auto.
  - intros H. exists (a, b). cbn. rewrite !Nat.eqb_refl. auto.
Qed.
Lemma mem2_app a b p x y : mem2 a b (p ++ [(x, y)]) = mem2 a b p || ((a =? x) && (b =? y)).
Proof. unfold mem2. rewrite existsb_app. cbn. rewrite orb_false_r. auto. Qed.
Lemma pairs_In n k l : In (k, l) (pairs n) <-> k < l < n.
Proof.
  unfold pairs. rewrite in_flat_map. split.
  - intros (x & Hx & H). apply in_map_iff in H as (y & E & Hy). inversion E; subst. apply in_seq in Hx, Hy. lia.
  - intros H. exists k. split; [apply in_seq; lia|]. apply in_map, in_seq. lia.
Qed.
Lemma flat_map_NoDup {A B} (f : A -> list B) : forall l, NoDup l -> (forall a, In a l -> NoDup (f a)) ->
  (forall a b x, In a l -> In b l -> In x (f a) -> In x (f b) -> a = b) -> NoDup (flat_map f l).
Proof.
  induction l as [|a l IH]; intros N F D; cbn; [constructor|]. inversion N as [|? ? N1 N2]; subst.
  assert (IH' : NoDup (flat_map f l)) by (apply IH; auto; [intros; apply F; right; auto|intros a' b' x Ha Hb; apply D; right; auto]).
  assert (Fa : NoDup (f a)) by (apply F; left; auto).
  assert (Dj : forall x, In x (f a) -> ~ In x (flat_map f l)).
  { intros x Hx Hy. apply in_flat_map in Hy as (b & Hb & Hx'). assert (a = b) by (eapply D; eauto; [left; auto|right; auto]). subst; auto. }
  clear -IH' Fa Dj. induction (f a) as [|y r IHr]; cbn; auto. inversion Fa; subst. constructor.
  - rewrite in_app_iff. intros [|H']; auto. apply (Dj y); auto. left; auto.
  - apply IHr; auto. intros x Hx. apply Dj. right; auto.
Qed.
Lemma pairs_NoDup n : NoDup (pairs n).
Proof.
  apply flat_map_NoDup; [apply seq_NoDup| |].
  - intros k _. apply FinFun.Injective_map_NoDup; [intros x y E; inversion E; auto|apply seq_NoDup].
  - intros a b x _ _ Ha Hb. apply in_map_iff in Ha as (y & <- & _). apply in_map_iff in Hb as (z & E & _). inversion E; auto.
Qed.

Section Dom.
Context {V : Type}.
Variable dominated same : V -> V -> bool.
Variable nocopy : bool.
Variables pop1 pop2 : list V.
Notation vs := (pop1 ++ pop2).
Notation n := (length pop1 + length pop2).
(** [le k l]: position [k] is dominated by position [l] *)
Definition le_ (k l : nat) : bool := match nth_error vs k, nth_error vs l with Some a, Some b => dominated a b | _, _ => false end.
Definition eq_ (k l : nat) : bool := match nth_error vs k, nth_error vs l with Some a, Some b => same a b | _, _ => false end.
Definition cell_after (p : list (nat * nat)) (a b : nat) : bool :=
  le_ b a && (mem2 a b p || mem2 b a p && negb (le_ a b)).
Definition copy_after (p : list (nat * nat)) (x : nat) : Prop :=
  nocopy = true /\ exists k, In (k, x) p /\ le_ x k = false /\ le_ k x = false /\ eq_ k x = true.

Lemma fill_at s k l : k < l < n -> exists a b, nth_error vs k = Some a /\ nth_error vs l = Some b /\
  fill dominated same nocopy pop1 pop2 s (k, l) = compare_pair dominated same nocopy s k l a b.
Proof.
  intros H. destruct (nth_error_in_some vs k) as [a Ea]; [rewrite app_length; lia|]. destruct (nth_error_in_some vs l) as [b Eb]; [rewrite app_length; lia|].
  exists a, b. split; auto. split; auto. unfold fill.
  destruct (Nat.ltb_spec k (length pop1)), (Nat.ltb_spec l (length pop1)); cbn [andb negb]; try lia;
    repeat rewrite (nth_error_app1 pop1 pop2) in * by lia; repeat rewrite (nth_error_app2 pop1 pop2) in * by lia; rewrite Ea, Eb; reflexivity.
Qed.

Lemma fill_spec old : StronglySorted lt old ->
  exists s, loop (pairs n) (fill dominated same nocopy pop1 pop2)
              {| mat := square n false; cnt := repeat 0%Z n; rnk := repeat 0%Z n; cps := old |} = Ok s /\
  st n s (cell_after (pairs n)) (fun a => zc n (cell_after (pairs n) a)) (fun b => zc n (fun a => cell_after (pairs n) a b)) /\
  StronglySorted lt (cps s) /\ forall x, In x (cps s) <-> In x old \/ copy_after (pairs n) x.
Proof.
  intros Ho.
  destruct (loop_inv (fun p s => st n s (cell_after p) (fun a => zc n (cell_after p a)) (fun b => zc n (fun a => cell_after p a b)) /\
     StronglySorted lt (cps s) /\ forall x, In x (cps s) <-> In x old \/ copy_after p x)
     (fill dominated same nocopy pop1 pop2) (pairs n) []
     {| mat := square n false; cnt := repeat 0%Z n; rnk := repeat 0%Z n; cps := old |}) as (s & E & H).
  - assert (Z0 : zc n (fun _ => false) = 0%Z).
    { unfold zc, count. generalize (seq 0 n). intros l. induction l; cbn; auto. }
    split; [|split; [auto|]].
    + split; [apply square_sq|]. split; [|split; split; cbn; rewrite ?repeat_length; auto]; cbn [mat cnt rnk].
      * intros a b Ha Hb. rewrite square_cell by auto. unfold cell_after. cbn. rewrite andb_false_r. auto.
      * intros a Ha. rewrite nth_repeat. rewrite <- Z0. apply zc_ext. intros. unfold cell_after. cbn. rewrite andb_false_r. auto.
      * intros a Ha. rewrite nth_repeat. rewrite <- Z0. apply zc_ext. intros. unfold cell_after. cbn. rewrite andb_false_r. auto.
    + intros x. cbn. unfold copy_after. split; auto. intros [|(_ & k & [] & _)]; auto.
  - cbn [app]. intros p [k l] q s Ep (Hs & Hc & Hx).
    assert (Hkl : k < l < n) by (apply pairs_In; rewrite Ep; apply in_app_iff; right; left; auto).
    assert (Np : ~ In (k, l) p).
    { pose proof (pairs_NoDup n) as N. rewrite Ep in N. apply NoDup_remove_2 in N. rewrite in_app_iff in N. tauto. }
    assert (Np' : ~ In (l, k) p).
    { intros Hi. assert (H' : In (l, k) (pairs n)) by (rewrite Ep; apply in_app_iff; auto). apply pairs_In in H'. lia. }
    destruct (fill_at s k l Hkl) as (a & b & Ea & Eb & ->).
    assert (Dkl : le_ k l = dominated a b) by (unfold le_; rewrite Ea, Eb; auto).
    assert (Dlk : le_ l k = dominated b a) by (unfold le_; rewrite Ea, Eb; auto).
    assert (Ekl : eq_ k l = same a b) by (unfold eq_; rewrite Ea, Eb; auto).
    assert (Mkl : mem2 k l p = false) by (destruct (mem2 k l p) eqn:M; auto; apply mem2_In in M; tauto).
    assert (Mlk : mem2 l k p = false) by (destruct (mem2 l k p) eqn:M; auto; apply mem2_In in M; tauto).
    assert (Fkl : cell_after p k l = false) by (unfold cell_after; rewrite Mkl, Mlk; cbn; apply andb_false_r).
    assert (Flk : cell_after p l k = false) by (unfold cell_after; rewrite Mkl, Mlk; cbn; apply andb_false_r).
    assert (Ckl : forall i j, cell_after (p ++ [(k, l)]) i j =
       if (i =? k) && (j =? l) then le_ l k else if (i =? l) && (j =? k) then le_ k l && negb (le_ l k) else cell_after p i j).
    { intros i j. unfold cell_after. rewrite !mem2_app. destruct (Nat.eqb_spec i k) as [->|], (Nat.eqb_spec j l) as [->|]; cbn [andb].
      - replace (l =? k) with false by (symmetry; apply Nat.eqb_neq; lia). rewrite Mkl, Mlk. cbn. rewrite andb_true_r. auto.
      - replace (k =? l) with false by (symmetry; apply Nat.eqb_neq; lia). cbn. rewrite andb_false_r. rewrite !orb_false_r. auto.
      - rewrite orb_false_r. replace (l =? k) with false by (symmetry; apply Nat.eqb_neq; lia). rewrite !andb_false_r. cbn. rewrite !orb_false_r. auto.
      - destruct (Nat.eqb_spec i l) as [->|], (Nat.eqb_spec j k) as [->|]; cbn [andb]; rewrite ?orb_false_r, ?orb_true_r; auto.
        rewrite Mlk. cbn. auto. }
    assert (Cx : dominated b a = true \/ dominated a b = true -> forall x, copy_after (p ++ [(k, l)]) x <-> copy_after p x).
    { intros Hd x. unfold copy_after. split; intros (Hn & z & Hz & H1 & H2 & H3); (split; auto); exists z; (split; [|auto]); rewrite in_app_iff in *; auto.
      destruct Hz as [|[Ez|[]]]; auto. inversion Ez; subst. rewrite Dkl, Dlk in *. destruct Hd; congruence. }
    unfold compare_pair. destruct (dominated b a) eqn:Db.
    + destruct (mark_ok n s _ _ _ k l Hs) as (s' & E' & Ec & Hs'); try lia. exists s'. split; auto. rewrite Ec. split; [|split; auto].
      * eapply st_ext; [apply Hs'| | |]; cbn beta.
        -- intros i j Hi Hj. rewrite Ckl, Dlk. destruct (Nat.eqb_spec i k), (Nat.eqb_spec j l); cbn [andb]; auto; destruct (Nat.eqb_spec i l), (Nat.eqb_spec j k); cbn [andb]; auto; subst; try lia. rewrite andb_false_r. auto.
        -- intros i Hi. destruct (Nat.eqb_spec i k) as [->|Ne]; [symmetry; apply (zc_add n _ _ l); auto; [lia| |]|apply zc_ext].
           ++ rewrite Ckl, !Nat.eqb_refl. cbn. congruence.
           ++ intros j Hj Hn. rewrite Ckl. replace (j =? l) with false by (symmetry; apply Nat.eqb_neq; auto). rewrite andb_false_r.
              destruct (Nat.eqb_spec k l); [lia|]. auto.
           ++ intros j Hj. rewrite Ckl. replace (i =? k) with false by (symmetry; apply Nat.eqb_neq; auto). cbn [andb].
              destruct (Nat.eqb_spec i l) as [->|], (Nat.eqb_spec j k) as [->|]; cbn [andb]; auto. rewrite Dlk, Flk. cbn. rewrite andb_false_r. auto.
        -- intros j Hj. destruct (Nat.eqb_spec j l) as [->|Ne]; [symmetry; apply (zc_add n _ _ k); auto; [lia| |]|apply zc_ext].
           ++ rewrite Ckl, !Nat.eqb_refl. cbn. congruence.
           ++ intros i Hi Hn. rewrite Ckl. replace (i =? k) with false by (symmetry; apply Nat.eqb_neq; auto). cbn [andb].
              destruct (Nat.eqb_spec l k); [lia|]. rewrite andb_false_r. auto.
           ++ intros i Hi. rewrite Ckl. replace (j =? l) with false by (symmetry; apply Nat.eqb_neq; auto). rewrite andb_false_r.
              destruct (Nat.eqb_spec i l) as [->|], (Nat.eqb_spec j k) as [->|]; cbn [andb]; auto. rewrite Dlk, Flk. cbn. rewrite andb_false_r. auto.
      * intros x. rewrite Hx. rewrite (Cx (or_introl eq_refl)). tauto.
    + destruct (dominated a b) eqn:Da.
      * destruct (mark_ok n s _ _ _ l k Hs) as (s' & E' & Ec & Hs'); try lia. exists s'. split; auto. rewrite Ec. split; [|split; auto].
        -- eapply st_ext; [apply Hs'| | |]; cbn beta.
          ++ intros i j Hi Hj. rewrite Ckl, Dlk, Dkl. destruct (Nat.eqb_spec i k), (Nat.eqb_spec j l), (Nat.eqb_spec i l), (Nat.eqb_spec j k); cbn [andb]; auto; subst; try lia; auto.
          ++ intros i Hi. destruct (Nat.eqb_spec i l) as [->|Ne]; [symmetry; apply (zc_add n _ _ k); auto; [lia| |]|apply zc_ext].
             ** rewrite Ckl, !Nat.eqb_refl, Dlk, Dkl. destruct (Nat.eqb_spec l k); [lia|]. auto.
             ** intros j Hj Hn. rewrite Ckl. destruct (Nat.eqb_spec l k); [lia|]. replace (j =? k) with false by (symmetry; apply Nat.eqb_neq; auto). rewrite andb_false_r. auto.
             ** intros j Hj. rewrite Ckl. replace (i =? l) with false by (symmetry; apply Nat.eqb_neq; auto). cbn [andb].
                destruct (Nat.eqb_spec i k) as [->|], (Nat.eqb_spec j l) as [->|]; cbn [andb]; auto. congruence.
          ++ intros j Hj. destruct (Nat.eqb_spec j k) as [->|Ne]; [symmetry; apply (zc_add n _ _ l); auto; [lia| |]|apply zc_ext].
             ** rewrite Ckl, !Nat.eqb_refl, Dlk, Dkl. destruct (Nat.eqb_spec l k); [lia|]. auto.
             ** intros i Hi Hn. rewrite Ckl. destruct (Nat.eqb_spec k l); [lia|]. replace (i =? l) with false by (symmetry; apply Nat.eqb_neq; auto). rewrite andb_false_r. auto.
             ** intros i Hi. rewrite Ckl. replace (j =? k) with false by (symmetry; apply Nat.eqb_neq; auto). rewrite andb_false_r.
                destruct (Nat.eqb_spec i k) as [->|], (Nat.eqb_spec j l) as [->|]; cbn [andb]; auto. congruence.
        -- intros x. rewrite Hx. rewrite (Cx (or_intror eq_refl)). tauto.
      * assert (Cf : forall i j, cell_after (p ++ [(k, l)]) i j = cell_after p i j).
        { intros i j. rewrite Ckl, Dlk, Dkl. destruct (Nat.eqb_spec i k), (Nat.eqb_spec j l), (Nat.eqb_spec i l), (Nat.eqb_spec j k); subst; cbn [andb]; auto. }
        assert (Hs' : forall s', mat s' = mat s -> cnt s' = cnt s -> rnk s' = rnk s ->
           st n s' (cell_after (p ++ [(k, l)])) (fun a => zc n (cell_after (p ++ [(k, l)]) a)) (fun b => zc n (fun a => cell_after (p ++ [(k, l)]) a b))).
        { intros s' E1 E2 E3. unfold st. rewrite E1, E2, E3. eapply st_ext; [apply Hs| | |]; cbn beta; intros; [rewrite Cf; auto|apply zc_ext; intros; rewrite Cf; auto|apply zc_ext; intros; rewrite Cf; auto]. }
        destruct (nocopy && same a b) eqn:Nc.
        -- apply andb_true_iff in Nc as [Nc Sab]. eexists. split; [reflexivity|]. cbn [cps]. split; [apply Hs'; auto|]. split; [apply insert_sorted; auto|].
           intros x. rewrite insert_In, Hx. unfold copy_after. split.
           ++ intros [->|[H|(Hn & z & Hz & H)]]; auto; right; (split; [auto|]); [exists k|exists z]; rewrite in_app_iff; cbn [In]; auto.
              repeat split; auto; congruence.
           ++ intros [H|(Hn & z & Hz & H)]; auto. apply in_app_iff in Hz as [Hz|[Hz|[]]]; [|inversion Hz; auto]. right; right. eauto.
        -- exists s. split; auto. split; [apply Hs'; auto|]. split; auto. intros x. rewrite Hx. unfold copy_after. split.
           ++ intros [H|(Hn & z & Hz & H)]; auto; right; (split; [auto|]); exists z; rewrite in_app_iff; auto.
           ++ intros [H|(Hn & z & Hz & H)]; auto. apply in_app_iff in Hz as [Hz|[Hz|[]]]; [right; eauto|]. inversion Hz; subst. destruct H as (_ & _ & H). rewrite Hn, <- Ekl, H in Nc. discriminate.
  - cbn [app] in H. exists s. split; auto.
Qed.

(** ** the penalty of the copies *)
Lemma columns_spec s f r C : st n s f (fun a => zc n (f a)) r -> (forall x, In x C -> x < n) ->
  exists s', loop (list_prod C (seq 0 n)) set_column s = Ok s' /\ cps s' = cps s /\
  st n s' (fun a b => f a b || mem b C) (fun a => zc n (fun b => f a b || mem b C)) r.
Proof.
  intros Hs HC. set (g := fun (p : list (nat * nat)) a b => f a b || mem2 b a p).
  destruct (loop_inv (fun p s' => cps s' = cps s /\ st n s' (g p) (fun a => zc n (g p a)) r) set_column (list_prod C (seq 0 n)) [] s) as (s' & E & Ec & H).
  - split; auto. eapply st_ext; [apply Hs| | |]; cbn beta; unfold g; cbn; intros; [rewrite orb_false_r; auto|apply zc_ext; intros; rewrite orb_false_r; auto|auto].
  - cbn [app]. intros p [x l] q s0 Ep (Ec & H0). assert (Hi : In (x, l) (list_prod C (seq 0 n))) by (rewrite Ep; apply in_app_iff; right; left; auto).
    apply in_prod_iff in Hi as [Hx Hl]. apply in_seq in Hl. apply HC in Hx.
    destruct (set_column_ok n s0 _ _ _ x l H0 Hx) as (s1 & E1 & Ec1 & H1); [lia|]. exists s1. split; auto. split; [congruence|].
    assert (G : forall a b, g (p ++ [(x, l)]) a b = if (a =? l) && (b =? x) then true else g p a b).
    { intros a b. unfold g. rewrite mem2_app. destruct (Nat.eqb_spec a l), (Nat.eqb_spec b x); cbn [andb]; rewrite ?orb_false_r, ?orb_true_r; auto. }
    eapply st_ext; [apply H1| | |auto]; cbn beta; [intros; rewrite G; auto|]. intros a Ha.
    destruct (Nat.eqb_spec a l) as [->|Ne]; cbn [andb].
    + destruct (g p l x) eqn:F; cbn [negb].
      * apply zc_ext. intros i Hi. rewrite G, Nat.eqb_refl. cbn [andb]. destruct (Nat.eqb_spec i x); subst; auto.
      * symmetry. apply (zc_add n _ _ x); auto; [rewrite G, !Nat.eqb_refl; auto|]. intros i Hi Hn. rewrite G. replace (i =? x) with false by (symmetry; apply Nat.eqb_neq; auto). rewrite andb_false_r. auto.
    + apply zc_ext. intros i Hi. rewrite G. replace (a =? l) with false by (symmetry; apply Nat.eqb_neq; auto). auto.
  - exists s'. split; auto. split; auto. cbn [app] in H.
    assert (G : forall a b, a < n -> g (list_prod C (seq 0 n)) a b = f a b || mem b C).
    { intros a b Ha. unfold g. f_equal. destruct (mem b C) eqn:M.
      - apply mem2_In, in_prod; [apply mem_In'; auto|apply in_seq; lia].
      - destruct (mem2 b a _) eqn:M2; auto. apply mem2_In, in_prod_iff in M2 as [M2 _]. apply mem_In' in M2. congruence. }
    eapply st_ext; [apply H| | |auto]; cbn beta; intros; [auto|apply zc_ext; intros; auto].
Qed.
Lemma lines_spec s f c r C : st n s f c r -> (forall x, In x C -> x < n) -> (forall b, ~ In b C -> b < n -> r b = zc n (fun a => f a b)) ->
  exists s' r', loop (list_prod C (seq 0 n)) clear_line s = Ok s' /\ cps s' = cps s /\
  st n s' (fun a b => f a b && negb (mem a C)) c r' /\ forall b, ~ In b C -> b < n -> r' b = zc n (fun a => f a b && negb (mem a C)).
Proof.
  intros Hs HC Hr. set (g := fun (p : list (nat * nat)) a b => f a b && negb (mem2 a b p)).
  destruct (loop_inv (fun p s' => cps s' = cps s /\ exists r', st n s' (g p) c r' /\ forall b, ~ In b C -> b < n -> r' b = zc n (fun a => g p a b)) clear_line (list_prod C (seq 0 n)) [] s) as (s' & E & Ec & r' & H & Hr').
  - split; auto. exists r. split.
    + eapply st_ext; [apply Hs| |auto|auto]; cbn beta; unfold g; cbn; intros; rewrite andb_true_r; auto.
    + intros b Hb Hn. rewrite Hr by auto. apply zc_ext. intros. unfold g. cbn. rewrite andb_true_r; auto.
  - cbn [app]. intros p [x l] q s0 Ep (Ec & r0 & H0 & Hr0). assert (Hi : In (x, l) (list_prod C (seq 0 n))) by (rewrite Ep; apply in_app_iff; right; left; auto).
    apply in_prod_iff in Hi as [Hx Hl]. apply in_seq in Hl. apply HC in Hx.
    destruct (clear_line_ok n s0 _ _ _ x l H0 Hx) as (s1 & E1 & Ec1 & H1); [lia|]. exists s1. split; auto. split; [congruence|].
    assert (G : forall a b, g (p ++ [(x, l)]) a b = if (a =? x) && (b =? l) then false else g p a b).
    { intros a b. unfold g. rewrite mem2_app. destruct (Nat.eqb_spec a x), (Nat.eqb_spec b l); cbn [andb]; rewrite ?orb_false_r, ?orb_true_r; cbn; rewrite ?andb_false_r; auto. }
    eexists. split; [eapply st_ext; [apply H1| |auto|intros; reflexivity]; cbn beta; intros; rewrite G; auto|]. cbn beta. intros b Hb Hn.
    destruct (Nat.eqb_spec b l) as [->|Ne]; cbn [andb].
    + destruct (g p x l) eqn:F.
      * rewrite Hr0 by auto. enough (zc n (fun a => g p a l) = zc n (fun a => g (p ++ [(x, l)]) a l) + 1)%Z by lia.
        apply (zc_add n _ _ x); auto; [rewrite G, !Nat.eqb_refl; auto|]. intros i Hi Hn'. rewrite G. replace (i =? x) with false by (symmetry; apply Nat.eqb_neq; auto). auto.
      * rewrite Hr0 by auto. apply zc_ext. intros i Hi. rewrite G, Nat.eqb_refl, andb_true_r. destruct (Nat.eqb_spec i x); subst; auto.
    + rewrite Hr0 by auto. apply zc_ext. intros i Hi. rewrite G. replace (b =? l) with false by (symmetry; apply Nat.eqb_neq; auto). rewrite andb_false_r. auto.
  - exists s', r'. split; auto. split; auto. cbn [app] in H, Hr'.
    assert (G : forall a b, b < n -> g (list_prod C (seq 0 n)) a b = f a b && negb (mem a C)).
    { intros a b Hb. unfold g. f_equal. f_equal. destruct (mem a C) eqn:M.
      - apply mem2_In, in_prod; [apply mem_In'; auto|apply in_seq; lia].
      - destruct (mem2 a b _) eqn:M2; auto. apply mem2_In, in_prod_iff in M2 as [M2 _]. apply mem_In' in M2. congruence. }
    split; [eapply st_ext; [apply H| |auto|auto]; cbn beta; intros; auto|]. intros b Hb Hn. rewrite Hr' by auto. apply zc_ext. intros; auto.
Qed.
Lemma copies_spec s f c r C : st n s f c r -> (forall x, In x C -> x < n) ->
  exists s', loop C set_copy s = Ok s' /\ cps s' = cps s /\
  st n s' f (fun a => if mem a C then 0%Z else c a) (fun a => if mem a C then (Z.of_nat n - Z.of_nat (length (cps s)))%Z else r a).
Proof.
  intros Hs HC. set (k := (Z.of_nat n - Z.of_nat (length (cps s)))%Z).
  destruct (loop_inv (fun p s' => cps s' = cps s /\ st n s' f (fun a => if mem a p then 0%Z else c a) (fun a => if mem a p then k else r a)) set_copy C [] s) as (s' & E & Ec & H); [auto| |eauto].
  cbn [app]. intros p x q s0 Ep (Ec & H0). assert (Hx : x < n) by (apply HC; rewrite Ep; apply in_app_iff; right; left; auto).
  destruct (set_copy_ok n s0 _ _ _ x H0 Hx) as (s1 & E1 & Ec1 & H1). exists s1. split; auto. split; [congruence|]. rewrite Ec in H1. fold k in H1.
  eapply st_ext; [apply H1|auto| |]; cbn beta; intros a Ha; rewrite existsb_app; cbn [existsb]; rewrite orb_false_r; destruct (a =? x), (mem a p); auto.
Qed.

(** ** the whole function, on a fresh object (or one whose set of copies is empty) *)
Definition final_cell (C : list nat) (a b : nat) : bool := (cell_after (pairs n) a b || mem b C) && negb (mem a C).
Lemma count_compl m C : NoDup C -> (forall x, In x C -> x < m) -> (Z.of_nat m - Z.of_nat (length C) = zc m (fun a => negb (mem a C)))%Z.
Proof.
  intros N H. unfold zc, count.
  assert (P : Permutation (filter (fun a => mem a C) (seq 0 m)) C).
  { apply NoDup_Permutation; auto; [apply NoDup_filter, seq_NoDup|]. intros x. rewrite filter_In, mem_In', in_seq. split; [tauto|]. intros Hx. split; auto. apply H in Hx. lia. }
  apply Permutation_length in P. assert (L : forall (l : list nat) (g : nat -> bool), length (filter g l) + length (filter (fun a => negb (g a)) l) = length l).
  { induction l as [|y l IH]; intros g; cbn; auto. destruct (g y); cbn; rewrite <- (IH g); lia. }
  specialize (L (seq 0 m) (fun a => mem a C)). rewrite seq_length in L. lia.
Qed.
Lemma matrix_spec old : StronglySorted lt old -> (forall x, In x old -> x < n) -> (nocopy = false -> old = []) ->
  exists s C, dominance_matrix dominated same nocopy pop1 pop2 old = Ok s /\ cps s = C /\ StronglySorted lt C /\
  (forall x, In x C <-> In x old \/ copy_after (pairs n) x) /\
  st n s (final_cell C) (fun a => zc n (final_cell C a)) (fun b => zc n (fun a => final_cell C a b)).
Proof.
  intros Ho Hb Hn. unfold dominance_matrix. destruct (fill_spec old Ho) as (s & E & Hs & Sc & Hc). rewrite E. cbn [rbind].
  assert (HC : forall x, In x (cps s) -> x < n).
  { intros x Hx. apply Hc in Hx as [Hx|(_ & k & Hk & _)]; auto. apply pairs_In in Hk. lia. }
  destruct nocopy eqn:Nc.
  - destruct (columns_spec s _ _ (cps s) Hs HC) as (s1 & E1 & C1 & H1). rewrite E1. cbn [rbind]. rewrite C1.
    destruct (lines_spec s1 _ _ _ (cps s) H1 HC) as (s2 & r2 & E2 & C2 & H2 & Hr2).
    { intros b Hb' Hn'. apply zc_ext. intros i Hi. destruct (mem b (cps s)) eqn:M; [apply mem_In' in M; tauto|]. rewrite orb_false_r. auto. }
    rewrite E2. cbn [rbind]. rewrite C2, C1. destruct (copies_spec s2 _ _ _ (cps s) H2 HC) as (s3 & E3 & C3 & H3).
    exists s3, (cps s). split; auto. split; [congruence|]. split; auto. split; [intros x; rewrite Hc; unfold copy_after; rewrite Nc; tauto|].
    eapply st_ext; [apply H3|auto| |]; cbn beta.
    + intros a Ha. unfold final_cell. destruct (mem a (cps s)) eqn:M; cbn [negb].
      * transitivity (zc n (fun _ => false)); [|apply zc_ext; intros; rewrite andb_false_r; auto]. unfold zc, count. generalize (seq 0 n). induction l; cbn; auto.
      * apply zc_ext. intros; rewrite andb_true_r; auto.
    + intros b Hb'. destruct (mem b (cps s)) eqn:M.
      * rewrite C2, C1. rewrite (count_compl n (cps s)); auto; [|apply sorted_NoDup; auto]. apply zc_ext. intros a Ha. unfold final_cell. rewrite M, orb_true_r. auto.
      * apply Hr2; auto. apply mem_false. auto.
  - exists s, (cps s). split; auto. split; auto. split; auto. split; [intros x; rewrite Hc; unfold copy_after; rewrite Nc; tauto|].
    assert (En : cps s = []).
    { destruct (cps s) as [|x l] eqn:El; auto. destruct (proj1 (Hc x)) as [Hx|(Hx & _)]; [left; auto| |unfold copy_after in Hx; congruence]. rewrite Hn in Hx by auto. destruct Hx. }
    rewrite En. eapply st_ext; [apply Hs| | |]; cbn beta; intros; [|apply zc_ext; intros|apply zc_ext; intros]; unfold final_cell; cbn; rewrite andb_true_r, orb_false_r; auto.
Qed.
End Dom.
