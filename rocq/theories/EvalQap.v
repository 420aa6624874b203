(** UBQP normalisation and QAP. *)
From Coq Require Import List Arith Bool ZArith Lia.
From Verif Require Import Outcome Lib NeighModel NeighSpec NeighProofs BitsModel LsModel EvalModel EvalSpec EvalProofs EvalRoyal.
From Coq Require Import List.
Import ListNotations.
Open Scope nat_scope.

(** ** the normalisation *)
Lemma put_ok n (q : list (list Z)) i j v : square_matrix n q -> i < n -> j < n ->
  exists q', put q i j v = Ok q' /\ square_matrix n q' /\ forall a b, mat q' a b = if (a =? i) && (b =? j) then v else mat q a b.
Proof.
  intros [L F] Hi Hj. rewrite Forall_forall in F. unfold put. rewrite (nth_error_nth' q []) by lia. cbn [obind].
  assert (Lr : length (nth i q []) = n) by (apply F, nth_In; lia). rewrite upd_set by lia. cbn [obind]. rewrite upd_set by lia. eexists. split; [reflexivity|]. split.
  - split; [rewrite set_length; auto|]. apply Forall_forall. intros r Hr. apply In_nth_error in Hr as (a & Ha). destruct (Nat.eq_dec i a) as [<-|Hne].
    + rewrite nth_error_set_eq in Ha by lia. injection Ha as <-. rewrite set_length. auto.
    + rewrite nth_error_set_neq in Ha by auto. apply F. eapply nth_error_In; eauto.
  - intros a b. unfold mat. rewrite nth_set by lia. destruct (Nat.eqb_spec a i) as [->|Hne]; cbn [andb].
    + destruct (Nat.ltb_spec i (length q)); [cbn [andb]|lia]. rewrite nth_set by lia. destruct (Nat.eqb_spec b j) as [->|]; cbn [andb]; auto.
      destruct (Nat.ltb_spec j (length (nth i q []))); [auto|lia].
    + reflexivity.
Qed.
Lemma for_in_app {A B} (body : A -> B -> res B) : forall l l' acc, for_in (l ++ l') body acc = let! acc' := for_in l body acc in for_in l' body acc'.
Proof. induction l as [|k l IH]; intros l' acc; cbn [app for_in rbind]; auto. destruct (body k acc); cbn [rbind]; auto. Qed.
Lemma for_in_map {A B C} (h : A -> B) (body : B -> C -> res C) : forall l acc, for_in (map h l) body acc = for_in l (fun k => body (h k)) acc.
Proof. induction l as [|k l IH]; intros acc; cbn [map for_in]; auto. destruct (body (h k) acc); cbn [rbind]; auto. Qed.
(** a double loop is a loop over pairs *)
Lemma for_in_nested {A B C} (g : A -> list B) (body : A -> B -> C -> res C) : forall l acc,
  for_in l (fun i => for_in (g i) (body i)) acc = for_in (flat_map (fun i => map (pair i) (g i)) l) (fun p => body (fst p) (snd p)) acc.
Proof.
  induction l as [|k l IH]; intros acc; cbn [flat_map for_in]; auto. rewrite for_in_app, for_in_map. cbn [fst snd].
  change (fun k0 : B => body k k0) with (body k). destruct (for_in (g k) (body k) acc); cbn [rbind]; auto.
Qed.
Lemma ubqp_normalise_ok n q : square_matrix n q ->
  exists l, ubqp_normalise n q = Ok l /\ square_matrix n l /\
    forall i j, i < n -> j < n -> mat l i j = if j <? i then (mat q i j + mat q j i)%Z else if i <? j then 0%Z else mat q i j.
Proof.
  intros SQ. unfold ubqp_normalise. rewrite (for_in_nested (fun i => seq 0 i) (fun i j q => let! a := entry q i j in let! b := entry q j i in let! q1 := put q i j (a + b)%Z in put q1 j i 0%Z)).
  set (ps := flat_map (fun i => map (pair i) (seq 0 i)) (seq 1 (n - 1))).
  assert (Hps : forall i j, In (i, j) ps <-> j < i < n).
  { intros i j. unfold ps. rewrite in_flat_map. split.
    - intros (a & Ha & Hin). apply in_map_iff in Hin as (b & E & Hb). injection E as <- <-. apply in_seq in Ha, Hb. lia.
    - intros H. exists i. split; [apply in_seq; lia|]. apply in_map. apply in_seq. lia. }
  assert (Nps : NoDup ps).
  { unfold ps. clear. generalize (n - 1) as m. intros m. generalize 1. induction m as [|k IH]; intros a; cbn [seq flat_map]; [constructor|].
    assert (NA : forall (x y : list (nat * nat)), NoDup x -> NoDup y -> (forall p, In p x -> ~ In p y) -> NoDup (x ++ y)).
    { intros x y Nx Ny D. induction Nx as [|p x Hp Nx IHx]; cbn; auto. constructor; [rewrite in_app_iff; intros [|]; auto; apply (D p); cbn; auto|]. apply IHx. intros z Hz. apply D. right. auto. }
    apply NA; auto.
    - apply FinFun.Injective_map_NoDup; [intros u v E; congruence|apply seq_NoDup].
    - intros p Hp Hq. apply in_map_iff in Hp as (b & <- & _). apply in_flat_map in Hq as (c & Hc & Hq). apply in_map_iff in Hq as (d & E & _). injection E as -> ->. apply in_seq in Hc. lia. }
  set (mem := fun (p : nat * nat) (l : list (nat * nat)) => existsb (fun r => (fst r =? fst p) && (snd r =? snd p)) l).
  assert (Hmem : forall a b l, mem (a, b) l = true <-> In (a, b) l).
  { intros a b l. unfold mem. rewrite existsb_exists. split.
    - intros ([c d] & Hin & E). cbn in E. apply andb_true_iff in E as [E1 E2]. apply Nat.eqb_eq in E1, E2. subst. auto.
    - intros H. exists (a, b). cbn. rewrite !Nat.eqb_refl. auto. }
  destruct (for_in_inv (fun pre m => square_matrix n m /\ forall a b, mat m a b = if mem (a, b) pre then (mat q a b + mat q b a)%Z else if mem (b, a) pre then 0%Z else mat q a b)
     (fun p q => let! a := entry q (fst p) (snd p) in let! b := entry q (snd p) (fst p) in let! q1 := put q (fst p) (snd p) (a + b)%Z in put q1 (snd p) (fst p) 0%Z) ps [] q) as (l & E & SL & HL).
  - split; auto.
  - intros p [i j] r m Eq [Sm Hm]. cbn [app] in Eq. cbn [fst snd]. assert (Hij : j < i < n) by (apply Hps; rewrite Eq; apply in_or_app; right; left; auto).
    assert (Hnot : ~ In (i, j) p). { rewrite Eq in Nps. apply NoDup_remove_2 in Nps. intros H. apply Nps. apply in_or_app. auto. }
    assert (Hnot2 : ~ In (j, i) p). { intros H. assert (In (j, i) ps) by (rewrite Eq; apply in_or_app; auto). apply Hps in H0. lia. }
    rewrite !(entry_ok n) by (auto; lia). cbn [rbind]. destruct (put_ok n m i j (mat m i j + mat m j i)%Z Sm) as (m1 & E1 & S1 & H1); [lia|lia|]. rewrite E1. cbn [rbind].
    destruct (put_ok n m1 j i 0%Z S1) as (m2 & E2 & S2 & H2); [lia|lia|]. exists m2. split; auto. split; auto. intros a b. rewrite H2, H1, !Hm.
    assert (F1 : mem (i, j) p = false) by (destruct (mem (i, j) p) eqn:X; auto; apply Hmem in X; contradiction).
    assert (F2 : mem (j, i) p = false) by (destruct (mem (j, i) p) eqn:X; auto; apply Hmem in X; contradiction).
    assert (Hsn : forall a b, mem (a, b) (p ++ [(i, j)]) = mem (a, b) p || ((i =? a) && (j =? b))) by (intros a' b'; unfold mem; rewrite existsb_app; cbn [existsb fst snd]; rewrite orb_false_r; auto).
    rewrite F1, F2, !Hsn. clearbody mem.
    destruct (Nat.eqb_spec a j), (Nat.eqb_spec b i), (Nat.eqb_spec a i), (Nat.eqb_spec b j), (Nat.eqb_spec i a), (Nat.eqb_spec j b), (Nat.eqb_spec i b), (Nat.eqb_spec j a); subst; try lia; cbn [andb orb];
      rewrite ?F1, ?F2, ?orb_true_r, ?orb_false_r; cbn [orb]; auto.
  - exists l. split; auto. split; auto. intros i j Hi Hj. rewrite HL. cbn [app]. destruct (mem (i, j) ps) eqn:X.
    + apply Hmem, Hps in X. destruct (Nat.ltb_spec j i); [auto|lia].
    + assert (Y : ~ j < i) by (intros Y; assert (mem (i, j) ps = true) by (apply Hmem, Hps; lia); congruence). destruct (Nat.ltb_spec j i); [lia|].
      destruct (mem (j, i) ps) eqn:Z.
      * apply Hmem, Hps in Z. destruct (Nat.ltb_spec i j); [auto|lia].
      * destruct (Nat.ltb_spec i j); auto. assert (mem (j, i) ps = true) by (apply Hmem, Hps; lia). congruence.
Qed.
Lemma uval_lower n l x : lower n l -> uval n l x = quadratic n l x.
Proof.
  intros [_ H]. apply zsum_ext. intros i _. apply zsum_ext. intros j _. unfold lower_part. destruct (Nat.leb_spec j i); auto. rewrite H by auto. lia.
Qed.
Theorem normalise_ok n q : square_matrix n q -> exists l, ubqp_normalise n q = Ok l /\ lower n l /\ forall x, quadratic n l x = quadratic n q x.
Proof.
  intros SQ. destruct (ubqp_normalise_ok n q SQ) as (l & E & SL & HL). exists l. split; auto.
  assert (Low : lower n l).
  { split; auto. intros i j Hij. destruct (Nat.lt_ge_cases j n) as [Hj|Hj].
    - rewrite HL by lia. destruct (Nat.ltb_spec j i); [lia|]. destruct (Nat.ltb_spec i j); [auto|lia].
    - unfold mat. apply nth_overflow. destruct SL as [L F]. rewrite Forall_forall in F. destruct (Nat.lt_ge_cases i n) as [Hi|Hi]; [rewrite F; [auto|apply nth_In; lia]|].
      rewrite nth_overflow by lia. cbn. lia. }
  split; auto. intros x. unfold quadratic.
  set (up := fun i j => if i <? j then (val x i * mat q i j * val x j)%Z else 0%Z).
  set (lo := fun i j => if i <? j then 0%Z else (val x i * mat q i j * val x j)%Z).
  assert (E1 : zsum (seq 0 n) (fun i => zsum (seq 0 n) (fun j => val x i * mat q i j * val x j)%Z) = (zsum (seq 0 n) (fun i => zsum (seq 0 n) (lo i)) + zsum (seq 0 n) (fun i => zsum (seq 0 n) (up i)))%Z).
  { rewrite <- zsum_add. apply zsum_ext. intros i _. rewrite <- zsum_add. apply zsum_ext. intros j _. unfold lo, up. destruct (i <? j); lia. }
  rewrite E1, (zsum_swap (seq 0 n) (seq 0 n) up), <- zsum_add. apply zsum_ext. intros i Hi. rewrite <- zsum_add. apply zsum_ext. intros j Hj. apply in_seq in Hi, Hj.
  rewrite HL by lia. unfold lo, up. destruct (Nat.ltb_spec j i), (Nat.ltb_spec i j); lia.
Qed.
Theorem ubqp_eval_quadratic n l x : lower n l -> length x = n -> ubqp_eval n l x = Ok (quadratic n l x).
Proof. intros HL Lx. rewrite ubqp_eval_uval by (auto; apply HL). f_equal. apply uval_lower. auto. Qed.

(** ** QAP *)
Section Qap.
Variables (n : nat) (a b : list (list Z)).
Hypothesis SA : square_matrix n a.
Hypothesis SB : square_matrix n b.
Definition assigned (p : list nat) : Prop := length p = n /\ forall k, In k p -> k < n.
Lemma qap_eval_ok p : assigned p -> qap_eval n a b p = Ok (assignment_cost n a b p).
Proof.
  intros [L H]. assert (Hp : forall i, i < n -> nth i p 0 < n) by (intros i Hi; apply H, nth_In; lia).
  unfold qap_eval, assignment_cost. rewrite (for_in_sum _ (fun i => zsum (seq 0 n) (fun j => mat a i j * mat b (nth i p 0%nat) (nth j p 0%nat))%Z)); [reflexivity|].
  intros i acc Hi. apply in_seq in Hi. rewrite (for_in_sum _ (fun j => mat a i j * mat b (nth i p 0%nat) (nth j p 0%nat))%Z); [reflexivity|].
  intros j acc' Hj. apply in_seq in Hj. rewrite (entry_ok n), (gene_ok p i 0), (gene_ok p j 0) by (auto; lia). cbn [rbind]. rewrite (entry_ok n) by (auto; apply Hp; lia). reflexivity.
Qed.
Theorem qap_incr_ok s i j : assigned (geno s) -> i < n -> j < n -> i <> j -> fit s = Some (assignment_cost n a b (geno s)) ->
  exists p', swap_move nat (i, j) (geno s) = Ok p' /\ assigned p' /\ qap_incr n a b s (i, j) = qap_eval n a b p'.
Proof.
  intros [L H] Hi Hj Hij Hf. set (p := geno s) in *. assert (Hp : forall k, k < n -> nth k p 0 < n) by (intros k Hk; apply H, nth_In; lia).
  destruct (swap_at_total p i j) as (p' & E); [lia|lia|]. assert (L' := swap_at_length _ _ _ _ E). assert (PM := swap_at_perm _ _ _ _ E).
  exists p'. split; [unfold swap_move; cbn; rewrite E; auto|].
  assert (A' : assigned p'). { split; [congruence|]. intros k Hk. apply H. eapply Permutation.Permutation_in; eauto. }
  split; auto. rewrite qap_eval_ok by auto.
  assert (V : nth i p' 0 = nth j p 0 /\ nth j p' 0 = nth i p 0 /\ forall k, k <> i -> k <> j -> nth k p' 0 = nth k p 0).
  { assert (Hn := swap_at_nth_error _ _ _ _ E).
    assert (G : forall k r, nth_error p' k = nth_error p r -> nth k p' 0 = nth r p 0).
    { intros k r Hk. destruct (nth_error p r) as [v|] eqn:Er.
      - rewrite (nth_error_nth _ _ 0 Hk), (nth_error_nth _ _ 0 Er). auto.
      - apply nth_error_None in Hk, Er. rewrite !nth_overflow; auto. }
    split; [|split].
    - apply G. rewrite Hn. destruct (Nat.eqb_spec i j); [lia|]. rewrite Nat.eqb_refl. auto.
    - apply G. rewrite Hn, Nat.eqb_refl. auto.
    - intros k Hki Hkj. apply G. rewrite Hn. destruct (Nat.eqb_spec k j); [lia|]. destruct (Nat.eqb_spec k i); [lia|auto]. }
  destruct V as (Vi & Vj & Vk). unfold qap_incr. fold p. rewrite (gene_ok p i 0), (gene_ok p j 0) by lia. cbn [rbind].
  set (P := fun k => nth k p 0). fold (P i). fold (P j). assert (HP : forall k, k < n -> P k < n) by exact Hp.
  rewrite !(entry_ok n) by auto. cbn [rbind].
  set (D := fun k => ((mat a k i - mat a k j) * (mat b (P k) (P j) - mat b (P k) (P i)) + (mat a i k - mat a j k) * (mat b (P j) (P k) - mat b (P i) (P k)))%Z).
  rewrite (for_in_sum _ (fun k => if negb (k =? i) && negb (k =? j) then D k else 0%Z)).
  - cbn [rbind]. unfold fitness. rewrite Hf. cbn [rbind]. f_equal. unfold assignment_cost.
    change (zsum (seq 0 n) (fun i0 => zsum (seq 0 n) (fun j0 => mat a i0 j0 * mat b (nth i0 p 0%nat) (nth j0 p 0%nat))%Z)) with (zsum (seq 0 n) (fun x => zsum (seq 0 n) (fun y => mat a x y * mat b (P x) (P y))%Z)).
    set (l := seq 0 n). assert (Nl : NoDup l) by apply seq_NoDup. assert (Ii : In i l) by (apply in_seq; lia).
    set (l1 := without i l). assert (N1 : NoDup l1) by (apply without_NoDup; auto). assert (Ij : In j l1) by (apply without_In; split; [apply in_seq; lia|auto]).
    set (l2 := without j l1). assert (Hl2 : forall k, In k l2 -> k <> i /\ k <> j) by (intros k Hk; apply without_In in Hk as [Hk ?]; apply without_In in Hk; split; [apply Hk|auto]).
    assert (HC : zsum l (fun k => if negb (k =? i) && negb (k =? j) then D k else 0%Z) = zsum l2 D).
    { rewrite (zsum_without i l) by auto. fold l1. rewrite (zsum_without j l1) by auto. fold l2. rewrite !Nat.eqb_refl. cbn [negb andb]. rewrite andb_false_r, !Z.add_0_l.
      apply zsum_ext. intros k Hk. apply Hl2 in Hk as [Hk1 Hk2]. destruct (Nat.eqb_spec k i), (Nat.eqb_spec k j); try lia; auto. }
    rewrite HC. clear HC.
    rewrite (zsum2_without i l (fun x y => mat a x y * mat b (P x) (P y))%Z), (zsum2_without i l (fun x y => mat a x y * mat b (nth x p' 0%nat) (nth y p' 0%nat))%Z) by auto. fold l1.
    rewrite (zsum2_without j l1 (fun x y => mat a x y * mat b (P x) (P y))%Z), (zsum2_without j l1 (fun x y => mat a x y * mat b (nth x p' 0%nat) (nth y p' 0%nat))%Z) by auto. fold l2.
    rewrite (zsum_without j l1 (fun k => mat a i k * mat b (P i) (P k) + mat a k i * mat b (P k) (P i))%Z) by auto.
    rewrite (zsum_without j l1 (fun k => mat a i k * mat b (nth i p' 0%nat) (nth k p' 0%nat) + mat a k i * mat b (nth k p' 0%nat) (nth i p' 0%nat))%Z) by auto. fold l2.
    rewrite Vi, Vj. fold (P i). fold (P j).
    rewrite (zsum_ext l2 (fun k => mat a i k * mat b (P j) (nth k p' 0%nat) + mat a k i * mat b (nth k p' 0%nat) (P j))%Z (fun k => mat a i k * mat b (P j) (P k) + mat a k i * mat b (P k) (P j))%Z)
      by (intros k Hk; apply Hl2 in Hk as [Hk1 Hk2]; rewrite (Vk k); auto).
    rewrite (zsum_ext l2 (fun k => mat a j k * mat b (P i) (nth k p' 0%nat) + mat a k j * mat b (nth k p' 0%nat) (P i))%Z (fun k => mat a j k * mat b (P i) (P k) + mat a k j * mat b (P k) (P i))%Z)
      by (intros k Hk; apply Hl2 in Hk as [Hk1 Hk2]; rewrite (Vk k); auto).
    rewrite (zsum_ext l2 (fun x => zsum l2 (fun y => mat a x y * mat b (nth x p' 0%nat) (nth y p' 0%nat))%Z) (fun x => zsum l2 (fun y => mat a x y * mat b (P x) (P y))%Z)).
    2:{ intros x Hx. apply zsum_ext. intros y Hy. apply Hl2 in Hx as [X1 X2]. apply Hl2 in Hy as [Y1 Y2]. rewrite (Vk x), (Vk y); auto. }
    assert (HD : zsum l2 D = (zsum l2 (fun k => mat a i k * mat b (P j) (P k) + mat a k i * mat b (P k) (P j)) + zsum l2 (fun k => mat a j k * mat b (P i) (P k) + mat a k j * mat b (P k) (P i))
       - zsum l2 (fun k => mat a i k * mat b (P i) (P k) + mat a k i * mat b (P k) (P i)) - zsum l2 (fun k => mat a j k * mat b (P j) (P k) + mat a k j * mat b (P k) (P j)))%Z).
    { rewrite <- zsum_add, <- !zsum_sub. apply zsum_ext. intros k _. unfold D. ring. }
    rewrite HD. ring.
  - intros k acc Hk. apply in_seq in Hk. destruct (negb (k =? i) && negb (k =? j)); [|f_equal; lia]. rewrite (gene_ok p k 0) by lia. cbn [rbind]. fold (P k).
    assert (Pk : P k < n) by (apply HP; lia). rewrite !(entry_ok n) by (auto; lia). cbn [rbind]. f_equal. unfold D. ring.
Qed.
End Qap.
