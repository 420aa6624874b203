(** Proofs on the evaluations: sums, OneMax, Royal Road. *)
From Coq Require Import List Arith Bool ZArith NArith QArith Lia.
From Verif Require Import Outcome Lib NeighModel NeighSpec NeighProofs BitsModel BitsProofs LsModel EvalModel EvalSpec.
From Coq Require Import List.
Import ListNotations.
Open Scope nat_scope.

(** ** loops and sums *)
Lemma zsum_cons {A} k (l : list A) f : zsum (k :: l) f = (f k + zsum l f)%Z.
Proof. reflexivity. Qed.
Lemma for_in_sum {A} (l : list A) (f : A -> Z) body : (forall k acc, In k l -> body k acc = Ok (acc + f k)%Z) -> forall acc, for_in l body acc = Ok (acc + zsum l f)%Z.
Proof.
  induction l as [|k l IH]; intros H acc; cbn [for_in zsum fold_right]; [f_equal; lia|].
  rewrite (H k acc) by (left; auto). cbn [rbind]. rewrite IH by (intros; apply H; right; auto). f_equal. unfold zsum. lia.
Qed.
Lemma for_in_inv {A B} (I : list A -> B -> Prop) (body : A -> B -> res B) : forall l pre acc, I pre acc ->
  (forall p x q m, pre ++ l = p ++ x :: q -> I p m -> exists m', body x m = Ok m' /\ I (p ++ [x]) m') ->
  exists m', for_in l body acc = Ok m' /\ I (pre ++ l) m'.
Proof.
  induction l as [|x l IH]; intros pre m Hm Hs; cbn [for_in].
  - rewrite app_nil_r. eauto.
  - destruct (Hs pre x l m eq_refl Hm) as (m' & E & Hm'). rewrite E. cbn [rbind].
    destruct (IH (pre ++ [x]) m' Hm') as (m2 & E2 & H2).
    + intros p y q m1 Eq. apply (Hs p y q). rewrite <- app_assoc in Eq. auto.
    + exists m2. split; auto. rewrite <- app_assoc in H2. auto.
Qed.
(** an invariant indexed by the loop counter *)
Lemma for_in_seq {B} (I : nat -> B -> Prop) (body : nat -> B -> res B) : forall len a acc, I a acc ->
  (forall k m, a <= k < a + len -> I k m -> exists m', body k m = Ok m' /\ I (S k) m') ->
  exists m', for_in (seq a len) body acc = Ok m' /\ I (a + len) m'.
Proof.
  induction len as [|len IH]; intros a m Hm Hs; cbn [seq for_in].
  - rewrite Nat.add_0_r. eauto.
  - destruct (Hs a m) as (m' & E & Hm'); [lia|auto|]. rewrite E. cbn [rbind]. destruct (IH (S a) m' Hm') as (m2 & E2 & H2).
    + intros k m1 Hk. apply Hs. lia.
    + exists m2. split; auto. rewrite <- Nat.add_succ_comm. auto.
Qed.
Lemma zsum_ext {A} (l : list A) f g : (forall k, In k l -> f k = g k) -> zsum l f = zsum l g.
Proof. induction l as [|k l IH]; intros H; auto. rewrite !zsum_cons, (H k), IH by (intros; try apply H; cbn; auto). auto. Qed.
Lemma zsum_add {A} (l : list A) f g : zsum l (fun k => f k + g k)%Z = (zsum l f + zsum l g)%Z.
Proof. induction l as [|k l IH]; auto. cbn [app]. rewrite !zsum_cons, IH. lia. Qed.
Lemma zsum_sub {A} (l : list A) f g : zsum l (fun k => f k - g k)%Z = (zsum l f - zsum l g)%Z.
Proof. induction l as [|k l IH]; auto. cbn [app]. rewrite !zsum_cons, IH. lia. Qed.
Lemma zsum_mul {A} (l : list A) c f : zsum l (fun k => c * f k)%Z = (c * zsum l f)%Z.
Proof. induction l as [|k l IH]; [cbn; lia|]. rewrite !zsum_cons, IH. lia. Qed.
Lemma zsum_0 {A} (l : list A) : zsum l (fun _ => 0%Z) = 0%Z.
Proof. induction l; cbn; auto. Qed.
Lemma zsum_app {A} (l l' : list A) f : zsum (l ++ l') f = (zsum l f + zsum l' f)%Z.
Proof. induction l as [|k l IH]; auto. cbn [app]. rewrite !zsum_cons, IH. lia. Qed.
Lemma zsum_map {A B} (h : A -> B) l f : zsum (map h l) f = zsum l (fun k => f (h k)).
Proof. induction l as [|k l IH]; auto. cbn [map]. rewrite !zsum_cons, IH. auto. Qed.
Lemma zsum_swap {A B} (l : list A) (l' : list B) f : zsum l (fun i => zsum l' (f i)) = zsum l' (fun j => zsum l (fun i => f i j)).
Proof.
  induction l as [|k l IH]; [cbn; symmetry; apply zsum_0|].
  change (zsum (k :: l) (fun i => zsum l' (f i))) with (zsum l' (f k) + zsum l (fun i => zsum l' (f i)))%Z. rewrite IH, <- zsum_add. apply zsum_ext. auto.
Qed.
Definition without (i : nat) (l : list nat) : list nat := filter (fun k => negb (k =? i)) l.
Lemma without_In i k l : In k (without i l) <-> In k l /\ k <> i.
Proof. unfold without. rewrite filter_In. destruct (Nat.eqb_spec k i); cbn; intuition congruence. Qed.
Lemma without_NoDup i l : NoDup l -> NoDup (without i l).
Proof. apply NoDup_filter. Qed.
Lemma without_same i l : ~ In i l -> without i l = l.
Proof.
  unfold without. induction l as [|k l IH]; intros H; cbn; auto. destruct (Nat.eqb_spec k i) as [->|]; cbn.
  - destruct H. left. auto.
  - rewrite IH; auto. intros Hi. apply H. right. auto.
Qed.
Lemma zsum_without i l f : NoDup l -> In i l -> zsum l f = (f i + zsum (without i l) f)%Z.
Proof.
  induction l as [|k l IH]; intros N H; [destruct H|]. inversion N as [|? ? N1 N2]; subst. cbn [without filter]. destruct (Nat.eqb_spec k i) as [->|Hk]; cbn [negb].
  - change (filter (fun k => negb (k =? i)) l) with (without i l). rewrite without_same by auto. reflexivity.
  - destruct H as [->|H]; [contradiction|]. cbn [zsum fold_right]. specialize (IH N2 H). unfold zsum, without in *. rewrite IH. lia.
Qed.
(** a double sum, one row and column apart *)
Lemma zsum2_without i l (f : nat -> nat -> Z) : NoDup l -> In i l ->
  zsum l (fun a => zsum l (f a)) = (f i i + zsum (without i l) (fun k => f i k + f k i) + zsum (without i l) (fun a => zsum (without i l) (f a)))%Z.
Proof.
  intros N H. rewrite (zsum_without i l) by auto. rewrite (zsum_without i l (f i)) by auto.
  rewrite (zsum_ext (without i l) (fun a => zsum l (f a)) (fun a => f a i + zsum (without i l) (f a))%Z) by (intros; apply zsum_without; auto).
  rewrite !zsum_add. lia.
Qed.

(** ** reading *)
Lemma gene_ok {A} (x : list A) i d : i < length x -> gene x i = Ok (nth i x d).
Proof. intros H. unfold gene. rewrite (nth_error_nth' x d H). auto. Qed.
Lemma gene_inv {A} (x : list A) i v : gene x i = Ok v -> i < length x /\ forall d, nth i x d = v.
Proof. unfold gene. intros H. apply of_opt_ok in H. split; [eapply nth_error_lt; eauto|]. intros d. apply nth_error_nth. auto. Qed.
Lemma entry_ok n (q : list (list Z)) i j : square_matrix n q -> i < n -> j < n -> entry q i j = Ok (mat q i j).
Proof.
  intros [L F] Hi Hj. unfold entry, mat. rewrite (nth_error_nth' q []) by lia. cbn [obind]. rewrite Forall_forall in F.
  rewrite (nth_error_nth' _ 0%Z); auto. rewrite F; auto. apply nth_In. lia.
Qed.
(** the effect of flipping a bit *)
Lemma flip_ok x i : i < length x -> exists x', bit_move i x = Ok x' /\ length x' = length x /\
  (forall k, nth k x' false = if k =? i then negb (nth k x false) else nth k x false) /\ bit_move i x' = Ok x.
Proof.
  intros H. destruct (bit_move_ok i x H) as (x' & E & L & N & B). exists x'. split; auto. split; auto. split; auto. intros k.
  destruct (Nat.lt_ge_cases k (length x)) as [Hk|Hk].
  - specialize (N k). rewrite (nth_error_nth' x' false), (nth_error_nth' x false) in N by lia. destruct (k =? i); cbn in N; congruence.
  - rewrite !nth_overflow by lia. destruct (Nat.eqb_spec k i); auto. lia.
Qed.
Lemma val_flip x x' i : (forall k, nth k x' false = if k =? i then negb (nth k x false) else nth k x false) ->
  val x' i = (1 - val x i)%Z /\ forall k, k <> i -> val x' k = val x k.
Proof.
  intros H. unfold val. split.
  - rewrite H, Nat.eqb_refl. destruct (nth i x false); reflexivity.
  - intros k Hk. rewrite H. destruct (Nat.eqb_spec k i); congruence.
Qed.
Lemma val_01 x i : val x i = 0%Z \/ val x i = 1%Z.
Proof. unfold val. destruct (nth i x false); auto. Qed.

(** ** OneMax *)
Lemma onemax_eval_ok x : onemax_eval x = Ok (ones x).
Proof.
  unfold onemax_eval, ones. rewrite (for_in_sum _ (val x)); [reflexivity|]. intros k acc Hk. apply in_seq in Hk. rewrite (gene_ok x k false) by lia. reflexivity.
Qed.
Theorem onemax_incr_ok s i : i < length (geno s) -> fit s = Some (ones (geno s)) ->
  exists x', bit_move i (geno s) = Ok x' /\ onemax_incr s i = onemax_eval x'.
Proof.
  intros Hi Hf. destruct (flip_ok (geno s) i Hi) as (x' & E & L & Hx & _). exists x'. split; auto. destruct (val_flip _ _ _ Hx) as [V1 V2].
  rewrite onemax_eval_ok. unfold onemax_incr. rewrite (gene_ok _ i false) by auto. cbn [rbind]. unfold fitness. rewrite Hf. cbn [rbind].
  assert (N : NoDup (seq 0 (length (geno s)))) by apply seq_NoDup. assert (I : In i (seq 0 (length (geno s)))) by (apply in_seq; lia).
  unfold ones. rewrite L, (zsum_without i _ (val (geno s))), (zsum_without i _ (val x')) by auto.
  rewrite (zsum_ext (without i _) (val x') (val (geno s))) by (intros k Hk; apply without_In in Hk; apply V2; apply Hk).
  rewrite V1. replace (val (geno s) i) with (Z.b2z (nth i (geno s) false)) by reflexivity. destruct (nth i (geno s) false); cbn [Z.b2z]; f_equal; lia.
Qed.
Lemma bits_flip : forall bits x, (forall b, In b bits -> b < length x) -> NoDup bits -> exists x', bits_move bits x = Ok x' /\ length x' = length x /\
  forall k, nth k x' false = if existsb (Nat.eqb k) bits then negb (nth k x false) else nth k x false.
Proof.
  induction bits as [|b bits IH]; intros x Hb N; cbn [bits_move]; [exists x; auto|]. inversion N as [|? ? N1 N2]; subst.
  destruct (flip_ok x b) as (x1 & E & L & Hx & _); [apply Hb; left; auto|]. rewrite E. cbn [rbind].
  destruct (IH x1) as (x2 & E2 & L2 & H2); auto; [intros c Hc; rewrite L; apply Hb; right; auto|]. exists x2. split; auto. split; [congruence|].
  intros k. rewrite H2, Hx. cbn [existsb]. destruct (Nat.eqb_spec k b) as [->|Hk]; cbn; auto.
  destruct (existsb (Nat.eqb b) bits) eqn:Ex; auto. apply existsb_exists in Ex as (c & Hc & Ec). apply Nat.eqb_eq in Ec. subst c. contradiction.
Qed.
Theorem onemax_bits_ok s bits : (forall b, In b bits -> b < length (geno s)) -> NoDup bits -> fit s = Some (ones (geno s)) ->
  exists x', bits_move bits (geno s) = Ok x' /\ onemax_bits_incr s bits = onemax_eval x'.
Proof.
  intros Hb N Hf. destruct (bits_flip bits (geno s) Hb N) as (x' & E & L & Hx). exists x'. split; auto. rewrite onemax_eval_ok.
  unfold onemax_bits_incr. rewrite (for_in_sum _ (fun b => 1 - 2 * val (geno s) b)%Z).
  - cbn [rbind]. unfold fitness. rewrite Hf. cbn [rbind]. f_equal. unfold ones. rewrite L.
    assert (Hs : forall l, NoDup l -> (forall b, In b bits -> In b l) -> (zsum l (val x') = zsum l (val (geno s)) + zsum bits (fun b => 1 - 2 * val (geno s) b))%Z).
    { clear Hb E L Hf. revert Hx. generalize (geno s). clear s. intros x Hx.
      assert (Hval : forall k, val x' k = (val x k + if existsb (Nat.eqb k) bits then 1 - 2 * val x k else 0)%Z).
      { intros k. unfold val. rewrite Hx. destruct (existsb (Nat.eqb k) bits); destruct (nth k x false); reflexivity. }
      intros l Nl Hsub. rewrite (zsum_ext l (val x') _ (fun k _ => Hval k)), zsum_add. f_equal. clear Hval Hx.
      revert l Nl Hsub. induction N as [|b bits N1 N2 IH]; intros l Nl Hsub; [apply zsum_0|].
      rewrite (zsum_without b) by (auto; apply Hsub; left; auto). cbn [existsb]. rewrite Nat.eqb_refl. cbn [orb]. cbn [zsum fold_right]. f_equal.
      rewrite (zsum_ext _ _ (fun k => if existsb (Nat.eqb k) bits then 1 - 2 * val x k else 0)%Z).
      - apply IH; [apply without_NoDup; auto|]. intros c Hc. apply without_In. split; [apply Hsub; right; auto|]. intros ->. contradiction.
      - intros k Hk. apply without_In in Hk. destruct (Nat.eqb_spec k b); [lia|]. reflexivity. }
    rewrite Hs; [lia|apply seq_NoDup|]. intros b Hbb. apply in_seq. specialize (Hb b Hbb). lia.
  - intros b acc Hbb. rewrite (gene_ok _ b false) by auto. cbn [rbind]. unfold val. destruct (nth b (geno s) false); cbn [Z.b2z]; f_equal; lia.
Qed.
