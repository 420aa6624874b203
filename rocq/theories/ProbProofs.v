(** The fitness of the long k-path, the queens, the building blocks, and the NK instances. *)
From Coq Require Import ZArith QArith List Arith Bool Lia Lqa.
From Verif Require Import Lib Outcome EvalModel EvalSpec EvalProofs EvalQap EvalNk ProbModel ProbSpec ProbPath.
From Coq Require Import List.
Import ListNotations.
Open Scope nat_scope.

(** *** long k-path *)
Lemma nb_zero_ok : forall x, nb_zero x = Ok (Z.of_nat (zeros x)).
Proof.
  intros x. unfold nb_zero. destruct (for_in_seq (fun i r => r = Z.of_nat (zeros (firstn i x))) (fun i r => let! b := gene x i in Ok (if b : bool then r else (r + 1)%Z)) (length x) 0 0%Z) as (m & E & Em).
  - reflexivity.
  - intros i r Hi ->. unfold gene. destruct (nth_error x i) as [b|] eqn:Eb; [|apply nth_error_None in Eb; lia]. cbn [of_opt rbind]. eexists. split; [reflexivity|].
    destruct (nth_error_split _ _ Eb) as (l1 & l2 & -> & <-).
    replace (firstn (S (length l1)) (l1 ++ b :: l2)) with (l1 ++ [b]).
    + rewrite firstn_app, Nat.sub_diag, firstn_all. cbn [firstn]. unfold zeros. rewrite !count_occ_app. destruct b; cbn; lia.
    + rewrite firstn_app, firstn_all2 by lia. replace (S (length l1) - length l1) with 1 by lia. reflexivity.
  - cbn [Nat.add] in Em. rewrite firstn_all in Em. rewrite E, Em. auto.
Qed.
Lemma path_dec : forall (p : list (list bool)) x, {In x p} + {~ In x p}.
Proof. intros. apply in_dec. apply list_eq_dec. apply Bool.bool_dec. Qed.

Section Kpath.
Variables (k m : nat).
Hypotheses (Hk : 1 <= k) (Hm : m < 31) (Hw : (Z.of_nat ((k + 1) * 2 ^ m + 1) <= 2 ^ 32 + Z.of_nat k)%Z).
Lemma Hw' : (Z.of_nat (plen k m) <= 2 ^ 32)%Z.
Proof. pose proof (plen_eq k Hk m). lia. Qed.
Theorem kp_on : forall x i, nth_error (long_path k m) i = Some x -> kp_eval k x = Ok (Z.of_nat (length x) + Z.of_nat i)%Z.
Proof.
  intros x i H. pose proof (path_length k Hk m x (nth_error_In _ _ H)) as L. unfold kp_eval.
  destruct (rank_spec k Hk m (S (length x)) x [] L ltac:(rewrite L; nia) Hm Hw') as (b & r & E & Hr). rewrite app_nil_r in E. rewrite L in *. rewrite E. cbn [rbind].
  destruct b.
  - destruct Hr as (j & -> & Hj). rewrite (path_nth_inj k Hk m _ _ _ H Hj). auto.
  - destruct Hr. eapply nth_error_In; eauto.
Qed.
Theorem kp_off : forall x, length x = 1 + m * k -> ~ In x (long_path k m) -> kp_eval k x = Ok (Z.of_nat (zeros x)).
Proof.
  intros x L H. unfold kp_eval.
  destruct (rank_spec k Hk m (S (length x)) x [] L ltac:(rewrite L; nia) Hm Hw') as (b & r & E & Hr). rewrite app_nil_r in E. rewrite L in *. rewrite E. cbn [rbind].
  destruct b.
  - destruct Hr as (j & -> & Hj). destruct H. eapply nth_error_In; eauto.
  - apply nb_zero_ok.
Qed.
Lemma zeros_le : forall x, zeros x <= length x.
Proof. intros. apply count_occ_bound. Qed.
Lemma zeros_lt : forall x, x <> repeat false (length x) -> zeros x < length x.
Proof.
  intros x H. pose proof (zeros_le x) as Hle. destruct (Nat.eq_dec (zeros x) (length x)) as [E|]; [|lia]. destruct H.
  clear Hle. induction x as [|b x IH]; auto. pose proof (zeros_le x) as Hz. unfold zeros in *. cbn in E. destruct b; cbn in E; [lia|]. cbn. f_equal. apply IH. lia.
Qed.
(** clearing a bit *)
Lemma clear_one : forall x, x <> repeat false (length x) -> exists y, length y = length x /\ hamming x y = 1 /\ zeros y = S (zeros x).
Proof.
  induction x as [|b x IH]; intros H; [destruct H; auto|]. destruct b.
  - exists (false :: x). cbn. rewrite hamming_refl. auto.
  - destruct IH as (y & L & E1 & E2); [intros E; apply H; cbn; congruence|]. exists (false :: y). cbn. rewrite L, E1. unfold zeros in *. cbn. rewrite E2. auto.
Qed.
Theorem kp_optimum : forall x, length x = 1 + m * k ->
  ((forall y v w, length y = length x -> hamming x y = 1 -> kp_eval k x = Ok v -> kp_eval k y = Ok w -> (w <= v)%Z) <-> x = last (long_path k m) []).
Proof.
  intros x L. split.
  - intros H. destruct (path_dec (long_path k m) x) as [Hin|Hout].
    + apply In_nth_error in Hin as (i & Hi). assert (Hl := nth_error_lt _ _ _ Hi). pose proof (path_last k Hk m) as El.
      destruct (Nat.eq_dec i (plen k m - 1)) as [->|Hn]; [congruence|]. exfalso.
      destruct (nth_error (long_path k m) (S i)) as [y|] eqn:Ey; [|apply nth_error_None in Ey; unfold plen in Hn; lia].
      pose proof (path_distance k Hk m _ _ _ _ Hi Ey ltac:(lia)) as Hd. pose proof (path_length k Hk m y (nth_error_In _ _ Ey)) as Ly.
      assert (hamming x y = 1) as Hh by (destruct (Nat.min_spec k (S i - i)); lia).
      pose proof (H y _ _ ltac:(congruence) Hh (kp_on _ _ Hi) (kp_on _ _ Ey)). lia.
    + exfalso. assert (x <> repeat false (length x)) as Hx.
      { intros E. apply Hout. rewrite E, L. eapply nth_error_In. apply path_first. auto. }
      destruct (clear_one x Hx) as (y & Ly & Hh & Hz). pose proof (zeros_lt x Hx) as Hlt.
      destruct (path_dec (long_path k m) y) as [Hin|Hy].
      * apply In_nth_error in Hin as (i & Hi). pose proof (H y _ _ Ly Hh (kp_off x L Hout) (kp_on _ _ Hi)). lia.
      * pose proof (H y _ _ Ly Hh (kp_off x L Hout) (kp_off y ltac:(congruence) Hy)). lia.
  - intros E y v w Ly Hh Ev Ew. pose proof (path_last k Hk m) as El. rewrite <- E in El. rewrite (kp_on _ _ El) in Ev. injection Ev as <-.
    destruct (path_dec (long_path k m) y) as [Hin|Hy].
    + apply In_nth_error in Hin as (i & Hi). assert (Hl := nth_error_lt _ _ _ Hi). rewrite (kp_on _ _ Hi) in Ew. injection Ew as <-. unfold plen. lia.
    + rewrite (kp_off y ltac:(congruence) Hy) in Ew. injection Ew as <-. pose proof (zeros_le y). lia.
Qed.
End Kpath.

(** *** the queens *)
Lemma nodup_app {A} (l1 l2 : list A) : NoDup l1 -> NoDup l2 -> (forall x, In x l1 -> ~ In x l2) -> NoDup (l1 ++ l2).
Proof.
  induction l1 as [|a l1 IH]; intros H1 H2 H; cbn; auto. inversion H1; subst. constructor.
  - rewrite in_app_iff. intros [K|K]; auto. apply (H a); cbn; auto.
  - apply IH; auto. intros x Hx. apply H. right. auto.
Qed.
Definition qpairs (n : nat) : list (nat * nat) := flat_map (fun i => map (pair i) (seq (S i) (n - S i))) (seq 0 (n - 1)).
Lemma qpairs_in : forall n i j, In (i, j) (qpairs n) <-> i < j < n.
Proof.
  intros n i j. unfold qpairs. rewrite in_flat_map. split.
  - intros (a & Ha & H). apply in_map_iff in H as (b & E & Hb). injection E as -> ->. apply in_seq in Ha, Hb. lia.
  - intros H. exists i. split; [apply in_seq; lia|]. apply in_map. apply in_seq. lia.
Qed.
Lemma qpairs_nodup : forall n, NoDup (qpairs n).
Proof.
  intros n. unfold qpairs. assert (NoDup (seq 0 (n - 1))) as H by apply seq_NoDup. induction (seq 0 (n - 1)) as [|a l IH]; cbn; [constructor|].
  inversion H; subst. apply nodup_app.
  - apply FinFun.Injective_map_NoDup; [|apply seq_NoDup]. intros u v E. congruence.
  - auto.
  - intros [u v] H1 H4. apply in_map_iff in H1 as (w & E & _). injection E as <- <-. apply in_flat_map in H4 as (c & Hc & H4). apply in_map_iff in H4 as (w' & E & _). injection E as -> _. auto.
Qed.
Lemma zsum_count : forall {A} (g : A -> bool) l, zsum l (fun p => if g p then 1%Z else 0%Z) = Z.of_nat (length (filter g l)).
Proof. induction l as [|a l IH]; auto. unfold zsum in *. cbn. rewrite IH. destruct (g a); cbn [length]; lia. Qed.
Definition threatb (q : list Z) (p : nat * nat) : bool := (Z.abs (nth (fst p) q 0 - nth (snd p) q 0) =? Z.abs (Z.of_nat (fst p) - Z.of_nat (snd p)))%Z.
Theorem queen_ok : forall q, q <> [] -> (forall r, In r q -> 0 <= r <= 2 ^ 32 - Z.of_nat (length q))%Z -> exists c, queen_eval q = Ok (Z.of_nat c) /\ threats q c.
Proof.
  intros q Hq Hr. exists (length (filter (threatb q) (qpairs (length q)))). split.
  - unfold queen_eval. destruct q as [|z q]; [congruence|]. set (qs := z :: q) in *.
    etransitivity; [refine (for_in_nested (fun i => seq (S i) (length qs - S i)) (fun i j fit => let! a := gene qs i in let! b := gene qs j in
        let ij := (Z.of_nat j - Z.of_nat i)%Z in
        Ok (if (w32 (a + ij) =? w32 b)%Z || (w32 (a - ij) =? w32 b)%Z then (fit + 1)%Z else fit)) (seq 0 (length qs - 1)) 0%Z)|].
    fold (qpairs (length qs)). rewrite (for_in_sum _ (fun p => if threatb qs p then 1%Z else 0%Z)).
    + rewrite zsum_count. auto.
    + intros [i j] acc Hin. apply qpairs_in in Hin. cbn [fst snd]. unfold gene.
      rewrite (nth_error_nth' qs 0%Z) by lia. rewrite (nth_error_nth' qs 0%Z) by lia. cbn [of_opt rbind]. cbv zeta.
      unfold threatb. cbn [fst snd]. pose proof (Hr _ (nth_In qs 0%Z (n := i) ltac:(lia))) as Ha. pose proof (Hr _ (nth_In qs 0%Z (n := j) ltac:(lia))) as Hb.
      set (a := nth i qs 0%Z) in *. set (b := nth j qs 0%Z) in *. clearbody a b. set (n := Z.of_nat (length qs)) in *. assert (Z.of_nat j - Z.of_nat i < n)%Z as Hn by lia.
      set (d := (Z.of_nat j - Z.of_nat i)%Z) in *. assert (0 < d)%Z as Hd by lia. replace (Z.of_nat i - Z.of_nat j)%Z with (- d)%Z by lia. rewrite Z.abs_opp, (Z.abs_eq d) by lia. clearbody d n.
      rewrite (w32_id (a + d)) by lia. rewrite (w32_id b) by lia.
      assert ((w32 (a - d) =? b)%Z = (a - d =? b)%Z) as ->.
      { destruct (Z_lt_le_dec a d) as [H|H]; [|rewrite w32_id by lia; auto]. unfold w32.
        replace (a - d)%Z with (a - d + 2 ^ 32 + (-1) * 2 ^ 32)%Z by lia. rewrite Z_mod_plus_full, Z.mod_small by lia.
        destruct (Z.eqb_spec (a - d + 2 ^ 32) b), (Z.eqb_spec (a - d + 2 ^ 32 + -1 * 2 ^ 32) b); auto; lia. }
      destruct (Z.eqb_spec (a + d) b), (Z.eqb_spec (a - d) b), (Z.eqb_spec (Z.abs (a - b)) d); cbn [orb]; f_equal; lia.
  - exists (filter (threatb q) (qpairs (length q))). split; [apply NoDup_filter, qpairs_nodup|]. split; auto.
    intros i j. rewrite filter_In, qpairs_in. unfold threatb, threat. cbn [fst snd]. rewrite Z.eqb_eq. reflexivity.
Qed.
