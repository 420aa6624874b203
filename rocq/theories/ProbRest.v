(** The building-block royal road and the instances of NK landscapes. *)
From Coq Require Import ZArith QArith List Arith Bool Lia Lqa.
From Verif Require Import Lib Outcome EvalModel EvalSpec EvalProofs EvalQap EvalNk ProbModel ProbSpec ProbPath.
From Coq Require Import List.
Import ListNotations.
Open Scope nat_scope.

(** *** building blocks *)
Lemma hamming_firstn_S : forall x y j a b, nth_error x j = Some a -> nth_error y j = Some b ->
  hamming (firstn (S j) x) (firstn (S j) y) = (if Bool.eqb a b then 0 else 1) + hamming (firstn j x) (firstn j y).
Proof.
  induction x as [|u x IH]; intros [|v y] [|j] a b Ea Eb; cbn [nth_error] in Ea, Eb; try discriminate.
  - injection Ea as ->. injection Eb as ->. cbn. lia.
  - specialize (IH y j a b Ea Eb). cbn [firstn hamming] in IH |- *. rewrite IH. lia.
Qed.
Lemma block_nth : forall k i x j, j < k -> nth_error (block k i x) j = nth_error x (i * k + j).
Proof. intros k i x j H. unfold block. rewrite firstn_nth_error by auto. apply skipn_nth_error. Qed.
Lemma block_length : forall b k i x, b * k <= length x -> i < b -> length (block k i x) = k.
Proof. intros b k i x H Hi. unfold block. rewrite firstn_length, skipn_length. nia. Qed.

Lemma fold_qplus : forall {A} (f : A -> Q) l, fold_right Qplus 0%Q (map f l) = qsum l f.
Proof. induction l as [|a l IH]; auto. cbn [map fold_right]. rewrite IH. reflexivity. Qed.
Lemma fold_flat : forall {A B} (g : A -> list B) (f : A -> B -> Q) l, (fold_right Qplus 0 (flat_map (fun i => map (f i) (g i)) l) == qsum l (fun i => qsum (g i) (f i)))%Q.
Proof.
  induction l as [|a l IH]; [reflexivity|]. cbn [flat_map]. rewrite qsum_cons, <- IH.
  generalize (flat_map (fun i => map (f i) (g i)) l) as r. intros r. rewrite <- (fold_qplus (f a)). induction (map (f a) (g a)) as [|q s IHs]; cbn [app fold_right]; [lra|rewrite IHs; lra].
Qed.
Lemma qsum_nth : forall {A} (d : A) (f : A -> Q) l, (qsum (seq 0 (length l)) (fun t => f (nth t l d)) == qsum l f)%Q.
Proof.
  intros A d f l. induction l as [|a l IH]; [reflexivity|]. cbn [length seq]. rewrite !qsum_cons. cbn [nth]. rewrite <- seq_shift, qsum_map. cbn [nth]. rewrite IH. reflexivity.
Qed.
Lemma block_distance : forall (k i : nat) (x t : list bool), length (block k i x) = k -> length t = k ->
  for_in (seq 0 k) (fun j d => let! a := gene x (i * k + j) in let! c := of_opt (nth_error t j) in Ok (if Bool.eqb a c then d else S d)) 0 = Ok (hamming (block k i x) t).
Proof.
  intros k i x t Hb Ht.
  destruct (for_in_seq (fun j d => d = hamming (firstn j (block k i x)) (firstn j t)) (fun j d => let! a := gene x (i * k + j) in let! c := of_opt (nth_error t j) in Ok (if Bool.eqb a c then d else S d)) k 0 0) as (m & E & Em).
  - reflexivity.
  - intros j d Hj ->. unfold gene. rewrite <- block_nth by lia.
    destruct (nth_error (block k i x) j) as [a|] eqn:Ea; [|apply nth_error_None in Ea; lia]. destruct (nth_error t j) as [c|] eqn:Ec; [|apply nth_error_None in Ec; lia].
    cbn [of_opt rbind]. eexists. split; [reflexivity|]. rewrite (hamming_firstn_S _ _ _ _ _ Ea Ec). destruct (Bool.eqb a c); auto.
  - rewrite E, Em. cbn [Nat.add]. rewrite !firstn_all2 by lia. auto.
Qed.
Theorem bb_ok : forall b k tws x, b * k <= length x -> (forall tw, In tw tws -> length (fst tw) = k) ->
  exists v, bb_eval (fold_left (fun p tw => add_target p (fst tw) (snd tw)) tws (Bb b k [] [])) x = Ok v /\ (v == bb_value b k tws x)%Q.
Proof.
  intros b k tws x Hx Ht.
  assert (fold_left (fun p tw => add_target p (fst tw) (snd tw)) tws (Bb b k [] []) = Bb b k (map fst tws) (map snd tws)) as ->.
  { assert (forall l ts ws, fold_left (fun p tw => add_target p (fst tw) (snd tw)) l (Bb b k ts ws) = Bb b k (ts ++ map fst l) (ws ++ map snd l)) as H.
    { induction l as [|a l IH]; intros ts ws; cbn [fold_left map]; [rewrite !app_nil_r; auto|]. unfold add_target at 2. cbn [bb_b bb_k bb_targets bb_weights]. rewrite IH, <- !app_assoc. auto. }
    apply H. }
  unfold bb_eval. cbn [bb_b bb_k bb_targets bb_weights]. rewrite map_length.
  destruct (for_in_qsum (fun p sum =>
      let! d := for_in (seq 0 k) (fun j d => let! a := gene x (fst p * k + j) in let! c := entry (map fst tws) (snd p) j in Ok (if Bool.eqb a c then d else S d)) 0 in
      if d =? 0 then let! w := gene (map snd tws) (snd p) in Ok (sum + w)%Q else Ok (sum + 1 / (1 + inject_Z (Z.of_nat d)))%Q)
    (fun p => block_value (block k (fst p) x) (nth (snd p) tws ([], 0%Q))) (flat_map (fun i => map (pair i) (seq 0 (length tws))) (seq 0 b)) 0%Q) as (v & E & Ev).
  - intros [i t] acc Hin. cbn [fst snd]. apply in_flat_map in Hin as (i' & Hi & Hin). apply in_map_iff in Hin as (t' & E & Hin). injection E as -> ->. apply in_seq in Hi, Hin.
    destruct (nth_error tws t) as [[tg w]|] eqn:E; [|apply nth_error_None in E; lia].
    pose proof (block_length b k i x Hx ltac:(lia)) as Lb. pose proof (Ht _ (nth_error_In _ _ E)) as Lt. cbn [fst] in Lt.
    assert (forall d, for_in (seq 0 k) (fun j d => let! a := gene x (i * k + j) in let! c := entry (map fst tws) t j in Ok (if Bool.eqb a c then d else S d)) d =
      for_in (seq 0 k) (fun j d => let! a := gene x (i * k + j) in let! c := of_opt (nth_error tg j) in Ok (if Bool.eqb a c then d else S d)) d) as Ee.
    { intros d. generalize (seq 0 k) as l. intros l. revert d. induction l as [|j l IH]; intros d; cbn [for_in]; auto. unfold entry at 1. rewrite nth_error_map, E. cbn [option_map obind fst].
      destruct (gene x (i * k + j)); cbn [rbind]; auto. destruct (nth_error tg j); cbn [of_opt rbind]; auto. }
    rewrite Ee, block_distance by auto. cbn [rbind]. unfold block_value. erewrite (nth_error_nth tws t) by eauto. cbn [fst snd].
    unfold gene. rewrite nth_error_map, E. cbn [option_map of_opt rbind snd].
    destruct (list_eq_dec bool_dec (block k i x) tg) as [->|Hn]; [rewrite hamming_refl; auto|].
    destruct (Nat.eqb_spec (hamming (block k i x) tg) 0) as [Hz|_]; auto. destruct Hn. apply hamming_zero; auto. congruence.
  - exists v. split.
    + etransitivity; [|exact E]. etransitivity; [refine (for_in_nested (fun _ => seq 0 (length tws)) (fun i t sum =>
        let! d := for_in (seq 0 k) (fun j d => let! a := gene x (i * k + j) in let! c := entry (map fst tws) t j in Ok (if Bool.eqb a c then d else S d)) 0 in
        if d =? 0 then let! w := gene (map snd tws) t in Ok (sum + w)%Q else Ok (sum + 1 / (1 + inject_Z (Z.of_nat d)))%Q) (seq 0 b) 0%Q)|].
      reflexivity.
    + rewrite Ev, Qplus_0_l. unfold bb_value. rewrite qsum_flat_map, fold_flat. apply qsum_ext. intros i _. rewrite qsum_map. cbn [fst snd]. apply qsum_nth.
Qed.
Lemma hamming_pos : forall x y, length x = length y -> x <> y -> 1 <= hamming x y.
Proof. intros x y L H. destruct (Nat.eq_dec (hamming x y) 0) as [E|]; [|lia]. destruct H. apply hamming_zero; auto. Qed.
Lemma half_bound : forall h, (1 <= h)%nat -> (1 / (1 + inject_Z (Z.of_nat h)) <= 1 # 2)%Q.
Proof.
  intros h H. apply Qle_shift_div_r.
  - assert (0 <= inject_Z (Z.of_nat h))%Q by (change 0%Q with (inject_Z 0); rewrite <- Zle_Qle; lia). lra.
  - assert (inject_Z 1 <= inject_Z (Z.of_nat h))%Q by (rewrite <- Zle_Qle; lia). change (inject_Z 1) with 1%Q in *. lra.
Qed.
(** one target, worth more than a half: the best strings are those whose blocks all are the target *)
Theorem bb_best : forall b k t w x, b * k <= length x -> length t = k -> ((1 # 2) < w)%Q ->
  (bb_value b k [(t, w)] x <= inject_Z (Z.of_nat b) * w)%Q /\
  ((bb_value b k [(t, w)] x == inject_Z (Z.of_nat b) * w)%Q <-> forall i, i < b -> block k i x = t).
Proof.
  intros b k t w x Hx Ht Hw. assert (Hv : forall i, i < b -> (block_value (block k i x) (t, w) <= w)%Q /\ (block k i x <> t -> block_value (block k i x) (t, w) < w)%Q).
  { intros i Hi. unfold block_value. cbn [fst snd]. destruct (list_eq_dec bool_dec (block k i x) t) as [E|Hn]; [split; [lra|congruence]|].
    pose proof (half_bound (hamming (block k i x) t) (hamming_pos _ _ (eq_trans (block_length b k i x Hx Hi) (eq_sym Ht)) Hn)). split; [|intros _]; lra. }
  unfold bb_value. clear Hx. assert (K : forall l, (forall i, In i l -> i < b) ->
    (fold_right Qplus 0 (flat_map (fun i => map (block_value (block k i x)) [(t, w)]) l) <= inject_Z (Z.of_nat (length l)) * w)%Q /\
    ((fold_right Qplus 0 (flat_map (fun i => map (block_value (block k i x)) [(t, w)]) l) == inject_Z (Z.of_nat (length l)) * w)%Q <-> forall i, In i l -> block k i x = t)).
  { induction l as [|i l IH]; intros Hl; cbn [flat_map map app fold_right length].
    - assert (0 == inject_Z (Z.of_nat 0) * w)%Q as E0 by reflexivity. split; [rewrite <- E0; apply Qle_refl|]. split; [intros _ i []|intros _; exact E0].
    - destruct IH as [I1 I2]; [intros; apply Hl; right; auto|]. destruct (Hv i (Hl i (or_introl eq_refl))) as [V1 V2].
      rewrite Nat2Z.inj_succ, <- Z.add_1_l, inject_Z_plus. change (inject_Z 1) with 1%Q. rewrite Qmult_plus_distr_l, Qmult_1_l. cbn [map] in I1, I2. split; [lra|]. split.
      + intros E j [<-|Hj].
        * destruct (list_eq_dec bool_dec (block k i x) t) as [|Hn]; auto. specialize (V2 Hn). lra.
        * apply I2; auto. lra.
      + intros H. assert (block_value (block k i x) (t, w) == w)%Q as ->. { unfold block_value. cbn [fst snd]. rewrite (H i (or_introl eq_refl)). destruct (list_eq_dec bool_dec t t); [reflexivity|congruence]. }
        rewrite (proj2 I2) by (intros; apply H; right; auto). lra. }
  destruct (K (seq 0 b)) as [K1 K2]; [intros i Hi; apply in_seq in Hi; lia|]. rewrite seq_length in *. split; auto. rewrite K2. split; intros H i Hi; [apply H, in_seq; lia|apply H; apply in_seq in Hi; lia].
Qed.

(** *** tables *)
Lemma gen_row_ok : forall {D} (c : D -> res (option Q * D)) (Inv : D -> Prop) (R : option Q -> Prop),
  (forall d v d', c d = Ok (v, d') -> Inv d -> R v /\ Inv d') ->
  forall n d r d', gen_row c n d = Ok (r, d') -> Inv d -> length r = n /\ Forall R r /\ Inv d'.
Proof.
  intros D c Inv R Hc. induction n as [|n IH]; intros d r d' H Hd; cbn [gen_row] in H; [injection H as <- <-; auto|].
  apply rbind_ok in H as ([v d1] & H1 & H). apply rbind_ok in H as ([r1 d2] & H2 & H). injection H as <- <-.
  destruct (Hc _ _ _ H1 Hd) as [Hv Hd1]. destruct (IH _ _ _ H2 Hd1) as (L & F1 & Hd2). cbn. auto.
Qed.
Lemma gen_tables_ok : forall {D} (c : D -> res (option Q * D)) (Inv : D -> Prop) (R : option Q -> Prop),
  (forall d v d', c d = Ok (v, d') -> Inv d -> R v /\ Inv d') ->
  forall n k d t d', gen_tables c n k d = Ok (t, d') -> Inv d -> length t = n /\ (forall r, In r t -> length r = 2 ^ S k /\ Forall R r) /\ Inv d'.
Proof.
  intros D c Inv R Hc. induction n as [|n IH]; intros k d t d' H Hd; cbn [gen_tables] in H; [injection H as <- <-; cbn; repeat split; auto; contradiction|].
  apply rbind_ok in H as ([v d1] & H1 & H). apply rbind_ok in H as ([r1 d2] & H2 & H). injection H as <- <-.
  destruct (gen_row_ok c Inv R Hc _ _ _ _ H1 Hd) as (L & Hv & Hd1). destruct (IH _ _ _ _ H2 Hd1) as (L2 & F1 & Hd2). rewrite Nat.add_1_r in L. cbn [length]. split; [auto|]. split; auto.
  intros r [<-|Hr]; auto.
Qed.
Lemma all_some : forall {A} (R : A -> Prop) (r : list (option A)), Forall (fun o => exists v, o = Some v /\ R v) r -> exists vs, r = map Some vs /\ Forall R vs.
Proof. induction r as [|o r IH]; intros H; [exists []; auto|]. inversion H as [|? ? (v & -> & Hv) H2]; subst. destruct (IH H2) as (vs & -> & Hvs). exists (v :: vs). auto. Qed.
(** a table of numbers, each [R] *)
Lemma numbers : forall (R : Q -> Prop) n k t, length t = n -> (forall r, In r t -> length r = 2 ^ S k /\ Forall (fun o => exists v, o = Some v /\ R v) r) ->
  exists ts, t = map (map Some) ts /\ tables_ok n k ts /\ forall row v, In row ts -> In v row -> R v.
Proof.
  intros R n k t <- H. induction t as [|r t IH].
  - exists []. split; auto. split; [split; auto; intros ? []|intros ? ? []].
  - destruct IH as (ts & -> & [H1 H2] & H3); [intros; apply H; right; auto|]. destruct (H r (or_introl eq_refl)) as [L F]. destruct (all_some R r F) as (vs & -> & Hvs).
    rewrite map_length in *. exists (vs :: ts). split; auto. split; [split|].
    + cbn [length]. rewrite map_length. auto.
    + intros u [<-|Hu]; auto.
    + intros row v [<-|Hr] Hin; eauto. eapply Forall_forall; eauto.
Qed.
(** values between 0 and 1 *)
Lemma nk_unit : forall n k ls ts x, 0 < n -> links_ok n k ls -> tables_ok n k ts -> (forall row v, In row ts -> In v row -> (0 <= v <= 1)%Q) -> length x = n ->
  exists v, nk_eval (Nk n k ls ts) x = Ok v /\ (0 <= v <= 1)%Q.
Proof.
  intros n k ls ts x Hn Hl Ht Hv Hx. destruct (nk_eval_ok n k ls ts Hl Ht x Hx) as (v & E & Ev). exists v. split; auto. rewrite Ev. unfold nk_value.
  assert (0 < inject_Z (Z.of_nat n))%Q as Hp by (change 0%Q with (inject_Z 0); rewrite <- Zlt_Qlt; lia).
  assert (forall l, (0 <= qsum l (fun i => nth (N.to_nat (mask (nth i ls []) x)) (nth i ts []) 0%Q) <= inject_Z (Z.of_nat (length l)))%Q) as K.
  { induction l as [|i l IH]; [split; apply Qle_refl|]. rewrite qsum_cons. cbn [length]. rewrite Nat2Z.inj_succ, <- Z.add_1_l, inject_Z_plus. change (inject_Z 1) with 1%Q.
    assert (0 <= nth (N.to_nat (mask (nth i ls []) x)) (nth i ts []) 0 <= 1)%Q; [|lra].
    set (p := N.to_nat (mask (nth i ls []) x)). clearbody p. destruct (lt_dec i (length ts)) as [Hi|Hi]; [|rewrite (nth_overflow ts) by lia; destruct p; cbn; lra].
    destruct (lt_dec p (length (nth i ts []))) as [Hp2|Hp2]; [|rewrite nth_overflow by lia; lra]. eapply Hv; [apply nth_In; eauto|apply nth_In; auto]. }
  specialize (K (seq 0 n)). rewrite seq_length in K. split; [apply Qle_shift_div_l; auto; lra|apply Qle_shift_div_r; auto; lra].
Qed.
Definition uniform_draws (us : list Q) : Prop := Forall (fun u => 0 <= u < 1)%Q us.
Lemma draw_uniform_ok : forall us u us', draw_uniform us = Ok (u, us') -> uniform_draws us -> (0 <= u < 1)%Q /\ uniform_draws us'.
Proof. intros [|v us] u us' H Hu; cbn in H; [discriminate|]. injection H as <- <-. inversion Hu; auto. Qed.
Lemma nk_contribution_ok : forall us v us', nk_contribution us = Ok (v, us') -> uniform_draws us -> (exists q, v = Some q /\ 0 <= q <= 1)%Q /\ uniform_draws us'.
Proof. intros us v us' H Hu. unfold nk_contribution in H. apply rbind_ok in H as ([u us1] & H1 & H). injection H as <- <-. apply draw_uniform_ok in H1; auto. destruct H1. split; auto. exists u. split; auto. lra. Qed.
Lemma nkp_contribution_ok : forall p us v us', nkp_contribution p us = Ok (v, us') -> uniform_draws us -> (exists q, v = Some q /\ 0 <= q <= 1)%Q /\ uniform_draws us'.
Proof.
  intros p us v us' H Hu. unfold nkp_contribution in H. apply rbind_ok in H as ([u us1] & H1 & H). apply draw_uniform_ok in H1; auto. destruct H1 as [_ H1].
  destruct (negb (Qle_bool p u)); [injection H as <- <-; split; auto; exists 0%Q; split; auto; lra|].
  apply rbind_ok in H as ([w us2] & H2 & H). injection H as <- <-. apply draw_uniform_ok in H2; auto. destruct H2. split; auto. exists w. split; auto. lra.
Qed.
Lemma nkq_contribution_ok : forall q ds v ds', 2 <= q -> nkq_contribution q ds = Ok (v, ds') -> exists w, v = Some w /\ exists r : nat, r < q /\ w = (inject_Z (Z.of_nat r) / inject_Z (Z.of_nat (q - 1)))%Q.
Proof.
  intros q ds v ds' Hq H. unfold nkq_contribution in H. apply rbind_ok in H as ([r ds1] & H1 & H). apply draw_lt in H1; [|lia].
  destruct (Nat.eqb_spec q 0); [lia|]. destruct (Nat.eqb_spec q 1); [lia|]. injection H as <- <-. eexists. split; [reflexivity|]. eauto.
Qed.
