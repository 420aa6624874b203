(** The long k-path: its geometry, and that rank computes positions along it. *)
From Coq Require Import ZArith QArith List Arith Bool Lia.
From Verif Require Import Lib Outcome EvalModel EvalProofs ProbModel ProbSpec.
From Coq Require Import List.
Import ListNotations.
Open Scope nat_scope.

(** *** Hamming distances *)
Lemma hamming_app : forall a b x y, length a = length b -> hamming (a ++ x) (b ++ y) = hamming a b + hamming x y.
Proof.
  induction a as [|v a IH]; intros [|w b] x y E; cbn in E; try discriminate; cbn; auto.
  rewrite IH by congruence. lia.
Qed.
Lemma hamming_refl : forall x, hamming x x = 0.
Proof. induction x as [|v x IH]; cbn; auto. rewrite eqb_reflx. auto. Qed.
Lemma hamming_sym : forall x y, hamming x y = hamming y x.
Proof. induction x as [|v x IH]; intros [|w y]; cbn; auto. rewrite IH. f_equal. destruct v, w; auto. Qed.
Lemma hamming_zero : forall x y, length x = length y -> hamming x y = 0 -> x = y.
Proof.
  induction x as [|v x IH]; intros [|w y] E H; cbn in E; try discriminate; auto.
  cbn in H. destruct (Bool.eqb v w) eqn:E1; [|lia]. apply eqb_prop in E1. subst. f_equal. apply IH; [congruence|lia].
Qed.
Lemma hamming_repeat : forall v n, hamming (repeat v n) (repeat (negb v) n) = n.
Proof. induction n; cbn; auto. rewrite IHn. destruct v; auto. Qed.
Lemma hamming_ramp : forall k a b, a <= b <= k -> hamming (repeat true a ++ repeat false (k - a)) (repeat true b ++ repeat false (k - b)) = b - a.
Proof.
  intros k a b H. replace b with (a + (b - a)) at 1 by lia. rewrite repeat_app, <- app_assoc, hamming_app by auto.
  rewrite hamming_refl. replace (k - a) with ((b - a) + (k - b)) by lia. rewrite repeat_app, hamming_app by (rewrite !repeat_length; auto).
  rewrite hamming_refl. pose proof (hamming_repeat false (b - a)) as E. cbn in E. rewrite E. lia.
Qed.
Lemma ramp_zero : forall k, repeat false k = repeat true 0 ++ repeat false (k - 0).
Proof. intros. cbn. rewrite Nat.sub_0_r. auto. Qed.
Lemma ramp_all : forall k, repeat true k = repeat true k ++ repeat false (k - k).
Proof. intros. rewrite Nat.sub_diag. cbn. rewrite app_nil_r. auto. Qed.

Lemma ramp_ones : forall a b, count_occ Bool.bool_dec (repeat true a ++ repeat false b) true = a.
Proof. induction a as [|a IH]; intros b; [cbn; induction b as [|b IH]; cbn; auto|cbn; rewrite IH; auto]. Qed.

Section Path.
Variable k : nat.
Hypothesis Hk : 1 <= k.

Local Notation P := (long_path k).
Definition plen (m : nat) : nat := length (P m).

Lemma plen_S : forall m, plen (S m) = 2 * plen m + (k - 1).
Proof. intros m. unfold plen. cbn [long_path]. rewrite !app_length, !map_length, seq_length, rev_length. lia. Qed.
Lemma plen_eq : forall m, plen m + k = (k + 1) * 2 ^ m + 1.
Proof.
  induction m as [|m IH].
  - unfold plen. cbn. lia.
  - rewrite plen_S. cbn [Nat.pow]. nia.
Qed.
Lemma plen_pos : forall m, 2 <= plen m.
Proof. induction m as [|m IH]; [unfold plen; cbn; lia|rewrite plen_S; lia]. Qed.
Lemma last_nth : forall {A} (l : list A) d, l <> [] -> nth_error l (length l - 1) = Some (last l d).
Proof.
  induction l as [|a l IH]; intros d H; [congruence|]. destruct l as [|b l]; auto.
  cbn [length last]. replace (S (S (length l)) - 1) with (S (length (b :: l) - 1)) by (cbn; lia).
  cbn [nth_error]. apply IH. discriminate.
Qed.
Lemma path_last : forall m, nth_error (P m) (plen m - 1) = Some (last (P m) []).
Proof. intros m. apply last_nth. pose proof (plen_pos m) as H. unfold plen in H. destruct (P m); [cbn in H; lia|discriminate]. Qed.

(** a point of the next path: on the way out, on the bridge, or on the way back *)
Inductive place (m : nat) : nat -> list bool -> nat -> list bool -> nat -> Prop :=
| there : forall i p, nth_error (P m) i = Some p -> place m i (p ++ repeat false k) i p 0
| bridge : forall j p, nth_error (P m) (plen m - 1) = Some p -> 1 <= j < k -> place m (plen m - 1 + j) (p ++ repeat true j ++ repeat false (k - j)) (plen m - 1) p j
| back : forall i p, nth_error (P m) i = Some p -> place m (plen m + k - 1 + (plen m - 1 - i)) (p ++ repeat true k) i p k.

Lemma nth_error_rev : forall {A} (l : list A) i, i < length l -> nth_error (rev l) i = nth_error l (length l - 1 - i).
Proof.
  intros A l i H. destruct (nth_error l (length l - 1 - i)) as [a|] eqn:E.
  - rewrite (nth_error_nth' (rev l) a) by (rewrite rev_length; auto). rewrite rev_nth by auto. f_equal.
    replace (length l - S i) with (length l - 1 - i) by lia. apply nth_error_nth. auto.
  - apply nth_error_None in E. lia.
Qed.
Lemma place_iff : forall m i x, nth_error (P (S m)) i = Some x <-> exists i' p j, place m i x i' p j.
Proof.
  intros m i x. cbn [long_path].
  set (A := map (fun x0 => x0 ++ repeat false k) (P m)). set (B := map _ (seq 1 (k - 1))). set (C := map (fun x0 => x0 ++ repeat true k) (rev (P m))).
  assert (length A = plen m) as LA by (unfold A; rewrite map_length; auto).
  assert (length B = k - 1) as LB by (unfold B; rewrite map_length, seq_length; auto).
  assert (length C = plen m) as LC by (unfold C; rewrite map_length, rev_length; auto).
  split.
  - intros H. assert (i < plen m + (k - 1 + plen m)) as Hi by (assert (i < length (A ++ B ++ C)) as Hi by (apply nth_error_Some; congruence); rewrite !app_length in Hi; lia).
    destruct (le_lt_dec (plen m) i) as [H1|H1].
    + rewrite nth_error_app2 in H by lia. rewrite LA in H. destruct (le_lt_dec (k - 1) (i - plen m)) as [H2|H2].
      * rewrite nth_error_app2 in H by lia. rewrite LB in H. unfold C in H. rewrite nth_error_map in H.
        rewrite nth_error_rev in H by (fold (plen m); lia). fold (plen m) in H.
        destruct (nth_error (P m) _) as [p|] eqn:E; cbn in H; [|discriminate]. injection H as <-.
        eexists _, _, _. pose proof (back m _ _ E) as Hb.
        replace (plen m + k - 1 + _) with i in Hb by lia. exact Hb.
      * rewrite nth_error_app1 in H by lia. unfold B in H. rewrite nth_error_map, nth_error_seq' in H by lia. cbn in H. injection H as <-.
        pose proof (bridge m (S (i - plen m)) _ (path_last m) ltac:(lia)) as Hb.
        replace (plen m - 1 + S (i - plen m)) with i in Hb by (pose proof (plen_pos m); lia). eexists _, _, _. exact Hb.
    + rewrite nth_error_app1 in H by lia. unfold A in H. rewrite nth_error_map in H.
      destruct (nth_error (P m) i) as [p|] eqn:E; cbn in H; [|discriminate]. injection H as <-. eexists _, _, _. constructor. eauto.
  - intros [i' [p [j H]]]. destruct H as [i p E|j p E Hj|i p E].
    + assert (i < plen m) by (apply nth_error_Some; congruence).
      rewrite nth_error_app1 by lia. unfold A. rewrite nth_error_map, E. auto.
    + pose proof (plen_pos m). rewrite nth_error_app2 by lia. rewrite LA, nth_error_app1 by lia. unfold B. rewrite nth_error_map, nth_error_seq' by lia.
      cbn [option_map]. rewrite (path_last m) in E. injection E as <-. replace (1 + (plen m - 1 + j - plen m)) with j by lia. auto. 
    + assert (i < plen m) by (apply nth_error_Some; congruence).
      rewrite nth_error_app2 by lia. rewrite LA, nth_error_app2 by lia. rewrite LB. unfold C. rewrite nth_error_map, nth_error_rev by (fold (plen m); lia).
      fold (plen m). replace (plen m - 1 - _) with i by lia. rewrite E. auto.
Qed.

Lemma place_shape : forall m i x i' p j, place m i x i' p j ->
  nth_error (P m) i' = Some p /\ x = p ++ (repeat true j ++ repeat false (k - j)) /\ j <= k /\
  ((j = 0 /\ i = i') \/ (1 <= j < k /\ i' = plen m - 1 /\ i = plen m - 1 + j) \/ (j = k /\ i = plen m + k - 1 + (plen m - 1 - i'))).
Proof.
  intros m i x i' p j H. destruct H as [i p E|j p E Hj|i p E].
  - repeat split; auto; [rewrite <- ramp_zero; auto|lia].
  - repeat split; auto; lia.
  - repeat split; auto; rewrite <- ramp_all; auto.
Qed.

Lemma path_length : forall m x, In x (P m) -> length x = 1 + m * k.
Proof.
  induction m as [|m IH]; intros x H.
  - cbn in H. destruct H as [<-|[<-|[]]]; auto.
  - apply In_nth_error in H. destruct H as [i H]. apply place_iff in H. destruct H as [i' [p [j H]]].
    destruct (place_shape _ _ _ _ _ _ H) as [E [-> [Hj _]]]. apply nth_error_In in E. rewrite !app_length, !repeat_length, (IH _ E). cbn. lia.
Qed.

(** points a distance apart along the path *)
Theorem path_distance : forall m i j x y, nth_error (P m) i = Some x -> nth_error (P m) j = Some y -> i <= j ->
  Nat.min k (j - i) <= hamming x y <= j - i.
Proof.
  induction m as [|m IH]; intros i j x y Ex Ey Hij.
  - cbn in Ex, Ey. destruct i as [|[|i]], j as [|[|j]]; cbn in Ex, Ey; try lia;
      repeat match goal with H : Some _ = Some _ |- _ => injection H as <- | H : nth_error [] ?n = Some _ |- _ => destruct n; discriminate H end; cbn; lia.
  - apply place_iff in Ex. apply place_iff in Ey. destruct Ex as [i' [p [a Ex]]]. destruct Ey as [j' [q [b Ey]]].
    destruct (place_shape _ _ _ _ _ _ Ex) as [E1 [-> [Ha Ca]]]. destruct (place_shape _ _ _ _ _ _ Ey) as [E2 [-> [Hb Cb]]].
    assert (i' < plen m) by (apply nth_error_Some; congruence). assert (j' < plen m) by (apply nth_error_Some; congruence).
    assert (exists d, (i' <= j' /\ d = j' - i' \/ j' <= i' /\ d = i' - j') /\ hamming p q <= d /\ (hamming p q >= k \/ hamming p q >= d)) as [d [Hd [HI1 HI2]]].
    { destruct (le_lt_dec i' j') as [Hl|Hl]; [exists (j' - i'); pose proof (IH _ _ _ _ E1 E2 ltac:(lia)) as HI|exists (i' - j'); rewrite hamming_sym; pose proof (IH _ _ _ _ E2 E1 ltac:(lia)) as HI];
        (split; [lia|]); (split; [apply HI|]); destruct HI as [HI _]; destruct (Nat.min_spec k (j' - i')), (Nat.min_spec k (i' - j')); lia. }
    rewrite hamming_app.
    2:{ apply nth_error_In in E1, E2. rewrite (path_length _ _ E1), (path_length _ _ E2). auto. }
    assert (exists e, hamming (repeat true a ++ repeat false (k - a)) (repeat true b ++ repeat false (k - b)) = e /\ (a <= b /\ e = b - a \/ b <= a /\ e = a - b)) as [e [-> He]].
    { destruct (le_lt_dec a b); [rewrite hamming_ramp by lia|rewrite hamming_sym, hamming_ramp by lia]; eexists; split; eauto; lia. }
    clear IH E1 E2 Ex Ey. generalize dependent (hamming p q). intros h HI1 HI2. generalize dependent (plen m). intros n Ca Cb Hi Hj.
    assert (h + e <= j - i /\ (k <= h + e \/ j - i <= h + e)) as [G1 G2].
    { destruct Ca as [Ca|[Ca|Ca]], Cb as [Cb|[Cb|Cb]]; destruct Hd as [Hd|Hd]; destruct He as [He|He]; lia. }
    split; auto. destruct (Nat.min_spec k (j - i)) as [[? ->]|[? ->]]; lia.
Qed.

Lemma path_nth_inj : forall m i j x, nth_error (P m) i = Some x -> nth_error (P m) j = Some x -> i = j.
Proof.
  intros m i j x E1 E2. destruct (le_lt_dec i j).
  - pose proof (path_distance _ _ _ _ _ E1 E2 ltac:(lia)) as H. rewrite hamming_refl in H. lia.
  - pose proof (path_distance _ _ _ _ _ E2 E1 ltac:(lia)) as H. rewrite hamming_refl in H. lia.
Qed.
Theorem path_nodup : forall m, NoDup (P m).
Proof. intros m. apply NoDup_nth_error. intros i j Hi E. destruct (nth_error (P m) i) as [x|] eqn:Ei; [|apply nth_error_None in Ei; lia]. eapply path_nth_inj; eauto. Qed.

Lemma path_first : forall m, nth_error (P m) 0 = Some (repeat false (1 + m * k)).
Proof.
  induction m as [|m IH]; auto. apply place_iff. exists 0, (repeat false (1 + m * k)), 0.
  replace (1 + S m * k) with ((1 + m * k) + k) by lia. rewrite repeat_app. constructor. auto.
Qed.
Lemma path_end : forall m, last (P (S m)) [] = repeat false (1 + m * k) ++ repeat true k.
Proof.
  intros m. pose proof (path_last (S m)) as H. pose proof (back m 0 _ (path_first m)) as Hb. assert (exists i' p j, place m (plen (S m) - 1) (repeat false (1 + m * k) ++ repeat true k) i' p j) as H2.
  { eexists _, _, _. replace (plen (S m) - 1) with (plen m + k - 1 + (plen m - 1 - 0)) by (rewrite plen_S; pose proof (plen_pos m); lia). exact Hb. }
  apply place_iff in H2. congruence.
Qed.

Lemma app_inj_2 : forall {A} (p q s t : list A), p ++ s = q ++ t -> length s = length t -> p = q /\ s = t.
Proof.
  induction p as [|a p IH]; intros [|b q] s t E L; cbn in E; auto.
  - subst s. cbn in L. rewrite app_length in L. lia.
  - subst t. cbn in L. rewrite app_length in L. lia.
  - injection E as -> E. destruct (IH _ _ _ E L) as [-> ->]. auto.
Qed.
(** *** reading bits *)
Lemma gene_ok : forall {A} (a : list A) v b, gene (a ++ v :: b) (length a) = Ok v.
Proof. intros. unfold gene. rewrite nth_error_app2, Nat.sub_diag by auto. auto. Qed.
Lemma repeat_snoc : forall {A} (v : A) n, repeat v n ++ [v] = v :: repeat v n.
Proof. induction n; cbn; congruence. Qed.

Lemma up_spec : forall v r a rest, exists c, up (length r) v (a ++ r ++ rest) (length a) = Ok c /\ c <= length r /\ (c = length r <-> r = repeat v (length r)).
Proof.
  induction r as [|w r IH]; intros a rest.
  - exists 0. cbn. intuition lia.
  - cbn [length up]. change ((w :: r) ++ rest) with (w :: (r ++ rest)). rewrite gene_ok. cbn.
    destruct (Bool.eqb w v) eqn:E.
    + apply eqb_prop in E. subst w. destruct (IH (a ++ [v]) rest) as [c [E1 [E2 E3]]]. rewrite <- app_assoc in E1. rewrite app_length in E1. cbn in E1.
      rewrite Nat.add_1_r in E1. rewrite E1. cbn. exists (S c). repeat split; [lia| |].
      * intros H. f_equal. apply E3. lia.
      * intros H. injection H as H. apply E3 in H. lia.
    + exists 0. repeat split; [lia|lia|]. intros H. injection H as H1 H2. subst w. rewrite eqb_reflx in E. discriminate.
Qed.
(** reading down over [s], which ends at the position read first *)
Lemma down_spec : forall v n s p rest, length s = n -> exists c u, down n v (p ++ s ++ rest) (length p + n) = Ok c /\ s = u ++ repeat v c /\ (u = [] \/ exists u', u = u' ++ [negb v]).
Proof.
  induction n as [|n IH]; intros s p rest H.
  - exists 0, []. apply length_zero_iff_nil in H. subst s. auto.
  - destruct (exists_last (l := s) ltac:(destruct s; [discriminate|congruence])) as [s' [w ->]].
    rewrite app_length in H. cbn in H. rewrite Nat.add_succ_r. cbn [down].
    replace (gene _ (length p + n)) with (@Ok bool w).
    2:{ symmetry. rewrite <- app_assoc. cbn. rewrite app_assoc. replace (length p + n) with (length (p ++ s')) by (rewrite app_length; lia). apply gene_ok. }
    cbn. destruct (Bool.eqb w v) eqn:E.
    + apply eqb_prop in E. subst w. destruct (IH s' p (v :: rest) ltac:(lia)) as [c [u [E1 [E2 E3]]]].
      rewrite <- app_assoc. cbn. rewrite E1. cbn. exists (S c), u. split; [auto|]. split; [|auto].
      rewrite E2, <- app_assoc, repeat_snoc. auto.
    + exists 0, (s' ++ [w]). split; [auto|]. split; [cbn; rewrite app_nil_r; auto|]. right. exists s'. destruct w, v; cbn in E; auto; discriminate.
Qed.
Lemma nb_spec : forall s p rest, length s = k -> exists n0 n1 u, nb_ones_zeros k (p ++ s ++ rest) (length p + k) = Ok (n0, n1) /\
  s = u ++ repeat true n1 ++ repeat false n0 /\ (u <> [] -> exists u', u = u' ++ [false] /\ 1 <= n1) /\ (n0 = k \/ 1 <= n1).
Proof.
  intros s p rest Hs. unfold nb_ones_zeros. destruct (down_spec false k s p rest Hs) as [n0 [u [E1 [E2 E3]]]].
  rewrite E1. cbn. assert (length u + n0 = k) as L by (rewrite <- Hs, E2, app_length, repeat_length; auto).
  destruct (down_spec true (k - n0) u p (repeat false n0 ++ rest) ltac:(lia)) as [n1 [u2 [F1 [F2 F3]]]].
  replace (length p + k - n0) with (length p + (k - n0)) by lia. rewrite E2, <- app_assoc, F1. cbn.
  exists n0, n1, u2. split; [auto|]. split; [rewrite F2, <- app_assoc; auto|].
  assert (n0 = k \/ 1 <= n1) as Hn.
  { destruct E3 as [->|[u' ->]]; [left; cbn in L; lia|]. right. destruct n1; [|lia]. exfalso. cbn in F2. rewrite app_nil_r in F2.
    destruct F3 as [->|[u'' ->]]; [apply app_eq_nil in F2; destruct F2; discriminate|]. apply app_inj_tail in F2. cbn in F2. destruct F2. discriminate. }
  split; auto. intros Hu. destruct F3 as [->|[u'' ->]]; [congruence|]. exists u''. split; auto. destruct Hn as [->|Hn]; auto.
  assert (length u = 0) as Z by lia. apply (f_equal (@length bool)) in F2. rewrite !app_length in F2. cbn in F2. lia.
Qed.

Lemma final_spec : forall m p rest, length p = 1 + m * k -> exists b, final k (p ++ rest) (1 + m * k) = Ok b /\ (b = true <-> p = last (P m) []).
Proof.
  intros m p rest Hp. unfold final. destruct m as [|m].
  - cbn. destruct p as [|v [|w p]]; cbn in Hp; try discriminate. cbn. exists v. split; auto. split; [intros ->; auto|congruence].
  - destruct (Nat.eqb_spec (1 + S m * k) 1) as [H|_]; [lia|]. destruct (Nat.ltb_spec (1 + S m * k) k) as [H|_]; [lia|].
    replace (1 + S m * k - k) with (1 + m * k) by lia. rewrite path_end.
    rewrite <- (firstn_skipn (1 + m * k) p). set (u := firstn (1 + m * k) p). set (t := skipn (1 + m * k) p).
    assert (length u = 1 + m * k) as Lu by (unfold u; rewrite firstn_length; lia). assert (length t = k) as Lt by (unfold t; rewrite skipn_length; lia).
    rewrite <- app_assoc. destruct (up_spec false u [] (t ++ rest)) as [c [E1 [E2 E3]]]. cbn [app length] in E1. rewrite Lu in E1. rewrite E1. cbn [rbind].
    rewrite Lu in E2, E3. destruct (Nat.ltb_spec c (1 + m * k)) as [H|H].
    + exists false. split; auto. split; [discriminate|]. intros E. apply (f_equal (firstn (1 + m * k))) in E.
      rewrite !firstn_app, Lu, repeat_length, Nat.sub_diag in E. cbn [firstn] in E. rewrite !app_nil_r in E.
      rewrite firstn_all2 in E by lia. rewrite firstn_all2 in E by (rewrite repeat_length; lia). apply E3 in E. lia.
    + assert (c = 1 + m * k) as -> by lia. replace (1 + S m * k - (1 + m * k)) with (length t) by lia.
      destruct (up_spec true t u rest) as [d [F1 [F2 F3]]]. rewrite Lu in F1. rewrite F1. cbn [rbind]. eexists. split; [reflexivity|].
      rewrite Nat.eqb_eq. assert (u = repeat false (1 + m * k)) as Eu by (apply E3; auto). rewrite Eu, Lt in *. split.
      * intros H2. f_equal. apply F3. lia.
      * intros H2. apply app_inv_head in H2. apply F3 in H2. lia.
Qed.

Lemma div_m : forall m, (1 + m * k - 1) / k = m.
Proof. intros. replace (1 + m * k - 1) with (m * k) by lia. apply Nat.div_mul. lia. Qed.
Lemma shl1_ok : forall m, m < 31 -> shl1 m = Ok (2 ^ Z.of_nat m)%Z.
Proof. intros m H. unfold shl1. destruct (Nat.ltb_spec m 31); [auto|lia]. Qed.
Lemma w32_id : forall z, (0 <= z < 2 ^ 32)%Z -> w32 z = z.
Proof. intros. apply Z.mod_small. auto. Qed.
Lemma plen_Z : forall m, (Z.of_nat (k + 1) * 2 ^ Z.of_nat m - Z.of_nat k = Z.of_nat (plen m) - 1)%Z.
Proof. intros m. pose proof (plen_eq m) as H. apply (f_equal Z.of_nat) in H. rewrite !Nat2Z.inj_add, Nat2Z.inj_mul, Nat2Z.inj_pow in H. lia. Qed.

Lemma ramp_inj : forall a b u, a <= k -> length u + b <= k -> 1 <= b -> repeat true a ++ repeat false (k - a) = (u ++ [false]) ++ repeat true b ++ repeat false (k - b - length u - 1) -> False.
Proof.
  induction k as [|k' IH]; intros a b u Ha Hu Hb E; [lia|].
  destruct a as [|a].
  - cbn [repeat app] in E. rewrite Nat.sub_0_r in E. assert (In true (repeat false (S k'))) as H.
    { rewrite E. apply in_or_app. right. apply in_or_app. left. destruct b; [lia|]. cbn. auto. }
    apply repeat_spec in H. discriminate.
  - destruct u as [|v u]; cbn in E; [discriminate|]. injection E as <- E. cbn in Hu.
    eapply (IH ltac:(lia) a b u); [lia|lia|lia|]. rewrite E. f_equal. f_equal. f_equal. destruct b; lia.
Qed.

Theorem rank_spec : forall m fuel p rest, length p = 1 + m * k -> m < fuel -> m < 31 -> (Z.of_nat (plen m) <= 2 ^ 32)%Z ->
  exists b r, kp_rank fuel k (p ++ rest) (1 + m * k) = Ok (b, r) /\
    (if b then exists i, r = Z.of_nat i /\ nth_error (P m) i = Some p else ~ In p (P m)).
Proof.
  induction m as [|m IH]; intros fuel p rest Hp Hf Hm Hw; (destruct fuel as [|f]; [lia|]); cbn [kp_rank].
  - cbn [Nat.mul Nat.add Nat.eqb]. destruct p as [|v [|w p]]; cbn in Hp; try discriminate. cbn. eexists _, _. split; [reflexivity|]. cbn.
    exists (if v then 1 else 0). destruct v; auto.
  - destruct (Nat.eqb_spec (1 + S m * k) 1) as [H|_]; [lia|].
    pose proof (firstn_skipn (1 + m * k) p) as Ep. set (q := firstn (1 + m * k) p) in *. set (s := skipn (1 + m * k) p) in *.
    assert (length q = 1 + m * k) as Lq by (unfold q; rewrite firstn_length; lia). assert (length s = k) as Ls by (unfold s; rewrite skipn_length; lia).
    clearbody q s. subst p. rewrite <- app_assoc.
    destruct (nb_spec s q rest Ls) as [n0 [n1 [u [E1 [E2 [E3 E4]]]]]]. rewrite Lq in E1. replace (1 + m * k + k) with (1 + S m * k) in E1 by lia.
    rewrite E1. cbn [rbind]. replace (1 + S m * k - k) with (1 + m * k) by lia.
    assert (length u + n1 + n0 = k) as L by (rewrite <- Ls, E2, !app_length, !repeat_length; lia).
    assert (Z.of_nat (plen m) <= 2 ^ 32)%Z as Hw' by (rewrite plen_S in Hw; lia).
    pose proof (plen_pos m) as Hpos.
    assert (forall i x, nth_error (P (S m)) i = Some x -> i < plen (S m)) as Hlt by (intros i x Hi; apply nth_error_Some; congruence).
    destruct (Nat.eqb_spec n0 k) as [->|H0].
    + assert (s = repeat false k) as ->. { assert (length u = 0) as Z1 by lia. apply length_zero_iff_nil in Z1. assert (n1 = 0) by lia. subst. auto. }
      destruct (IH f q (repeat false k ++ rest) Lq ltac:(lia) ltac:(lia) Hw') as [b [r [E5 E6]]]. rewrite E5. eexists _, _. split; [reflexivity|].
      destruct b.
      * destruct E6 as [i [-> E6]]. exists i. split; auto. apply place_iff. eexists _, _, _. constructor. eauto.
      * intros Hin. apply E6. apply In_nth_error in Hin. destruct Hin as [i Hi]. apply place_iff in Hi. destruct Hi as [i' [p [j Hi]]].
        apply place_shape in Hi. destruct Hi as [F1 [F2 [F3 F4]]]. apply app_inj_2 in F2; [|rewrite app_length, !repeat_length; lia]. destruct F2 as [-> _]. eapply nth_error_In; eauto.
    + destruct (Nat.eqb_spec n1 k) as [->|H1].
      * assert (s = repeat true k) as ->. { assert (length u = 0) as Z1 by lia. apply length_zero_iff_nil in Z1. assert (n0 = 0) by lia. subst. cbn. rewrite app_nil_r. auto. }
        destruct (IH f q (repeat true k ++ rest) Lq ltac:(lia) ltac:(lia) Hw') as [b [r [E5 E6]]]. rewrite E5. cbn [rbind]. rewrite div_m, shl1_ok by auto. cbn [rbind].
        rewrite plen_Z. eexists _, _. split; [reflexivity|].
        destruct b.
        -- destruct E6 as [i [-> E6]]. assert (nth_error (P (S m)) (plen m + k - 1 + (plen m - 1 - i)) = Some (q ++ repeat true k)) as E7 by (apply place_iff; eexists _, _, _; constructor; eauto).
           exists (plen m + k - 1 + (plen m - 1 - i)). split; auto. assert (i < plen m) by (apply nth_error_Some; congruence).
           pose proof (Hlt _ _ E7) as Hl. rewrite plen_S in *. rewrite w32_id by lia. lia.
        -- intros Hin. apply E6. apply In_nth_error in Hin. destruct Hin as [i Hi]. apply place_iff in Hi. destruct Hi as [i' [p [j Hi]]].
           apply place_shape in Hi. destruct Hi as [F1 [F2 [F3 F4]]]. apply app_inj_2 in F2; [|rewrite app_length, !repeat_length; lia]. destruct F2 as [-> _]. eapply nth_error_In; eauto.
      * destruct (Nat.eqb_spec (n0 + n1) k) as [H2|H2].
        -- assert (length u = 0) as Z1 by lia. apply length_zero_iff_nil in Z1. subst u. cbn [app] in E2. subst s.
           destruct (final_spec m q ((repeat true n1 ++ repeat false n0) ++ rest) Lq) as [b [E5 E6]]. rewrite E5. cbn [rbind].
           assert (forall i, nth_error (P (S m)) i = Some (q ++ repeat true n1 ++ repeat false n0) -> q = last (P m) []) as Hq.
           { intros i Hi. apply place_iff in Hi. destruct Hi as [i' [p [j Hi]]]. apply place_shape in Hi. destruct Hi as [F1 [F2 [F3 F4]]].
             apply app_inj_2 in F2; [|rewrite !app_length, !repeat_length; lia]. destruct F2 as [-> F2].
             assert (j = n1) as ->.
             { apply (f_equal (fun l => count_occ Bool.bool_dec l true)) in F2. cbv beta in F2. rewrite !ramp_ones in F2. auto. }
             destruct F4 as [[? ?]|[[_ [-> _]]|[? ?]]]; [lia| |lia]. rewrite path_last in F1. congruence. }
           destruct b.
           ++ rewrite (Nat.add_comm 1), Nat.add_sub. rewrite Nat.div_mul by lia. rewrite shl1_ok by lia. cbn [rbind]. rewrite plen_Z.
              assert (nth_error (P (S m)) (plen m - 1 + n1) = Some (q ++ repeat true n1 ++ repeat false n0)) as E7.
              { apply place_iff. eexists _, _, _. replace n0 with (k - n1) by lia. apply bridge; [|lia]. rewrite path_last. f_equal. symmetry. apply E6. auto. }
              pose proof (Hlt _ _ E7) as Hl. eexists _, _. split; [reflexivity|]. cbn. exists (plen m - 1 + n1). split; auto. rewrite w32_id by lia. lia.
           ++ eexists _, _. split; [reflexivity|]. cbn. intros Hin. apply In_nth_error in Hin. destruct Hin as [i Hi]. apply Hq in Hi. apply E6 in Hi. discriminate.
        -- eexists _, _. split; [reflexivity|]. cbn. intros Hin. apply In_nth_error in Hin. destruct Hin as [i Hi]. apply place_iff in Hi. destruct Hi as [i' [p [j Hi]]].
           apply place_shape in Hi. destruct Hi as [F1 [F2 [F3 F4]]]. apply app_inj_2 in F2; [|rewrite app_length, !repeat_length; lia]. destruct F2 as [_ F2].
           destruct (E3 ltac:(destruct u; [cbn in L; lia|discriminate])) as [u' [-> Hn1]]. rewrite app_length in L. cbn in L.
           eapply (ramp_inj j n1 u'); [auto|lia|auto|]. rewrite <- F2, E2. f_equal. f_equal. f_equal. lia.
Qed.
End Path.
