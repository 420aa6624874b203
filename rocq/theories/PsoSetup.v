(** The topologies' setup, and whole runs of the swarm *)
From Coq Require Import List Arith Bool Lia Permutation.
From Verif Require Import Lib Outcome OrderSpec OrderLemmas PsoModel PsoSpec PsoProofs.
From Coq Require Import List.
Import ListNotations.

Section Setup.
Context {A V F : Type} (lt : F -> F -> bool).
Hypothesis swo : strict_weak_order lt.
Variable eval : list A -> F.
Notation particle := (particle A V F).
Notation hood := (hood A V F).
Notation val p := (eval (pos p)).
Definition scored (p : particle) : Prop := fit p = Some (val p).

(** a neighborhood made of the given indices, with their best particle *)
Definition made (pop : list particle) (ks : list nat) (h : hood) : Prop :=
  members h = ks /\ (exists k, In k ks /\ nth_error pop k = Some (lbest h)) /\
  forall k p, In k ks -> nth_error pop k = Some p -> lt (val (lbest h)) (val p) = false.

Lemma put_all_ok pop ks : (forall p, In p pop -> scored p) -> (forall k, In k ks -> k < length pop) ->
  forall h, scored (lbest h) ->
  exists h', put_all A V F lt pop h ks = Ok h' /\ members h' = members h ++ ks /\
    (lbest h' = lbest h \/ exists k, In k ks /\ nth_error pop k = Some (lbest h')) /\
    lt (val (lbest h')) (val (lbest h)) = false /\ scored (lbest h') /\
    forall k p, In k ks -> nth_error pop k = Some p -> lt (val (lbest h')) (val p) = false.
Proof.
  intros Sc. induction ks as [|k ks IH]; intros Lk h Sh; cbn [put_all].
  - exists h. rewrite app_nil_r. repeat split; auto. apply swo_irrefl; auto. intros ? ? [].
  - destruct (nth_error pop k) as [p|] eqn:Ep.
    2: { apply nth_error_None in Ep. specialize (Lk k (or_introl eq_refl)). lia. }
    assert (Sp : scored p) by (apply Sc; eapply nth_error_In; eauto).
    unfold put. rewrite Ep. cbn [of_opt rbind lbest members]. unfold fitness. rewrite Sp. cbn [rbind]. rewrite Sh. cbn [rbind].
    assert (Lk' : forall j, In j ks -> j < length pop) by (intros; apply Lk; right; auto).
    destruct (lt (val (lbest h)) (val p)) eqn:L.
    + destruct (IH Lk' (Hood (members h ++ [k]) p) Sp) as (h' & E & M & B & Bm & Ss & Mx).
      cbn [lbest members] in *. exists h'. split; auto. split; [rewrite M, <- app_assoc; auto|]. split.
      * right. destruct B as [->|(j & Hj & Ej)]; [exists k; split; auto; left; auto|exists j; split; auto; right; auto].
      * split; [|split; auto].
        -- destruct (lt (val (lbest h')) (val (lbest h))) eqn:L2; auto.
           rewrite <- Bm. symmetry. eapply swo_trans; eauto.
        -- intros j q [<-|Hj] Ej; eauto. rewrite Ep in Ej. injection Ej as <-. auto.
    + destruct (IH Lk' (Hood (members h ++ [k]) (lbest h)) Sh) as (h' & E & M & B & Bm & Ss & Mx).
      cbn [lbest members] in *. exists h'. split; auto. split; [rewrite M, <- app_assoc; auto|]. split.
      * destruct B as [->|(j & Hj & Ej)]; [left; auto|right; exists j; split; auto; right; auto].
      * split; auto. split; auto. intros j q [<-|Hj] Ej; eauto. rewrite Ep in Ej. injection Ej as <-.
        eapply swo_ntrans; eauto.
Qed.
Lemma put_all_made pop k0 p0 ks : (forall p, In p pop -> scored p) -> (forall k, In k ks -> k < length pop) ->
  nth_error pop k0 = Some p0 -> In k0 ks -> exists h, put_all A V F lt pop (Hood [] p0) ks = Ok h /\ made pop ks h /\ scored (lbest h).
Proof.
  intros Sc Lk E0 I0. destruct (put_all_ok pop ks Sc Lk (Hood [] p0)) as (h & E & M & B & Bm & Ss & Mx).
  { cbn. apply Sc. eapply nth_error_In; eauto. }
  exists h. split; auto. split; auto. split; auto. split; auto. cbn in B. destruct B as [->|B]; eauto.
Qed.

(** eoLinearTopology::setup *)
Lemma linear_hoods_ok size pop : 0 < size -> (forall p, In p pop -> scored p) ->
  forall is, (forall i, In i is -> (i + 1) * size <= length pop) ->
  exists hs, linear_hoods A V F lt size pop is = Ok hs /\
    Forall2 (fun i h => made pop (seq (i * size) size) h /\ scored (lbest h)) is hs.
Proof.
  intros Sz Sc. induction is as [|i is IH]; intros Hi; cbn [linear_hoods].
  - exists []; auto.
  - assert (Li := Hi i (or_introl eq_refl)).
    destruct (nth_error pop (i * size)) as [p|] eqn:Ep.
    2: { apply nth_error_None in Ep. lia. }
    destruct (put_all_made pop (i * size) p (seq (i * size) size) Sc) as (h & E & M); auto.
    { intros k Hk. apply in_seq in Hk. lia. } { apply in_seq. lia. }
    unfold linear_hood. rewrite Ep. cbn [of_opt rbind]. rewrite E. cbn [rbind].
    destruct IH as (hs & Eh & Fh); [intros; apply Hi; right; auto|]. rewrite Eh. cbn [rbind]. eauto.
Qed.
Lemma put_last_ok pop ks : (forall p, In p pop -> scored p) -> (forall k, In k ks -> k < length pop) ->
  forall hs l, made pop l (last hs (Hood [] (Particle [] [] [] None (eval [])))) ->
  scored (lbest (last hs (Hood [] (Particle [] [] [] None (eval []))))) -> hs <> [] ->
  exists h', put_last A V F lt pop hs ks = Ok (removelast hs ++ [h']) /\ made pop (l ++ ks) h' /\ scored (lbest h').
Proof.
  intros Sc Lk. induction hs as [|h hs IH]; intros l M Ss N; [congruence|]. destruct hs as [|g hs].
  - cbn [last] in M, Ss. destruct M as (M1 & (k0 & I0 & E0) & M3). cbn [put_last removelast app].
    destruct (put_all_ok pop ks Sc Lk h Ss) as (h' & E & Mm & B & Bm & Ss' & Mx). rewrite E. cbn [rbind].
    exists h'. split; auto. split; auto. split; [congruence|]. split.
    + destruct B as [->|(k & Hk & Ek)]; [exists k0|exists k]; split; auto; apply in_or_app; auto.
    + intros k p Hk Ek. apply in_app_or in Hk as [Hk|Hk]; eauto.
      eapply swo_ntrans; eauto.
  - destruct (IH l M Ss) as (h' & E & R); [discriminate|]. exists h'. split; auto.
    change (put_last A V F lt pop (h :: g :: hs) ks) with
      (let! l := put_last A V F lt pop (g :: hs) ks in Ok (h :: l)). rewrite E. reflexivity.
Qed.
Lemma Forall2_weaken {X Y} (R R' : X -> Y -> Prop) l l' : (forall x y, R x y -> R' x y) -> Forall2 R l l' -> Forall2 R' l l'.
Proof. induction 2; auto. Qed.
Lemma Forall2_last {X Y} (R : X -> Y -> Prop) d e l l' : Forall2 R l l' -> l <> [] -> R (last l d) (last l' e).
Proof.
  induction 1 as [|x y l l' H F2 IH]; [congruence|]. intros _. destruct l as [|x2 l]; inversion F2; subst.
  - auto.
  - apply IH. discriminate.
Qed.
Lemma Forall2_removelast {X Y} (R : X -> Y -> Prop) l l' : Forall2 R l l' -> Forall2 R (removelast l) (removelast l').
Proof.
  induction 1 as [|x y l l' H F2 IH]; cbn; auto. destruct l, l'; auto; inversion F2.
Qed.
Lemma concat_seq size q : concat (map (fun i => seq (i * size) size) (seq 0 q)) = seq 0 (q * size).
Proof.
  induction q as [|q IH]; auto. rewrite seq_S, map_app, concat_app, IH. cbn [map concat].
  rewrite app_nil_r. replace (S q * size) with (q * size + size) by lia. rewrite seq_app. auto.
Qed.
Definition block (size n i : nat) : list nat :=
  if (S i =? n / size) && negb (n mod size =? 0) then seq (i * size) size ++ rev (seq (n - n mod size) (n mod size)) else seq (i * size) size.
Lemma linear_setup_ok size pop : 0 < size -> size < length pop -> (forall p, In p pop -> scored p) ->
  exists hs, linear_setup A V F lt size pop = Ok hs /\
    Forall2 (fun i h => made pop (block size (length pop) i) h /\ scored (lbest h)) (seq 0 (length pop / size)) hs.
Proof.
  intros Sz Sn Sc. unfold linear_setup. set (n := length pop) in *.
  replace (n <=? size) with false by (symmetry; apply Nat.leb_gt; lia).
  replace (size =? 0) with false by (symmetry; apply Nat.eqb_neq; lia).
  assert (D : n = size * (n / size) + n mod size) by (apply Nat.div_mod; lia).
  assert (Q : 0 < n / size) by (apply Nat.div_str_pos; lia).
  destruct (linear_hoods_ok size pop Sz Sc (seq 0 (n / size))) as (hs & E & Fh).
  { intros i Hi. apply in_seq in Hi. fold n. nia. }
  rewrite E. cbn [rbind]. destruct (n mod size =? 0) eqn:R.
  - exists hs. split; auto. eapply Forall2_weaken; [|apply Fh]. cbn. intros i h H. unfold block. rewrite R, andb_false_r. auto.
  - assert (Nn : seq 0 (n / size) <> []) by (destruct (n / size); [lia|discriminate]).
    assert (Nh : hs <> []) by (intros ->; inversion Fh; congruence).
    assert (La := Forall2_last _ 0 (Hood [] (Particle [] [] [] None (eval []))) _ _ Fh Nn). cbn beta in La.
    assert (Ls : last (seq 0 (n / size)) 0 = n / size - 1).
    { destruct (n / size) as [|q]; [lia|]. rewrite seq_S, last_last. lia. }
    rewrite Ls in La. destruct La as [La1 La2].
    destruct (put_last_ok pop (rev (seq (n - n mod size) (n mod size))) Sc) with (hs := hs) (l := seq ((n / size - 1) * size) size) as (h' & E' & M' & S'); auto.
    { intros k Hk. apply in_rev in Hk. apply in_seq in Hk. fold n. lia. }
    exists (removelast hs ++ [h']). split; auto.
    assert (Es : seq 0 (n / size) = removelast (seq 0 (n / size)) ++ [n / size - 1]).
    { rewrite <- Ls. apply app_removelast_last; auto. }
    rewrite Es. apply Forall2_app.
    + assert (Er : removelast (seq 0 (n / size)) = seq 0 (n / size - 1)).
      { destruct (n / size) as [|q]; [lia|]. rewrite seq_S, removelast_last. f_equal. lia. }
      apply Forall2_removelast in Fh. rewrite Er in *.
      clear -Fh R. assert (X : forall i, In i (seq 0 (n / size - 1)) -> S i <> n / size) by (intros i Hi; apply in_seq in Hi; lia).
      revert X Fh. generalize (seq 0 (n / size - 1)) as is. intros is X Fh. induction Fh; constructor.
      * unfold block. replace (S x =? n / size) with false by (symmetry; apply Nat.eqb_neq, X; left; auto). auto.
      * apply IHFh. intros; apply X; right; auto.
    + constructor; auto. unfold block. rewrite R. replace (S (n / size - 1)) with (n / size) by lia. rewrite Nat.eqb_refl. cbn [andb negb]. auto.
Qed.
Lemma block_concat size n : 0 < size -> size < n -> Permutation (concat (map (block size n) (seq 0 (n / size)))) (seq 0 n).
Proof.
  intros Sz Sn. assert (D : n = size * (n / size) + n mod size) by (apply Nat.div_mod; lia).
  assert (Q : 0 < n / size) by (apply Nat.div_str_pos; lia).
  destruct (n mod size =? 0) eqn:R.
  - rewrite (map_ext _ (fun i => seq (i * size) size)) by (intros; unfold block; rewrite R, andb_false_r; auto).
    apply Nat.eqb_eq in R. rewrite concat_seq. replace (n / size * size) with n by lia. auto.
  - assert (E : n / size = S (n / size - 1)) by lia. rewrite E at 1. rewrite seq_S, map_app, concat_app. cbn [map concat].
    rewrite app_nil_r. cbn [Nat.add].
    rewrite (map_ext_in _ (fun i => seq (i * size) size)).
    2: { intros i Hi. apply in_seq in Hi. unfold block. replace (S i =? n / size) with false by (symmetry; apply Nat.eqb_neq; lia). auto. }
    rewrite concat_seq. unfold block. rewrite <- E, Nat.eqb_refl, R. cbn [andb negb]. rewrite app_assoc.
    rewrite <- (Permutation_rev (seq (n - n mod size) (n mod size))).
    replace (seq ((n / size - 1) * size) size) with (seq (0 + (n / size - 1) * size) size) by auto.
    rewrite <- seq_app. replace ((n / size - 1) * size + size) with (n - n mod size) by nia.
    replace (n - n mod size) with (0 + (n - n mod size)) at 2 by auto. rewrite <- seq_app.
    replace (n - n mod size + n mod size) with n by lia. auto.
Qed.
Lemma block_in size n i k : 0 < size -> size < n -> i < n / size ->
  (In k (block size n i) <-> i * size <= k < (if S i =? n / size then n else S i * size)).
Proof.
  intros Sz Sn Hi. assert (D : n = size * (n / size) + n mod size) by (apply Nat.div_mod; lia).
  assert (M := Nat.mod_upper_bound n size). unfold block.
  destruct (S i =? n / size) eqn:E; cbn [andb].
  - apply Nat.eqb_eq in E. destruct (n mod size =? 0) eqn:R; cbn [negb].
    + apply Nat.eqb_eq in R. rewrite in_seq. nia.
    + rewrite in_app_iff, <- in_rev, !in_seq. nia.
  - rewrite in_seq. lia.
Qed.

(** eoRingTopology::setup *)
Definition around (size n i : nat) : list nat := map (ring_index n size i) (seq 0 size).
Lemma ring_hoods_ok size pop : 0 < size -> size <= length pop -> (forall p, In p pop -> scored p) ->
  forall is, (forall i, In i is -> i < length pop) ->
  exists hs, ring_hoods A V F lt size pop is = Ok hs /\
    Forall2 (fun i h => made pop (around size (length pop) i) h /\ scored (lbest h)) is hs.
Proof.
  intros Sz Sn Sc. induction is as [|i is IH]; intros Hi; cbn [ring_hoods].
  - exists []; auto.
  - assert (Li := Hi i (or_introl eq_refl)).
    destruct (nth_error pop i) as [p|] eqn:Ep.
    2: { apply nth_error_None in Ep. lia. }
    destruct (put_all_made pop i p (around size (length pop) i) Sc) as (h & E & M); auto.
    { intros k Hk. apply in_map_iff in Hk as (j & <- & _). apply Nat.mod_upper_bound. lia. }
    { apply in_map_iff. exists (size / 2). assert (H2 : size / 2 < size) by (apply Nat.div_lt; lia). split; [|apply in_seq; lia].
      unfold ring_index. replace (length pop + i - size / 2 + size / 2) with (i + 1 * length pop) by lia.
      rewrite Nat.mod_add by lia. apply Nat.mod_small. auto. }
    cbn [of_opt rbind]. fold (around size (length pop) i). rewrite E. cbn [rbind].
    destruct IH as (hs & Eh & Fh); [intros; apply Hi; right; auto|]. rewrite Eh. cbn [rbind]. eauto.
Qed.
End Setup.
