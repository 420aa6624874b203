From Coq Require Import List Arith NArith ZArith Lia Bool Permutation.
From Verif Require Import Lib Outcome BitModel BitSpec.
Import ListNotations.

Ltac ldestr := repeat match goal with
  | H : context [match ?x with _ => _ end] |- _ => destruct x eqn:?; try discriminate
  end.

Lemma NoDup_app_l {A} (l1 l2 : list A) : NoDup (l1 ++ l2) -> NoDup l1.
Proof.
  induction l1 as [|x l1 IH]; intros H; [constructor|]. inversion H; subst. constructor; auto.
  intros F. apply H2. apply in_app_iff; auto.
Qed.

(** *** flipping *)
Lemma flip_at_ok c i : i < length c -> exists c', flip_at c i = Some c' /\ length c' = length c /\
  forall j, nth_error c' j = if j =? i then option_map negb (nth_error c j) else nth_error c j.
Proof.
  intros Hi. destruct (nth_error_in_some c i Hi) as [b Hb].
  exists (set c i (negb b)). unfold flip_at. rewrite Hb. cbn [obind]. rewrite upd_set by auto.
  split; auto. split; [apply set_length|]. intros j. destruct (Nat.eqb_spec j i) as [->|Ne].
  - rewrite Hb. simpl. apply nth_error_set_eq; auto.
  - apply nth_error_set_neq; auto.
Qed.

Lemma flip_all_ok idx : forall c, NoDup idx -> (forall i, In i idx -> i < length c) ->
  exists c', flip_all idx c = Some c' /\ flipped_exactly c c' (fun i => In i idx).
Proof.
  induction idx as [|i idx IH]; intros c Hnd Hin; cbn [flip_all].
  - exists c. split; auto. split; auto. intros j b b' H1 H2. split; [intros []|congruence].
  - inversion Hnd; subst. destruct (flip_at_ok c i) as (c1 & E1 & L1 & N1); [apply Hin; left; auto|].
    rewrite E1. cbn [obind]. destruct (IH c1) as (c2 & E2 & L2 & N2); auto.
    { intros j Hj. rewrite L1. apply Hin; right; auto. }
    exists c2. split; auto. split; [lia|]. intros j b b' Hb Hb'.
    specialize (N1 j). rewrite Hb in N1. simpl in N1.
    destruct (Nat.eqb_spec j i) as [->|Ne].
    + destruct (N2 i _ _ N1 Hb') as [_ N3]. split; auto. intros Hn; exfalso; apply Hn; left; auto.
    + destruct (N2 j _ _ N1 Hb') as [N3 N4]. split.
      * intros [->|Hj]; [congruence|auto].
      * intros Hn. apply N4. intros Hj. apply Hn. right; auto.
Qed.

Lemma hamming_filter c : forall c' (pb : nat -> bool) k, length c' = length c ->
  (forall i b b', nth_error c i = Some b -> nth_error c' i = Some b' -> b' = if pb (k + i) then negb b else b) ->
  hamming c c' = length (filter pb (seq k (length c))).
Proof.
  induction c as [|b c IH]; intros [|b' c'] pb k Hl H; simpl in Hl; try discriminate; auto.
  cbn [hamming length seq filter].
  rewrite (IH c' pb (S k)); [|lia|].
  - pose proof (H 0 b b' eq_refl eq_refl) as H0. rewrite Nat.add_0_r in H0. subst b'.
    destruct (pb k); simpl; [|rewrite eqb_reflx; auto]. destruct b; simpl; auto.
  - intros i x y Hx Hy. replace (S k + i) with (k + S i) by lia. apply H; auto.
Qed.

Lemma flipped_hamming c c' idx : NoDup idx -> (forall i, In i idx -> i < length c) ->
  flipped_exactly c c' (fun i => In i idx) -> hamming c c' = length idx.
Proof.
  intros Hnd Hin [Hl H].
  set (pb := fun i => if in_dec Nat.eq_dec i idx then true else false).
  rewrite (hamming_filter c c' pb 0 Hl).
  - assert (P : Permutation (filter pb (seq 0 (length c))) idx).
    { apply NoDup_Permutation; auto; [apply NoDup_filter, seq_NoDup|].
      intros i. rewrite filter_In, in_seq. unfold pb. destruct (in_dec Nat.eq_dec i idx) as [Hi|Hi].
      - split; auto. intros _. split; auto. apply Hin in Hi. lia.
      - split; [intros [_ F]; discriminate|tauto]. }
    apply Permutation_length in P. auto.
  - intros i b b' Hb Hb'. destruct (H i b b' Hb Hb') as [H1 H2]. unfold pb. simpl.
    destruct (in_dec Nat.eq_dec i idx); auto.
Qed.

Lemma one_bit_flip_spec c d ds : c <> [] ->
  exists c', one_bit_flip c (d :: ds) = Ok (c', true, ds) /\
    flipped_exactly c c' (fun i => i = d mod length c) /\ hamming c c' = 1.
Proof.
  intros Hne. unfold one_bit_flip, draw. cbn [rbind].
  assert (Hi : d mod length c < length c) by (apply Nat.mod_upper_bound; destruct c; simpl; congruence).
  destruct (flip_all_ok [d mod length c] c) as (c' & E & HF).
  { repeat constructor; simpl; tauto. } { intros i [<-|[]]; auto. }
  cbn [flip_all] in E. destruct (flip_at c (d mod length c)) as [c1|] eqn:E1; [|discriminate].
  cbn [obind] in E. inversion E; subst c1. cbn [of_opt rbind]. exists c'. split; auto. split.
  - destruct HF as [HL HN]. split; auto. intros i b b' Hb Hb'. destruct (HN i b b' Hb Hb') as [H1 H2].
    simpl in *. split; intros; [apply H1; auto|apply H2]. intros [F|[]]; auto.
  - erewrite flipped_hamming; eauto; [reflexivity| |].
    + repeat constructor; simpl; tauto. 
    + intros i [<-|[]]; auto.
Qed.

Lemma hamming_refl c : hamming c c = 0.
Proof. induction c; simpl; auto. rewrite eqb_reflx. auto. Qed.
Lemma hamming_tri a : forall b c, length a = length b -> length b = length c ->
  hamming a c <= hamming a b + hamming b c /\
  Nat.even (hamming a c + hamming a b + hamming b c) = true.
Proof.
  induction a as [|x a IH]; intros [|y b] [|z c] H1 H2; simpl in *; try discriminate; auto.
  destruct (IH b c) as [I1 I2]; [lia|lia|].
  destruct x, y, z; simpl; split; try lia;
    repeat rewrite ?Nat.add_succ_r, ?Nat.add_succ_l; try exact I2;
    change (Nat.even (S (S (hamming a c + hamming a b + hamming b c))) = true); exact I2.
Qed.

Lemma det_flip_loop_spec k : forall c ds, c <> [] -> k <= length ds ->
  exists c', det_flip_loop k c ds = Ok (c', skipn k ds) /\ length c' = length c /\
    hamming c c' <= k /\ Nat.even (k + hamming c c') = true.
Proof.
  induction k as [|k IH]; intros c ds Hne Hk; cbn [det_flip_loop].
  - exists c. rewrite hamming_refl. auto.
  - destruct ds as [|d ds]; [simpl in Hk; lia|].
    destruct (one_bit_flip_spec c d ds Hne) as (c1 & E1 & [HL HN] & H1).
    unfold one_bit_flip, draw in *. cbn [rbind] in *.
    destruct (flip_at c (d mod length c)) as [c1'|]; [|discriminate]. cbn [of_opt rbind] in *.
    inversion E1; subst c1'.
    destruct (IH c1 ds) as (c2 & E2 & HL2 & H2 & H3); [destruct c, c1; simpl in *; congruence|simpl in Hk; lia|].
    exists c2. rewrite E2. split; auto. split; [lia|].
    destruct (hamming_tri c c1 c2) as [T1 T2]; [lia|lia|]. split; [lia|].
    rewrite H1 in T2.
    assert (E : Nat.even (S k + hamming c c2 + (k + hamming c1 c2) + (k + hamming c1 c2)) = true).
    { replace (S k + hamming c c2 + (k + hamming c1 c2) + (k + hamming c1 c2))
        with ((hamming c c2 + 1 + hamming c1 c2) + ((k + hamming c1 c2) + 2 * k)) by lia.
      rewrite Nat.even_add, T2, Nat.even_add, H3, Nat.even_mul. reflexivity. }
    rewrite <- Nat.add_assoc in E. rewrite Nat.even_add in E.
    replace ((k + hamming c1 c2) + (k + hamming c1 c2)) with (2 * (k + hamming c1 c2)) in E by lia.
    rewrite Nat.even_mul in E. simpl orb in E. destruct (Nat.even (S k + hamming c c2)); auto.
Qed.

Lemma shuffle_loop_spec todo : forall i idx ds, i + todo = length idx -> todo <= length ds ->
  exists idx', shuffle_loop todo i idx ds = Ok (idx', skipn todo ds) /\ Permutation idx idx'.
Proof.
  induction todo as [|t IH]; intros i idx ds Hi Hd; cbn [shuffle_loop].
  - exists idx. auto.
  - destruct ds as [|d ds]; [simpl in Hd; lia|]. unfold draw. cbn [rbind].
    destruct (swap_at_total idx i (d mod length idx)) as [idx1 E1]; [lia|apply Nat.mod_upper_bound; lia|].
    rewrite E1. cbn [of_opt rbind].
    destruct (IH (S i) idx1 ds) as (idx' & E' & P'); [rewrite (swap_at_length _ _ _ _ E1); lia|simpl in Hd; lia|].
    exists idx'. rewrite E'. split; auto. eapply Permutation_trans; [|exact P'].
    pose proof (swap_at_perm _ _ _ _ E1) as P1. first [exact P1|apply Permutation_sym; exact P1].
Qed.

Lemma det_single_spec k c ds : k <= length c -> length c <= length ds ->
  exists c' idx, det_single_bit_flip k c ds = Ok (c', 0 <? k, skipn (length c) ds) /\
    NoDup idx /\ length idx = k /\ (forall i, In i idx -> i < length c) /\
    flipped_exactly c c' (fun i => In i idx) /\ hamming c c' = k.
Proof.
  intros Hk Hd. unfold det_single_bit_flip.
  destruct (shuffle_loop_spec (length c) 0 (seq 0 (length c)) ds) as (idx & E & P); [rewrite seq_length; auto|auto|].
  rewrite E. cbn [rbind]. destruct (Nat.ltb_spec (length c) k); [lia|].
  assert (Hnd : NoDup idx) by (eapply Permutation_NoDup; [exact P|apply seq_NoDup]).
  assert (Hin : forall i, In i idx -> i < length c).
  { intros i Hi. apply (Permutation_in _ (Permutation_sym P)) in Hi. apply in_seq in Hi. lia. }
  assert (Hnd' : NoDup (firstn k idx)).
  { rewrite <- (firstn_skipn k idx) in Hnd. apply NoDup_app_l in Hnd. auto. }
  assert (Hin' : forall i, In i (firstn k idx) -> i < length c).
  { intros i Hi. apply Hin. rewrite <- (firstn_skipn k idx). apply in_app_iff; auto. }
  assert (Hlen : length (firstn k idx) = k).
  { rewrite firstn_length_le; auto. rewrite <- (Permutation_length P), seq_length. auto. }
  destruct (flip_all_ok (firstn k idx) c) as (c' & E' & HF); auto.
  rewrite E'. cbn [of_opt rbind]. exists c', (firstn k idx). repeat split; auto; try apply HF; auto.
  rewrite (flipped_hamming c c' (firstn k idx)); auto.
Qed.

Lemma bit_mutation_spec c : forall ds, length c <= length ds ->
  exists c' ch, bit_mutation c ds = Ok (c', ch, skipn (length c) ds) /\
    flipped_exactly c c' (fun i => exists d, nth_error ds i = Some d /\ Nat.odd d = true) /\
    (ch = true <-> c' <> c).
Proof.
  unfold bit_mutation. induction c as [|b c IH]; intros ds Hd; cbn [bit_mutation_loop].
  - exists [], false. split; auto. split; [|split; [discriminate|congruence]].
    split; auto. intros [|i] x y H; discriminate.
  - destruct ds as [|d ds]; [simpl in Hd; lia|]. unfold draw_flip. cbn [rbind].
    destruct (IH ds) as (c' & ch & E & [HL HN] & Hch); [simpl in Hd; lia|].
    rewrite E. cbn [rbind]. eexists; eexists. split; [reflexivity|]. split.
    + split; [simpl; lia|]. intros [|i] x y Hx Hy; simpl in Hx, Hy.
      * inversion Hx; inversion Hy; subst. simpl. split.
        -- intros (d' & Hd' & Ho). inversion Hd'; subst. rewrite Ho. auto.
        -- intros Hn. destruct (Nat.odd d) eqn:Eo; auto. exfalso; apply Hn; exists d; auto.
      * apply (HN i x y Hx Hy).
    + destruct (Nat.odd d); simpl.
      * split; auto. intros _ F. inversion F. destruct b; discriminate.
      * rewrite Hch. split; intros H F; apply H; [inversion F; auto|rewrite F; auto].
Qed.

Lemma draw_other_spec n u ds v ds' : draw_other n u ds = Ok (v, ds') ->
  v <> u /\ (n <> 0 -> v < n) /\ exists d pre, ds = pre ++ d :: ds' /\ v = d mod n /\
    forall e, In e pre -> e mod n = u.
Proof.
  revert v ds'. induction ds as [|d ds IH]; intros v ds' H; simpl in H; [discriminate|].
  destruct (Nat.eqb_spec (d mod n) u) as [E|E].
  - destruct (IH v ds' H) as (H1 & H2 & d' & pre & Hp & Hv & Hall). subst ds. split; auto. split; auto.
    exists d', (d :: pre). split; auto. split; auto. intros e [<-|He]; auto.
  - inversion H; subst. split; auto. split; [intros; apply Nat.mod_upper_bound; auto|].
    exists d, []. repeat split; auto. intros e [].
Qed.

Lemma draw_other_unstuck n u ds : 2 <= n -> exists more v ds', draw_other n u (ds ++ more) = Ok (v, ds').
Proof.
  intros Hn. induction ds as [|d ds IH].
  - exists [if u =? 0 then 1 else 0], (if u =? 0 then 1 else 0), []. simpl.
    destruct (Nat.eqb_spec u 0) as [->|Hu].
    + rewrite Nat.mod_small by lia. reflexivity.
    + rewrite Nat.mod_small by lia. destruct (Nat.eqb_spec 0 u); [lia|auto].
  - destruct IH as (more & v & ds' & E). simpl. destruct (d mod n =? u).
    + exists more, v, ds'. auto.
    + exists [], (d mod n), (ds ++ []). auto.
Qed.

Lemma bit_inversion_spec c ds c' ch ds' : bit_inversion c ds = Ok (c', ch, ds') ->
  ch = true /\ exists r1 r2, r1 < r2 /\ r2 <= length c /\ c' = reverse_range r1 r2 c.
Proof.
  intros H. unfold bit_inversion in H. apply rbind_ok in H as ((u1 & ds1) & E1 & H).
  apply rbind_ok in H as ((u2 & ds2) & E2 & H). inversion H; subst. split; auto.
  apply draw_lt in E1; [|lia]. apply draw_other_spec in E2 as (Hne & Hlt & _). specialize (Hlt ltac:(lia)).
  exists (Nat.min u1 u2), (Nat.max u1 u2). repeat split; lia.
Qed.

Lemma bit_inversion_unstuck c ds : c <> [] -> exists more c' ds', bit_inversion c (ds ++ more) = Ok (c', true, ds').
Proof.
  intros Hne. assert (Hl : 2 <= length c + 1) by (destruct c; simpl; [congruence|lia]).
  unfold bit_inversion. destruct ds as [|d ds].
  - destruct (draw_other_unstuck (length c + 1) (0 mod (length c + 1)) [] Hl) as (more & v & ds' & E).
    simpl app in E. exists (0 :: more). cbn [app draw rbind]. rewrite E. cbn [rbind]. eauto.
  - destruct (draw_other_unstuck (length c + 1) (d mod (length c + 1)) ds Hl) as (more & v & ds' & E).
    exists more. cbn [app draw rbind]. rewrite E. cbn [rbind]. eauto.
Qed.

(** the effect of reversing a range, position by position *)
Lemma reverse_range_spec {A} r1 r2 (c : list A) : r1 <= r2 -> r2 <= length c ->
  length (reverse_range r1 r2 c) = length c /\
  forall i, nth_error (reverse_range r1 r2 c) i =
    if (r1 <=? i) && (i <? r2) then nth_error c (r1 + r2 - 1 - i) else nth_error c i.
Proof.
  intros H1 H2. unfold reverse_range.
  assert (L1 : length (firstn r1 c) = r1) by (rewrite firstn_length_le; lia).
  assert (L2 : length (rev (firstn (r2 - r1) (skipn r1 c))) = r2 - r1).
  { rewrite rev_length, firstn_length_le; auto. rewrite skipn_length. lia. }
  split.
  - rewrite !app_length, L1, L2, skipn_length. lia.
  - intros i. destruct (Nat.leb_spec r1 i); cbn [andb].
    + rewrite nth_error_app2 by lia. rewrite L1. destruct (Nat.ltb_spec i r2).
      * rewrite nth_error_app1 by lia.
        assert (Hrev : forall (l : list A) k, k < length l -> nth_error (rev l) k = nth_error l (length l - 1 - k)).
        { intros l k Hk. destruct l as [|x l0]; [simpl in Hk; lia|].
          rewrite (nth_error_nth' (rev (x :: l0)) x) by (rewrite rev_length; auto).
          rewrite rev_nth by auto.
          rewrite (nth_error_nth' (x :: l0) x) by lia. f_equal. f_equal. lia. }
        rewrite rev_length in L2. rewrite Hrev by lia. rewrite L2.
        rewrite firstn_nth_error by lia. rewrite skipn_nth_error. f_equal. lia.
      * rewrite nth_error_app2 by lia. rewrite L2, skipn_nth_error. f_equal. lia.
    + rewrite nth_error_app1 by lia. rewrite firstn_nth_error by lia. auto.
Qed.

Lemma reverse_range_invol {A} r1 r2 (c : list A) : r1 <= r2 -> r2 <= length c ->
  reverse_range r1 r2 (reverse_range r1 r2 c) = c.
Proof.
  intros H1 H2. destruct (reverse_range_spec r1 r2 c H1 H2) as [L N].
  destruct (reverse_range_spec r1 r2 (reverse_range r1 r2 c)) as [L' N']; [auto|lia|].
  apply nth_error_ext. intros i. rewrite N'.
  destruct (Nat.leb_spec r1 i), (Nat.ltb_spec i r2); cbn [andb].
  - rewrite N. destruct (Nat.leb_spec r1 (r1 + r2 - 1 - i)); [|lia].
    destruct (Nat.ltb_spec (r1 + r2 - 1 - i) r2); [|lia]. cbn [andb]. f_equal. lia.
  - rewrite N. destruct (Nat.leb_spec r1 i), (Nat.ltb_spec i r2); try lia; auto.
  - rewrite N. destruct (Nat.leb_spec r1 i), (Nat.ltb_spec i r2); try lia; auto.
  - rewrite N. destruct (Nat.leb_spec r1 i), (Nat.ltb_spec i r2); try lia; auto.
Qed.

(** doing it twice with the same draws restores the chromosome *)
Lemma bit_inversion_invol c ds c' ds' : bit_inversion c ds = Ok (c', true, ds') ->
  bit_inversion c' ds = Ok (c, true, ds').
Proof.
  intros H. pose proof H as H0. unfold bit_inversion in H. apply rbind_ok in H as ((u1 & ds1) & E1 & H).
  apply rbind_ok in H as ((u2 & ds2) & E2 & H). inversion H; subst.
  pose proof E1 as Hu1. apply draw_lt in Hu1; [|lia]. pose proof E2 as E3.
  apply draw_other_spec in E3 as (Hne & Hlt & _). specialize (Hlt ltac:(lia)).
  destruct (reverse_range_spec (Nat.min u1 u2) (Nat.max u1 u2) c) as [L _]; [lia|lia|].
  unfold bit_inversion. rewrite L, E1. cbn [rbind]. rewrite E2. cbn [rbind].
  rewrite reverse_range_invol by lia. auto.
Qed.

(** *** counting *)
Fixpoint rvalue (r : list bool) : nat :=
  match r with [] => 0 | b :: r' => (if b then 1 else 0) + 2 * rvalue r' end.

Lemma value_from_rev c : forall acc, value_from acc c = rvalue (rev c) + acc * 2 ^ length c.
Proof.
  induction c as [|b c IH]; intros acc; cbn [value_from rev length].
  - simpl. lia.
  - rewrite IH. assert (Hs : forall l x, rvalue (l ++ [x]) = rvalue l + (if x then 1 else 0) * 2 ^ length l).
    { induction l as [|y l IHl]; intros x; cbn [app rvalue length Nat.pow]; [simpl; lia|]. rewrite IHl. lia. }
    rewrite Hs, rev_length. cbn [Nat.pow]. lia.
Qed.
Lemma value_rev c : value c = rvalue (rev c).
Proof. unfold value. rewrite value_from_rev. lia. Qed.

Lemma rvalue_lt r : rvalue r < 2 ^ length r.
Proof. induction r as [|b r IH]; simpl; [lia|]. destruct b; lia. Qed.

Lemma value_lt c : value c < 2 ^ length c.
Proof. rewrite value_rev, <- (rev_length c). apply rvalue_lt. Qed.

Lemma rvalue_inj r : forall r', length r = length r' -> rvalue r = rvalue r' -> r = r'.
Proof.
  induction r as [|b r IH]; intros [|b' r'] Hl H; simpl in Hl; try discriminate; auto.
  cbn [rvalue] in H. assert (rvalue r = rvalue r' /\ b = b') as [Hr ->].
  { destruct b, b'; split; auto; lia. }
  f_equal. apply IH; lia.
Qed.
Lemma value_inj c c' : length c = length c' -> value c = value c' -> c = c'.
Proof.
  intros Hl H. rewrite !value_rev in H. apply rvalue_inj in H; [|rewrite !rev_length; auto].
  rewrite <- (rev_involutive c), H. apply rev_involutive.
Qed.

Lemma next_rev_spec r : length (next_rev r) = length r /\ rvalue (next_rev r) = (rvalue r + 1) mod 2 ^ length r.
Proof.
  induction r as [|b r [IL IV]]; cbn [next_rev length rvalue].
  - auto.
  - assert (Hp : 2 ^ length r <> 0) by (apply Nat.pow_nonzero; lia).
    pose proof (rvalue_lt r) as Hlt.
    destruct b; cbn [length rvalue]; rewrite ?IL; split; auto.
    + rewrite IV. cbn [Nat.pow]. replace (1 + 2 * rvalue r + 1) with (2 * (rvalue r + 1)) by lia.
      rewrite Nat.mul_mod_distr_l by lia. lia.
    + cbn [Nat.pow]. rewrite Nat.mod_small; lia.
Qed.
Lemma prev_rev_spec r : length (prev_rev r) = length r /\ (rvalue (prev_rev r) + 1) mod 2 ^ length r = rvalue r.
Proof.
  induction r as [|b r [IL IV]]; cbn [prev_rev length rvalue].
  - auto.
  - assert (Hp : 2 ^ length r <> 0) by (apply Nat.pow_nonzero; lia).
    pose proof (rvalue_lt r) as Hlt.
    destruct b; cbn [length rvalue]; rewrite ?IL; split; auto.
    + cbn [Nat.pow]. rewrite Nat.mod_small; lia.
    + cbn [Nat.pow]. replace (1 + 2 * rvalue (prev_rev r) + 1) with (2 * (rvalue (prev_rev r) + 1)) by lia.
      rewrite Nat.mul_mod_distr_l by lia. lia.
Qed.

Lemma bit_next_spec c : length (bit_next c) = length c /\ value (bit_next c) = (value c + 1) mod 2 ^ length c.
Proof.
  unfold bit_next. rewrite !value_rev, rev_involutive, rev_length.
  destruct (next_rev_spec (rev c)) as [H1 H2]. rewrite rev_length in *. auto.
Qed.
Lemma bit_prev_spec c : length (bit_prev c) = length c /\
  value (bit_prev c) = (value c + (2 ^ length c - 1)) mod 2 ^ length c.
Proof.
  unfold bit_prev. rewrite !value_rev, rev_involutive, rev_length.
  destruct (prev_rev_spec (rev c)) as [H1 H2]. rewrite rev_length in *. split; auto.
  pose proof (rvalue_lt (prev_rev (rev c))) as Hlt. rewrite H1 in Hlt. rewrite <- H2.
  assert (Hp : 2 ^ length c <> 0) by (apply Nat.pow_nonzero; lia).
  rewrite Nat.add_mod_idemp_l by auto.
  replace (rvalue (prev_rev (rev c)) + 1 + (2 ^ length c - 1)) with (rvalue (prev_rev (rev c)) + 1 * 2 ^ length c) by lia.
  rewrite Nat.mod_add by auto. rewrite Nat.mod_small; auto.
Qed.

Lemma bit_next_prev c : bit_next (bit_prev c) = c /\ bit_prev (bit_next c) = c.
Proof.
  unfold bit_next, bit_prev. rewrite !rev_involutive. split.
  - rewrite <- (rev_involutive c) at 2. f_equal. generalize (rev c). induction l as [|[] l IH]; simpl; auto. congruence.
  - rewrite <- (rev_involutive c) at 2. f_equal. generalize (rev c). induction l as [|[] l IH]; simpl; auto. congruence.
Qed.

Lemma iter_next k c : length (Nat.iter k bit_next c) = length c /\
  value (Nat.iter k bit_next c) = (value c + k) mod 2 ^ length c.
Proof.
  assert (Hp : 2 ^ length c <> 0) by (apply Nat.pow_nonzero; lia).
  induction k as [|k [IL IV]].
  - simpl. split; auto. rewrite Nat.add_0_r, Nat.mod_small; auto. apply value_lt.
  - change (Nat.iter (S k) bit_next c) with (bit_next (Nat.iter k bit_next c)).
    destruct (bit_next_spec (Nat.iter k bit_next c)) as [H1 H2]. rewrite IL in *. split; auto.
    rewrite H2, IV, Nat.add_mod_idemp_l by auto. f_equal. lia.
Qed.
Lemma iter_succ_r {A} (f : A -> A) k x : Nat.iter (S k) f x = Nat.iter k f (f x).
Proof. induction k; simpl; auto. simpl in IHk. congruence. Qed.
Lemma iter_prev_next k : forall c, Nat.iter k bit_prev (Nat.iter k bit_next c) = c.
Proof.
  induction k as [|k IH]; intros c; auto.
  rewrite iter_succ_r. change (Nat.iter (S k) bit_next c) with (bit_next (Nat.iter k bit_next c)).
  rewrite (proj2 (bit_next_prev _)). apply IH.
Qed.
Lemma iter_next_full c : Nat.iter (2 ^ length c) bit_next c = c.
Proof.
  destruct (iter_next (2 ^ length c) c) as [HL HV]. apply value_inj; auto. rewrite HV.
  assert (Hp : 2 ^ length c <> 0) by (apply Nat.pow_nonzero; lia).
  replace (value c + 2 ^ length c) with (value c + 1 * 2 ^ length c) by lia.
  rewrite Nat.mod_add by auto. apply Nat.mod_small, value_lt.
Qed.
Lemma iter_prev_full c : Nat.iter (2 ^ length c) bit_prev c = c.
Proof. rewrite <- (iter_next_full c) at 2. apply iter_prev_next. Qed.

(** *** crossovers *)
Lemma one_pt_spec c1 c2 d ds : c1 <> [] -> c2 <> [] ->
  let site := d mod Nat.min (length c1) (length c2) in
  exists x1 x2 ch, one_pt_xover c1 c2 (d :: ds) = Ok (x1, x2, ch, ds) /\
    exchanged (fun i => i <? site) c1 c2 x1 x2 /\ tails_kept c1 c2 x1 x2 /\
    (ch = true <-> (x1, x2) <> (c1, c2)).
Proof.
  intros H1 H2 site. unfold one_pt_xover.
  assert (Hm : 0 < Nat.min (length c1) (length c2)) by (destruct c1, c2; simpl; try congruence; lia).
  destruct (Nat.eqb_spec (Nat.min (length c1) (length c2)) 0); [lia|].
  unfold draw. cbn [rbind]. fold site.
  assert (Hs : site < Nat.min (length c1) (length c2)) by (apply Nat.mod_upper_bound; lia).
  assert (L1 : length (firstn site c1) = site) by (rewrite firstn_length_le; lia).
  assert (L2 : length (firstn site c2) = site) by (rewrite firstn_length_le; lia).
  assert (HE : exchanged (fun i => i <? site) c1 c2 (firstn site c2 ++ skipn site c1) (firstn site c1 ++ skipn site c2)
     /\ tails_kept c1 c2 (firstn site c2 ++ skipn site c1) (firstn site c1 ++ skipn site c2)).
  { split.
    - split; [|split]; try (rewrite app_length, skipn_length; lia).
      intros i Hi. destruct (Nat.ltb_spec i site).
      + rewrite !nth_error_app1 by lia. rewrite !firstn_nth_error by lia. auto.
      + rewrite !nth_error_app2 by lia. rewrite L1, L2, !skipn_nth_error.
        replace (site + (i - site)) with i by lia. auto.
    - intros i Hi. rewrite !nth_error_app2 by lia. rewrite L1, L2, !skipn_nth_error.
      replace (site + (i - site)) with i by lia. auto. }
  unfold bits_eqb. destruct (list_eq_dec bool_dec (firstn site c1) (firstn site c2)) as [E|E].
  - exists c1, c2, false. split; auto. rewrite <- E, firstn_skipn in HE. rewrite E, firstn_skipn in HE.
    destruct HE. repeat split; auto; try congruence; apply H.
    all: auto.
  - exists (firstn site c2 ++ skipn site c1), (firstn site c1 ++ skipn site c2), true.
    split; auto. destruct HE. split; auto. split; auto. split; auto.
    intros _ F. apply E. assert (F1 : firstn site c2 ++ skipn site c1 = c1) by congruence.
    apply (f_equal (firstn site)) in F1.
    rewrite firstn_app, L2, Nat.sub_diag, firstn_O, app_nil_r, firstn_firstn, Nat.min_id in F1. auto.
Qed.

Lemma u_spec c1 : forall c2 ds, length c1 = length c2 -> length c1 <= length ds ->
  exists x1 x2 ch ds' S, u_xover c1 c2 ds = Ok (x1, x2, ch, ds') /\
    exchanged S c1 c2 x1 x2 /\ (ch = true <-> (x1, x2) <> (c1, c2)).
Proof.
  induction c1 as [|a r1 IH]; intros [|b r2] ds Hl Hd; simpl in Hl; try discriminate.
  - exists [], [], false, ds, (fun _ => false). split; auto. split.
    + repeat split; simpl; intros; lia.
    + split; [discriminate|congruence].
  - cbn [u_xover]. destruct (Bool.eqb a b) eqn:Eab.
    + destruct (IH r2 ds) as (x1 & x2 & ch & ds' & S & E & (L1 & L2 & HS) & Hch); [lia|simpl in Hd; lia|].
      rewrite E. cbn [rbind]. exists (a :: x1), (b :: x2), ch, ds', (fun i => match i with 0 => false | S j => S j end).
      split; auto. split.
      * split; [simpl; lia|]. split; [simpl; lia|]. intros [|i] Hi; simpl; auto. apply HS. simpl in Hi. lia.
      * rewrite Hch. split; intros H F; apply H; congruence.
    + destruct ds as [|d ds]; [simpl in Hd; lia|]. unfold draw_flip. cbn [rbind].
      destruct (IH r2 ds) as (x1 & x2 & ch & ds' & S & E & (L1 & L2 & HS) & Hch); [lia|simpl in Hd; lia|].
      rewrite E. cbn [rbind]. destruct (Nat.odd d).
      * exists (b :: x1), (a :: x2), true, ds', (fun i => match i with 0 => true | S j => S j end).
        split; auto. split.
        -- split; [simpl; lia|]. split; [simpl; lia|]. intros [|i] Hi; simpl; auto. apply HS. simpl in Hi. lia.
        -- split; auto. intros _ F. inversion F; subst. rewrite eqb_reflx in Eab. discriminate.
      * exists (a :: x1), (b :: x2), ch, ds', (fun i => match i with 0 => false | S j => S j end).
        split; auto. split.
        -- split; [simpl; lia|]. split; [simpl; lia|]. intros [|i] Hi; simpl; auto. apply HS. simpl in Hi. lia.
        -- rewrite Hch. split; intros H F; apply H; congruence.
Qed.

Lemma u_longer_first c1 : forall c2 ds, length c2 < length c1 -> length c2 <= length ds ->
  u_xover c1 c2 ds = UB.
Proof.
  induction c1 as [|a r1 IH]; intros [|b r2] ds Hl Hd; simpl in Hl; try lia; auto.
  cbn [u_xover]. destruct (Bool.eqb a b).
  - rewrite IH; auto; simpl in Hd; lia.
  - destruct ds as [|d ds]; [simpl in Hd; lia|]. unfold draw_flip. cbn [rbind].
    rewrite IH; auto; simpl in Hd; lia.
Qed.

(** choosing the points *)
Definition trues (l : list bool) : nat := count_occ bool_dec l true.
Lemma trues_le l : trues l <= length l.
Proof. apply count_occ_bound. Qed.
Lemma trues_set l : forall i, nth_error l i = Some false -> trues (set l i true) = S (trues l).
Proof.
  unfold trues. induction l as [|b l IH]; intros [|i] H; simpl in H; try discriminate.
  - inversion H; subst. reflexivity.
  - change (set (b :: l) (S i) true) with (b :: set l i true). destruct b; simpl; rewrite IH; auto.
Qed.
Lemma trues_false l : trues l < length l -> exists i, nth_error l i = Some false.
Proof.
  unfold trues. induction l as [|b l IH]; simpl; [lia|]. destruct b; simpl.
  - intros H. destruct IH as [i Hi]; [lia|]. exists (S i); auto.
  - intros _. exists 0. auto.
Qed.
Lemma trues_repeat m : trues (repeat false m) = 0.
Proof. unfold trues. induction m; simpl; auto. Qed.

Lemma choose_points_spec ds : forall p k p' ds', (0 < k)%N -> (k < 4294967296)%N ->
  choose_points p k ds = Ok (p', ds') ->
  length p' = length p /\ trues p' = trues p + N.to_nat k.
Proof.
  induction ds as [|d ds IH]; intros p k p' ds' Hk Hk2 H; simpl in H; [discriminate|].
  destruct (nth_error p (d mod length p)) as [[|]|] eqn:En; [| |discriminate].
  - destruct (N.eqb_spec k 0); [lia|]. eapply IH; eauto.
  - rewrite upd_set in H by (apply nth_error_lt in En; auto). cbn [of_opt rbind] in H.
    unfold udec in H. destruct (N.eqb_spec k 0); [lia|].
    destruct (N.eqb_spec (k - 1) 0).
    + inversion H; subst. rewrite set_length, trues_set; auto. split; auto. lia.
    + apply IH in H; [|lia|lia]. rewrite set_length, trues_set in H; auto. split; [tauto|lia].
Qed.

Lemma choose_points_unstuck_nil k : forall p, trues p + S k <= length p ->
  exists more p' ds', choose_points p (N.of_nat (S k)) more = Ok (p', ds').
Proof.
  induction k as [|k IH]; intros p Hp; (destruct (trues_false p) as [i Hi]; [lia|]);
    pose proof (nth_error_lt _ _ _ Hi) as Hlt.
  - exists [i]. simpl choose_points. rewrite Nat.mod_small by auto. rewrite Hi.
    rewrite upd_set by auto. simpl. eauto.
  - destruct (IH (set p i true)) as (more & p' & ds' & E).
    { rewrite trues_set by auto. rewrite set_length. lia. }
    exists (i :: more). cbn [choose_points]. rewrite Nat.mod_small by auto. rewrite Hi.
    rewrite upd_set by auto. cbn [of_opt rbind]. unfold udec.
    destruct (N.eqb_spec (N.of_nat (S (S k))) 0); [lia|].
    replace (N.of_nat (S (S k)) - 1)%N with (N.of_nat (S k)) by lia.
    destruct (N.eqb_spec (N.of_nat (S k)) 0); [lia|]. eauto.
Qed.

Lemma choose_points_unstuck ds : forall p k, (0 < k)%N -> trues p + N.to_nat k <= length p ->
  exists more p' ds', choose_points p k (ds ++ more) = Ok (p', ds').
Proof.
  induction ds as [|d ds IH]; intros p k Hk Hp.
  - replace k with (N.of_nat (S (N.to_nat (k - 1)))) by lia. apply choose_points_unstuck_nil. lia.
  - assert (Hl : d mod length p < length p) by (apply Nat.mod_upper_bound; lia).
    destruct (nth_error_in_some p _ Hl) as [b Hb]. cbn [app choose_points]. rewrite Hb.
    destruct b.
    + destruct (N.eqb_spec k 0); [lia|]. apply IH; auto.
    + rewrite upd_set by auto. cbn [of_opt rbind]. unfold udec. destruct (N.eqb_spec k 0); [lia|].
      destruct (N.eqb_spec (k - 1) 0); [exists []; eauto|].
      apply IH; [lia|]. rewrite trues_set by auto. rewrite set_length. lia.
Qed.

(** with no point to choose the counter wraps round and the loop never ends *)
Lemma choose_points_stuck ds : forall p k, (0 < k)%N -> length p < trues p + N.to_nat k -> p <> [] ->
  choose_points p k ds = NoDraw.
Proof.
  induction ds as [|d ds IH]; intros p k Hk Hp Hne; auto.
  assert (Hl : d mod length p < length p) by (apply Nat.mod_upper_bound; destruct p; simpl; congruence).
  destruct (nth_error_in_some p _ Hl) as [b Hb]. cbn [choose_points]. rewrite Hb. destruct b.
  - destruct (N.eqb_spec k 0); [lia|]. auto.
  - rewrite upd_set by auto. cbn [of_opt rbind]. unfold udec. destruct (N.eqb_spec k 0); [lia|].
    pose proof (trues_set _ _ Hb) as Ht. pose proof (trues_le (set p (d mod length p) true)) as Hle.
    rewrite set_length in Hle.
    destruct (N.eqb_spec (k - 1) 0); [lia|]. apply IH; [lia| |].
    + rewrite Ht, set_length. lia.
    + intros F. apply (f_equal (@length bool)) in F. rewrite set_length in F. destruct p; simpl in *; congruence.
Qed.
Lemma choose_points_zero m ds : (Z.of_nat m < 4294967296)%Z -> 0 < m ->
  choose_points (repeat false m) 0 ds = NoDraw.
Proof.
  intros Hm Hm0. destruct ds as [|d ds]; auto. cbn [choose_points]. rewrite repeat_length.
  assert (Hl : d mod m < m) by (apply Nat.mod_upper_bound; lia).
  assert (Hb : nth_error (repeat false m) (d mod m) = Some false).
  { rewrite nth_error_repeat; auto. }
  rewrite Hb. rewrite upd_set by (rewrite repeat_length; auto). cbn [of_opt rbind].
  unfold udec. cbn [N.eqb]. change (if (4294967295 =? 0)%N then _ else ?x) with x.
  apply choose_points_stuck; [lia| |].
  - rewrite trues_set by auto. rewrite set_length, repeat_length, trues_repeat. lia.
  - intros F. apply (f_equal (@length bool)) in F. rewrite set_length, repeat_length in F. simpl in F. lia.
Qed.

(** the swapping loop *)
Lemma cut_swap_spec ps : forall ch c1 c2, length ps = Nat.min (length c1) (length c2) ->
  exists x1 x2, cut_swap ps ch c1 c2 = Some (x1, x2) /\
    exchanged (fun i => xorb ch (Nat.odd (trues (firstn (S i) ps)))) c1 c2 x1 x2 /\ tails_kept c1 c2 x1 x2.
Proof.
  induction ps as [|p ps IH]; intros ch c1 c2 Hl; cbn [cut_swap].
  - exists c1, c2. split; auto. simpl in Hl. split.
    + repeat split; intros; lia.
    + intros i _; auto.
  - destruct c1 as [|a r1], c2 as [|b r2]; simpl in Hl; try discriminate.
    destruct (IH (if p then negb ch else ch) r1 r2) as (x1 & x2 & E & (L1 & L2 & HS) & HT); [lia|].
    rewrite E. cbn [obind]. eexists; eexists. split.
    { f_equal. instantiate (1 := if (if p then negb ch else ch) then a :: x2 else b :: x2).
      instantiate (1 := if (if p then negb ch else ch) then b :: x1 else a :: x1).
      destruct (if p then negb ch else ch); auto. }
    split.
    + split; [destruct (if p then negb ch else ch); simpl; lia|].
      split; [destruct (if p then negb ch else ch); simpl; lia|].
      intros [|i] Hi.
      * change (firstn 1 (p :: ps)) with [p]. destruct p, ch; simpl; auto.
      * assert (Hx : xorb ch (Nat.odd (trues (firstn (S (S i)) (p :: ps)))) =
          xorb (if p then negb ch else ch) (Nat.odd (trues (firstn (S i) ps)))).
        { change (firstn (S (S i)) (p :: ps)) with (p :: firstn (S i) ps). unfold trues.
          destruct p; cbn [count_occ]; destruct (bool_dec _ _); try congruence.
          rewrite Nat.odd_succ, <- Nat.negb_odd. destruct ch, (Nat.odd _); auto. }
        rewrite Hx. specialize (HS i ltac:(simpl in Hi; lia)).
        destruct (if p then negb ch else ch); cbn [nth_error]; exact HS.
    + intros [|i] Hi; simpl in Hi; [lia|]. specialize (HT i ltac:(lia)).
      destruct (if p then negb ch else ch); cbn [nth_error]; exact HT.
Qed.

Lemma cuts_trues ps : forall i, cuts_upto (fun j => nth j ps false) i = trues (firstn i (tl ps)).
Proof.
  assert (H : forall qs (q : bool) i, cuts_upto (fun j => nth j (q :: qs) false) i = trues (firstn i qs)).
  { intros qs q i. induction i as [|i IH]; [reflexivity|]. cbn [cuts_upto]. rewrite IH. cbn [nth].
    clear IH. revert i. induction qs as [|x qs IH]; intros i; [destruct i; reflexivity|].
    destruct i; [destruct x; reflexivity|]. cbn [nth].
    change (firstn (S (S i)) (x :: qs)) with (x :: firstn (S i) qs).
    change (firstn (S i) (x :: qs)) with (x :: firstn i qs). unfold trues in *. cbn [count_occ].
    destruct (bool_dec x true); rewrite <- IH; lia. }
  intros i. destruct ps as [|q qs]; [|apply H]. simpl tl.
  induction i as [|i IH]; auto. cbn [cuts_upto]. rewrite IH. destruct i; reflexivity.
Qed.

Lemma n_pts_spec num c1 c2 ds x1 x2 ch ds' : (0 < num)%N -> (num < 4294967296)%N ->
  2 <= length c1 -> 2 <= length c2 ->
  n_pts_xover num c1 c2 ds = Ok (x1, x2, ch, ds') ->
  ch = true /\ exists points,
    length points = Nat.min (length c1) (length c2) /\
    count_occ bool_dec points true = Nat.min (length points - 1) (N.to_nat num) /\
    exchanged (fun i => Nat.odd (cuts_upto (fun j => nth j points false) i)) c1 c2 x1 x2 /\
    tails_kept c1 c2 x1 x2.
Proof.
  intros Hn Hn2 H1 H2 H. unfold n_pts_xover in H.
  destruct c1 as [|a r1]; [simpl in H1; lia|]. destruct c2 as [|b r2]; [simpl in H2; lia|].
  apply rbind_ok in H as ((points & ds1) & Ep & H). apply rbind_ok in H as ((y1 & y2) & Ex & H).
  cbn [fst snd] in H. inversion H; subst. split; auto. exists points.
  cbn [length Nat.min] in *. set (m := Nat.min (length r1) (length r2)) in *.
  replace (S m - 1) with m in * by lia.
  apply choose_points_spec in Ep as (L & T); [|lia|lia].
  rewrite trues_repeat, repeat_length in *. 
  rewrite L. split; auto. split; [unfold trues in T; lia|].
  apply of_opt_ok in Ex.
  destruct (cut_swap_spec (tl points) false r1 r2) as (z1 & z2 & E & (L1 & L2 & HS) & HT).
  { destruct points; simpl in *; lia. }
  rewrite E in Ex. inversion Ex; subst. split.
  - split; [simpl; lia|]. split; [simpl; lia|]. intros [|i] Hi; [simpl; auto|].
    rewrite cuts_trues. specialize (HS i). cbn [nth_error]. rewrite xorb_false_l in HS. apply HS.
    simpl in Hi. lia.
  - intros [|i] Hi; simpl in Hi; [lia|]. apply HT. lia.
Qed.

Lemma n_pts_unstuck num c1 c2 ds : (0 < num)%N -> 2 <= length c1 -> 2 <= length c2 ->
  exists more x1 x2 ds', n_pts_xover num c1 c2 (ds ++ more) = Ok (x1, x2, true, ds').
Proof.
  intros Hn H1 H2. unfold n_pts_xover.
  destruct c1 as [|a r1]; [simpl in H1; lia|]. destruct c2 as [|b r2]; [simpl in H2; lia|].
  set (m := Nat.min (length (a :: r1)) (length (b :: r2))) in *.
  assert (Hm : m = S (Nat.min (length r1) (length r2))) by reflexivity.
  assert (Hm2 : 2 <= m) by (simpl in *; lia).
  destruct (choose_points_unstuck ds (repeat false m) (N.min (N.of_nat (m - 1)) num)) as (more & p' & ds' & E).
  { lia. } { rewrite trues_repeat, repeat_length. lia. }
  exists more. rewrite E. cbn [rbind].
  destruct (N.ltb_spec (N.min (N.of_nat (m - 1)) num) 4294967296) as [Hk|Hk].
  - pose proof E as E'. apply choose_points_spec in E' as (L & _); [|lia|lia]. rewrite repeat_length in L.
    destruct (cut_swap_spec (tl p') false r1 r2) as (z1 & z2 & Ez & _).
    { destruct p'; simpl in *; lia. }
    rewrite Ez. cbn [of_opt rbind]. eauto.
  - assert (L : length p' = m).
    { clear -E. rewrite <- (repeat_length false m). revert E.
      generalize (repeat false m), (N.min (N.of_nat (m - 1)) num), (ds ++ more).
      intros p k l. revert p k. induction l as [|d l IH]; intros p k E; simpl in E; [discriminate|].
      destruct (nth_error p (d mod length p)) as [[|]|] eqn:En; try discriminate.
      - destruct (k =? 0)%N; [congruence|eauto].
      - rewrite upd_set in E by (eapply nth_error_lt; eauto). cbn [of_opt rbind] in E.
        destruct (udec k =? 0)%N; [inversion E; subst; apply set_length|].
        apply IH in E. rewrite set_length in E. auto. }
    destruct (cut_swap_spec (tl p') false r1 r2) as (z1 & z2 & Ez & _).
    { destruct p'; simpl in *; lia. }
    rewrite Ez. cbn [of_opt rbind]. eauto.
Qed.

Lemma n_pts_stuck num c1 c2 ds : c1 <> [] -> c2 <> [] -> (Z.of_nat (length c1) < 4294967296)%Z ->
  num = 0%N \/ length c1 = 1 \/ length c2 = 1 -> n_pts_xover num c1 c2 ds = NoDraw.
Proof.
  intros H1 H2 Hz Hc. unfold n_pts_xover. destruct c1 as [|a r1]; [congruence|]. destruct c2 as [|b r2]; [congruence|].
  set (m := Nat.min (length (a :: r1)) (length (b :: r2))) in *.
  assert (Hm : m = S (Nat.min (length r1) (length r2))) by reflexivity.
  replace (N.min (N.of_nat (m - 1)) num) with 0%N by (simpl length in Hc; lia).
  rewrite choose_points_zero; auto; lia.
Qed.

(** genes *)
Lemma gene_swap_spec g ps : 0 < g -> forall c1 c2, length ps * g <= Nat.min (length c1) (length c2) ->
  exists x1 x2, gene_swap g ps c1 c2 = (x1, x2) /\
    exchanged (fun i => nth (i / g) ps false) c1 c2 x1 x2 /\ tails_kept c1 c2 x1 x2.
Proof.
  intros Hg. induction ps as [|p ps IH]; intros c1 c2 Hl; cbn [gene_swap].
  - exists c1, c2. split; auto. split.
    + split; auto. split; auto. intros i _. destruct (i / g); auto.
    + intros i _; auto.
  - simpl in Hl. destruct (IH (skipn g c1) (skipn g c2)) as (x1 & x2 & E & (L1 & L2 & HS) & HT).
    { rewrite !skipn_length. lia. }
    rewrite E. rewrite !skipn_length in *.
    assert (F1 : length (firstn g c1) = g) by (apply firstn_length_le; lia).
    assert (F2 : length (firstn g c2) = g) by (apply firstn_length_le; lia).
    exists ((if p then firstn g c2 else firstn g c1) ++ x1), ((if p then firstn g c1 else firstn g c2) ++ x2).
    split; [destruct p; auto|]. split.
    + split; [rewrite app_length; destruct p; lia|]. split; [rewrite app_length; destruct p; lia|].
      intros i Hi. destruct (Nat.lt_ge_cases i g) as [Hlt|Hge].
      * rewrite !nth_error_app1 by (destruct p; lia). rewrite Nat.div_small by auto. cbn [nth].
        destruct p; rewrite !firstn_nth_error by lia; auto.
      * rewrite !nth_error_app2 by (destruct p; lia).
        replace (length (if p then firstn g c2 else firstn g c1)) with g by (destruct p; auto).
        replace (length (if p then firstn g c1 else firstn g c2)) with g by (destruct p; auto).
        assert (Hd : i / g = S ((i - g) / g)).
        { replace i with (i - g + 1 * g) at 1 by lia. rewrite Nat.div_add by lia. lia. }
        rewrite Hd. cbn [nth]. specialize (HS (i - g) ltac:(lia)).
        rewrite !skipn_nth_error in HS. replace (g + (i - g)) with i in HS by lia. exact HS.
    + intros i Hi. rewrite !nth_error_app2 by (destruct p; lia).
      replace (length (if p then firstn g c2 else firstn g c1)) with g by (destruct p; auto).
      replace (length (if p then firstn g c1 else firstn g c2)) with g by (destruct p; auto).
      specialize (HT (i - g) ltac:(rewrite !skipn_length; lia)). rewrite !skipn_nth_error in HT.
      replace (g + (i - g)) with i in HT by lia. exact HT.
Qed.

Lemma gene_xover_spec g num c1 c2 ds x1 x2 ch ds' : 0 < g -> (0 < num)%N -> (num < 4294967296)%N ->
  g <= length c1 -> g <= length c2 ->
  gene_xover g num c1 c2 ds = Ok (x1, x2, ch, ds') ->
  ch = true /\ exists genes,
    length genes = Nat.min (length c1) (length c2) / g /\
    count_occ bool_dec genes true = Nat.min (length genes) (N.to_nat num) /\
    exchanged (fun i => nth (i / g) genes false) c1 c2 x1 x2 /\ tails_kept c1 c2 x1 x2.
Proof.
  intros Hg Hn Hn2 H1 H2 H. unfold gene_xover in H. destruct (Nat.eqb_spec g 0); [lia|].
  set (m := Nat.min (length c1) (length c2) / g) in *.
  assert (Hm : 1 <= m) by (apply Nat.div_le_lower_bound; lia).
  destruct (Nat.eqb_spec m 0); [lia|].
  apply rbind_ok in H as ((points & ds1) & Ep & H).
  apply choose_points_spec in Ep as (L & T); [|lia|lia]. rewrite trues_repeat, repeat_length in *.
  destruct (gene_swap_spec g points Hg c1 c2) as (y1 & y2 & E & HE & HT).
  { rewrite L. unfold m. rewrite Nat.mul_comm. apply Nat.mul_div_le. lia. }
  rewrite E in H. inversion H; subst. split; auto. exists points. rewrite L. split; auto. split; [unfold trues in T; lia|].
  split; auto.
Qed.

(** the four operators drawing how many bits to flip *)
Lemma exact_k_spec c ds k : k <= length c -> length c <= length ds ->
  exists c' , det_single_bit_flip k c ds = Ok (c', 0 <? k, skipn (length c) ds) /\ hamming c c' = k /\ length c' = length c.
Proof.
  intros H1 H2. destruct (det_single_spec k c ds H1 H2) as (c' & idx & E & _ & _ & _ & [HL _] & HH). eauto.
Qed.

Lemma bit_inversion_positions c ds c' ch ds' : bit_inversion c ds = Ok (c', ch, ds') ->
  ch = true /\ length c' = length c /\ exists r1 r2, r1 < r2 /\ r2 <= length c /\
    forall i, nth_error c' i = if (r1 <=? i) && (i <? r2) then nth_error c (r1 + r2 - 1 - i) else nth_error c i.
Proof.
  intros H. apply bit_inversion_spec in H as (-> & r1 & r2 & H1 & H2 & ->).
  destruct (reverse_range_spec r1 r2 c) as [HL HN]; [lia|lia|]. eauto 8.
Qed.

Lemma standard_spec c k ds : k <= length c -> length c <= length ds ->
  exists c', standard_bit_mutation c (k :: ds) = Ok (c', 0 <? k, skipn (length c) ds) /\
    length c' = length c /\ hamming c c' = k.
Proof.
  intros Hk Hd. unfold standard_bit_mutation, draw. cbn [rbind]. rewrite Nat.mod_small by lia.
  destruct (exact_k_spec c ds k Hk Hd) as (c' & E & H1 & H2). eauto.
Qed.
Lemma uniform_spec c k ds : k < length c -> length c <= length ds ->
  exists c', uniform_bit_mutation c (k :: ds) = Ok (c', 0 <? k, skipn (length c) ds) /\
    length c' = length c /\ hamming c c' = k.
Proof.
  intros Hk Hd. unfold uniform_bit_mutation, draw. cbn [rbind]. rewrite Nat.mod_small by lia.
  destruct (exact_k_spec c ds k) as (c' & E & H1 & H2); eauto. lia.
Qed.
Lemma uniform_not_all c ds c' ch ds' : c <> [] -> uniform_bit_mutation c ds = Ok (c', ch, ds') -> hamming c c' < length c.
Proof.
  intros Hne H. unfold uniform_bit_mutation in H. apply rbind_ok in H as ((k & ds1) & E & H).
  apply draw_lt in E; [|destruct c; simpl; [congruence|lia]].
  unfold det_single_bit_flip in H. apply rbind_ok in H as ((idx & ds2) & E2 & H).
  destruct (length c <? k); [discriminate|]. apply rbind_ok in H as (c2 & E3 & H). apply of_opt_ok in E3.
  inversion H; subst.
  assert (HB : forall idx c c', flip_all idx c = Some c' -> length c' = length c /\ hamming c c' <= length idx).
  { clear. induction idx as [|i idx IH]; intros c c' H; simpl in H.
    - inversion H; subst. rewrite hamming_refl. auto.
    - destruct (flip_at c i) as [c1|] eqn:E; [|discriminate]. cbn [obind] in H.
      assert (Hi : i < length c).
      { unfold flip_at in E. destruct (nth_error c i) eqn:En; [|discriminate]. eapply nth_error_lt; eauto. }
      destruct (IH _ _ H) as [L1 H1].
      destruct (flip_all_ok [i] c) as (c1' & E' & HF). { repeat constructor; simpl; tauto. } { intros j [<-|[]]; auto. }
      simpl in E'. rewrite E in E'. simpl in E'. inversion E'; subst c1'.
      pose proof HF as [L2 _].
      apply (flipped_hamming c c1 [i]) in HF; [|repeat constructor; simpl; tauto|intros j [<-|[]]; auto].
      destruct (hamming_tri c c1 c') as [T _]; [lia|lia|]. simpl in *. split; lia. }
  destruct (HB _ _ _ E3) as [_ Hh]. pose proof (firstn_le_length k idx). lia.
Qed.
Lemma conditional_spec c zeros k ds : (forall z, In z zeros -> z = 0) -> 1 <= k <= length c -> length c <= length ds ->
  exists c', conditional_bit_mutation c (zeros ++ k :: ds) = Ok (c', true, skipn (length c) ds) /\
    length c' = length c /\ hamming c c' = k.
Proof.
  intros Hz Hk Hd. unfold conditional_bit_mutation.
  assert (E : draw_other (length c + 1) 0 (zeros ++ k :: ds) = Ok (k, ds)).
  { induction zeros as [|z zeros IH]; simpl.
    - rewrite Nat.mod_small by lia. destruct (Nat.eqb_spec k 0); [lia|auto].
    - rewrite (Hz z (or_introl eq_refl)), Nat.mod_small by lia. simpl. apply IH. intros; apply Hz; right; auto. }
  rewrite E. cbn [rbind]. destruct (exact_k_spec c ds k) as (c' & E' & H1 & H2); [lia|auto|].
  exists c'. rewrite E'. destruct (Nat.ltb_spec 0 k); [auto|lia].
Qed.
Lemma shifted_spec c k ds : c <> [] -> k <= length c -> length c <= length ds ->
  exists c', shifted_bit_mutation c (k :: ds) = Ok (c', true, skipn (length c) ds) /\
    length c' = length c /\ hamming c c' = Nat.max 1 k.
Proof.
  intros Hne Hk Hd. unfold shifted_bit_mutation, draw. cbn [rbind]. rewrite Nat.mod_small by lia.
  replace (if k =? 0 then 1 else k) with (Nat.max 1 k) by (destruct k; auto).
  assert (1 <= length c) by (destruct c; simpl; [congruence|lia]).
  destruct (exact_k_spec c ds (Nat.max 1 k)) as (c' & E & H1 & H2); [lia|auto|].
  exists c'. rewrite E. destruct (Nat.ltb_spec 0 (Nat.max 1 k)); [auto|lia].
Qed.

Lemma bit_inversion_empty ds : bit_inversion [] ds = NoDraw.
Proof.
  unfold bit_inversion. destruct ds as [|d ds]; auto. unfold draw. cbn [rbind length Nat.add].
  rewrite Nat.mod_1_r. assert (E : draw_other 1 0 ds = NoDraw).
  { induction ds as [|e ds IH]; [reflexivity|]. cbn [draw_other]. rewrite Nat.mod_1_r. exact IH. }
  rewrite E. auto.
Qed.

Lemma gene_xover_unstuck g num c1 c2 ds : 0 < g -> (0 < num)%N -> g <= length c1 -> g <= length c2 ->
  exists more x1 x2 ds', gene_xover g num c1 c2 (ds ++ more) = Ok (x1, x2, true, ds').
Proof.
  intros Hg Hn H1 H2. unfold gene_xover. destruct (Nat.eqb_spec g 0); [lia|].
  set (m := Nat.min (length c1) (length c2) / g) in *.
  assert (Hm : 1 <= m) by (apply Nat.div_le_lower_bound; lia).
  destruct (Nat.eqb_spec m 0); [lia|].
  destruct (choose_points_unstuck ds (repeat false m) (N.min (N.of_nat m) num)) as (more & p' & ds' & E).
  { lia. } { rewrite trues_repeat, repeat_length. lia. }
  exists more. rewrite E. cbn [rbind]. destruct (gene_swap g p' c1 c2) as [x1 x2]. eauto.
Qed.
