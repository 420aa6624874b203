(** Proofs about the quad tree: keys, then each operation, then whole runs. *)
From Coq Require Import List Bool Arith QArith ZArith Lia Lqa Permutation.
From Verif Require Import Lib Outcome BoundsModel BoundsProofs ParetoModel ParetoSpec ParetoProofs ArchSpec ArchProofs QdModel QdSpec.
From Coq Require Import List.
Import ListNotations.
Close Scope Q_scope.

(** ** keys *)
Lemma key_eqb_ok : forall a b, key_eqb a b = true <-> a = b.
Proof.
  induction a as [|x a IH]; intros [|y b]; cbn [key_eqb]; split; intros H; try discriminate; try reflexivity.
  - apply andb_true_iff in H as [H1 H2]. apply eqb_prop in H1. apply IH in H2. congruence.
  - inversion H; subst. rewrite eqb_reflx. cbn. apply IH. reflexivity.
Qed.
Lemma key_eqb_refl a : key_eqb a a = true.
Proof. apply key_eqb_ok. reflexivity. Qed.
Definition subkey (a b : key) : Prop := length a = length b /\ forall i, nth_error a i = Some true -> nth_error b i = Some true.
Lemma subkey_and : forall a b, length a = length b -> (key_eqb (key_and a b) a = true <-> subkey a b).
Proof.
  unfold subkey. induction a as [|x a IH]; intros [|y b] L; try discriminate; cbn [key_and key_eqb].
  - split; [intros _; split; [reflexivity|intros [|i]; discriminate]|reflexivity].
  - cbn [length] in L. rewrite andb_true_iff. rewrite IH by lia. split.
    + intros [H1 [_ H2]]. split; [cbn; lia|]. intros [|i]; cbn [nth_error]; [|apply H2]. intros E. inversion E; subst. destruct y; [reflexivity|discriminate].
    + intros [_ H]. split; [|split; [lia|intros i; exact (H (S i))]]. specialize (H O). cbn in H. destruct x, y; auto. discriminate (H eq_refl).
Qed.
Lemma key_not_nth a i : nth_error (key_not a) i = option_map negb (nth_error a i).
Proof. unfold key_not. apply nth_error_map. Qed.
Lemma subkey_not a b : subkey (key_not a) (key_not b) <-> subkey b a.
Proof.
  unfold subkey. unfold key_not at 1 2. rewrite !map_length. split; intros [L H]; (split; [lia|]); intros i E.
  - destruct (nth_error a i) as [[]|] eqn:Ea; [reflexivity| |apply nth_error_None in Ea; assert (nth_error b i <> None) by congruence; apply nth_error_Some in H0; lia].
    specialize (H i). rewrite !key_not_nth, Ea, E in H. discriminate (H eq_refl).
  - rewrite key_not_nth in *. destruct (nth_error a i) as [[]|] eqn:Ea; try discriminate. destruct (nth_error b i) as [[]|] eqn:Eb; cbn.
    + rewrite (H i Eb) in Ea. discriminate.
    + reflexivity.
    + apply nth_error_None in Eb. assert (nth_error a i <> None) by congruence. apply nth_error_Some in H0. lia.
Qed.
Lemma subkey_lt : forall a b, subkey a b -> a <> b -> key_ltb a b = true.
Proof.
  induction a as [|x a IH]; intros [|y b] [L H] N; try discriminate; [congruence|]. cbn [key_ltb]. destruct (Bool.eqb x y) eqn:E.
  - apply eqb_prop in E. subst y. apply IH; [split; [cbn in L; lia|intros i; exact (H (S i))]|congruence].
  - destruct x; [|reflexivity]. specialize (H O eq_refl). cbn in H. inversion H; subst. discriminate.
Qed.
Lemma zero_nth k : zero_key k = true <-> forall i, nth_error k i <> Some true.
Proof.
  unfold zero_key. rewrite forallb_forall. split.
  - intros H i E. apply nth_error_In in E. apply H in E. discriminate.
  - intros H [] Hx; [|reflexivity]. apply In_nth_error in Hx as (i & Hi). destruct (H i Hi).
Qed.
Lemma full_nth k : full_key k = true <-> forall i, nth_error k i <> Some false.
Proof.
  unfold full_key. rewrite forallb_forall. split.
  - intros H i E. apply nth_error_In in E. apply H in E. discriminate.
  - intros H [] Hx; [reflexivity|]. apply In_nth_error in Hx as (i & Hi). destruct (H i Hi).
Qed.
(** with two digits there is no key strictly between *)
Lemma two_keys a b : length a = 2 -> length b = 2 -> zero_key a = false -> full_key b = false -> key_ltb a b && key_eqb (key_and a b) a = false.
Proof.
  intros La Lb. destruct a as [|x [|x' [|]]]; try discriminate. destruct b as [|y [|y' [|]]]; try discriminate. destruct x, x', y, y'; cbn; congruence.
Qed.

Section Quad.
Variable dirs : list bool.
Hypothesis dirs_some : dirs <> [].
Notation n := (length dirs).
Notation ksucc := (k_succ 0 0 dirs).
Notation wd := (weakly_dominates dirs).
Notation dm := (dominates dirs).
Definition P (v : list Q) : Prop := length v = n.
(** the digits *)
Lemma digits_len : forall ds v w, length v = length ds -> length w = length ds -> length (digits 0 ds v w) = length ds.
Proof. induction ds as [|d ds IH]; intros [|x v] [|y w] Lv Lw; try discriminate; cbn [digits length]; [reflexivity|]. rewrite IH by (cbn in *; lia). reflexivity. Qed.
Lemma digits_nth : forall ds v w i d x y, length v = length ds -> length w = length ds -> objective ds v w i d x y ->
  exists b, nth_error (digits 0 ds v w) i = Some b /\ (b = true <-> ~ better d x y).
Proof.
  induction ds as [|e ds IH]; intros [|x0 v] [|y0 w] i d x y Lv Lw (O1 & O2 & O3); try discriminate; destruct i as [|i]; cbn in O1, O2, O3; try discriminate.
  - inversion O1; inversion O2; inversion O3; subst. cbn [digits nth_error]. eexists. split; [reflexivity|]. unfold better, better_by.
    destruct d; rewrite Qle_bool_iff; (split; [intros H G; lra|intros H]).
    + destruct (Qlt_le_dec 0 (y - x)); [exfalso; auto|lra].
    + destruct (Qlt_le_dec 0 (x - y)); [exfalso; auto|lra].
  - cbn [digits nth_error]. apply IH; [cbn in Lv; lia|cbn in Lw; lia|]. split; [exact O1|split; assumption].
Qed.
Lemma ksucc_len v w : P v -> P w -> length (ksucc v w) = n.
Proof. intros Hv Hw. unfold k_succ. destruct (pareto 0 dirs w v); [apply repeat_length|apply digits_len; assumption]. Qed.
Lemma dom_dec v w : P v -> P w -> (pareto 0 dirs w v = true <-> dm v w).
Proof. intros Hv Hw. apply pareto_exact; assumption. Qed.
Lemma at_objective v w i : P v -> P w -> i < n -> exists d x y, objective dirs v w i d x y.
Proof.
  intros Hv Hw Hi. unfold P in *. destruct (nth_error dirs i) as [d|] eqn:E1; [|apply nth_error_None in E1; lia]. destruct (nth_error v i) as [x|] eqn:E2; [|apply nth_error_None in E2; lia].
  destruct (nth_error w i) as [y|] eqn:E3; [|apply nth_error_None in E3; lia]. exists d, x, y. split; [exact E1|split; assumption].
Qed.
Lemma obj_lt v w i d x y : objective dirs v w i d x y -> i < n.
Proof. intros (H & _). apply nth_error_Some. congruence. Qed.
Lemma bad_better d x y z : ~ better d z y -> better d y x -> better d y x. Proof. auto. Qed.
Lemma wd_trans u v w : P u -> P v -> P w -> wd u v -> wd v w -> wd u w.
Proof.
  intros Hu Hv Hw H1 H2 i d x z O. destruct (at_objective u v i Hu Hv (obj_lt _ _ _ _ _ _ O)) as (d' & x' & y & O').
  assert (d' = d /\ x' = x) as [-> ->] by (destruct O as (A1 & A2 & A3), O' as (B1 & B2 & B3); split; congruence).
  assert (O2 : objective dirs v w i d y z) by (destruct O as (A1 & A2 & A3), O' as (B1 & B2 & B3); split; [exact A1|split; assumption]).
  specialize (H1 _ _ _ _ O'). specialize (H2 _ _ _ _ O2). unfold better, better_by in *. destruct d; lra.
Qed.
Lemma wd_refl v : wd v v.
Proof. intros i d x y (O1 & O2 & O3). rewrite O2 in O3. inversion O3; subst. unfold better, better_by. destruct d; lra. Qed.
Lemma dm_wd v w : dm v w -> wd v w.
Proof. intros [H _]. exact H. Qed.
Lemma dm_not v w : P v -> P w -> dm v w -> ~ wd w v.
Proof. intros Hv Hw [_ (i & d & x & y & (O1 & O2 & O3) & B)] H. apply (H i d y x); [split; [exact O1|split; assumption]|exact B]. Qed.
(** what the two extreme keys mean *)
Lemma zero_ok v w : P v -> P w -> (zero_key (ksucc v w) = true <-> dm v w).
Proof.
  intros Hv Hw. unfold k_succ. destruct (pareto 0 dirs w v) eqn:E.
  - apply dom_dec in E; [|assumption|assumption]. split; [intros _; exact E|]. intros _. apply zero_nth. intros i H. apply nth_error_In in H. apply repeat_spec in H. discriminate.
  - rewrite zero_nth. split; [|intros D; apply dom_dec in D; [congruence|assumption|assumption]]. intros H.
    assert (B : forall i d x y, objective dirs v w i d x y -> better d x y).
    { intros i d x y O. destruct (digits_nth dirs v w i d x y Hv Hw O) as (b & Hb & Eb). specialize (H i). rewrite Hb in H. destruct b; [congruence|].
      assert (G : ~ ~ better d x y) by (intros G; apply Eb in G; discriminate). unfold better, better_by in *. destruct d; [destruct (Qlt_le_dec 0 (y - x))|destruct (Qlt_le_dec 0 (x - y))]; auto; exfalso; apply G; lra. }
    split.
    + intros i d x y O G. apply B in O. unfold better, better_by in *. destruct d; lra.
    + destruct (at_objective v w 0 Hv Hw) as (d & x & y & O); [destruct dirs; [congruence|cbn; lia]|]. exists 0, d, x, y. split; [exact O|apply (B 0); exact O].
Qed.
Lemma digit_ok v w i d x y : P v -> P w -> zero_key (ksucc v w) = false -> objective dirs v w i d x y -> exists b, nth_error (ksucc v w) i = Some b /\ (b = true <-> ~ better d x y).
Proof.
  intros Hv Hw Z O. unfold k_succ in *. destruct (pareto 0 dirs w v) eqn:E; [|exact (digits_nth dirs v w i d x y Hv Hw O)].
  exfalso. rewrite (proj2 (zero_nth _)) in Z; [discriminate|]. intros j H. apply nth_error_In in H. apply repeat_spec in H. discriminate.
Qed.
Lemma full_ok v w : P v -> P w -> (full_key (ksucc v w) = true <-> wd w v).
Proof.
  intros Hv Hw. destruct (zero_key (ksucc v w)) eqn:Z.
  - assert (D := proj1 (zero_ok v w Hv Hw) Z). split; [|intros H; destruct (dm_not v w Hv Hw D H)]. intros F. exfalso.
    assert (L := ksucc_len v w Hv Hw). rewrite full_nth in F. rewrite zero_nth in Z. destruct (nth_error (ksucc v w) 0) as [[]|] eqn:E; [exact (Z 0 E)|exact (F 0 E)|].
    apply nth_error_None in E. destruct dirs; [congruence|cbn in *; lia].
  - rewrite full_nth. split.
    + intros H i d y x (O1 & O2 & O3) B. assert (O : objective dirs v w i d x y) by (split; [exact O1|split; assumption]). destruct (digit_ok v w i d x y Hv Hw Z O) as (b & Hb & Eb).
      specialize (H i). destruct b; [|congruence]. apply (proj1 Eb eq_refl). exact B.
    + intros H i E. assert (Li : i < n) by (rewrite <- (ksucc_len v w Hv Hw); apply nth_error_Some; congruence). destruct (at_objective v w i Hv Hw Li) as (d & x & y & O).
      destruct (digit_ok v w i d x y Hv Hw Z O) as (b & Hb & Eb). rewrite E in Hb. inversion Hb; subst b. assert (G : ~ better d x y) by (destruct O as (O1 & O2 & O3); apply (H i d y x); split; [exact O1|split; assumption]).
      apply Eb in G. discriminate.
Qed.
(** the pruning *)
Lemma keys_below v u r : P v -> P u -> P r -> zero_key (ksucc v r) = false -> zero_key (ksucc u r) = false -> wd u v -> subkey (ksucc u r) (ksucc v r).
Proof.
  intros Hv Hu Hr Zv Zu W. split; [rewrite !ksucc_len by assumption; reflexivity|]. intros i E. assert (Li : i < n) by (rewrite <- (ksucc_len u r Hu Hr); apply nth_error_Some; congruence).
  destruct (at_objective u r i Hu Hr Li) as (d & x & y & O). destruct (at_objective v r i Hv Hr Li) as (d' & x' & y' & O'). destruct O as (O1 & O2 & O3), O' as (O1' & O2' & O3').
  assert (d' = d) as -> by congruence. assert (y' = y) as -> by congruence.
  destruct (digit_ok u r i d x y Hu Hr Zu (conj O1 (conj O2 O3))) as (b & Hb & Eb). rewrite E in Hb. inversion Hb; subst b. destruct (digit_ok v r i d x' y Hv Hr Zv (conj O1 (conj O2' O3))) as (b' & Hb' & Eb').
  rewrite Hb'. f_equal. apply Eb'. assert (G := proj1 Eb eq_refl). specialize (W i d x x' (conj O1 (conj O2 O2'))). unfold better, better_by in *. destruct d; lra.
Qed.

(** ** trees *)
Lemma content_eq t : content t = vec_of t :: contents (subs_of t).
Proof. destruct t; reflexivity. Qed.
Notation size t := (length (content t)).
Definition inc (u w : list Q) : Prop := ~ wd u w /\ ~ wd w u.
Lemma inc_sym u w : inc u w -> inc w u.
Proof. unfold inc. tauto. Qed.
Definition apart (l : list (list Q)) : Prop := ForallOrdPairs inc l.
Lemma apart_perm l l' : Permutation l l' -> apart l -> apart l'.
Proof. intros H. exact (FOP_perm inc inc_sym l l' H). Qed.
Lemma apart_in l u w l1 l2 : apart l -> Permutation l (l1 ++ l2) -> In u l1 -> In w l2 -> inc u w.
Proof.
  intros A Pm Hu Hw. apply (apart_perm _ _ Pm) in A. clear Pm. induction l1 as [|x l1 IH]; [contradiction|]. cbn [app] in A. inversion A as [|? ? F A']; subst. rewrite Forall_forall in F.
  destruct Hu as [->|Hu]; [apply F; apply in_or_app; right; exact Hw|exact (IH A' Hu)].
Qed.
Lemma apart_l l l' : apart (l ++ l') -> apart l.
Proof.
  induction l as [|x l IH]; intros A; [constructor|]. cbn [app] in A. inversion A as [|? ? F A']; subst. constructor; [|exact (IH A')].
  rewrite Forall_forall in *. intros y Hy. apply F. apply in_or_app. left. exact Hy.
Qed.
Lemma apart_r l l' : apart (l ++ l') -> apart l'.
Proof. intros A. apply (apart_l l' l). exact (apart_perm _ _ (Permutation_app_comm l l') A). Qed.
Inductive ok : tree -> Prop :=
| OkNode v i m : P v -> NoDup (map fst m) ->
    (forall k c, In (k, c) m -> ok c /\ zero_key k = false /\ full_key k = false /\ forall u, In u (content c) -> ksucc u v = k) -> ok (Node v i m).
Lemma in_contents u m : In u (contents m) <-> exists k c, In (k, c) m /\ In u (content c).
Proof. unfold contents. rewrite in_flat_map. split; [intros ([k c] & H1 & H2); exists k, c; split; assumption|intros (k & c & H1 & H2); exists (k, c); split; assumption]. Qed.
Lemma ok_P : forall f t, size t <= f -> ok t -> forall u, In u (content t) -> P u.
Proof.
  induction f as [|f IH]; intros t Hs H u Hu; [rewrite content_eq in Hs; cbn in Hs; lia|]. inversion H as [v i m Pv ND Hm]; subst. rewrite content_eq in Hs, Hu. cbn [vec_of subs_of length] in Hs, Hu.
  destruct Hu as [<-|Hu]; [exact Pv|]. apply in_contents in Hu as (k & c & Hc & Hu). apply (IH c); [|exact (proj1 (Hm k c Hc))|exact Hu].
  assert (size c <= length (contents m)); [|lia]. clear -Hc. induction m as [|[k' c'] m IHm]; [contradiction|]. cbn [contents flat_map]. rewrite app_length. cbn [snd]. destruct Hc as [E|Hc]; [inversion E; subst; lia|]. specialize (IHm Hc). unfold contents in IHm. lia.
Qed.
Lemma ok_all t : ok t -> forall u, In u (content t) -> P u.
Proof. apply (ok_P (size t)). lia. Qed.
Lemma sub_size k c m : In (k, c) m -> size c <= length (contents m).
Proof. induction m as [|[k' c'] m IHm]; [contradiction|]. intros Hc. cbn [contents flat_map]. rewrite app_length. cbn [snd]. destruct Hc as [E|Hc]; [inversion E; subst; lia|]. specialize (IHm Hc). unfold contents in IHm. lia. Qed.
(** the map *)
Lemma get_some k m c : get k m = Some c -> In (k, c) m.
Proof. induction m as [|[k' c'] m IH]; cbn [get]; [discriminate|]. destruct (key_eqb k k') eqn:E; [apply key_eqb_ok in E; intros H; inversion H; subst; left; reflexivity|]. intros H. right. exact (IH H). Qed.
Lemma get_none k m : get k m = None -> ~ In k (map fst m).
Proof.
  induction m as [|[k' c'] m IH]; cbn [get map fst]; [intros _ []|]. destruct (key_eqb k k') eqn:E; [discriminate|]. intros H [F|F]; [subst; rewrite key_eqb_refl in E; discriminate|exact (IH H F)].
Qed.
Lemma insert_at_perm k t m : Permutation (insert_at k t m) ((k, t) :: m).
Proof.
  induction m as [|[k' t'] m IH]; cbn [insert_at]; [reflexivity|]. destruct (key_ltb k k'); [reflexivity|]. rewrite IH. apply perm_swap.
Qed.
Lemma replace_at_split k t m c : get k m = Some c -> exists a b, m = a ++ (k, c) :: b /\ replace_at k t m = a ++ (k, t) :: b.
Proof.
  induction m as [|[k' c'] m IH]; cbn [get replace_at]; [discriminate|]. destruct (key_eqb k k') eqn:E.
  - apply key_eqb_ok in E. subst k'. intros H. inversion H; subst. exists [], m. split; reflexivity.
  - intros H. destruct (IH H) as (a & b & -> & ->). exists ((k', c') :: a), b. split; reflexivity.
Qed.
Lemma contents_perm m m' : Permutation m m' -> Permutation (contents m) (contents m').
Proof. intros H. unfold contents. apply Permutation_flat_map. exact H. Qed.
Lemma contents_app m m' : contents (m ++ m') = contents m ++ contents m'.
Proof. apply flat_map_app. Qed.
Lemma new_child t k c : ok t -> get k (subs_of t) = None -> ok c -> zero_key k = false -> full_key k = false -> (forall u, In u (content c) -> ksucc u (vec_of t) = k) ->
  ok (with_child t k c) /\ vec_of (with_child t k c) = vec_of t /\ Permutation (content (with_child t k c)) (content t ++ content c).
Proof.
  intros Ht G Hc Z F Hk. unfold with_child, put. rewrite G. split; [|split; [reflexivity|]].
  - inversion Ht as [v i m Pv ND Hm]; subst. cbn [vec_of idx_of subs_of] in *. pose proof (insert_at_perm k c m) as Pm. constructor; [exact Pv| |].
    + eapply Permutation_NoDup; [apply Permutation_map; symmetry; exact Pm|]. cbn [map fst]. constructor; [apply get_none; exact G|exact ND].
    + intros k' c' H. apply (Permutation_in _ Pm) in H as [E|H]; [inversion E; subst; split; [exact Hc|split; [exact Z|split; [exact F|exact Hk]]]|exact (Hm k' c' H)].
  - rewrite !content_eq. cbn [vec_of subs_of]. rewrite (contents_perm _ _ (insert_at_perm k c (subs_of t))). cbn [app contents flat_map snd]. constructor. rewrite <- content_eq. apply Permutation_app_comm.
Qed.
Lemma new_sub t k c c' extra : ok t -> get k (subs_of t) = Some c -> ok c' -> Permutation (content c') (content c ++ extra) -> (forall u, In u extra -> ksucc u (vec_of t) = k) ->
  ok (with_child t k c') /\ vec_of (with_child t k c') = vec_of t /\ Permutation (content (with_child t k c')) (content t ++ extra).
Proof.
  intros Ht G Hc Pc Hk. unfold with_child, put. rewrite G. destruct (replace_at_split k c' (subs_of t) c G) as (a & b & E & ->). split; [|split; [reflexivity|]].
  - inversion Ht as [v i m Pv ND Hm]; subst. cbn [vec_of idx_of subs_of] in *. subst m. constructor; [exact Pv| |].
    + rewrite map_app in *. exact ND.
    + intros k' d H. destruct (Hm k c) as (_ & Z & F & Hu); [apply in_or_app; right; left; reflexivity|].
      apply in_app_or in H as [H|[H|H]]; [apply Hm; apply in_or_app; left; exact H| |apply Hm; apply in_or_app; right; right; exact H].
      inversion H; subst. split; [exact Hc|]. split; [exact Z|]. split; [exact F|]. intros u H'. apply (Permutation_in _ Pc) in H'. apply in_app_or in H' as [H'|H']; [exact (Hu u H')|exact (Hk u H')].
  - rewrite !content_eq. cbn [vec_of subs_of]. rewrite E. rewrite !contents_app. cbn [app contents flat_map snd]. fold (contents b). constructor. rewrite Pc. rewrite <- !app_assoc. apply Permutation_app_head. apply Permutation_app_head. apply Permutation_app_comm.
Qed.
Lemma childless_ok t : P (vec_of t) -> ok (childless t).
Proof. intros H. unfold childless. constructor; [exact H|constructor|]. intros k c []. Qed.
(** ** reinsert *)
Notation reinsert := (reinsert 0 0 dirs).
Lemma inc_key u w : P u -> P w -> inc u w -> zero_key (ksucc u w) = false /\ full_key (ksucc u w) = false.
Proof.
  intros Hu Hw [H1 H2]. split.
  - destruct (zero_key (ksucc u w)) eqn:E; [|reflexivity]. apply zero_ok in E; [|assumption|assumption]. destruct (H1 (dm_wd _ _ E)).
  - destruct (full_key (ksucc u w)) eqn:E; [|reflexivity]. apply full_ok in E; [|assumption|assumption]. contradiction.
Qed.
Lemma reinsert_ok : forall fuel t1 t2, size t1 + size t2 <= fuel -> ok t1 -> (forall u, In u (content t2) -> P u) -> apart (content t1 ++ content t2) ->
  exists t, reinsert fuel t1 t2 = Ok t /\ ok t /\ vec_of t = vec_of t1 /\ Permutation (content t) (content t1 ++ content t2).
Proof.
  induction fuel as [|fuel IH]; intros t1 t2 Hs O1 P2 A; [rewrite (content_eq t1) in Hs; cbn in Hs; lia|]. cbn [QdModel.reinsert].
  assert (Fold : forall m t1, size t1 + length (contents m) <= fuel -> ok t1 -> (forall u, In u (contents m) -> P u) -> apart (content t1 ++ contents m) ->
    exists t, fold_res (fun t1 kc => reinsert fuel t1 (snd kc)) m t1 = Ok t /\ ok t /\ vec_of t = vec_of t1 /\ Permutation (content t) (content t1 ++ contents m)).
  { clear t1 t2 Hs O1 P2 A. induction m as [|[k c] m IHm]; intros t1 Hs O1 Pm A; cbn [fold_res].
    - exists t1. split; [reflexivity|]. split; [exact O1|]. split; [reflexivity|]. cbn [contents flat_map]. rewrite app_nil_r. reflexivity.
    - cbn [contents flat_map snd] in *. fold (contents m) in *. rewrite app_length in Hs.
      destruct (IH t1 c) as (t & E & Ot & Vt & Pt); [lia|exact O1|intros u Hu; apply Pm; apply in_or_app; left; exact Hu|rewrite app_assoc in A; exact (apart_l _ _ A)|]. rewrite E. cbn [rbind].
      destruct (IHm t) as (t' & E' & Ot' & Vt' & Pt'); [rewrite (Permutation_length Pt), app_length; lia|exact Ot|intros u Hu; apply Pm; apply in_or_app; right; exact Hu| |].
      + eapply apart_perm; [|exact A]. rewrite Pt, <- app_assoc. reflexivity.
      + exists t'. split; [exact E'|]. split; [exact Ot'|]. split; [congruence|]. rewrite Pt', Pt, <- app_assoc. reflexivity. }
  rewrite (content_eq t2) in Hs, A. cbn [length] in Hs. assert (A' : apart (content t1 ++ contents (subs_of t2))). { apply (apart_perm (content t1 ++ vec_of t2 :: contents (subs_of t2)) (vec_of t2 :: content t1 ++ contents (subs_of t2))) in A; [|symmetry; apply Permutation_middle]. inversion A; assumption. }
  destruct (Fold (subs_of t2) t1) as (t & E & Ot & Vt & Pt); [lia|exact O1|intros u Hu; apply P2; rewrite content_eq; right; exact Hu|exact A'|]. rewrite E. cbn [rbind]. clear E.
  assert (Pv : P (vec_of t2)) by (apply P2; rewrite content_eq; left; reflexivity). assert (Pw : P (vec_of t)) by (apply (ok_all t Ot); rewrite content_eq; left; reflexivity).
  assert (I : forall w, In w (content t) -> inc (vec_of t2) w).
  { intros w Hw. apply (apart_in (content t1 ++ vec_of t2 :: contents (subs_of t2)) (vec_of t2) w [vec_of t2] (content t)); [exact A| |left; reflexivity|exact Hw]. rewrite Pt. cbn [app]. symmetry. apply Permutation_middle. }
  destruct (inc_key (vec_of t2) (vec_of t) Pv Pw) as [Z F]; [apply I; rewrite content_eq; left; reflexivity|].
  assert (Fin : forall t', Permutation (content t') (content t ++ [vec_of t2]) -> Permutation (content t') (content t1 ++ content t2)).
  { intros t' H. rewrite H, Pt, (content_eq t2), <- app_assoc. apply Permutation_app_head. symmetry. apply Permutation_cons_append. }
  destruct (get (ksucc (vec_of t2) (vec_of t)) (subs_of t)) as [c|] eqn:G.
  - assert (Ic := get_some _ _ _ G). inversion Ot as [v i m Pv' ND Hm]; subst t. cbn [vec_of subs_of] in *. destruct (Hm _ _ Ic) as (Oc & _).
    assert (Sc : size c <= length (contents m)) by exact (sub_size _ _ _ Ic). assert (St := Permutation_length Pt). rewrite app_length, content_eq in St. cbn [length vec_of subs_of] in St.
    destruct (IH c (childless t2)) as (c' & E' & Oc' & Vc' & Pc').
    + cbn [content childless flat_map length]. lia.
    + exact Oc.
    + cbn. intros u [<-|[]]. exact Pv.
    + assert (G1 : forall w, In w (content c) -> inc (vec_of t2) w) by (intros w Hw; apply I; rewrite content_eq; right; apply in_contents; eauto).
      apply (apart_perm (vec_of t2 :: content c)); [cbn; apply Permutation_cons_append|]. constructor; [apply Forall_forall; exact G1|].
      assert (At : apart (content (Node v i m))) by (exact (apart_perm _ _ (Permutation_sym Pt) A')). rewrite content_eq in At. inversion At as [|? ? _ At']; subst. cbn [subs_of] in At'.
      clear -Ic At'. induction m as [|[k' c'] m IHm]; [contradiction|]. cbn [contents flat_map snd] in At'. fold (contents m) in At'. destruct Ic as [E|Ic]; [inversion E; subst; exact (apart_l _ _ At')|exact (IHm Ic (apart_r _ _ At'))].
    + rewrite E'. cbn [rbind]. cbn [content childless flat_map] in Pc'. destruct (new_sub (Node v i m) _ c c' [vec_of t2] Ot G Oc' Pc') as (R1 & R2 & R3); [intros u [<-|[]]; reflexivity|].
      eexists. split; [reflexivity|]. split; [exact R1|]. split; [rewrite R2; exact Vt|apply Fin; exact R3].
  - destruct (new_child t _ (childless t2) Ot G (childless_ok t2 Pv) Z F) as (R1 & R2 & R3); [cbn; intros u [<-|[]]; reflexivity|].
    eexists. split; [reflexivity|]. split; [exact R1|]. split; [rewrite R2; exact Vt|apply Fin; exact R3].
Qed.
End Quad.
