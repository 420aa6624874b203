From Coq Require Import List Arith Bool Lia.
From Verif Require Import Lib Outcome GpModel GpSpec GpProofs GpBuild GpOps StgModel StgSpec.
From Coq Require Import List.
Import ListNotations.
Open Scope nat_scope.

Section Stg.
Context {N : Type}.
Variables (arity ty : N -> nat) (atype : N -> nat -> nat).
Notation typed := (typed arity ty atype).
Notation subtree := (subtree N).
Notation size := (size N).
Notation content := (content N).
Notation nth_node := (nth_node N).
Notation get_node := (get_node N).

Lemma typed_top k (x : tree N) : typed k x -> k = ty (top_node x).
Proof. intros H. destruct H. reflexivity. Qed.
Lemma typed_wf k (x : tree N) : typed k x -> well_formed arity x.
Proof.
  revert k. induction x as [n a IH] using tree_ind'. intros k H. inversion H as [m l Hl Ha]; subst. constructor; auto.
  rewrite Forall_forall in IH |- *. intros x Hx. apply In_nth_error in Hx as [i Hi]. eapply IH; [eapply nth_error_In; eauto|]. eapply Ha; eauto.
Qed.
Lemma typed_sub : forall (x : tree N) k, typed k x -> forall s, In s (subtrees x) -> typed (ty (top_node s)) s.
Proof.
  induction x as [n a IH] using tree_ind'. intros k H s Hs. rewrite subtrees_eq, in_app_iff in Hs. destruct Hs as [Hs|[<-|[]]].
  - inversion H as [m l Hl Ha]; subst. apply in_concat in Hs as (l & Hl' & Hs). apply in_rev in Hl'. apply in_map_iff in Hl' as (y & <- & Hy).
    rewrite Forall_forall in IH. apply In_nth_error in Hy as [i Hi]. eapply (IH y); eauto. eapply nth_error_In; eauto.
  - rewrite <- (typed_top _ _ H). auto.
Qed.
Lemma fill_sub (C : ctx N) a : In a (subtrees (fill C a)).
Proof.
  induction C as [|n b C IH r]; cbn [fill]; [destruct (last_subtree a) as [l ->]; apply in_or_app; right; left; auto|].
  rewrite subtrees_eq, map_app, rev_app_distr. cbn [map rev]. rewrite !concat_app, !in_app_iff. left. left. right. cbn [concat]. rewrite app_nil_r. auto.
Qed.
(** a subtree can be replaced by one of its type *)
Lemma typed_fill (C : ctx N) a b k : typed k (fill C a) -> typed (ty (top_node a)) b -> typed k (fill C b).
Proof.
  revert k. induction C as [|n l C IH r]; intros k H Hb; cbn [fill] in *; [rewrite (typed_top _ _ H); auto|].
  inversion H as [m l' Hl Ha]; subst. constructor; [rewrite <- Hl, !app_length; reflexivity|].
  intros i x Hx. destruct (lt_eq_lt_dec i (length l)) as [[Hi|Hi]|Hi].
  - rewrite nth_error_app1 in Hx by auto. apply Ha. rewrite nth_error_app1 by auto. auto.
  - subst i. rewrite nth_error_app2, Nat.sub_diag in Hx by auto. injection Hx as <-. apply IH; auto. apply Ha. rewrite nth_error_app2, Nat.sub_diag by auto. reflexivity.
  - apply Ha. rewrite nth_error_app2 in * by lia. replace (i - length l) with (S (i - length l - 1)) in * by lia. exact Hx.
Qed.

(** *** the initializer *)
Notation gen := (st_generate N arity ty atype).
Fixpoint st_args (f : nat) (set : list N) (grow : bool) (m : nat) (n : N) (k i : nat) (ok : bool) (acc : list N) (ds : list nat) : res (bool * list N * list nat) :=
  match k with
  | 0 => Ok (ok, acc, ds)
  | S k' => let! (b, acc1, ds1) := gen f set grow m (atype n i) acc ds in st_args f set grow m n k' (S i) (ok && b) acc1 ds1
  end.
Lemma gen_S f set grow m k acc ds : gen (S f) set grow m k acc ds =
  if m =? 1 then match terminals N arity ty set k with [] => Ok (false, acc, ds) | ts => let! (n, ds) := pick N ts 0 (length ts) ds in Ok (true, n :: acc, ds) end
  else let from := if grow then all_of N ty set k else nonterminals N arity ty set k in
    let! (n, ds) := pick N from 0 (length from) ds in st_args f set grow (m - 1) n (arity n) 0 true (n :: acc) ds.
Proof.
  cbn [st_generate]. destruct (m =? 1); auto. cbv zeta. destruct (pick _ _ _ _ _) as [[n ds1]| | |]; auto. cbn [rbind].
  generalize (m - 1). intros m1. generalize (n :: acc). generalize true. generalize 0. generalize (arity n). intros q. revert ds1. induction q as [|q IHq]; intros ds0 i ok acc0; auto.
  cbn [st_args]. destruct (gen f set grow m1 (atype n i) acc0 ds0) as [[[b a1] d1]| | |]; auto. cbn [rbind]. apply IHq.
Qed.
Lemma pick_in (l : list N) ds x ds' : pick N l 0 (length l) ds = Ok (x, ds') -> In x l.
Proof. intros H. apply pick_spec in H as (k & Hk & _). eapply nth_error_In; eauto. Qed.
Lemma in_terminals set k n : In n (terminals N arity ty set k) <-> In n set /\ ty n = k /\ arity n = 0.
Proof. unfold terminals. rewrite filter_In, andb_true_iff, !Nat.eqb_eq. tauto. Qed.
Lemma in_nonterminals set k n : In n (nonterminals N arity ty set k) <-> In n set /\ ty n = k /\ 0 < arity n.
Proof. unfold nonterminals. rewrite filter_In, andb_true_iff, negb_true_iff, Nat.eqb_eq, Nat.eqb_neq. intuition lia. Qed.
Lemma in_all set k n : In n (all_of N ty set k) <-> In n set /\ ty n = k.
Proof. unfold all_of. rewrite filter_In, Nat.eqb_eq. tauto. Qed.
Lemma in_from set (grow : bool) k n : In n (if grow then all_of N ty set k else nonterminals N arity ty set k) -> In n set /\ ty n = k /\ (grow = false -> 0 < arity n).
Proof. destruct grow; intros H; [apply in_all in H|apply in_nonterminals in H]; intuition discriminate. Qed.

Notation made := (made arity ty atype).
Lemma gen_spec set grow : forall f m k acc ds acc' ds', 1 <= m -> gen f set grow m k acc ds = Ok (true, acc', ds') ->
  exists t, acc' = postfix t ++ acc /\ made set grow m k t.
Proof.
  induction f as [|f IH]; intros m k acc ds acc' ds' Hm H; [discriminate|]. rewrite gen_S in H.
  destruct (m =? 1) eqn:E1; [apply Nat.eqb_eq in E1|apply Nat.eqb_neq in E1].
  - destruct (terminals N arity ty set k) as [|z ts] eqn:Et; [discriminate|]. apply rbind_ok in H as ([n ds1] & Hn & H). injection H as <- <-. apply pick_in in Hn. rewrite <- Et in Hn.
    apply in_terminals in Hn as (Hn & <- & Ha). exists (Tree n []). split; auto. unfold made. conjs; auto.
    + constructor; auto. intros [|i] x Hx; discriminate.
    + apply nodes_in_tree; auto.
    + intros _. rewrite E1. constructor.
  - cbv zeta in H. apply rbind_ok in H as ([n ds1] & Hn & H). apply pick_in in Hn. apply in_from in Hn as (Hn & <- & Hf).
    assert (HA : forall q i ok acc ds acc' ds', st_args f set grow (m - 1) n q i ok acc ds = Ok (true, acc', ds') ->
       ok = true /\ exists l, length l = q /\ acc' = concat (rev (map postfix l)) ++ acc /\ forall j x, nth_error l j = Some x -> made set grow (m - 1) (atype n (i + j)) x).
    { clear H. induction q as [|q IHq]; intros i ok acc0 ds0 acc0' ds0' H0; cbn [st_args] in H0.
      - injection H0 as -> <- <-. split; auto. exists []. conjs; auto. intros [|j] x Hx; discriminate.
      - apply rbind_ok in H0 as ([[b acc1] ds2] & H1 & H0). apply IHq in H0 as (Hok & l & <- & -> & L). apply andb_true_iff in Hok as [-> ->].
        apply IH in H1 as (t & -> & W); [|lia]. split; auto. exists (t :: l). cbn [map]. rewrite concat_rev_cons, <- app_assoc. conjs; auto.
        intros [|j] x Hx; [injection Hx as <-; rewrite Nat.add_0_r; auto|]. rewrite Nat.add_succ_r. apply (L j); auto. }
    apply HA in H as (_ & l & Hl & -> & L). exists (Tree n l). cbn [postfix]. rewrite <- app_assoc. split; auto.
    assert (LF : forall P : tree N -> Prop, (forall k x, made set grow (m - 1) k x -> P x) -> Forall P l).
    { intros P HP. apply Forall_forall. intros x Hx. apply In_nth_error in Hx as [j Hj]. eapply HP. eapply L. eauto. }
    unfold made. conjs.
    + constructor; auto. intros i x Hx. apply (L i x Hx).
    + apply nodes_in_tree; auto. apply LF. intros k x Hx. apply Hx.
    + cbn [height]. enough (list_max (map height l) <= m - 1) by lia. rewrite list_max_le, Forall_map. apply LF. intros k x Hx. apply Hx.
    + intros Hg. replace m with (S (m - 1)) by lia. constructor; [intros ->; specialize (Hf Hg); cbn in Hl; lia|]. apply LF. intros k x Hx. apply Hx. auto.
Qed.
Lemma st_sequence_spec d fuel : 1 <= st_max N d -> forall tries ds seq ds', st_sequence N arity ty atype tries fuel d ds = Ok (seq, ds') ->
  exists t, seq = postfix t /\ made (st_set N d) (st_grow N d) (st_max N d) (st_return N d) t.
Proof.
  intros Hm. induction tries as [|tr IH]; intros ds seq ds' H; [discriminate|]. cbn [st_sequence] in H. apply rbind_ok in H as ([[good s] ds1] & H1 & H).
  destruct good; [|eauto]. injection H as <- <-. apply gen_spec in H1 as (t & -> & Ht); auto. exists t. rewrite app_nil_r. auto.
Qed.
Lemma st_init_spec d tries fuel ds t ds' : 1 <= st_max N d -> st_init N arity ty atype tries fuel d ds = Ok (t, ds') ->
  sound arity t /\ made (st_set N d) (st_grow N d) (st_max N d) (st_return N d) (abs t).
Proof.
  intros Hm H. unfold st_init in H. apply rbind_ok in H as ([s ds1] & H1 & H). apply st_sequence_spec in H1 as (x & -> & Hx); auto.
  destruct (sound_exists arity x) as (u & Hu & <-); [eapply typed_wf; apply Hx|]. rewrite (build_complete arity u [] Hu : build N arity (postfix (abs u)) = Ok u) in H. cbn [rbind] in H.
  injection H as <- <-. auto.
Qed.
(** every such tree can be made *)
Lemma pick_any' (l : list N) n : In n l -> exists d, forall ds, pick N l 0 (length l) (d :: ds) = Ok (n, ds).
Proof.
  intros H. apply In_nth_error in H as [d Hd]. exists d. intros ds. unfold pick. cbn [draw rbind]. pose proof (nth_error_lt _ _ _ Hd). rewrite Nat.mod_small by auto.
  destruct (length l =? 0) eqn:E; [apply Nat.eqb_eq in E; lia|]. cbn. now rewrite Hd.
Qed.
Lemma nodes_in_args set (n : N) a : nodes_in set (Tree n a) -> In n set /\ Forall (nodes_in set) a.
Proof.
  intros H. split; [apply H; cbn; apply in_or_app; right; left; auto|]. apply Forall_forall. intros x Hx m Hm. apply H. cbn [postfix]. apply in_or_app. left.
  apply in_concat. exists (postfix x). split; auto. rewrite <- in_rev. apply in_map. auto.
Qed.
Lemma gen_any set grow : forall m t k, 1 <= m -> made set grow m k t ->
  exists l, forall f acc rest, m <= f -> gen f set grow m k acc (l ++ rest) = Ok (true, postfix t ++ acc, rest).
Proof.
  induction m as [|m IH]; intros [n a] k Hm (T & HN & HH & HF); [lia|]. apply nodes_in_args in HN as [Hn Ha]. inversion T as [n' a' Hl Ht]; subst.
  destruct (Nat.eq_dec m 0) as [->|Hm'].
  - cbn [height] in HH. assert (Ea : a = []). { destruct a as [|x a]; auto. cbn [map list_max fold_right] in HH. destruct x; cbn [height] in HH. lia. } subst a.
    destruct (pick_any' (terminals N arity ty set (ty n)) n) as [d Hd]; [apply in_terminals; cbn in Hl; auto|].
    exists [d]. intros f acc rest Hf. destruct f as [|f]; [lia|]. rewrite gen_S. cbn [Nat.eqb app]. clear HH Ha.
    destruct (terminals N arity ty set (ty n)) as [|z ts]; [specialize (Hd []); cbn in Hd; destruct d; discriminate|]. rewrite Hd. cbn [rbind]. reflexivity.
  - assert (Hfrom : In n (if grow then all_of N ty set (ty n) else nonterminals N arity ty set (ty n))).
    { destruct grow; [apply in_all; auto|apply in_nonterminals]. conjs; auto. specialize (HF eq_refl). inversion HF; subst; [lia|]. rewrite <- Hl. destruct a; [congruence|cbn; lia]. }
    destruct (pick_any' _ _ Hfrom) as [d Hd].
    assert (HA : forall l i, (forall j x, nth_error l j = Some x -> made set grow m (atype n (i + j)) x) ->
       exists ls, forall f acc rest, m <= f -> st_args f set grow m n (length l) i true acc (ls ++ rest) = Ok (true, concat (rev (map postfix l)) ++ acc, rest)).
    { induction l as [|x l IHl]; intros i HL; [exists []; reflexivity|]. destruct (IH x (atype n i) ltac:(lia)) as [l1 H1]; [specialize (HL 0 x eq_refl); rewrite Nat.add_0_r in HL; auto|].
      destruct (IHl (S i)) as [l2 H2]; [intros j y Hy; specialize (HL (S j) y Hy); rewrite Nat.add_succ_r in HL; auto|].
      exists (l1 ++ l2). intros f acc rest Hf. cbn [length st_args]. rewrite <- app_assoc, H1 by auto. cbn [rbind andb]. rewrite H2 by auto. cbn [map]. rewrite concat_rev_cons, <- app_assoc. auto. }
    destruct (HA a 0) as [ls Hls].
    { intros j x Hx. assert (Hin := nth_error_In _ _ Hx). rewrite Forall_forall in Ha. unfold made. split; [apply Ht; auto|]. split; [auto|]. split.
      - cbn [height] in HH. assert (HM := proj1 (list_max_le (map height a) m) ltac:(lia)). rewrite Forall_map, Forall_forall in HM. auto.
      - intros Hg. specialize (HF Hg). inversion HF as [|d' n' a' Hne Hfa]; subst; [destruct Hin|]. rewrite Forall_forall in Hfa. auto. }
    exists (d :: ls). intros f acc rest Hf. destruct f as [|f]; [lia|]. rewrite gen_S. destruct (S m =? 1) eqn:E; [apply Nat.eqb_eq in E; lia|]. cbv zeta. cbn [app]. rewrite Hd. cbn [rbind].
    replace (S m - 1) with m by lia. rewrite <- Hl, Hls by lia. cbn [postfix]. rewrite <- app_assoc. auto.
Qed.
Lemma st_init_any d x : 1 <= st_max N d -> made (st_set N d) (st_grow N d) (st_max N d) (st_return N d) x ->
  exists l t, abs t = x /\ forall tries fuel rest, 1 <= tries -> st_max N d <= fuel -> st_init N arity ty atype tries fuel d (l ++ rest) = Ok (t, rest).
Proof.
  intros Hm Hx. destruct (gen_any _ _ _ _ _ Hm Hx) as [l Hl]. destruct (sound_exists arity x) as (u & Hu & <-); [eapply typed_wf; apply Hx|].
  exists l, u. split; auto. intros tries fuel rest Ht Hf. unfold st_init. destruct tries as [|tr]; [lia|]. cbn [st_sequence]. rewrite Hl by auto. cbn [rbind]. rewrite app_nil_r.
  rewrite (build_complete arity u [] Hu : build N arity (postfix (abs u)) = Ok u). reflexivity.
Qed.
(** no undefined operation when there are nodes for all that can be asked for *)
Lemma pick_safe (l : list N) ds : l <> [] -> pick N l 0 (length l) ds = NoDraw \/ exists n ds', pick N l 0 (length l) ds = Ok (n, ds') /\ In n l /\ length ds = S (length ds').
Proof.
  intros Hl. destruct ds as [|d ds]; [left; reflexivity|]. right. destruct (pick_total l 0 (length l) (d :: ds)) as (x & ds' & H & Hlen & Hin); try discriminate; auto; [destruct l; [congruence|cbn; lia]|].
  exists x, ds'. auto.
Qed.
Lemma pick_drawn (l : list N) d ds : pick N l 0 (length l) (d :: ds) <> NoDraw.
Proof. unfold pick. cbn [draw rbind]. destruct (nth_error _ _); discriminate. Qed.
Notation enough := (enough arity ty).
Lemma enough_from set grow k : enough set grow k -> (if grow then all_of N ty set k else nonterminals N arity ty set k) <> [].
Proof.
  unfold enough. destruct grow; intros (n & Hn) E.
  - assert (H : In n (all_of N ty set k)) by now apply in_all. rewrite E in H. destruct H.
  - assert (H : In n (nonterminals N arity ty set k)) by now apply in_nonterminals. rewrite E in H. destruct H.
Qed.
Lemma gen_safe set grow (K : nat -> Prop) : (forall k, K k -> enough set grow k) -> (forall n i, In n set -> K (ty n) -> i < arity n -> K (atype n i)) ->
  forall f m k acc ds, K k -> gen f set grow m k acc ds = NoDraw \/ exists b acc' ds', gen f set grow m k acc ds = Ok (b, acc', ds').
Proof.
  intros HE HC. induction f as [|f IH]; intros m k acc ds Hk; [left; reflexivity|]. rewrite gen_S. destruct (m =? 1).
  - destruct (terminals N arity ty set k) as [|z ts] eqn:E; [right; eauto|]. cbv zeta. destruct (pick_safe (z :: ts) ds) as [->|(n & ds' & -> & _)]; [discriminate|left; reflexivity|right]. cbn [rbind]. eauto.
  - cbv zeta. destruct (pick_safe _ ds (enough_from _ _ _ (HE _ Hk))) as [->|(n & ds' & -> & Hn & _)]; [left; reflexivity|]. cbn [rbind]. apply in_from in Hn as (Hn & <- & _).
    assert (HA : forall q i ok acc ds, i + q <= arity n -> st_args f set grow (m - 1) n q i ok acc ds = NoDraw \/ exists b acc' ds', st_args f set grow (m - 1) n q i ok acc ds = Ok (b, acc', ds')).
    { induction q as [|q IHq]; intros i ok acc0 ds0 Hq; cbn [st_args]; [right; eauto|]. destruct (IH (m - 1) (atype n i) acc0 ds0) as [->|(b & a1 & d1 & ->)]; [apply HC; auto; lia|left; reflexivity|]. cbn [rbind]. apply IHq. lia. }
    apply HA. lia.
Qed.
Lemma st_init_safe d tries fuel ds : 1 <= st_max N d -> provides arity ty atype (st_set N d) (enough (st_set N d) (st_grow N d)) (st_return N d) ->
  st_init N arity ty atype tries fuel d ds = NoDraw \/ exists t ds', st_init N arity ty atype tries fuel d ds = Ok (t, ds').
Proof.
  intros Hm (K & K0 & KE & KC). unfold st_init.
  assert (HS : forall tries ds, st_sequence N arity ty atype tries fuel d ds = NoDraw \/ exists s ds', st_sequence N arity ty atype tries fuel d ds = Ok (s, ds')).
  { induction tries0 as [|tr IH]; intros ds0; [left; reflexivity|]. cbn [st_sequence]. destruct (gen_safe _ _ K KE KC fuel (st_max N d) (st_return N d) [] ds0 K0) as [->|(b & a1 & d1 & ->)]; [left; reflexivity|]. cbn [rbind]. destruct b; [right; eauto|apply IH]. }
  destruct (HS tries ds) as [->|(s & ds' & E)]; [left; reflexivity|]. rewrite E. cbn [rbind]. apply st_sequence_spec in E as (x & -> & Hx); auto.
  destruct (sound_exists arity x) as (u & Hu & <-); [eapply typed_wf; apply Hx|]. rewrite (build_complete arity u [] Hu : build N arity (postfix (abs u)) = Ok u). cbn [rbind]. right; eauto.
Qed.
(** with terminals of all the types, the first tree is good *)
Lemma gen_total set grow (K : nat -> Prop) : (forall k, K k -> enough set grow k /\ has_terminal arity ty set k) -> (forall n i, In n set -> K (ty n) -> i < arity n -> K (atype n i)) ->
  forall m, 1 <= m -> exists B, forall f k acc ds, K k -> m <= f -> B <= length ds -> exists acc' ds', gen f set grow m k acc ds = Ok (true, acc', ds') /\ length ds <= B + length ds'.
Proof.
  intros HE HC. induction m as [|m IH]; intros Hm; [lia|]. destruct (Nat.eq_dec m 0) as [->|Hm'].
  - exists 1. intros f k acc ds Hk Hf Hd. destruct f as [|f]; [lia|]. rewrite gen_S. cbn [Nat.eqb]. destruct (HE k Hk) as [_ (n & Hn)]. apply in_terminals in Hn.
    destruct (terminals N arity ty set k) as [|z ts] eqn:E; [destruct Hn|]. cbv zeta. destruct (pick_safe (z :: ts) ds) as [Ep|(x & ds' & -> & _ & Hlen)]; [discriminate| |].
    + destruct ds; cbn in Hd; [lia|]. exact (False_ind _ (pick_drawn _ _ _ Ep)).
    + cbn [rbind]. do 2 eexists. split; [reflexivity|lia].
  - destruct (IH ltac:(lia)) as [B HB]. set (A := list_max (map arity set)). exists (S (A * B)). intros f k acc ds Hk Hf Hd. destruct f as [|f]; [lia|]. rewrite gen_S.
    destruct (S m =? 1) eqn:E; [apply Nat.eqb_eq in E; lia|]. cbv zeta. destruct (pick_safe _ ds (enough_from _ _ _ (proj1 (HE _ Hk)))) as [Ep|(n & ds1 & -> & Hn & Hl1)].
    { destruct ds; cbn in Hd; [lia|]. exact (False_ind _ (pick_drawn _ _ _ Ep)). }
    cbn [rbind]. apply in_from in Hn as (Hn & <- & _). replace (S m - 1) with m by lia.
    assert (HA : arity n <= A). { unfold A. assert (HF := proj1 (list_max_le (map arity set) (list_max (map arity set))) ltac:(lia)). rewrite Forall_forall in HF. apply HF. now apply in_map. }
    assert (HQ : forall q i acc ds, i + q <= arity n -> q * B <= length ds -> exists acc' ds', st_args f set grow m n q i true acc ds = Ok (true, acc', ds') /\ length ds <= q * B + length ds').
    { induction q as [|q IHq]; intros i acc0 ds0 Hq Hd0; cbn [st_args]; [do 2 eexists; split; [reflexivity|lia]|]. cbn in Hd0.
      destruct (HB f (atype n i) acc0 ds0) as (a1 & d1 & -> & Hl2); [apply HC; auto; lia|lia|lia|]. cbn [rbind andb]. destruct (IHq (S i) a1 d1 ltac:(lia) ltac:(lia)) as (a2 & d2 & E2 & Hl3).
      exists a2, d2. split; auto. cbn. lia. }
    assert (arity n * B <= A * B) by (apply Nat.mul_le_mono_r; auto).
    destruct (HQ (arity n) 0 (n :: acc) ds1 ltac:(lia) ltac:(lia)) as (a' & d' & -> & Hl). do 2 eexists. split; [reflexivity|lia].
Qed.
Lemma st_init_total d : 1 <= st_max N d -> provides arity ty atype (st_set N d) (fun k => enough (st_set N d) (st_grow N d) k /\ has_terminal arity ty (st_set N d) k) (st_return N d) ->
  exists B, forall tries fuel ds, 1 <= tries -> st_max N d <= fuel -> B <= length ds -> exists t ds', st_init N arity ty atype tries fuel d ds = Ok (t, ds').
Proof.
  intros Hm (K & K0 & KE & KC). destruct (gen_total _ _ K KE KC _ Hm) as [B HB]. exists B. intros tries fuel ds Ht Hf Hd.
  destruct (st_init_safe d tries fuel ds Hm) as [E|E]; auto; [exists K; conjs; auto; intros k Hk; apply KE; auto|exfalso].
  unfold st_init in E. destruct tries as [|tr]; [lia|]. cbn [st_sequence] in E. destruct (HB fuel (st_return N d) [] ds K0 Hf Hd) as (s & ds' & E1 & _). rewrite E1 in E. cbn [rbind] in E.
  apply gen_spec in E1 as (x & -> & Hx); auto. rewrite app_nil_r in E. destruct (sound_exists arity x) as (u & Hu & <-); [eapply typed_wf; apply Hx|].
  rewrite (build_complete arity u [] Hu : build N arity (postfix (abs u)) = Ok u) in E. discriminate.
Qed.
End Stg.
