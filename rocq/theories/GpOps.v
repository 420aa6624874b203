From Coq Require Import List Arith Bool Lia.
From Verif Require Import Lib Outcome GpModel GpSpec GpProofs.
From Coq Require Import List.
Import ListNotations.
Open Scope nat_scope.

Ltac conjs := repeat match goal with |- _ /\ _ => split end.
Section Gp.
Context {N : Type}.
Variable arity : N -> nat.
Notation subtree := (subtree N).
Notation size := (size N).
Notation args := (args N).
Notation content := (content N).
Notation refresh := (refresh N).
Notation get_node := (get_node N).
Notation sub_at := (sub_at N).
Notation nth_node := (nth_node N).
Notation Sub := (Sub N).

Lemma last_subtree (t : tree N) : exists l, subtrees t = l ++ [t].
Proof. destruct t. rewrite subtrees_eq. eauto. Qed.

(** *** pruning *)
Lemma prune_spec : forall fuel max t, sound arity t -> size t < fuel ->
  exists v, prune N fuel max t = Ok v /\ sound arity v /\ pruned max (abs t) (abs v) /\ (0 < max -> size v <= max).
Proof.
  induction fuel as [|f IH]; intros max t Ht Hf; [lia|]. cbn [prune].
  destruct (max <? 1) eqn:E1; [apply Nat.ltb_lt in E1|apply Nat.ltb_ge in E1].
  - exists t. split; auto. split; auto. split; [constructor; lia|lia].
  - destruct (max <? size t) eqn:E2; [apply Nat.ltb_lt in E2|apply Nat.ltb_ge in E2].
    + destruct (nth_node_spec arity t (size t - 2) Ht ltac:(lia)) as (s & -> & Hs & Hn & _). cbn [rbind assign_same].
      assert (HS := stats_size _ (proj1 Ht)). rewrite abs_eq in HS, Hn.
      destruct (args t) as [|x a] eqn:Ea; [cbn in HS; lia|]. cbn [map] in Hn, HS. cbn [count map] in HS. rewrite subtrees_eq in Hn. cbn [map] in Hn. rewrite concat_rev_cons in Hn.
      set (A := concat (rev (map subtrees (map abs a)))) in *.
      assert (HA : length A = list_sum (map count (map abs a))).
      { unfold A. clear. induction (map abs a) as [|y l IHl]; auto. cbn [map]. rewrite concat_rev_cons, app_length, IHl, subtrees_length.
        change (list_sum (count y :: map count l)) with (count y + list_sum (map count l)). lia. }
      change (list_sum (count (abs x) :: map count (map abs a))) with (count (abs x) + list_sum (map count (map abs a))) in HS.
      pose proof (count_pos (abs x)). destruct (last_subtree (abs x)) as [l El]. assert (Hl : length (subtrees (abs x)) = count (abs x)) by apply subtrees_length. rewrite El, app_length in Hl. cbn in Hl.
      rewrite El in Hn. rewrite nth_error_app1 in Hn by (rewrite !app_length; cbn; lia). rewrite nth_error_app2 in Hn by lia. rewrite nth_error_app2 in Hn by lia.
      replace (size t - 2 - length A - length l) with 0 in Hn by lia. injection Hn as Hx.
      assert (Hss : size s = count (abs x)) by (rewrite (stats_size _ (proj1 Hs)), Hx; reflexivity).
      destruct (IH max s Hs ltac:(lia)) as (v & Hv & Hvs & Hp & Hm). exists v. split; auto. split; auto. split; auto.
      rewrite abs_eq, Ea. cbn [map]. apply pruned_step; [lia| |rewrite Hx; exact Hp].
      cbn [count map]. change (list_sum (count (abs x) :: map count (map abs a))) with (count (abs x) + list_sum (map count (map abs a))). lia.
    + exists t. split; auto. split; auto. split; [constructor|]; try lia. right. rewrite <- (stats_size _ (proj1 Ht)). exact E2.
Qed.
Lemma prune_tree_spec max t : sound arity t -> exists v, prune_tree N max t = Ok v /\ sound arity v /\ pruned max (abs t) (abs v) /\ (0 < max -> size v <= max).
Proof. intros Ht. apply prune_spec; auto. Qed.

(** *** replacing a numbered node *)
Lemma replace_spec t s i : sound arity t -> sound arity s -> i < size t ->
  exists u C a, assign N t (get_node t i) s = Ok u /\ sound arity u /\ hole C = get_node t i /\ abs t = fill C a /\
    nth_error (subtrees (abs t)) i = Some a /\ abs u = fill C (abs s).
Proof.
  intros Ht Hs Hi. destruct (nth_node_spec arity t i Ht Hi) as (x & _ & Hx & Hn & Hf).
  destruct (assign_spec arity _ _ s _ Ht Hs Hf) as (u & Hu & Hus & HC). destruct (follow_ctx _ _ _ Hf) as (C & Hh & Hfill).
  exists u, C, (abs x). conjs; auto. eapply HC; eauto.
Qed.
Lemma size_pos t : sound arity t -> 0 < size t.
Proof. intros Ht. rewrite (stats_size _ (proj1 Ht)). pose proof (count_pos (abs t)). lia. Qed.

Lemma xover_spec max t1 t2 d1 d2 ds : sound arity t1 -> sound arity t2 ->
  exists v1 v2 C1 a C2 b, subtree_xover N max t1 t2 (d1 :: d2 :: ds) = Ok (v1, v2, ds) /\ sound arity v1 /\ sound arity v2 /\
    abs t1 = fill C1 a /\ abs t2 = fill C2 b /\ pruned max (fill C1 b) (abs v1) /\ pruned max (fill C2 a) (abs v2) /\
    (0 < max -> size v1 <= max /\ size v2 <= max) /\
    hole C1 = get_node t1 (d1 mod size t1) /\ hole C2 = get_node t2 (d2 mod size t2).
Proof.
  intros H1 H2. pose proof (size_pos _ H1) as P1. pose proof (size_pos _ H2) as P2.
  assert (I1 : d1 mod size t1 < size t1) by (apply Nat.mod_upper_bound; lia). assert (I2 : d2 mod size t2 < size t2) by (apply Nat.mod_upper_bound; lia).
  set (i := d1 mod size t1) in *. set (j := d2 mod size t2) in *.
  destruct (nth_node_spec arity t1 i H1 I1) as (tmp & E1 & S1 & N1 & _). destruct (nth_node_spec arity t2 j H2 I2) as (s & E2 & S2 & N2 & _).
  destruct (replace_spec t1 s i H1 S2 I1) as (u1 & C1 & a & A1 & U1 & HO1 & F1 & G1 & R1).
  destruct (replace_spec t2 tmp j H2 S1 I2) as (u2 & C2 & b & A2 & U2 & HO2 & F2 & G2 & R2).
  destruct (prune_tree_spec max u1 U1) as (v1 & Q1 & V1 & W1 & M1). destruct (prune_tree_spec max u2 U2) as (v2 & Q2 & V2 & W2 & M2).
  exists v1, v2, C1, a, C2, b. unfold subtree_xover. cbn [draw rbind]. fold i j. rewrite E1. cbn [rbind]. rewrite E2. cbn [rbind]. rewrite A1. cbn [rbind]. rewrite A2. cbn [rbind]. rewrite Q1. cbn [rbind]. rewrite Q2. cbn [rbind].
  assert (a = abs tmp) by congruence. assert (b = abs s) by congruence. subst a b. rewrite R1 in W1. rewrite R2 in W2. conjs; auto.
Qed.
(** every pair of subtrees can be exchanged *)
Lemma xover_any max t1 t2 C1 a C2 b : sound arity t1 -> sound arity t2 -> abs t1 = fill C1 a -> abs t2 = fill C2 b ->
  exists d1 d2 v1 v2, subtree_xover N max t1 t2 [d1; d2] = Ok (v1, v2, []) /\ pruned max (fill C1 b) (abs v1) /\ pruned max (fill C2 a) (abs v2).
Proof.
  intros H1 H2 E1 E2.
  assert (HW : forall (t : subtree) C x, sound arity t -> abs t = fill C x -> exists d, d < size t /\ get_node t d = hole C).
  { intros t C x Ht E. assert (Hin : In (hole C) (ways (abs t))) by (apply in_ways; rewrite E, ctx_follow; discriminate).
    apply In_nth_error in Hin as [d Hd]. exists d. assert (Hlt := nth_error_lt _ _ _ Hd). rewrite ways_length, <- (stats_size _ (proj1 Ht)) in Hlt.
    split; auto. rewrite (get_node_ways t (proj1 Ht) d Hlt) in Hd. congruence. }
  destruct (HW t1 C1 a H1 E1) as (d1 & L1 & G1). destruct (HW t2 C2 b H2 E2) as (d2 & L2 & G2).
  exists d1, d2. destruct (xover_spec max t1 t2 d1 d2 [] H1 H2) as (v1 & v2 & C1' & a' & C2' & b' & E & _ & _ & F1 & F2 & P1 & P2 & _ & O1 & O2).
  exists v1, v2. split; auto. rewrite Nat.mod_small, G1 in O1 by auto. rewrite Nat.mod_small, G2 in O2 by auto.
  assert (HU : forall (C C' : ctx N) x y, hole C = hole C' -> fill C x = fill C' y -> x = y /\ forall z, fill C z = fill C' z).
  { clear. induction C as [|n l C IH r]; intros [|n' l' C' r'] x y Hh Hf; cbn in Hh, Hf; try discriminate; auto.
    injection Hh as Hl Hh. injection Hf as <- Hf.
    assert (l = l' /\ fill C x :: r = fill C' y :: r') as [-> Hr].
    { clear - Hl Hf. revert l' Hl Hf. induction l as [|u l IHl]; intros [|u' l'] Hl Hf; cbn in *; try discriminate; auto.
      injection Hf as -> Hf. injection Hl as Hl. destruct (IHl l' Hl Hf) as [-> ->]. auto. }
    injection Hr as Hx ->. destruct (IH C' x y Hh Hx) as [-> Hz]. split; auto. intros z. cbn. now rewrite Hz. }
  destruct (HU C1 C1' a a') as [-> Z1]; [congruence|congruence|]. destruct (HU C2 C2' b b') as [-> Z2]; [congruence|congruence|].
  rewrite Z1, Z2. auto.
Qed.

(** *** mutations *)
Variable initializer : list nat -> res (subtree * list nat).
Hypothesis init_sound : forall ds t ds', initializer ds = Ok (t, ds') -> sound arity t.

Lemma insert_spec max t s i u (ds r : list nat) : sound arity t -> sound arity s -> i < size t ->
  (let! u := assign N t (get_node t i) s in let! v := prune_tree N max u in Ok (v, ds)) = Ok (u, r) ->
  exists C a, abs t = fill C a /\ nth_error (subtrees (abs t)) i = Some a /\ pruned max (fill C (abs s)) (abs u) /\ sound arity u /\ (0 < max -> size u <= max) /\ r = ds.
Proof.
  intros Ht Hs Hi H. destruct (replace_spec t s i Ht Hs Hi) as (u' & C & a & E & Hu & _ & F & G & R). rewrite E in H. cbn [rbind] in H.
  destruct (prune_tree_spec max u' Hu) as (v & E2 & Hv & Hp & Hm). rewrite E2 in H. cbn [rbind] in H. injection H as <- <-.
  exists C, a. rewrite R in Hp. conjs; auto.
Qed.
Lemma branch_spec max t ds u ds' : sound arity t -> branch_mutation N initializer max t ds = Ok (u, ds') ->
  exists ds1 t2 ds2 C a b, initializer ds1 = Ok (t2, ds2) /\ abs t = fill C a /\ In b (subtrees (abs t2)) /\
    pruned max (fill C b) (abs u) /\ sound arity u /\ (0 < max -> size u <= max).
Proof.
  intros Ht H. unfold branch_mutation in H. apply rbind_ok in H as ([i ds1] & Hi & H). apply draw_lt in Hi; [|now apply size_pos].
  apply rbind_ok in H as ([t2 ds2] & Hi2 & H). pose proof (init_sound _ _ _ Hi2) as H2.
  apply rbind_ok in H as ([j ds3] & Hj & H). apply draw_lt in Hj; [|now apply size_pos].
  destruct (nth_node_spec arity t2 j H2 Hj) as (s & Es & Hs & Ns & _). rewrite Es in H. cbn [rbind] in H.
  apply insert_spec in H as (C & a & F & G & P & Hu & Hm & _); auto.
  exists ds1, t2, ds2, C, a, (abs s). conjs; auto. eapply nth_error_In; eauto.
Qed.
Lemma until_good : forall fuel n good ds j ds', 0 < n -> draw_until fuel n good ds = Ok (j, ds') -> j < n /\ good j = Ok true.
Proof.
  induction fuel as [|f IH]; intros n good ds j ds' Hn H; [discriminate|]. cbn [draw_until] in H.
  apply rbind_ok in H as ([k ds1] & Hk & H). apply draw_lt in Hk; auto. apply rbind_ok in H as ([] & Hb & H); [now injection H as <- <-|eauto].
Qed.
Lemma arity_args t : sound arity t -> (arity (content t) =? 0) = match args t with [] => true | _ => false end.
Proof. intros Ht. rewrite <- (sound_arity arity t Ht). destruct (args t); reflexivity. Qed.
Lemma bigger_spec : forall fuel ds t ds', bigger_tree N initializer fuel ds = Ok (t, ds') -> exists d1 d2, initializer d1 = Ok (t, d2) /\ size t <> 1.
Proof.
  induction fuel as [|f IH]; intros ds t ds' H; [discriminate|]. cbn [bigger_tree] in H. apply rbind_ok in H as ([t1 ds1] & H1 & H).
  destruct (size t1 =? 1) eqn:E; [eauto|]. injection H as <- <-. apply Nat.eqb_neq in E. eauto.
Qed.
Lemma expansion_spec max t ds u ds' : sound arity t -> expansion_mutation N arity initializer max t ds = Ok (u, ds') ->
  exists ds1 t2 ds2 C n m b, initializer ds1 = Ok (t2, ds2) /\ abs t = fill C (Tree n []) /\ In (Tree m b) (subtrees (abs t2)) /\ b <> [] /\
    pruned max (fill C (Tree m b)) (abs u) /\ sound arity u /\ (0 < max -> size u <= max).
Proof.
  intros Ht H. unfold expansion_mutation in H. apply rbind_ok in H as ([i ds1] & Hi & H). apply until_good in Hi as [Hi Gi]; [|now apply size_pos].
  destruct (nth_node_spec arity t i Ht Hi) as (x & Ex & Hx & Nx & _). rewrite Ex in Gi. cbn [rbind] in Gi. rewrite (arity_args x Hx) in Gi.
  apply rbind_ok in H as ([t2 ds2] & Hi2 & H). apply bigger_spec in Hi2 as (d1 & d2 & Hi2 & _). pose proof (init_sound _ _ _ Hi2) as H2.
  apply rbind_ok in H as ([j ds3] & Hj & H). apply until_good in Hj as [Hj Gj]; [|now apply size_pos].
  destruct (nth_node_spec arity t2 j H2 Hj) as (s & Es & Hs & Ns & _). rewrite Es in H, Gj. cbn [rbind] in H, Gj. rewrite (arity_args s Hs) in Gj.
  apply insert_spec in H as (C & a & F & G & P & Hu & Hm & _); auto. rewrite Nx in G. injection G as <-.
  rewrite (abs_eq x) in F. rewrite (abs_eq s) in P, Ns. destruct (args x); [|discriminate]. destruct (args s) as [|y l]; [discriminate|].
  exists d1, t2, d2, C, (content x), (content s), (map abs (y :: l)). conjs; auto; try discriminate. eapply nth_error_In; eauto.
Qed.
Lemma collapse_spec max t ds u ds' : sound arity t -> collapse_mutation N arity initializer max t ds = Ok (u, ds') ->
  exists ds1 t2 ds2 C a n, initializer ds1 = Ok (t2, ds2) /\ abs t = fill C a /\ (1 < size t -> 1 < count a) /\ In (Tree n []) (subtrees (abs t2)) /\
    pruned max (fill C (Tree n [])) (abs u) /\ sound arity u /\ (0 < max -> size u <= max).
Proof.
  intros Ht H. unfold collapse_mutation in H. apply rbind_ok in H as ([i ds1] & Hi & H). apply until_good in Hi as [Hi Gi]; [|now apply size_pos].
  destruct (nth_node_spec arity t i Ht Hi) as (x & Ex & Hx & Nx & _). rewrite Ex in Gi. cbn [rbind] in Gi. rewrite (arity_args x Hx) in Gi.
  apply rbind_ok in H as ([t2 ds2] & Hi2 & H). pose proof (init_sound _ _ _ Hi2) as H2.
  apply rbind_ok in H as ([j ds3] & Hj & H). apply until_good in Hj as [Hj Gj]; [|now apply size_pos].
  destruct (nth_node_spec arity t2 j H2 Hj) as (s & Es & Hs & Ns & _). rewrite Es in H, Gj. cbn [rbind] in H, Gj. rewrite (arity_args s Hs) in Gj.
  apply insert_spec in H as (C & a & F & G & P & Hu & Hm & _); auto. rewrite Nx in G. injection G as <-.
  rewrite (abs_eq s) in P, Ns. destruct (args s); [|discriminate]. cbn [map] in P, Ns.
  exists ds1, t2, ds2, C, (abs x), (content s). conjs; auto; [|eapply nth_error_In; eauto].
  intros Hl. rewrite (proj2 (Nat.ltb_lt _ _) Hl), andb_true_r in Gi. rewrite abs_eq. destruct (args x) as [|y l]; [discriminate|].
  cbn [map count]. change (list_sum (count (abs y) :: map count (map abs l))) with (count (abs y) + list_sum (map count (map abs l))). pose proof (count_pos (abs y)). lia.
Qed.
Lemma hoist_spec t d ds : sound arity t -> exists u, hoist_mutation N t (d :: ds) = Ok (u, ds) /\ sound arity u /\ In (abs u) (subtrees (abs t)) /\ size u <= size t.
Proof.
  intros Ht. assert (Hi : d mod size t < size t) by (apply Nat.mod_upper_bound; pose proof (size_pos _ Ht); lia).
  unfold hoist_mutation. cbn [draw rbind]. destruct (nth_node_spec arity t _ Ht Hi) as (s & -> & Hs & Ns & _). cbn [rbind assign].
  rewrite refresh_same by apply Hs. exists s. split; auto. split; auto. split; [eapply nth_error_In; eauto|].
  rewrite (stats_size _ (proj1 Ht)), (stats_size _ (proj1 Hs)). apply nth_error_In in Ns. revert Ns. generalize (abs s). generalize (abs t).
  intros t0. induction t0 as [n a IH] using tree_ind'. intros x Hx. rewrite subtrees_eq, in_app_iff in Hx. destruct Hx as [Hx|[<-|[]]]; auto.
  cbn [count]. enough (count x <= list_sum (map count a)) by lia. induction IH as [|y l Hy _ IHl]; [destruct Hx|].
  cbn [map] in Hx |- *. rewrite concat_rev_cons, in_app_iff in Hx. change (list_sum (count y :: map count l)) with (count y + list_sum (map count l)).
  destruct Hx as [Hx|Hx]; [specialize (IHl Hx); lia|specialize (Hy _ Hx); lia].
Qed.

(** replacing a node by one of the same arity *)
Lemma assign_node_spec dflt : forall p t n x, sound arity t -> sub_at t p = Ok x -> arity n = arity (content x) ->
  exists u, assign_node N arity dflt t p n = Ok u /\ sound arity u /\ forall C a, hole C = p -> abs t = fill C (Tree (content x) a) -> abs u = fill C (Tree n a).
Proof.
  induction p as [|i q IH]; intros t n x Ht H Hn; cbn [GpModel.sub_at assign_node] in *.
  - injection H as <-. eexists. split; [reflexivity|]. unfold set_node. rewrite Hn, Nat.eqb_refl. split.
    + apply sound_refresh; [now apply sound_args|]. rewrite Hn. now apply sound_arity.
    + intros [|m b C r] a HC E; [|discriminate]. cbn [fill] in *. rewrite refresh_abs. rewrite abs_eq in E. congruence.
  - destruct (nth_error (args t) i) as [z|] eqn:E; [|discriminate]. pose proof (sound_args arity _ Ht) as Ha.
    assert (Hz : sound arity z) by (rewrite Forall_forall in Ha; apply Ha; eapply nth_error_In; eauto).
    destruct (IH z n x Hz H Hn) as (u & -> & Hu & HC). cbn [rbind]. destruct (nth_error_split _ _ E) as (b & r & Eb & Hb).
    eexists. split; [reflexivity|]. rewrite Eb, <- Hb, set_app. split.
    + apply sound_refresh; [|rewrite <- (sound_arity arity) by auto; rewrite Eb, !app_length; reflexivity].
      rewrite Eb in Ha. rewrite Forall_app in Ha |- *. destruct Ha as [A1 A2]. split; auto. inversion A2; subst. constructor; auto.
    + intros C a HCp Et. destruct C as [|m b' C a']; [discriminate|]. cbn [hole] in HCp. injection HCp as Hl Hq.
      rewrite refresh_abs. rewrite abs_eq in Et. cbn [fill] in Et. rewrite Eb, map_app in Et. cbn [map] in Et. injection Et as En El.
      assert (map abs b = b' /\ abs z :: map abs r = fill C (Tree (content x) a) :: a') as [Eb' Er].
      { assert (Hlen : length (map abs b) = length b') by (rewrite map_length; lia). clear - Hlen El. revert b' Hlen El.
        induction (map abs b) as [|u l IHl]; intros [|u' l'] Hl Hf; cbn in *; try discriminate; auto. injection Hf as -> Hf. injection Hl as Hl. destruct (IHl l' Hl Hf) as [-> ->]. auto. }
      injection Er as Ez Er. rewrite map_app. cbn [map fill]. rewrite Eb', En, Er. rewrite (HC C a Hq Ez). reflexivity.
Qed.
Lemma point_spec dflt set t ds u ds' : sound arity t -> set <> [] -> point_mutation N arity dflt set t ds = Ok (u, ds') ->
  exists C n n' a, abs t = fill C (Tree n a) /\ abs u = fill C (Tree n' a) /\ In n' set /\ arity n' = arity n /\ sound arity u.
Proof.
  intros Ht Hne H. unfold point_mutation in H. apply rbind_ok in H as ([i ds1] & Hi & H). apply draw_lt in Hi; [|now apply size_pos].
  destruct (nth_node_spec arity t i Ht Hi) as (x & Ex & Hx & Nx & Fx). rewrite Ex in H. cbn [rbind] in H.
  apply rbind_ok in H as ([j ds2] & Hj & H). apply until_good in Hj as [Hj Gj]; [|destruct set; [congruence|cbn; lia]].
  apply rbind_ok in Gj as (n & Hn & Gj). rewrite Hn in H. cbn [rbind] in H. apply of_opt_ok in Hn. injection Gj as Gj. apply Nat.eqb_eq in Gj.
  destruct (assign_node_spec dflt _ t n x Ht Ex Gj) as (u' & Eu & Hu & HC). rewrite Eu in H. cbn [rbind] in H. injection H as <- <-.
  destruct (follow_ctx _ _ _ Fx) as (C & Hh & HF). rewrite (abs_eq x) in HF.
  exists C, (content x), n, (map abs (args x)). conjs; auto. eapply nth_error_In; eauto.
Qed.
(** a good draw ends the loop *)
Lemma until_any fuel n good ds j : 0 < fuel -> j < n -> good j = Ok true -> draw_until fuel n good (j :: ds) = Ok (j, ds).
Proof.
  intros Hf Hj Hg. destruct fuel; [lia|]. cbn [draw_until draw rbind]. rewrite Nat.mod_small by auto. rewrite Hg. reflexivity.
Qed.
Lemma until_never : forall fuel n good ds, 0 < n -> (forall j, j < n -> good j = Ok false) -> draw_until fuel n good ds = NoDraw.
Proof.
  induction fuel as [|f IH]; intros n good ds Hn Hg; auto. cbn [draw_until]. destruct ds as [|d ds]; auto. cbn [draw rbind].
  rewrite Hg by (apply Nat.mod_upper_bound; lia). cbn [rbind]. auto.
Qed.
Lemma point_any dflt set t C n a n' : sound arity t -> abs t = fill C (Tree n a) -> In n' set -> arity n' = arity n ->
  exists ds u, point_mutation N arity dflt set t ds = Ok (u, []) /\ abs u = fill C (Tree n' a).
Proof.
  intros Ht E Hin Ha. apply In_nth_error in Hin as [j Hj].
  assert (Hw : In (hole C) (ways (abs t))) by (apply in_ways; rewrite E, ctx_follow; discriminate).
  apply In_nth_error in Hw as [i Hi]. assert (Hlt := nth_error_lt _ _ _ Hi). rewrite ways_length, <- (stats_size _ (proj1 Ht)) in Hlt.
  rewrite (get_node_ways t (proj1 Ht) i Hlt) in Hi. injection Hi as Hi.
  destruct (nth_node_spec arity t i Ht Hlt) as (x & Ex & Hx & Nx & Fx). rewrite Hi, E, ctx_follow in Fx. injection Fx as Fx. rewrite abs_eq in Fx. injection Fx as Fn Fa.
  exists [i; j]. unfold point_mutation. cbn [draw rbind]. rewrite Nat.mod_small by auto. rewrite Ex. cbn [rbind].
  rewrite until_any; [|lia|eapply nth_error_lt; eauto|rewrite Hj; cbn [of_opt rbind]; rewrite Ha, Fn, Nat.eqb_refl; reflexivity]. cbn [rbind]. rewrite Hj. cbn [of_opt rbind].
  destruct (assign_node_spec dflt _ t n' x Ht Ex ltac:(congruence)) as (u & -> & Hu & HC). cbn [rbind]. exists u. split; auto.
  eapply HC; [congruence|]. rewrite E. congruence.
Qed.
Lemma point_never dflt set t ds : sound arity t -> set <> [] -> (forall n n', In n (postfix (abs t)) -> In n' set -> arity n' <> arity n) ->
  point_mutation N arity dflt set t ds = NoDraw.
Proof.
  intros Ht Hne Hno. unfold point_mutation. destruct ds as [|d ds]; auto. cbn [draw rbind].
  destruct (nth_node_spec arity t (d mod size t) Ht) as (x & Ex & Hx & Nx & _); [apply Nat.mod_upper_bound; pose proof (size_pos _ Ht); lia|].
  rewrite Ex. cbn [rbind]. rewrite until_never; auto; [destruct set; [congruence|cbn; lia]|]. intros j Hj.
  destruct (nth_error set j) as [n'|] eqn:E; [|apply nth_error_None in E; lia]. cbn [of_opt rbind]. f_equal. apply Nat.eqb_neq. apply Hno; [|eapply nth_error_In; eauto].
  rewrite <- map_root_subtrees. apply in_map_iff. exists (abs x). split; [now rewrite abs_eq|]. eapply nth_error_In; eauto.
Qed.
End Gp.
