From Coq Require Import List Arith Bool Lia.
From Verif Require Import Lib Outcome GpModel GpSpec GpProofs GpBuild GpOps StgModel StgSpec StgProofs.
From Coq Require Import List.
Import ListNotations.
Open Scope nat_scope.

Lemma ctx_unique {N} : forall (C C' : ctx N) x y, hole C = hole C' -> fill C x = fill C' y -> x = y /\ forall z, fill C z = fill C' z.
Proof.
  induction C as [|n l C IH r]; intros [|n' l' C' r'] x y Hh Hf; cbn in Hh, Hf; try discriminate; auto.
  injection Hh as Hl Hh. injection Hf as <- Hf.
  assert (l = l' /\ fill C x :: r = fill C' y :: r') as [-> Hr].
  { clear - Hl Hf. revert l' Hl Hf. induction l as [|u l IHl]; intros [|u' l'] Hl Hf; cbn in *; try discriminate; auto.
    injection Hf as -> Hf. injection Hl as Hl. destruct (IHl l' Hl Hf) as [-> ->]. auto. }
  injection Hr as Hx ->. destruct (IH C' x y Hh Hx) as [-> Hz]. split; auto. intros z. cbn. now rewrite Hz.
Qed.
Lemma until_safe : forall fuel n (good : nat -> bool) ds, 0 < n -> draw_until fuel n (fun i => Ok (good i)) ds = NoDraw \/
  exists j ds', draw_until fuel n (fun i => Ok (good i)) ds = Ok (j, ds') /\ j < n /\ good j = true.
Proof.
  induction fuel as [|f IH]; intros n good ds Hn; [left; reflexivity|]. cbn [draw_until]. destruct ds as [|d ds]; [left; reflexivity|]. cbn [draw rbind].
  destruct (good (d mod n)) eqn:E; [|apply IH; auto]. right. do 2 eexists. split; [reflexivity|]. split; auto. apply Nat.mod_upper_bound. lia.
Qed.
Section Stg.
Context {N : Type}.
Variables (arity ty : N -> nat) (atype : N -> nat -> nat).
Notation typed := (typed arity ty atype).
Notation subtree := (subtree N).
Notation size := (size N).
Notation content := (content N).
Notation nth_node := (nth_node N).
Notation get_node := (get_node N).
Notation possible_nodes := (possible_nodes N ty).

Lemma content_top t : top_node (abs t) = content t.
Proof. destruct t. reflexivity. Qed.
Lemma possible_spec t k : sound arity t -> exists l, possible_nodes t k = Ok l /\
  forall j, In j l <-> exists s, nth_error (subtrees (abs t)) j = Some s /\ ty (top_node s) = k.
Proof.
  intros Ht. unfold StgModel.possible_nodes.
  set (loop := fix loop (todo n : nat) : res (list nat) := match todo with 0 => Ok [] | S r => let! s := nth_node t n in let! l := loop r (S n) in Ok (if k =? ty (content s) then n :: l else l) end).
  assert (H : forall todo n, n + todo = size t -> exists l, loop todo n = Ok l /\ forall j, In j l <-> n <= j /\ exists s, nth_error (subtrees (abs t)) j = Some s /\ ty (top_node s) = k).
  { induction todo as [|r IH]; intros n Hn.
    - exists []. split; auto. intros j. split; [intros []|]. intros (Hj & s & Hs & _). apply nth_error_lt in Hs. rewrite subtrees_length, <- (stats_size _ (proj1 Ht)) in Hs. lia.
    - cbn [loop]. fold loop. destruct (nth_node_spec arity t n Ht ltac:(lia)) as (s & -> & _ & Hs & _). cbn [rbind]. destruct (IH (S n) ltac:(lia)) as (l & -> & Hl). cbn [rbind].
      eexists. split; [reflexivity|]. intros j. destruct (k =? ty (content s)) eqn:E; [apply Nat.eqb_eq in E|apply Nat.eqb_neq in E].
      + cbn [In]. rewrite Hl. split.
        * intros [<-|(Hj & Hx)]; [split; [lia|]; exists (abs s); rewrite content_top; auto|split; [lia|auto]].
        * intros (Hj & x & Hx & Hk). destruct (Nat.eq_dec n j); [auto|right]. split; [lia|eauto].
      + rewrite Hl. split; [intros (Hj & Hx); split; [lia|auto]|]. intros (Hj & x & Hx & Hk). split; [|eauto]. destruct (Nat.eq_dec n j) as [<-|]; [|lia].
        rewrite Hs in Hx. injection Hx as <-. rewrite content_top in Hk. congruence. }
  destruct (H (size t) 0 eq_refl) as (l & El & Hl). exists l. split; auto. intros j. rewrite Hl. split; [intros [_ Hx]; auto|intros Hx; split; [lia|auto]].
Qed.
Notation apart := (apart ty).

Lemma point_loop t1 t2 : sound arity t1 -> sound arity t2 -> forall fuel test ds, NoDup test -> (forall i, In i test -> i < size t1) -> length test < size t1 -> fuel + length test = size t1 ->
  (forall i a b, In i test -> nth_error (subtrees (abs t1)) i = Some a -> In b (subtrees (abs t2)) -> ty (top_node a) <> ty (top_node b)) ->
  xover_point N ty fuel t1 t2 test ds = NoDraw \/
  exists i nodes ds' a, xover_point N ty fuel t1 t2 test ds = Ok (i, nodes, ds') /\ i < size t1 /\ nth_error (subtrees (abs t1)) i = Some a /\
    (forall j, In j nodes <-> exists s, nth_error (subtrees (abs t2)) j = Some s /\ ty (top_node s) = ty (top_node a)) /\ (nodes = [] -> apart (abs t1) (abs t2)).
Proof.
  intros H1 H2. induction fuel as [|f IH]; intros test ds Hd Hlt Hlen Hf Hno; [left; reflexivity|]. cbn [xover_point]. pose proof (size_pos arity _ H1) as P1.
  destruct (until_safe (S (length ds)) (size t1) (fun i => negb (existsb (Nat.eqb i) test)) ds P1) as [->|(i & ds1 & -> & Hi & Hg)]; [left; reflexivity|]. cbn [rbind].
  apply negb_true_iff in Hg. assert (Hni : ~ In i test). { intros Hin. assert (existsb (Nat.eqb i) test = true); [|congruence]. apply existsb_exists. exists i. split; auto. apply Nat.eqb_refl. }
  destruct (nth_node_spec arity t1 i H1 Hi) as (s & -> & _ & Hs & _). cbn [rbind]. destruct (possible_spec t2 (ty (content s)) H2) as (nodes & -> & Hn). cbn [rbind]. rewrite <- content_top in Hn.
  destruct nodes as [|j nodes].
  - assert (Hno' : forall i' a b, In i' (i :: test) -> nth_error (subtrees (abs t1)) i' = Some a -> In b (subtrees (abs t2)) -> ty (top_node a) <> ty (top_node b)).
    { intros i' a b [<-|Hin] Ha Hb; [|eauto]. intros E. rewrite Hs in Ha. injection Ha as <-. apply In_nth_error in Hb as [j Hj]. apply (Hn j). eauto. }
    destruct (length (i :: test) <? size t1) eqn:E; [apply Nat.ltb_lt in E|apply Nat.ltb_ge in E].
    + apply IH; auto; [constructor; auto|intros q [<-|Hq]; auto|cbn in *; lia].
    + right. exists i, [], ds1, (abs s). conjs; auto. intros _ a b Ha Hb. apply In_nth_error in Ha as [q Hq].
      apply (Hno' q a b); auto. assert (Hql := nth_error_lt _ _ _ Hq). rewrite subtrees_length, <- (stats_size _ (proj1 H1)) in Hql.
      apply (NoDup_length_incl (l := i :: test) (l' := seq 0 (size t1))); [constructor; auto|rewrite seq_length; auto| |apply in_seq; lia].
      intros q' [<-|Hq']; apply in_seq; [lia|]. specialize (Hlt q' Hq'). lia.
  - right. exists i, (j :: nodes), ds1, (abs s). conjs; auto. discriminate.
Qed.
Lemma st_xover_spec max t1 t2 ds : sound arity t1 -> sound arity t2 ->
  st_subtree_xover N ty max t1 t2 ds = NoDraw \/
  exists u1 u2 ds', st_subtree_xover N ty max t1 t2 ds = Ok (true, u1, u2, ds') /\ sound arity u1 /\ sound arity u2 /\
   ((u1 = t1 /\ u2 = t2 /\ apart (abs t1) (abs t2)) \/
    exists C1 a C2 b, abs t1 = fill C1 a /\ abs t2 = fill C2 b /\ ty (top_node a) = ty (top_node b) /\ abs u1 = fill C1 b /\ abs u2 = fill C2 a).
Proof.
  intros H1 H2. unfold st_subtree_xover. pose proof (size_pos arity _ H1) as P1.
  pose proof (point_loop t1 t2 H1 H2 (size t1) [] ds (NoDup_nil _) (fun i (h : In i []) => match h with end) P1 (Nat.add_0_r _) (fun i a b (h : In i []) => match h with end)) as HP.
  destruct HP as [->|(i & nodes & ds1 & a & -> & Hi & Ha & Hn & He)]; [left; reflexivity|]. cbn [rbind].
  destruct nodes as [|j nodes]; [right; exists t1, t2, ds1; conjs; auto|]. set (nds := j :: nodes) in *.
  destruct ds1 as [|d ds1]; [left; reflexivity|]. cbn [draw rbind]. assert (Hd : d mod length nds < length nds) by (apply Nat.mod_upper_bound; discriminate).
  destruct (nth_error nds (d mod length nds)) as [q|] eqn:Eq; [|apply nth_error_None in Eq; lia]. cbn [of_opt rbind].
  apply nth_error_In in Eq. apply Hn in Eq as (b & Hb & Hab). assert (Hq := nth_error_lt _ _ _ Hb). rewrite subtrees_length, <- (stats_size _ (proj1 H2)) in Hq.
  destruct (nth_node_spec arity t1 i H1 Hi) as (tmp & -> & S1 & N1 & _). destruct (nth_node_spec arity t2 q H2 Hq) as (s & -> & S2 & N2 & _). cbn [rbind].
  destruct (replace_spec arity t1 s i H1 S2 Hi) as (u1 & C1 & a' & -> & U1 & HO1 & F1 & G1 & R1). cbn [rbind].
  destruct (replace_spec arity t2 tmp q H2 S1 Hq) as (u2 & C2 & b' & -> & U2 & HO2 & F2 & G2 & R2). cbn [rbind].
  right. exists u1, u2, ds1. conjs; auto. right. exists C1, a', C2, b'. assert (a' = abs tmp) by congruence. assert (b' = abs s) by congruence. subst a' b'. conjs; auto. congruence.
Qed.
Lemma at_hole t C x : sound arity t -> abs t = fill C x -> exists i, i < size t /\ get_node t i = hole C /\ nth_error (subtrees (abs t)) i = Some x.
Proof.
  intros Ht E. assert (Hin : In (hole C) (ways (abs t))) by (apply in_ways; rewrite E, ctx_follow; discriminate).
  apply In_nth_error in Hin as [d Hd]. exists d. assert (Hlt := nth_error_lt _ _ _ Hd). rewrite ways_length, <- (stats_size _ (proj1 Ht)) in Hlt.
  split; auto. rewrite (get_node_ways t (proj1 Ht) d Hlt) in Hd. injection Hd as Hd. split; auto. destruct (nth_node_spec arity t d Ht Hlt) as (s & _ & _ & Hs & Hf).
  rewrite Hd, E, ctx_follow in Hf. congruence.
Qed.
Lemma st_xover_any max t1 t2 C1 a C2 b : sound arity t1 -> sound arity t2 -> abs t1 = fill C1 a -> abs t2 = fill C2 b -> ty (top_node a) = ty (top_node b) ->
  exists d1 d2 u1 u2, st_subtree_xover N ty max t1 t2 [d1; d2] = Ok (true, u1, u2, []) /\ abs u1 = fill C1 b /\ abs u2 = fill C2 a.
Proof.
  intros H1 H2 E1 E2 E. destruct (at_hole t1 C1 a H1 E1) as (i & Li & Gi & Ni). destruct (at_hole t2 C2 b H2 E2) as (q & Lq & Gq & Nq).
  destruct (nth_node_spec arity t1 i H1 Li) as (tmp & Et & S1 & N1 & _). destruct (nth_node_spec arity t2 q H2 Lq) as (s & Es & S2 & N2 & _).
  assert (abs tmp = a) by congruence. assert (abs s = b) by congruence.
  destruct (possible_spec t2 (ty (content tmp)) H2) as (nodes & En & Hn). rewrite <- content_top in Hn. assert (Hin : In q nodes) by (apply Hn; exists b; split; congruence).
  apply In_nth_error in Hin as [k Hk]. exists i, k. unfold st_subtree_xover. destruct (size t1) as [|n1] eqn:Es1; [lia|]. cbn [xover_point]. rewrite Es1.
  rewrite until_any; auto; [|lia]. cbn [rbind]. rewrite Et. cbn [rbind]. rewrite En. cbn [rbind]. destruct nodes as [|j nodes]; [destruct k; discriminate|]. set (nds := j :: nodes) in *. cbn [rbind].
  unfold nds at 1. cbn [draw rbind]. rewrite Nat.mod_small by (eapply nth_error_lt; eauto). rewrite Hk. cbn [of_opt rbind]. rewrite Et. cbn [rbind]. rewrite Es. cbn [rbind].
  rewrite <- Es1 in Li.
  destruct (replace_spec arity t1 s i H1 S2 Li) as (u1 & C1' & a' & -> & U1 & HO1 & F1 & G1 & R1). cbn [rbind].
  destruct (replace_spec arity t2 tmp q H2 S1 Lq) as (u2 & C2' & b' & -> & U2 & HO2 & F2 & G2 & R2). cbn [rbind].
  exists u1, u2. split; auto. rewrite R1, R2. destruct (ctx_unique C1 C1' a a') as [_ Z1]; [congruence|congruence|]. destruct (ctx_unique C2 C2' b b') as [_ Z2]; [congruence|congruence|].
  rewrite Z1, Z2. split; congruence.
Qed.
(** without two nodes of the same type, trying all the nodes ends the loop *)
Lemma apart_loop t1 t2 : sound arity t1 -> sound arity t2 -> apart (abs t1) (abs t2) -> forall fuel m, m + fuel = size t1 -> 0 < fuel ->
  exists i, xover_point N ty fuel t1 t2 (rev (seq 0 m)) (seq m fuel) = Ok (i, [], []).
Proof.
  intros H1 H2 HA. induction fuel as [|f IH]; intros m Hm Hf; [lia|]. cbn [xover_point seq].
  rewrite until_any; [|lia|lia|f_equal; apply negb_true_iff; apply not_true_iff_false; intros Hx; apply existsb_exists in Hx as (x & Hx & E); apply Nat.eqb_eq in E; subst x; apply in_rev in Hx; apply in_seq in Hx; lia]. cbn [rbind].
  destruct (nth_node_spec arity t1 m H1 ltac:(lia)) as (s & -> & _ & Hs & _). cbn [rbind]. destruct (possible_spec t2 (ty (content s)) H2) as (nodes & -> & Hn). cbn [rbind]. rewrite <- content_top in Hn.
  destruct nodes as [|j nodes].
  - cbn [length]. rewrite rev_length, seq_length. destruct (S m <? size t1) eqn:E; [apply Nat.ltb_lt in E|apply Nat.ltb_ge in E].
    + destruct (IH (S m) ltac:(lia) ltac:(lia)) as [i Hi]. exists i. rewrite seq_S, rev_app_distr in Hi. exact Hi.
    + exists m. replace f with 0 by lia. reflexivity.
  - exfalso. destruct (proj1 (Hn j) (or_introl eq_refl)) as (b & Hb & Hk). apply (HA (abs s) b); auto; [eapply nth_error_In; exact Hs|eapply nth_error_In; exact Hb].
Qed.
Lemma st_xover_apart max t1 t2 : sound arity t1 -> sound arity t2 -> apart (abs t1) (abs t2) -> exists ds, st_subtree_xover N ty max t1 t2 ds = Ok (true, t1, t2, []).
Proof.
  intros H1 H2 HA. pose proof (size_pos arity _ H1). destruct (apart_loop t1 t2 H1 H2 HA (size t1) 0 eq_refl) as [i Hi]; auto. exists (seq 0 (size t1)). unfold st_subtree_xover. change (rev (seq 0 0)) with (@nil nat) in Hi. rewrite Hi. reflexivity.
Qed.

(** *** mutations *)
Section Mut.
Variable initializer : list nat -> res (subtree * list nat).
Hypothesis init_ok : forall ds t ds', initializer ds = Ok (t, ds') -> sound arity t.
Lemma source_spec k : forall tries ds t2 nodes ds', branch_source N ty initializer tries k ds = Ok (t2, nodes, ds') ->
  (exists d1 d2, initializer d1 = Ok (t2, d2)) /\ nodes <> [] /\ forall j, In j nodes <-> exists s, nth_error (subtrees (abs t2)) j = Some s /\ ty (top_node s) = k.
Proof.
  induction tries as [|tr IH]; intros ds t2 nodes ds' H; [discriminate|]. cbn [branch_source] in H. apply rbind_ok in H as ([u ds1] & Hu & H).
  destruct (possible_spec u k (init_ok _ _ _ Hu)) as (l & El & Hl). rewrite El in H. cbn [rbind] in H. destruct l as [|j l]; [eauto|]. injection H as <- <- <-.
  conjs; eauto. discriminate.
Qed.
Lemma st_branch_spec tries max t ds r u ds' : sound arity t -> st_branch_mutation N ty initializer tries max t ds = Ok (r, u, ds') ->
  exists d1 t2 d2 C a b, initializer d1 = Ok (t2, d2) /\ abs t = fill C a /\ In b (subtrees (abs t2)) /\ ty (top_node a) = ty (top_node b) /\ abs u = fill C b /\ sound arity u /\ r = true.
Proof.
  intros Ht H. unfold st_branch_mutation in H. apply rbind_ok in H as ([i ds1] & Hi & H). apply draw_lt in Hi; [|now apply (size_pos arity)].
  destruct (nth_node_spec arity t i Ht Hi) as (x & Ex & Hx & Nx & _). rewrite Ex in H. cbn [rbind] in H.
  apply rbind_ok in H as ([[t2 nodes] ds2] & Hs & H). apply source_spec in Hs as ((d1 & d2 & Hi2) & Hne & Hn). apply rbind_ok in H as ([n ds3] & Hd & H).
  apply rbind_ok in H as (j & Hj & H). apply of_opt_ok in Hj. apply nth_error_In in Hj. apply Hn in Hj as (b & Hb & Hk).
  pose proof (init_ok _ _ _ Hi2) as H2. assert (Hq := nth_error_lt _ _ _ Hb). rewrite subtrees_length, <- (stats_size _ (proj1 H2)) in Hq.
  destruct (nth_node_spec arity t2 j H2 Hq) as (s & Es & Hs & Ns & _). rewrite Es in H. cbn [rbind] in H.
  destruct (replace_spec arity t s i Ht Hs Hi) as (u' & C & a & E & Hu & _ & F & G & R). rewrite E in H. cbn [rbind] in H. injection H as <- <- <-.
  exists d1, t2, d2, C, a, b. assert (a = abs x) by congruence. assert (b = abs s) by congruence. subst a b. rewrite (content_top x). conjs; auto. eapply nth_error_In; eauto.
Qed.
End Mut.
Lemma st_hoist_spec max t d ds : sound arity t -> exists u, st_hoist_mutation N ty max t (d :: ds) = Ok (true, u, ds) /\ sound arity u /\
  In (abs u) (subtrees (abs t)) /\ ty (top_node (abs u)) = ty (top_node (abs t)).
Proof.
  intros Ht. pose proof (size_pos arity _ Ht) as P. unfold st_hoist_mutation. destruct (nth_node_spec arity t (size t - 1) Ht ltac:(lia)) as (r & -> & _ & Hr & _). cbn [rbind].
  assert (Er : abs r = abs t).
  { destruct (last_subtree (abs t)) as [l El]. assert (Hl : length (subtrees (abs t)) = size t) by (rewrite subtrees_length; symmetry; apply stats_size; apply Ht). rewrite El in *. rewrite app_length in Hl. cbn in Hl.
    rewrite nth_error_app2 in Hr by lia. replace (size t - 1 - length l) with 0 in Hr by lia. cbn in Hr. congruence. }
  rewrite <- content_top, Er. destruct (possible_spec t (ty (top_node (abs t))) Ht) as (nodes & -> & Hn). cbn [rbind draw].
  assert (Hin : In (size t - 1) nodes) by (apply Hn; exists (abs r); split; congruence).
  assert (Hd : d mod length nodes < length nodes) by (apply Nat.mod_upper_bound; destruct nodes; [destruct Hin|discriminate]).
  destruct (nth_error nodes (d mod length nodes)) as [i|] eqn:Ei; [|apply nth_error_None in Ei; lia]. cbn [of_opt rbind]. apply nth_error_In in Ei. apply Hn in Ei as (s & Hs & Hk).
  assert (Hi := nth_error_lt _ _ _ Hs). rewrite subtrees_length, <- (stats_size _ (proj1 Ht)) in Hi. destruct (nth_node_spec arity t i Ht Hi) as (s' & -> & Hs' & Ns & _). cbn [rbind assign].
  rewrite refresh_same by apply Hs'. cbn [rbind]. exists s'. assert (abs s' = s) by congruence. subst s. conjs; auto. eapply nth_error_In; eauto.
Qed.
Lemma st_hoist_any max t s : sound arity t -> In s (subtrees (abs t)) -> ty (top_node s) = ty (top_node (abs t)) -> exists d u, st_hoist_mutation N ty max t [d] = Ok (true, u, []) /\ abs u = s.
Proof.
  intros Ht Hs Hk. pose proof (size_pos arity _ Ht) as P. unfold st_hoist_mutation. destruct (nth_node_spec arity t (size t - 1) Ht ltac:(lia)) as (r & -> & _ & Hr & _). cbn [rbind].
  assert (Er : abs r = abs t).
  { destruct (last_subtree (abs t)) as [l El]. assert (Hl : length (subtrees (abs t)) = size t) by (rewrite subtrees_length; symmetry; apply stats_size; apply Ht). rewrite El in *. rewrite app_length in Hl. cbn in Hl.
    rewrite nth_error_app2 in Hr by lia. replace (size t - 1 - length l) with 0 in Hr by lia. cbn in Hr. congruence. }
  rewrite <- content_top, Er. destruct (possible_spec t (ty (top_node (abs t))) Ht) as (nodes & -> & Hn). cbn [rbind draw].
  apply In_nth_error in Hs as [i Hs]. assert (Hin : In i nodes) by (apply Hn; eauto). apply In_nth_error in Hin as [d Hd]. exists d.
  rewrite Nat.mod_small by (eapply nth_error_lt; eauto). rewrite Hd. cbn [of_opt rbind].
  assert (Hi := nth_error_lt _ _ _ Hs). rewrite subtrees_length, <- (stats_size _ (proj1 Ht)) in Hi. destruct (nth_node_spec arity t i Ht Hi) as (s' & -> & Hs' & Ns & _). cbn [rbind assign].
  rewrite refresh_same by apply Hs'. cbn [rbind]. exists s'. split; auto. congruence.
Qed.
Lemma in_kind set k a n : In n (same_kind N arity ty set k a) <-> In n set /\ ty n = k /\ arity n = a.
Proof. unfold same_kind. rewrite filter_In, andb_true_iff, !Nat.eqb_eq. tauto. Qed.
Lemma st_point_spec dflt set t ds : sound arity t -> nodes_in set (abs t) -> st_point_mutation N arity ty dflt set t ds = NoDraw \/
  exists u ds' C n n' a, st_point_mutation N arity ty dflt set t ds = Ok (true, u, ds') /\ sound arity u /\ abs t = fill C (Tree n a) /\ abs u = fill C (Tree n' a) /\ In n' set /\ ty n' = ty n /\ arity n' = arity n.
Proof.
  intros Ht HN. unfold st_point_mutation. destruct ds as [|d ds]; [left; reflexivity|]. cbn [draw rbind]. pose proof (size_pos arity _ Ht) as P.
  assert (Hi : d mod size t < size t) by (apply Nat.mod_upper_bound; lia). destruct (nth_node_spec arity t _ Ht Hi) as (x & Ex & Hx & Nx & Fx). rewrite Ex. cbn [rbind].
  assert (Hc : In (content x) set). { apply HN. rewrite <- map_root_subtrees. apply in_map_iff. exists (abs x). split; [now rewrite abs_eq|]. eapply nth_error_In; eauto. }
  set (from := same_kind N arity ty set (ty (content x)) (arity (content x))). cbv zeta. fold from.
  assert (Hne : from <> []). { intros E. assert (H : In (content x) from) by (apply in_kind; auto). rewrite E in H. destruct H. }
  destruct (pick_safe from ds Hne) as [->|(n & ds' & -> & Hn & _)]; [left; reflexivity|]. cbn [rbind]. apply in_kind in Hn as (Hn & Hty & Har).
  destruct (assign_node_spec arity dflt _ t n x Ht Ex Har) as (u & -> & Hu & HC). cbn [rbind]. right.
  destruct (follow_ctx _ _ _ Fx) as (C & Hh & HF). rewrite (abs_eq x) in HF. exists u, ds', C, (content x), n, (map abs (args N x)). conjs; auto.
Qed.
Lemma st_point_any dflt set t C n a n' : sound arity t -> abs t = fill C (Tree n a) -> In n' set -> ty n' = ty n -> arity n' = arity n ->
  exists ds u, st_point_mutation N arity ty dflt set t ds = Ok (true, u, []) /\ abs u = fill C (Tree n' a).
Proof.
  intros Ht E Hin Hty Ha. destruct (at_hole t C (Tree n a) Ht E) as (i & Li & Gi & Ni). destruct (nth_node_spec arity t i Ht Li) as (x & Ex & Hx & Nx & _).
  assert (Ea : abs x = Tree n a) by congruence. rewrite abs_eq in Ea. injection Ea as En Ea.
  destruct (pick_any' (same_kind N arity ty set (ty (content x)) (arity (content x))) n') as [d Hd]; [apply in_kind; rewrite En; auto|].
  exists [i; d]. unfold st_point_mutation. cbn [draw rbind]. rewrite Nat.mod_small by auto. rewrite Ex. cbn [rbind]. cbv zeta. rewrite Hd. cbn [rbind].
  destruct (assign_node_spec arity dflt _ t n' x Ht Ex ltac:(congruence)) as (u & -> & Hu & HC). cbn [rbind]. exists u. split; auto. eapply HC; [congruence|]. rewrite E. congruence.
Qed.
(** the replacement keeps the tree well typed when it asks for the types of arguments that are there *)
Lemma typed_replace (C : ctx N) n n' a k : typed k (fill C (Tree n a)) -> ty n' = ty n -> arity n' = arity n -> (forall i, i < arity n -> atype n' i = atype n i) -> typed k (fill C (Tree n' a)).
Proof.
  intros H Hty Ha Hi. eapply typed_fill; [exact H|]. cbn [top_node]. rewrite <- Hty. pose proof (typed_sub arity ty atype _ _ H _ (fill_sub C (Tree n a))) as HT. inversion HT as [m l Hl Hx]; subst.
  constructor; [congruence|]. intros i x Hix. rewrite Hi; [auto|]. rewrite <- Hl. eapply nth_error_lt; eauto.
Qed.
End Stg.
