(** C159 - C161: strongly typed genetic programming. *)
From Coq Require Import List Arith Bool Lia.
From Verif Require Import Lib Outcome GpModel GpSpec GpProofs GpBuild GpOps StgModel StgSpec StgProofs StgOps.
From Coq Require Import List.
Import ListNotations.
Open Scope nat_scope.

(** nodes for the examples: numbers (type 0) 0 : 0, add(0,0) : 0 is 2, choose(1,0) : 0 is 3; truth values (type 1) true : 1 is 1, less(0,0) : 1 is 4;
    vectors (type 2) v : 2 is 5, norm(2) : 0 is 6 *)
Definition xar (n : nat) : nat := nth n [0; 0; 2; 2; 2; 0; 1] 0.
Definition xty (n : nat) : nat := nth n [0; 1; 0; 0; 1; 2; 0] 0.
Definition xat (n i : nat) : nat := nth i (nth n [[]; []; [0; 0]; [1; 0]; [0; 0]; []; [2]] []) 0.
Ltac typing := repeat (match goal with |- typed _ _ _ _ _ => apply (typed_node xar xty xat); [reflexivity|] | |- forall i x, _ -> typed _ _ _ _ _ =>
  let i := fresh in let x := fresh in let H := fresh in intros i x H; do 3 (destruct i as [|i]; cbn in H; try discriminate H; try (injection H as <-)) end).
Definition num : subtree nat := refresh nat 0 [].
Definition add2 : subtree nat := refresh nat 2 [num; num].
Definition chosen : subtree nat := refresh nat 3 [refresh nat 4 [num; num]; num].
Lemma num_sound : sound xar num. Proof. apply sound_refresh; [repeat constructor|reflexivity]. Qed.
Lemma add2_sound : sound xar add2. Proof. apply sound_refresh; [repeat constructor; apply num_sound|reflexivity]. Qed.
Lemma chosen_sound : sound xar chosen.
Proof. apply sound_refresh; [|reflexivity]. repeat constructor; try apply num_sound; try reflexivity; apply num_sound. Qed.
Lemma chosen_typed : typed xar xty xat 0 (abs chosen).
Proof. change (abs chosen) with (Tree 3 [Tree 4 [Tree 0 []; Tree 0 []]; Tree 0 []]). change 0 with (xty 3) at 1. constructor; [reflexivity|]. intros [|[|[|i]]] x H; cbn in H; try discriminate; injection H as <-.
  - change (xat 3 0) with (xty 4). constructor; [reflexivity|]. intros [|[|[|i]]] x H; cbn in H; try discriminate; injection H as <-; change (xat 4 _) with (xty 0); (constructor; [reflexivity|]; intros [|i] x H; discriminate).
  - change (xat 3 1) with (xty 0). constructor; [reflexivity|]. intros [|i] x H; discriminate.
Qed.

(** ** C159: the initializer *)
(** the trees have the type asked for, all their arguments have the types their nodes ask for, and the depth is bounded, or the same for all the leaves *)
Theorem C159_trees : forall (N : Type) (arity ty : N -> nat) (atype : N -> nat -> nat) d tries fuel ds t ds', 1 <= st_max N d ->
  st_init N arity ty atype tries fuel d ds = Ok (t, ds') ->
  sound arity t /\ typed arity ty atype (st_return N d) (abs t) /\ nodes_in (st_set N d) (abs t) /\ depth N t <= st_max N d /\ (st_grow N d = false -> full (st_max N d) (abs t)).
Proof.
  intros N arity ty atype d tries fuel ds t ds' Hm H. apply st_init_spec in H as (Hs & H1 & H2 & H3 & H4); auto. conjs; auto. destruct Hs as [Hs _]. inversion Hs; subst. lia.
Qed.
(** any such tree can come out *)
Theorem C159_every_tree : forall (N : Type) (arity ty : N -> nat) (atype : N -> nat -> nat) d x, 1 <= st_max N d ->
  typed arity ty atype (st_return N d) x -> nodes_in (st_set N d) x -> height x <= st_max N d -> (st_grow N d = false -> full (st_max N d) x) ->
  exists l t, abs t = x /\ forall tries fuel rest, 1 <= tries -> st_max N d <= fuel -> st_init N arity ty atype tries fuel d (l ++ rest) = Ok (t, rest).
Proof. intros N arity ty atype d x Hm H1 H2 H3 H4. apply st_init_any; auto. repeat split; auto. Qed.
(** with nodes for all the types that can be asked for, no operation is undefined *)
Theorem C159_safe : forall (N : Type) (arity ty : N -> nat) (atype : N -> nat -> nat) d tries fuel ds, 1 <= st_max N d ->
  provides arity ty atype (st_set N d) (enough arity ty (st_set N d) (st_grow N d)) (st_return N d) ->
  st_init N arity ty atype tries fuel d ds = NoDraw \/ exists t ds', st_init N arity ty atype tries fuel d ds = Ok (t, ds').
Proof. intros. apply st_init_safe; auto. Qed.
(** with also terminals of all these types, the first tree tried is good: a bounded number of draws is enough *)
Theorem C159_ends : forall (N : Type) (arity ty : N -> nat) (atype : N -> nat -> nat) d, 1 <= st_max N d ->
  provides arity ty atype (st_set N d) (fun k => enough arity ty (st_set N d) (st_grow N d) k /\ has_terminal arity ty (st_set N d) k) (st_return N d) ->
  exists B, forall tries fuel ds, 1 <= tries -> st_max N d <= fuel -> B <= length ds -> exists t ds', st_init N arity ty atype tries fuel d ds = Ok (t, ds').
Proof. intros. apply st_init_total; auto. Qed.
(** the nodes are refused when there are none *)
Theorem C159_constructor : forall (N : Type) (set : list N), (set = [] -> st_construct N set = Throw) /\ (set <> [] -> st_construct N set = Ok set).
Proof. intros N [|n l]; split; auto; congruence. Qed.
Example C159_case :
  st_init nat xar xty xat 1 3 (StInit nat [0; 1; 2; 3; 4] 3 0 true) [2; 1; 0; 0; 0] = Ok (chosen, []) /\
  st_init nat xar xty xat 1 3 (StInit nat [0; 1; 2; 3; 4] 2 0 false) [0; 0; 0] = Ok (add2, []) /\
  st_init nat xar xty xat 2 3 (StInit nat [0; 2; 3; 4] 2 0 true) [2; 0; 1; 0; 0] = Ok (add2, []).
Proof. repeat split; vm_compute; reflexivity. Qed.
Example C159_case_provides : forall grow, provides xar xty xat [0; 1; 2; 3; 4] (fun k => enough xar xty [0; 1; 2; 3; 4] grow k /\ has_terminal xar xty [0; 1; 2; 3; 4] k) 0.
Proof.
  intros grow. exists (fun k => k < 2). split; [lia|]. split.
  - intros [|[|k]] Hk; [| |lia]; (split; [destruct grow|]); cbn; unfold has_nonterminal, has_terminal.
    + exists 0; cbn; auto. + exists 2; cbn; auto 6. + exists 0; cbn; auto. + exists 1; cbn; auto. + exists 4; cbn; auto 8. + exists 1; cbn; auto.
  - intros n i Hn _ Hi. cbn in Hn. repeat destruct Hn as [<-|Hn]; try destruct Hn; cbn in Hi; try lia; destruct i as [|[|i]]; cbn; lia.
Qed.

(** ** C160: the operators *)
(** the crossover always returns when given enough draws; it exchanges two subtrees of the same type, and changes nothing only if there are none *)
Theorem C160_crossover : forall (N : Type) (arity ty : N -> nat) (atype : N -> nat -> nat) max t1 t2 ds, sound arity t1 -> sound arity t2 ->
  st_subtree_xover N ty max t1 t2 ds = NoDraw \/
  exists u1 u2 ds', st_subtree_xover N ty max t1 t2 ds = Ok (true, u1, u2, ds') /\ sound arity u1 /\ sound arity u2 /\
   (forall k, typed arity ty atype k (abs t1) -> (exists k2, typed arity ty atype k2 (abs t2)) -> typed arity ty atype k (abs u1)) /\
   (forall k, typed arity ty atype k (abs t2) -> (exists k1, typed arity ty atype k1 (abs t1)) -> typed arity ty atype k (abs u2)) /\
   ((u1 = t1 /\ u2 = t2 /\ apart ty (abs t1) (abs t2)) \/
    exists C1 a C2 b, abs t1 = fill C1 a /\ abs t2 = fill C2 b /\ ty (top_node a) = ty (top_node b) /\ abs u1 = fill C1 b /\ abs u2 = fill C2 a).
Proof.
  intros N arity ty atype max t1 t2 ds H1 H2. destruct (st_xover_spec arity ty max t1 t2 ds H1 H2) as [E|(u1 & u2 & ds' & E & S1 & S2 & HC)]; auto. right.
  exists u1, u2, ds'. conjs; auto; destruct HC as [(-> & -> & _)|(C1 & a & C2 & b & F1 & F2 & Et & G1 & G2)]; auto.
  - intros k T1 [k2 T2]. rewrite F1 in T1. rewrite F2 in T2. rewrite G1. eapply typed_fill; [exact T1|]. rewrite Et. exact (typed_sub arity ty atype _ _ T2 _ (fill_sub C2 b)).
  - intros k T2 [k1 T1]. rewrite F1 in T1. rewrite F2 in T2. rewrite G2. eapply typed_fill; [exact T2|]. rewrite <- Et. exact (typed_sub arity ty atype _ _ T1 _ (fill_sub C1 a)).
Qed.
(** any two subtrees of the same type can be exchanged; trees without any come out as they are *)
Theorem C160_crossover_any : forall (N : Type) (arity ty : N -> nat) max t1 t2, sound arity t1 -> sound arity t2 ->
  (forall C1 a C2 b, abs t1 = fill C1 a -> abs t2 = fill C2 b -> ty (top_node a) = ty (top_node b) ->
    exists d1 d2 u1 u2, st_subtree_xover N ty max t1 t2 [d1; d2] = Ok (true, u1, u2, []) /\ abs u1 = fill C1 b /\ abs u2 = fill C2 a) /\
  (apart ty (abs t1) (abs t2) -> exists ds, st_subtree_xover N ty max t1 t2 ds = Ok (true, t1, t2, [])).
Proof. intros N arity ty max t1 t2 H1 H2. split; [intros; eapply (st_xover_any arity); eauto|intros; eapply (st_xover_apart arity); eauto]. Qed.
(** the branch mutation puts a subtree of a tree of its initializer in the place of one of the same type *)
Theorem C160_branch : forall (N : Type) (arity ty : N -> nat) (atype : N -> nat -> nat) (initializer : list nat -> res (subtree N * list nat)),
  (forall ds t ds', initializer ds = Ok (t, ds') -> sound arity t) ->
  forall tries max t ds r u ds', sound arity t -> st_branch_mutation N ty initializer tries max t ds = Ok (r, u, ds') ->
  r = true /\ sound arity u /\
  (exists d1 t2 d2 C a b, initializer d1 = Ok (t2, d2) /\ abs t = fill C a /\ In b (subtrees (abs t2)) /\ ty (top_node a) = ty (top_node b) /\ abs u = fill C b) /\
  ((forall ds t ds', initializer ds = Ok (t, ds') -> exists k, typed arity ty atype k (abs t)) -> forall k, typed arity ty atype k (abs t) -> typed arity ty atype k (abs u)).
Proof.
  intros N arity ty atype initializer HI tries max t ds r u ds' Ht H. destruct (st_branch_spec arity ty initializer HI _ _ _ _ _ _ _ Ht H) as (d1 & t2 & d2 & C & a & b & E & F & Hb & Et & G & Hu & Hr).
  conjs; auto; [exists d1, t2, d2, C, a, b; auto|]. intros HT k T. destruct (HT _ _ _ E) as [k2 T2]. rewrite F in T. rewrite G. eapply typed_fill; [exact T|]. rewrite Et. exact (typed_sub arity ty atype _ _ T2 _ Hb).
Qed.
(** the hoist mutation keeps a subtree of the type of the whole: any of them, and nothing else *)
Theorem C160_hoist : forall (N : Type) (arity ty : N -> nat) (atype : N -> nat -> nat) max t, sound arity t ->
  (forall d ds, exists u, st_hoist_mutation N ty max t (d :: ds) = Ok (true, u, ds) /\ sound arity u /\ In (abs u) (subtrees (abs t)) /\
     forall k, typed arity ty atype k (abs t) -> typed arity ty atype k (abs u)) /\
  (forall s, In s (subtrees (abs t)) -> ty (top_node s) = ty (top_node (abs t)) -> exists d u, st_hoist_mutation N ty max t [d] = Ok (true, u, []) /\ abs u = s).
Proof.
  intros N arity ty atype max t Ht. split; [|intros; eapply (st_hoist_any arity); eauto]. intros d ds. destruct (st_hoist_spec arity ty max t d ds Ht) as (u & E & Hu & Hin & Hk).
  exists u. conjs; auto. intros k T. rewrite (typed_top _ _ _ _ _ T), <- Hk. exact (typed_sub arity ty atype _ _ T _ Hin).
Qed.
(** the point mutation replaces a node by one of the set of the same type and arity, and keeps its arguments; the tree stays well typed when such nodes ask for the same arguments *)
Theorem C160_point : forall (N : Type) (arity ty : N -> nat) (atype : N -> nat -> nat) dflt set t ds, sound arity t -> nodes_in set (abs t) ->
  st_point_mutation N arity ty dflt set t ds = NoDraw \/
  exists u ds', st_point_mutation N arity ty dflt set t ds = Ok (true, u, ds') /\ sound arity u /\ nodes_in set (abs u) /\
    (exists C n n' a, abs t = fill C (Tree n a) /\ abs u = fill C (Tree n' a) /\ In n' set /\ ty n' = ty n /\ arity n' = arity n) /\
    (uniform arity ty atype set -> forall k, typed arity ty atype k (abs t) -> typed arity ty atype k (abs u)).
Proof.
  intros N arity ty atype dflt set t ds Ht HN. destruct (st_point_spec arity ty atype dflt set t ds Ht HN) as [E|(u & ds' & C & n & n' & a & E & Hu & F & G & Hn & Hty & Ha)]; auto. right.
  assert (Hsub : forall s, In s (subtrees (abs t)) -> In (top_node s) set). { intros s Hs. apply HN. rewrite <- map_root_subtrees. apply in_map_iff. exists s. destruct s. auto. }
  exists u, ds'. conjs; auto.
  - rewrite G. rewrite F in HN. clear - HN Hn. revert HN. induction C as [|m b C IH r]; cbn [fill]; intros HN.
    + apply nodes_in_args in HN as [_ HN]. apply nodes_in_tree; auto.
    + apply nodes_in_args in HN as [Hm HN]. apply nodes_in_tree; auto. rewrite Forall_app in HN |- *. destruct HN as [HN1 HN2]. split; auto. inversion HN2; subst. constructor; auto.
  - exists C, n, n', a. auto.
  - intros HU k T. rewrite F in T. rewrite G. eapply typed_replace; [exact T|auto|auto|]. intros i Hi. apply HU; auto; [|lia]. apply (Hsub (Tree n a)). rewrite F. apply fill_sub.
Qed.
Theorem C160_point_any : forall (N : Type) (arity ty : N -> nat) dflt set t C n a n', sound arity t -> abs t = fill C (Tree n a) -> In n' set -> ty n' = ty n -> arity n' = arity n ->
  exists ds u, st_point_mutation N arity ty dflt set t ds = Ok (true, u, []) /\ abs u = fill C (Tree n' a).
Proof. intros. eapply (st_point_any arity ty (fun _ _ => 0)); eauto. Qed.
Example C160_case : sound xar chosen /\ typed xar xty xat 0 (abs chosen) /\ sound xar add2 /\ nodes_in [0; 1; 2; 3; 4] (abs chosen) /\
  st_subtree_xover nat xty 0 chosen add2 [1; 2] = Ok (true, refresh nat 3 [refresh nat 4 [num; add2]; num], num, []) /\
  st_subtree_xover nat xty 0 chosen (refresh nat 6 [refresh nat 5 []]) [3; 3; 4; 0] = Ok (true, refresh nat 6 [refresh nat 5 []], chosen, []) /\
  st_hoist_mutation nat xty 0 chosen [2] = Ok (true, num, []) /\
  st_branch_mutation nat xty (st_init nat xar xty xat 1 3 (StInit nat [0; 1; 2; 3; 4] 3 0 true)) 2 0 add2 [2; 2; 1; 0; 0; 0; 3] = Ok (true, chosen, []) /\
  (exists u, st_point_mutation nat xar xty 0 [0; 1; 2; 3; 4] chosen [4; 1] = Ok (true, u, []) /\ abs u = abs chosen).
Proof.
  split; [apply chosen_sound|]. split; [apply chosen_typed|]. split; [apply add2_sound|]. split; [intros n Hn; cbn in *; tauto|]. repeat (split; [vm_compute; reflexivity|]).
  eexists. split; vm_compute; reflexivity.
Qed.
(** trees of different types have nothing to exchange *)
Example C160_case_apart : apart xty (Tree 1 []) (abs add2) /\ st_subtree_xover nat xty 0 (refresh nat 1 []) add2 [0] = Ok (true, refresh nat 1 [], add2, []).
Proof. split; [|vm_compute; reflexivity]. intros a b Ha Hb. cbn in Ha, Hb. destruct Ha as [<-|[]]. repeat destruct Hb as [<-|Hb]; try destruct Hb; discriminate. Qed.
Example C160_case_uniform : uniform xar xty xat [0; 1; 2; 4].
Proof. intros n m i Hn Hm. cbn in Hn, Hm. repeat destruct Hn as [<-|Hn]; try destruct Hn; repeat destruct Hm as [<-|Hm]; try destruct Hm; cbn; intros; try discriminate; try lia; auto. Qed.

(** ** C161: what is documented and does not hold *)
(** the point mutation "replaces a Node with a Node of the same arity and type" (eoStParseTreeOp.h:193), whatever the types of the arguments: a well-typed tree becomes ill typed *)
Theorem C161_point_refuted : exists (t u : subtree nat) ds, sound xar t /\ typed xar xty xat 0 (abs t) /\ nodes_in [0; 1; 2; 3; 4] (abs t) /\
  st_point_mutation nat xar xty 0 [0; 1; 2; 3; 4] t ds = Ok (true, u, []) /\ forall k, ~ typed xar xty xat k (abs u).
Proof.
  exists chosen. eexists. exists [4; 0]. split; [apply chosen_sound|]. split; [apply chosen_typed|]. split; [intros n Hn; cbn in *; tauto|]. split; [vm_compute; reflexivity|].
  intros k H. cbn [abs map] in H. inversion H as [n a Hl Ha E1 E2]; subst. specialize (Ha 0 _ eq_refl). apply typed_top in Ha. discriminate Ha.
Qed.
(** "_max_length the maximum size of an individual" (63, 141, 269): the operators never look at it. Two trees of 3 nodes give one of 5, whatever the maximum, and the branch mutation lengthens a tree of one node *)
Theorem C161_size_refuted : exists (t1 t2 u1 u2 v : subtree nat), sound xar t1 /\ sound xar t2 /\ size nat t1 <= 3 /\ size nat t2 <= 3 /\ 3 < size nat u1 /\ size nat u2 = 1 /\ size nat v = 3 /\
  forall max, st_subtree_xover nat xty max t1 t2 [0; 2] = Ok (true, u1, u2, []) /\
    st_branch_mutation nat xty (fun ds => Ok (t2, ds)) 1 max u2 [0; 2] = Ok (true, v, []).
Proof.
  exists add2, add2, (refresh nat 2 [num; add2]), num, add2. split; [apply add2_sound|]. split; [apply add2_sound|]. repeat (split; [cbn; lia|]). intros max. split; reflexivity.
Qed.
(** "False results in a full tree" (eoStParseTreeDepthInit.h:75): with a type that only terminals have, the place of a node is read in an empty vector, although well-typed trees within the depth exist *)
Theorem C161_full_refuted : exists (set : list nat) (x : tree nat), typed xar xty xat 0 x /\ nodes_in set x /\ height x <= 3 /\
  (forall n i, In n set -> i < xar n -> exists m, In m set /\ xty m = xat n i) /\
  (forall tries fuel d1 d2 ds, st_init nat xar xty xat (S tries) (S (S fuel)) (StInit nat set 3 0 false) (d1 :: d2 :: ds) = UB) /\
  (exists ds t, st_init nat xar xty xat 1 3 (StInit nat set 3 0 true) ds = Ok (t, []) /\ abs t = x).
Proof.
  exists [0; 5; 6], (Tree 6 [Tree 5 []]). split; [|split; [|split; [|split; [|split]]]].
  - change 0 with (xty 6) at 1. constructor; [reflexivity|]. intros [|[|i]] x H; try discriminate. injection H as <-. change (xat 6 0) with (xty 5). constructor; [reflexivity|]. intros [|i] x H; discriminate.
  - intros n Hn; cbn in *; tauto.
  - cbn. lia.
  - intros n i Hn Hi. cbn in Hn. repeat destruct Hn as [<-|Hn]; try destruct Hn; cbn in Hi; try lia. destruct i; [|lia]. exists 5. cbn. auto.
  - intros tries fuel d1 d2 ds. unfold st_init. cbn [st_sequence st_set st_grow st_max st_return]. rewrite gen_S. cbn. destruct (d1 mod 1) as [|q] eqn:E; [reflexivity|]. pose proof (Nat.mod_upper_bound d1 1). lia.
  - exists [1; 0]. eexists. split; vm_compute; reflexivity.
Qed.
(** a depth of 0 is not a bound: grown trees of any height come out *)
Theorem C161_depth_zero_outside : exists ds (t : subtree nat), st_init nat xar xty xat 1 9 (StInit nat [0; 2] 0 0 true) ds = Ok (t, []) /\ depth nat t = 4.
Proof. exists [1; 1; 1; 0; 0; 0; 0]. eexists. split; vm_compute; reflexivity. Qed.
(** trees that cannot be: the loop never ends *)
Theorem C161_no_tree_outside : forall tries fuel ds, st_init nat xar xty xat tries fuel (StInit nat [2; 3; 4] 1 0 true) ds = NoDraw.
Proof.
  intros tries fuel ds. unfold st_init. replace (st_sequence nat xar xty xat tries fuel (StInit nat [2; 3; 4] 1 0 true) ds) with (@NoDraw (list nat * list nat)); [reflexivity|]. symmetry.
  induction tries as [|tr IH]; [reflexivity|]. cbn [st_sequence st_set st_grow st_max st_return]. destruct fuel as [|f]; [reflexivity|]. rewrite gen_S. cbn [Nat.eqb]. change (terminals nat xar xty [2; 3; 4] 0) with (@nil nat). cbn [rbind]. exact IH.
Qed.
Print Assumptions C159_trees.
Print Assumptions C159_every_tree.
Print Assumptions C159_safe.
Print Assumptions C159_ends.
Print Assumptions C159_constructor.
Print Assumptions C160_crossover.
Print Assumptions C160_crossover_any.
Print Assumptions C160_branch.
Print Assumptions C160_hoist.
Print Assumptions C160_point.
Print Assumptions C160_point_any.
Print Assumptions C161_point_refuted.
Print Assumptions C161_size_refuted.
Print Assumptions C161_full_refuted.
Print Assumptions C161_depth_zero_outside.
Print Assumptions C161_no_tree_outside.
