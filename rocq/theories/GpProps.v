(** C77-C79: parse trees of genetic programming. *)
From Coq Require Import List Arith Bool Lia.
From Verif Require Import Lib Outcome GpModel GpSpec GpProofs GpOps GpBuild GpPush.
From Coq Require Import List.
Import ListNotations.
Open Scope nat_scope.

(** ** C77: the tree as a container *)
(** tree[i] is the i-th subtree in reverse polish order, for every i below size(), and its size, depth and
    cumulative size are the true ones. *)
Theorem C77_numbering : forall (N : Type) (arity : N -> nat) t, sound arity t ->
  length (subtrees (abs t)) = size N t /\
  forall i, i < size N t -> exists s, nth_node N t i = Ok s /\ nth_error (subtrees (abs t)) i = Some (abs s) /\
    size N s = count (abs s) /\ depth N s = height (abs s) /\ cumul N s = total (abs s) /\ sound arity s.
Proof.
  intros N arity t Ht. split; [now rewrite subtrees_length, (stats_size _ (proj1 Ht))|]. intros i Hi.
  destruct (nth_node_spec arity t i Ht Hi) as (s & H1 & Hs & H2 & _). exists s. destruct Hs as [Hst Hw]. inversion Hst; subst. conjs; auto. split; auto.
Qed.
(** iteration meets every node once, in that order, and ends *)
Theorem C77_iteration : forall (N : Type) (arity : N -> nat) t, sound arity t ->
  nodes N t = Ok (postfix (abs t)) /\ length (postfix (abs t)) = size N t.
Proof. intros N arity t Ht. split; [apply nodes_spec, Ht|]. now rewrite postfix_length, (stats_size _ (proj1 Ht)). Qed.
(** tree[i] = s, with s from another tree, replaces that subtree and nothing else, and all the sizes and
    depths are right afterwards *)
Theorem C77_assignment : forall (N : Type) (arity : N -> nat) t s i, sound arity t -> sound arity s -> i < size N t ->
  exists u C a, assign N t (get_node N t i) s = Ok u /\ sound arity u /\
    abs t = fill C a /\ nth_error (subtrees (abs t)) i = Some a /\ hole C = get_node N t i /\ abs u = fill C (abs s).
Proof. intros N arity t s i Ht Hs Hi. destruct (replace_spec arity t s i Ht Hs Hi) as (u & C & a & H1 & H2 & H3 & H4 & H5 & H6). exists u, C, a. auto 8. Qed.
(** saving and loading give the same tree back, through a stream, through the constructor, and through
    back_inserter on a cleared tree; what follows from a well-formed tree is one tree *)
Theorem C77_save_load : forall (N : Type) (arity : N -> nat) (dflt : N) t, arity dflt = 0 -> sound arity t ->
  (exists x, print N t = Ok x /\ read N arity x = Ok t) /\
  build N arity (postfix (abs t)) = Ok t /\
  push_all N arity dflt (cleared N dflt) (postfix (abs t)) = Ok (t, []).
Proof.
  intros N arity dflt t H0 Ht. split; [now apply save_load|]. split; [exact (build_complete arity t [] Ht)|now apply refill].
Qed.
(** whatever sequence of nodes is given, the constructor makes a sound tree if it makes one, and the
    sequence ends with the nodes of this tree *)
Theorem C77_any_sequence : forall (N : Type) (arity : N -> nat) l t, build N arity l = Ok t ->
  sound arity t /\ exists unused, l = unused ++ postfix (abs t).
Proof. intros N arity l t. apply build_sound. Qed.
Theorem C77_every_tree : forall (N : Type) (arity : N -> nat) (x : tree N), well_formed arity x -> exists t, sound arity t /\ abs t = x.
Proof. intros N arity x. apply sound_exists. Qed.
(** select_cumulative(w), for w below the cumulative size, takes each subtree for as many w as it has nodes *)
Theorem C77_cumulative : forall (N : Type) (arity : N -> nat) t, sound arity t ->
  length (by_size (abs t)) = cumul N t /\
  forall w, w < cumul N t -> exists x, follow (abs t) (select_cumulative N t w) = Some x /\ nth_error (by_size (abs t)) w = Some x.
Proof.
  intros N arity t [Ht _]. split; [now rewrite by_size_length, (stats_cumul _ Ht)|]. now apply select_spec.
Qed.
Print Assumptions C77_numbering.
Print Assumptions C77_iteration.
Print Assumptions C77_assignment.
Print Assumptions C77_save_load.
Print Assumptions C77_any_sequence.
Print Assumptions C77_every_tree.
Print Assumptions C77_cumulative.

(** nodes named 10 * arity + rank *)
Definition ar (n : nat) : nat := n / 10.
(** the tree of the documentation (parse_tree.h:98-106): 4 and 2 are binary *)
Definition doc : subtree nat := refresh nat 24 [refresh nat 3 []; refresh nat 22 [refresh nat 1 []; refresh nat 0 []]].
Example C77_case : sound ar doc /\ postfix (abs doc) = [0; 1; 22; 3; 24] /\ build nat ar [0; 1; 22; 3; 24] = Ok doc /\
  map (nth_node nat doc) [0; 2; 4] = [Ok (refresh nat 0 []); Ok (refresh nat 22 [refresh nat 1 []; refresh nat 0 []]); Ok doc].
Proof. conjs; try reflexivity. repeat (apply sound_refresh; [repeat constructor|reflexivity]); repeat constructor. Qed.

(** documented (parse_tree.h:124-140): after tree[2] = tree[0] the tree is node4(node3, node0), tree[1] is node3
    and tree[2] the root. The tree is, but the sizes and depths above the assigned node are not updated:
    size() is still 5 and depth() 3, and the tree saved cannot be loaded. *)
Theorem C98_same_tree_refuted : exists (t u : subtree nat), sound ar t /\
  (let! s := nth_node nat t 0 in assign_same nat t (get_node nat t 2) s) = Ok u /\
  abs u = Tree 24 [Tree 3 []; Tree 0 []] /\ size nat u = 5 /\ depth nat u = 3 /\ (let! x := print nat u in read nat ar x) = UB /\ ~ sound ar u.
Proof.
  exists doc. eexists. split; [apply C77_case|]. split; [reflexivity|]. split; [reflexivity|]. split; [reflexivity|]. split; [reflexivity|]. split; [reflexivity|].
  intros [Hs _]. apply stats_size in Hs. discriminate Hs.
Qed.
(** a new tree is not empty: back_inserter leaves a tree behind the one it makes, and valid() is false *)
Theorem C98_fresh_tree_refuted : exists (t : subtree nat) st, sound ar t /\ push_all nat ar 0 (fresh nat 0) (postfix (abs t)) = Ok st /\ fst st = t /\ valid nat st = false.
Proof. exists doc. eexists. split; [apply C77_case|]. repeat split. Qed.
(** nodes without their arguments: undefined, or an exception in a debug build *)
Theorem C77_truncated_outside : build nat ar [] = UB /\ build nat ar [24] = Throw /\ build nat ar [0; 24] = UB.
Proof. repeat split. Qed.
Print Assumptions C98_same_tree_refuted.
Print Assumptions C98_fresh_tree_refuted.
Print Assumptions C77_truncated_outside.

(** ** C78: variation operators *)
(** Subtree crossover: two subtrees are exchanged, then each child is cut down to the maximum size. *)
Theorem C78_crossover : forall (N : Type) (arity : N -> nat) max t1 t2 d1 d2 ds, sound arity t1 -> sound arity t2 ->
  exists v1 v2 C1 a C2 b, subtree_xover N max t1 t2 (d1 :: d2 :: ds) = Ok (v1, v2, ds) /\ sound arity v1 /\ sound arity v2 /\
    abs t1 = fill C1 a /\ abs t2 = fill C2 b /\ pruned max (fill C1 b) (abs v1) /\ pruned max (fill C2 a) (abs v2) /\
    (0 < max -> size N v1 <= max /\ size N v2 <= max) /\
    hole C1 = get_node N t1 (d1 mod size N t1) /\ hole C2 = get_node N t2 (d2 mod size N t2).
Proof. intros. now apply xover_spec. Qed.
(** every exchange can happen *)
Theorem C78_crossover_any : forall (N : Type) (arity : N -> nat) max t1 t2 C1 a C2 b, sound arity t1 -> sound arity t2 ->
  abs t1 = fill C1 a -> abs t2 = fill C2 b ->
  exists d1 d2 v1 v2, subtree_xover N max t1 t2 [d1; d2] = Ok (v1, v2, []) /\ pruned max (fill C1 b) (abs v1) /\ pruned max (fill C2 a) (abs v2).
Proof. intros N arity max t1 t2 C1 a C2 b. apply xover_any. Qed.
(** Pruning ends, at a tree of at most the maximum size. *)
Theorem C78_prune : forall (N : Type) (arity : N -> nat) max t, sound arity t ->
  exists v, prune_tree N max t = Ok v /\ sound arity v /\ pruned max (abs t) (abs v) /\ (0 < max -> size N v <= max) /\ In (abs v) (subtrees (abs t)).
Proof.
  intros N arity max t Ht. destruct (prune_tree_spec arity max t Ht) as (v & H1 & H2 & H3 & H4). exists v. conjs; auto.
  clear -H3. remember (abs v) as y. clear Heqy. induction H3 as [x _|n x a y _ _ _ IH].
  - destruct (last_subtree x) as [l ->]. apply in_app_iff. right. now left.
  - rewrite subtrees_eq. apply in_app_iff. left. cbn [map]. rewrite concat_rev_cons. apply in_app_iff. now right.
Qed.
(** Branch mutation: a subtree is replaced by a subtree of a new tree. *)
Theorem C78_branch : forall (N : Type) (arity : N -> nat) (initializer : list nat -> res (subtree N * list nat)),
  (forall ds t ds', initializer ds = Ok (t, ds') -> sound arity t) ->
  forall max t ds u ds', sound arity t -> branch_mutation N initializer max t ds = Ok (u, ds') ->
  exists ds1 t2 ds2 C a b, initializer ds1 = Ok (t2, ds2) /\ abs t = fill C a /\ In b (subtrees (abs t2)) /\
    pruned max (fill C b) (abs u) /\ sound arity u /\ (0 < max -> size N u <= max).
Proof. intros N arity ini Hini max t ds u ds'. now apply branch_spec. Qed.
(** Expansion: a terminal is replaced by a subtree, not a terminal, of a new tree. *)
Theorem C78_expansion : forall (N : Type) (arity : N -> nat) (initializer : list nat -> res (subtree N * list nat)),
  (forall ds t ds', initializer ds = Ok (t, ds') -> sound arity t) ->
  forall max t ds u ds', sound arity t -> expansion_mutation N arity initializer max t ds = Ok (u, ds') ->
  exists ds1 t2 ds2 C n m b, initializer ds1 = Ok (t2, ds2) /\ abs t = fill C (Tree n []) /\ In (Tree m b) (subtrees (abs t2)) /\ b <> [] /\
    pruned max (fill C (Tree m b)) (abs u) /\ sound arity u /\ (0 < max -> size N u <= max).
Proof. intros N arity ini Hini max t ds u ds'. now apply expansion_spec. Qed.
(** Collapse: a subtree, not a terminal if there is one, is replaced by a terminal of a new tree. *)
Theorem C78_collapse : forall (N : Type) (arity : N -> nat) (initializer : list nat -> res (subtree N * list nat)),
  (forall ds t ds', initializer ds = Ok (t, ds') -> sound arity t) ->
  forall max t ds u ds', sound arity t -> collapse_mutation N arity initializer max t ds = Ok (u, ds') ->
  exists ds1 t2 ds2 C a n, initializer ds1 = Ok (t2, ds2) /\ abs t = fill C a /\ (1 < size N t -> 1 < count a) /\ In (Tree n []) (subtrees (abs t2)) /\
    pruned max (fill C (Tree n [])) (abs u) /\ sound arity u /\ (0 < max -> size N u <= max).
Proof. intros N arity ini Hini max t ds u ds'. now apply collapse_spec. Qed.
(** Hoist: the tree becomes one of its subtrees. *)
Theorem C78_hoist : forall (N : Type) (arity : N -> nat) t d ds, sound arity t ->
  exists u, hoist_mutation N t (d :: ds) = Ok (u, ds) /\ sound arity u /\ In (abs u) (subtrees (abs t)) /\ size N u <= size N t.
Proof. intros. now apply hoist_spec. Qed.
(** Point mutation: one node becomes a node of the set with the same arity; every such change can happen. *)
Theorem C78_point : forall (N : Type) (arity : N -> nat) dflt set t ds u ds', sound arity t -> set <> [] -> point_mutation N arity dflt set t ds = Ok (u, ds') ->
  exists C n n' a, abs t = fill C (Tree n a) /\ abs u = fill C (Tree n' a) /\ In n' set /\ arity n' = arity n /\ sound arity u.
Proof. intros N arity dflt set t ds u ds'. apply point_spec. Qed.
Theorem C78_point_any : forall (N : Type) (arity : N -> nat) dflt set t C n a n', sound arity t -> abs t = fill C (Tree n a) -> In n' set -> arity n' = arity n ->
  exists ds u, point_mutation N arity dflt set t ds = Ok (u, []) /\ abs u = fill C (Tree n' a).
Proof. intros N arity dflt set t C n a n'. apply point_any. Qed.
(** ... but never ends when no node of the set has the arity of the one to change *)
Theorem C78_point_endless_outside : exists (t : subtree nat) (set : list nat), sound ar t /\ set <> [] /\ forall dflt ds, point_mutation nat ar dflt set t ds = NoDraw.
Proof.
  exists (refresh nat 10 [refresh nat 0 []]), [20].
  assert (Hs : sound ar (refresh nat 10 [refresh nat 0 []])).
  { apply sound_refresh; [|reflexivity]. constructor; [|constructor]. apply sound_refresh; [constructor|reflexivity]. }
  split; auto. split; [discriminate|]. intros dflt ds. apply point_never; auto; [discriminate|].
  intros n n' [<-|[<-|[]]] [<-|[]]; vm_compute; discriminate.
Qed.
Print Assumptions C78_crossover.
Print Assumptions C78_crossover_any.
Print Assumptions C78_prune.
Print Assumptions C78_branch.
Print Assumptions C78_expansion.
Print Assumptions C78_collapse.
Print Assumptions C78_hoist.
Print Assumptions C78_point.
Print Assumptions C78_point_any.
Print Assumptions C78_point_endless_outside.
Example C78_case :
  let t2 := refresh nat 21 [refresh nat 5 []; refresh nat 6 []] in
  match subtree_xover nat 4 doc t2 [3; 2] with Ok (v1, v2, _) => (postfix (abs v1), postfix (abs v2)) = ([6; 5; 21], [3]) | _ => False end /\
  match subtree_xover nat 0 doc t2 [2; 1] with Ok (v1, v2, _) => (postfix (abs v1), postfix (abs v2)) = ([5; 3; 24], [6; 0; 1; 22; 21]) | _ => False end /\
  match hoist_mutation nat doc [2] with Ok (u, _) => postfix (abs u) = [0; 1; 22] | _ => False end /\
  match point_mutation nat ar 0 [7; 25] doc [2; 0; 3] with Ok (u, _) => postfix (abs u) = [0; 1; 25; 3; 24] | _ => False end /\
  match expansion_mutation nat ar (fun ds => Ok (t2, ds)) 0 doc [4; 0; 2] with Ok (u, _) => postfix (abs u) = [6; 5; 21; 1; 22; 3; 24] | _ => False end /\
  match collapse_mutation nat ar (fun ds => Ok (t2, ds)) 0 doc [0; 2; 2; 1] with Ok (u, _) => postfix (abs u) = [5; 3; 24] | _ => False end.
Proof. vm_compute. auto 10. Qed.

(** ** C79: the initializer *)
(** Growing or full, the trees made are well formed, of nodes of the set, and of the depth asked at most;
    in full mode every leaf is at this depth. *)
Theorem C79_trees : forall (N : Type) (arity : N -> nat) fuel d cur grow ds t st' ds',
  arity_sorted arity (d_set N d) -> 0 < last_terminal N arity (d_set N d) -> 1 <= cur ->
  (grow = false -> last_terminal N arity (d_set N d) < length (d_set N d)) ->
  init_tree N arity fuel d (cur, grow) ds = Ok (t, st', ds') ->
  sound arity t /\ nodes_in (d_set N d) (abs t) /\ depth N t <= cur /\ (grow = false -> full cur (abs t)).
Proof.
  intros N arity fuel d cur grow ds t st' ds' Hs Ht Hc Hg H. destruct (init_tree_spec arity fuel d cur grow ds t st' ds' Hs Ht Hc Hg H) as (H1 & H2 & H3 & H4).
  conjs; auto. destruct H1 as [H1 _]. inversion H1; subst. lia.
Qed.
(** and it always ends with one *)
Theorem C79_ends : forall (N : Type) (arity : N -> nat) d cur grow,
  arity_sorted arity (d_set N d) -> 0 < last_terminal N arity (d_set N d) -> 1 <= cur ->
  (grow = false -> last_terminal N arity (d_set N d) < length (d_set N d)) ->
  exists B, forall ds, B <= length ds -> exists t st' ds', init_tree N arity cur d (cur, grow) ds = Ok (t, st', ds').
Proof. intros N arity d cur grow. apply init_tree_total. Qed.
(** The terminals are the nodes in front of last_terminal, in a set sorted by arity. *)
Theorem C79_terminals : forall (N : Type) (arity : N -> nat) set, arity_sorted arity set ->
  forall i n, nth_error set i = Some n -> (i < last_terminal N arity set <-> arity n = 0).
Proof. intros N arity set. apply last_terminal_spec. Qed.
(** Ramped half and half: the modes and depths used one after the other; among 2(max-1) trees, each depth
    from 2 to max is used once to grow and once in full. *)
Theorem C79_ramped : forall (N : Type) (arity : N -> nat) fuel d cur grow ds t st' ds', d_ramped N d = true ->
  init_tree N arity fuel d (cur, grow) ds = Ok (t, st', ds') -> st' = next_mode (d_max N d) (cur, grow).
Proof.
  intros N arity fuel d cur grow ds t st' ds' Hr H. unfold init_tree in H. apply rbind_ok in H as ([sq ds1] & _ & H). apply rbind_ok in H as (t0 & _ & H).
  injection H as _ <- _. now rewrite Hr.
Qed.
Theorem C79_ramped_cycle : forall max k, 2 <= max ->
  Nat.iter (2 * k) (next_mode max) (max, true) = (max - k mod (max - 1), true) /\
  Nat.iter (S (2 * k)) (next_mode max) (max, true) = (max - S k mod (max - 1), false).
Proof. exact modes_spec. Qed.
Theorem C79_not_ramped : forall (N : Type) (arity : N -> nat) fuel d st ds t st' ds', d_ramped N d = false ->
  init_tree N arity fuel d st ds = Ok (t, st', ds') -> st' = st.
Proof.
  intros N arity fuel d [cur grow] ds t st' ds' Hr H. unfold init_tree in H. apply rbind_ok in H as ([sq ds1] & _ & H). apply rbind_ok in H as (t0 & _ & H).
  injection H as _ <- _. now rewrite Hr.
Qed.
(** A depth of 0 in full mode never ends; without terminals no tree is ever made. *)
Theorem C79_depth_zero_outside : exists d : depth_init nat, arity_sorted ar (d_set nat d) /\ 0 < last_terminal nat ar (d_set nat d) /\
  forall fuel ds, init_tree nat ar fuel d (0, false) ds = NoDraw.
Proof.
  exists (DInit nat [0; 20] 0 false). cbn [d_set].
  assert (Hs : arity_sorted ar [0; 20]).
  { intros i j a b Hij Ha Hb. destruct i as [|[|[|i]]], j as [|[|[|j]]]; try lia; cbn in Ha, Hb; try discriminate. injection Ha as <-. injection Hb as <-. vm_compute. lia. }
  split; auto. split; [vm_compute; lia|]. intros fuel ds. unfold init_tree. cbn [d_set]. rewrite generate_zero; [reflexivity| |exact Hs]. vm_compute. lia.
Qed.
Theorem C79_no_terminals_outside : forall (N : Type) (arity : N -> nat) fuel d st ds t st' ds', (forall n, In n (d_set N d) -> 0 < arity n) ->
  init_tree N arity fuel d st ds <> Ok (t, st', ds').
Proof. intros N arity fuel d st ds t st' ds'. apply no_terminal. Qed.
Print Assumptions C79_trees.
Print Assumptions C79_ends.
Print Assumptions C79_terminals.
Print Assumptions C79_ramped.
Print Assumptions C79_ramped_cycle.
Print Assumptions C79_not_ramped.
Print Assumptions C79_depth_zero_outside.
Print Assumptions C79_no_terminals_outside.
Example C79_case :
  let d := DInit nat [0; 1; 10; 20] 3 true in
  match init_tree nat ar 3 d (3, false) [1; 0; 1; 1; 1; 0; 7; 8] with
  | Ok (t, st', ds') => postfix (abs t) = [0; 1; 20; 1; 10; 20] /\ st' = (3, true) /\ ds' = [7; 8]
  | _ => False end.
Proof. vm_compute. auto. Qed.
