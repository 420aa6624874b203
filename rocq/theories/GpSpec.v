(** What the parse trees and their operators promise: trees as mathematical objects. *)
From Coq Require Import List Arith Bool.
From Verif Require Import GpModel.
From Coq Require Import List.
Import ListNotations.
Open Scope nat_scope.

Section Spec.
Context {N : Type}.
Variable arity : N -> nat.

Inductive tree := Tree (n : N) (args : list tree).
(** the tree a subtree of the program stands for *)
Fixpoint abs (t : subtree N) : tree :=
  match t with Sub _ c a _ _ _ => Tree c (map abs a) end.
(** number of nodes, height (a single node has height 1), and number of nodes of all the subtrees *)
Fixpoint count (t : tree) : nat := match t with Tree _ a => S (list_sum (map count a)) end.
Fixpoint height (t : tree) : nat := match t with Tree _ a => S (list_max (map height a)) end.
Fixpoint total (t : tree) : nat := match t with Tree _ a => list_sum (map total a) + S (list_sum (map count a)) end.
(** every node has as many arguments as its arity says *)
Inductive well_formed : tree -> Prop :=
  | wf_node n a : length a = arity n -> Forall well_formed a -> well_formed (Tree n a).
(** at every node, the sizes and depths kept are the true ones *)
Inductive true_stats : subtree N -> Prop :=
  | ts_node t : size N t = count (abs t) -> depth N t = height (abs t) -> cumul N t = total (abs t) ->
      Forall true_stats (args N t) -> true_stats t.
Definition sound (t : subtree N) : Prop := true_stats t /\ well_formed (abs t).

(** reverse polish order, last argument first: the nodes, the subtrees, and the ways to them *)
Fixpoint postfix (t : tree) : list N := match t with Tree n a => concat (rev (map postfix a)) ++ [n] end.
Fixpoint subtrees (t : tree) : list tree := match t with Tree n a => concat (rev (map subtrees a)) ++ [t] end.
(** the subtree found by following the ranks of arguments in a way *)
Fixpoint follow (t : tree) (p : list nat) : option tree :=
  match p with
  | [] => Some t
  | i :: q => match t with Tree _ a => match nth_error a i with Some x => follow x q | None => None end end
  end.

(** the subtrees again, each as many times as it has nodes *)
Fixpoint by_size (t : tree) : list tree := match t with Tree n a => concat (rev (map by_size a)) ++ repeat t (count t) end.
(** a tree with a hole *)
Inductive ctx := Hole | In_arg (n : N) (before : list tree) (c : ctx) (after : list tree).
Fixpoint fill (c : ctx) (t : tree) : tree :=
  match c with Hole => t | In_arg n b c' a => Tree n (b ++ fill c' t :: a) end.
(** the way to the hole *)
Fixpoint hole (c : ctx) : list nat := match c with Hole => [] | In_arg _ b c' _ => length b :: hole c' end.

(** cut down to [max] nodes: while the tree is too big, its first argument is kept *)
Inductive pruned (max : nat) : tree -> tree -> Prop :=
  | pruned_done t : max = 0 \/ count t <= max -> pruned max t t
  | pruned_step n x a t : 0 < max -> max < count (Tree n (x :: a)) -> pruned max x t -> pruned max (Tree n (x :: a)) t.

(** all the nodes are in a set *)
Definition nodes_in (set : list N) (t : tree) : Prop := forall n, In n (postfix t) -> In n set.
(** every leaf is at depth [d] *)
Inductive full : nat -> tree -> Prop :=
  | full_leaf n : full 1 (Tree n [])
  | full_node d n a : a <> [] -> Forall (full d) a -> full (S d) (Tree n a).
End Spec.
Arguments tree N : clear implicits.
Arguments ctx N : clear implicits.
