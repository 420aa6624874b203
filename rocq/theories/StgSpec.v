(** What strongly typed genetic programming promises: the trees are well typed. *)
From Coq Require Import List Arith Bool.
From Verif Require Import GpSpec.
From Coq Require Import List.
Import ListNotations.

Section Spec.
Context {N : Type}.
Variables (arity ty : N -> nat) (atype : N -> nat -> nat).
(** a tree of type [k]: its node returns [k], and the argument of rank [i] of every node has the type the node asks for there *)
Inductive typed : nat -> tree N -> Prop :=
  typed_node n a : length a = arity n -> (forall i x, nth_error a i = Some x -> typed (atype n i) x) -> typed (ty n) (Tree n a).
Definition top_node (t : tree N) : N := match t with Tree n _ => n end.
(** a family of types with nodes for all that can be asked for, starting from [k]: [enough k'] says the set has nodes for type [k'] *)
Definition provides (set : list N) (enough : nat -> Prop) (k : nat) : Prop :=
  exists K : nat -> Prop, K k /\ (forall k', K k' -> enough k') /\
    forall n i, In n set -> K (ty n) -> i < arity n -> K (atype n i).
Definition has_terminal (set : list N) (k : nat) : Prop := exists n, In n set /\ ty n = k /\ arity n = 0.
Definition has_nonterminal (set : list N) (k : nat) : Prop := exists n, In n set /\ ty n = k /\ 0 < arity n.
(** what the initializer can use for a type at the depths before the last: any node, or for full trees one with arguments *)
Definition enough (set : list N) (grow : bool) (k : nat) : Prop := if grow then exists n, In n set /\ ty n = k else has_nonterminal set k.
(** the trees asked of the initializer: of type [k], with nodes of the set, of height [m] at most, and with all the leaves at depth [m] for full trees *)
Definition made (set : list N) (grow : bool) (m k : nat) (t : tree N) : Prop := typed k t /\ nodes_in set t /\ height t <= m /\ (grow = false -> full m t).
(** no node of one has the type of a node of the other *)
Definition apart (x y : tree N) : Prop := forall a b, In a (subtrees x) -> In b (subtrees y) -> ty (top_node a) <> ty (top_node b).
(** nodes of the same type and arity ask for the same types of arguments *)
Definition uniform (set : list N) : Prop :=
  forall n m i, In n set -> In m set -> ty n = ty m -> arity n = arity m -> i < arity n -> atype n i = atype m i.
End Spec.
