(** Independent specifications shared by several clusters: orders, the contracts
    of the C++ standard algorithms, and what "keeping the best" means. *)
From Coq Require Import List Arith Permutation Sorted Bool.
Import ListNotations.

Section Order.
Context {A : Type}.
Implicit Types lt : A -> A -> bool.

(** C++'s "strict weak ordering" requirement on a comparison. *)
Definition strict_weak_order lt : Prop :=
  (forall a, lt a a = false) /\
  (forall a b c, lt a b = true -> lt b c = true -> lt a c = true) /\
  (forall a b c, lt a b = false -> lt b c = false -> lt a c = false).

(** Contract of [std::sort(first,last,cmp)]: a rearrangement in which no element
    is [cmp]-before an earlier one. *)
Definition sorted_by cmp (l l' : list A) : Prop :=
  Permutation l l' /\ StronglySorted (fun a b => cmp b a = false) l'.

(** Contract of [std::nth_element(first,first+n,last,cmp)]: a rearrangement such
    that no element at or after position [n] is [cmp]-before an element before
    position [n] or before the element at position [n], which itself is not
    [cmp]-before any earlier one. *)
Definition nth_partitioned cmp (n : nat) (l l' : list A) : Prop :=
  Permutation l l' /\
  (forall i j a b, i <= n -> n <= j -> nth_error l' i = Some a -> nth_error l' j = Some b ->
     cmp b a = false).

(** [kept] is obtained from [pop] by discarding individuals. *)
Definition sub_population (pop kept : list A) : Prop :=
  exists dropped, Permutation pop (kept ++ dropped).

(** [kept] consists of [n] best members of [pop] for "better = greater w.r.t. lt":
    nobody discarded is better than somebody kept. *)
Definition best_n lt (pop : list A) (n : nat) (kept : list A) : Prop :=
  length kept = n /\
  exists dropped, Permutation pop (kept ++ dropped) /\
    forall k d, In k kept -> In d dropped -> lt k d = false.

(** [x] is a best (worst) member of [l]. *)
Definition is_best lt (l : list A) (x : A) : Prop :=
  In x l /\ forall y, In y l -> lt x y = false.
Definition is_worst lt (l : list A) (x : A) : Prop :=
  In x l /\ forall y, In y l -> lt y x = false.

End Order.

(** A sorting routine usable at every type, meeting the contract for every strict
    weak order (resp. an nth_element, a shuffle). *)
Definition std_sort_ok (sort : forall T : Type, (T -> T -> bool) -> list T -> list T) : Prop :=
  forall T (cmp : T -> T -> bool) l, strict_weak_order cmp -> sorted_by cmp l (sort T cmp l).
Definition std_nth_ok (nth_el : forall T : Type, (T -> T -> bool) -> nat -> list T -> list T) : Prop :=
  forall T (cmp : T -> T -> bool) n l, strict_weak_order cmp -> n <= length l ->
    nth_partitioned cmp n l (nth_el T cmp n l).
