(** Specification of the multi-objective replacements and selectors (C46, C68). *)
From Coq Require Import List Arith Bool QArith Permutation.
From Verif Require Import OrderSpec.
Import ListNotations.
Close Scope Q_scope.

(** an assignment that changes values only: the solutions are the same, maybe reordered *)
Definition keeps_solutions {A B} (solution : A -> B) (f : list A -> list A) : Prop :=
  forall l, Permutation (map solution l) (map solution (f l)).
(** from [pop] to [out] by removing, as long as more than [sz] are left, an individual that is
    worst among those left; after each removal the values of the others are updated by [upd] *)
Inductive shrinks {A} (comp : A -> A -> bool) (upd : list A -> A -> list A) (sz : nat) : list A -> list A -> Prop :=
| shrinks_done pop : length pop <= sz -> shrinks comp upd sz pop pop
| shrinks_step pop w rest out : sz < length pop -> is_worst comp pop w -> Permutation pop (w :: rest) ->
    shrinks comp upd sz (upd rest w) out -> shrinks comp upd sz pop out.
(** [x] is at one of the positions [ps] of [pop] and none of these positions holds a better one *)
Definition wins_among {A} (comp : A -> A -> bool) (pop : list A) (ps : list nat) (x : A) : Prop :=
  (exists p, In p ps /\ nth_error pop p = Some x) /\
  forall p y, In p ps -> nth_error pop p = Some y -> comp x y = false.
