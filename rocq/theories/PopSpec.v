(** Independent specifications for the population operators: what a user of
    eoReduce / eoReduceSplit / eoReplacement objects relies on, in terms of the
    populations before and after the call only. *)
From Coq Require Import List Arith Permutation.
From Verif Require Import Outcome OrderSpec.
Import ListNotations.

Section Spec.
Context {A : Type}.

(** A call of a reduction operator [R pop n] with random draws [ds]:
    - target larger than the population: an exception;
    - otherwise it never throws, never performs an invalid operation, and when it
      returns it has kept exactly [n] of the original individuals. *)
Definition reduce_contract (R : list A -> nat -> list nat -> res (list A * list nat)) : Prop :=
  forall pop n ds,
    (length pop < n -> R pop n ds = Throw) /\
    (n <= length pop ->
     match R pop n ds with
     | Ok (kept, _) => length kept = n /\ sub_population pop kept
     | NoDraw => True
     | Throw | UB => False
     end).

(** Whatever has been drawn so far, some continuation of the draws lets the call
    finish (the operator cannot get stuck drawing forever whatever it draws). *)
Definition never_stuck (R : list A -> nat -> list nat -> res (list A * list nat)) : Prop :=
  forall pop n ds, exists more, R pop n (ds ++ more) <> NoDraw.

(** A split of [pop] that appends [k] eliminated individuals to the second
    population [elim]: nobody is lost, nobody is invented. *)
Definition splits (pop elim : list A) (k : nat) (survivors elim' : list A) : Prop :=
  exists out, elim' = elim ++ out /\ length out = k /\ Permutation pop (survivors ++ out).

(** Best fitness does not get worse from [before] to [after]. *)
Definition best_not_worse (ltb : A -> A -> bool) (before after : list A) : Prop :=
  forall b, In b before -> exists b', In b' after /\ ltb b' b = false.

End Spec.

(** [v] is an [n]-th best (from 0) member of [pop]. *)
Definition nth_best {A} (ltb : A -> A -> bool) (pop : list A) (n : nat) (v : A) : Prop :=
  exists above below, Permutation pop (above ++ v :: below) /\ length above = n /\
    (forall x, In x above -> ltb x v = false) /\ (forall y, In y below -> ltb v y = false).

(** Any number of generations of a replacement, with arbitrary offspring and
    arbitrary random draws at each of them. *)
Inductive generations {A}
  (rep : list A -> list A -> list nat -> res (list A * list A * list nat))
  : list A -> list A -> Prop :=
| gen_none par : generations rep par par
| gen_more par off ds par' off' ds' par'' :
    rep par off ds = Ok (par', off', ds') ->
    generations rep par' par'' -> generations rep par par''.
