(** Specification for the metrics between two Pareto sets, independent of the model. *)
From Coq Require Import List QArith.
From Verif Require Import ParetoSpec.
Import ListNotations.
Local Open Scope Q_scope.

Definition vectors_of (n : nat) (s : list (list Q)) : Prop := forall v, In v s -> length v = n.
(** no member of the set dominates another *)
Definition mutually_nondominated (dirs : list bool) (s : list (list Q)) : Prop :=
  forall v w, In v s -> In w s -> ~ dominates dirs v w.
(** no vector twice *)
Inductive all_different : list (list Q) -> Prop :=
| Different_nil : all_different []
| Different_cons v s : (forall w, In w s -> ~ equal_vectors v w) -> all_different s -> all_different (v :: s).
(** every vector of [s2] is covered by one of [s1], improved by [e] *)
Definition set_covers (norm : nat -> Q -> Q) (dirs : list bool) (s1 s2 : list (list Q)) (e : Q) : Prop :=
  forall b, In b s2 -> exists a, In a s1 /\ covers_with norm dirs a b e.
(** every vector of [s2] is covered by one of [s1], once multiplied by the factor [e] *)
Definition set_covers_times (dirs : list bool) (s1 s2 : list (list Q)) (e : Q) : Prop :=
  forall b, In b s2 -> exists a, In a s1 /\ forall i d x y, objective dirs a b i d x y -> if d then x <= e * y else y <= e * x.
(** the least and the greatest value of objective [i] *)
Definition spans (s : list (list Q)) (i : nat) (mn mx : Q) : Prop :=
  (exists v, In v s /\ nth_error v i = Some mn) /\ (exists v, In v s /\ nth_error v i = Some mx) /\
  forall v x, In v s -> nth_error v i = Some x -> mn <= x <= mx.
(** how many of the vectors have the property *)
Inductive how_many {A} (P : A -> Prop) : list A -> nat -> Prop :=
| Many_nil : how_many P [] 0
| Many_yes x l n : P x -> how_many P l n -> how_many P (x :: l) (S n)
| Many_no x l n : ~ P x -> how_many P l n -> how_many P (x :: l) n.
Definition not_dominated_by (dirs : list bool) (s : list (list Q)) (v : list Q) : Prop := forall w, In w s -> ~ dominates dirs w v.
