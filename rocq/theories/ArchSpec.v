(** Specification of archives (C43, C49), independent of the model. *)
From Coq Require Import List Bool.
Import ListNotations.

Section Front.
Context {A : Type}.
(** [dom a b]: a is dominated by b; [eqv a b]: equal objective vectors *)
Implicit Types dom eqv : A -> A -> Prop.

(** no member is dominated by, or equal to, a member at another position *)
Definition antichain dom eqv (l : list A) : Prop :=
  forall i j a b, i <> j -> nth_error l i = Some a -> nth_error l j = Some b -> ~ dom a b /\ ~ eqv a b.
(** [x] is a non-dominated member of [l] *)
Definition in_front dom (l : list A) (x : A) : Prop := In x l /\ forall y, In y l -> ~ dom x y.
(** [arch] represents the Pareto front of [seen]: its members are non-dominated members of
    [seen], without repeated objective vectors, and every non-dominated member of [seen]
    has its objective vector in [arch] *)
Definition represents_front dom eqv (seen arch : list A) : Prop :=
  antichain dom eqv arch /\
  (forall m, In m arch -> in_front dom seen m) /\
  (forall x, in_front dom seen x -> exists m, In m arch /\ eqv x m).
(** every one of [seen] is dominated by or equal to a member of [arch] *)
Definition covered dom eqv (seen arch : list A) : Prop :=
  forall x, In x seen -> exists m, In m arch /\ (dom x m \/ eqv x m).
End Front.
