(** Vocabulary for the cellular algorithm, the simple EDA and the clocks (C153-C155). *)
From Coq Require Import List Arith Bool ZArith.
From Verif Require Import Outcome BreedModel AlgoModel AlgoSpec CelModel.
Import ListNotations.

Section Cells.
Context {G F W : Type}.
Notation I := (indiv G F).
(** a selection that answers a member of its argument *)
Definition picks (sel : list I -> W -> res (I * W)) : Prop :=
  forall l w x w', sel l w = Ok (x, w') -> In x l.
(** ... and one that never leaves a better one behind *)
Definition picks_best (ltb : F -> F -> bool) (sel : list I -> W -> res (I * W)) : Prop :=
  forall l w x w', sel l w = Ok (x, w') -> In x l /\
    forall y f g, In y l -> fit x = Some f -> fit y = Some g -> ltb f g = false.
(** cell by cell, [q] is not worse than [p] *)
Definition no_worse (ltb : F -> F -> bool) (p q : list I) : Prop :=
  forall i x y f g, nth_error p i = Some x -> nth_error q i = Some y -> fit x = Some f -> fit y = Some g -> ltb g f = false.
(** each cell of [q] is that of [p], or holds a newly evaluated individual *)
Definition renewed (value : G -> F) (p q : list I) : Prop :=
  length q = length p /\
  forall i x y, nth_error p i = Some x -> nth_error q i = Some y -> y = x \/ evaluated value y.
(** the genotypes of [l] satisfy [P] *)
Definition genotypes (P : G -> Prop) (l : list I) : Prop := forall x, In x l -> P (geno x).

(** how many evaluations the world has seen: the evaluation adds one, the other components none *)
Definition one_more (count : W -> nat) (eval : I -> W -> res (I * W)) : Prop :=
  forall x w x' w', eval x w = Ok (x', w') -> count w' = S (count w).
Definition uncounted {A B} (count : W -> nat) (f : A -> W -> res (B * W)) : Prop :=
  forall a w b w', f a w = Ok (b, w') -> count w' = count w.
End Cells.

(** a clock that does not go back *)
Definition forward (readings : list Z) : Prop :=
  forall i j a b, (i <= j)%nat -> nth_error readings i = Some a -> nth_error readings j = Some b -> (a <= b)%Z.
