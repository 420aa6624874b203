(** Specifications for runs, evaluation accounting and stopping criteria (C23-C25). *)
From Coq Require Import List Bool Arith.
From Verif Require Import Outcome BreedModel.
Import ListNotations.

Section Runs.
Context {G F W : Type}.
Notation I := (indiv G F).
Variable value : G -> F.
(** carries the fitness of its genotype *)
Definition evaluated (x : I) : Prop := fit x = Some (value (geno x)).
(** carries no wrong fitness *)
Definition right (x : I) : Prop := fit x = None \/ evaluated x.
(** an evaluation function that computes [value]; it may skip an individual that
    already has a fitness, as eoEvalFunc implementations do *)
Definition evaluates (eval : I -> W -> res (I * W)) : Prop :=
  forall x w x' w', eval x w = Ok (x', w') ->
    geno x' = geno x /\ (fit x' = Some (value (geno x)) \/ (x' = x /\ fit x <> None)).
(** ... and one that does exactly that on unevaluated individuals *)
Definition computes (eval : I -> W -> res (I * W)) : Prop :=
  forall x w x' w', eval x w = Ok (x', w') -> x' = Ind (geno x) (Some (value (geno x))).
(** what a population evaluator must do: leave an evaluated population and evaluated
    offspring of the same size, given individuals with no wrong fitness *)
Definition pop_evaluates (pe : list I -> list I -> W -> res (list I * list I * W)) : Prop :=
  forall par off w par' off' w', Forall evaluated par -> Forall right off -> pe par off w = Ok (par', off', w') ->
    Forall evaluated par' /\ Forall evaluated off' /\ length par' = length par /\ length off' = length off.
(** how many individuals are not evaluated *)
Definition is_unev (x : I) : bool := match fit x with None => true | Some _ => false end.
Definition n_unev (pop : list I) : nat := length (filter is_unev pop).
(** the population once its unevaluated members have been evaluated *)
Definition all_evaluated (pop : list I) : list I :=
  map (fun x => match fit x with None => Ind (geno x) (Some (value (geno x))) | Some _ => x end) pop.
(** [k] is the first of the best of the (evaluated) individuals [l] *)
Definition first_best (ltb : F -> F -> bool) (l : list I) (k : I) : Prop :=
  exists l1 l2 f, l = l1 ++ k :: l2 /\ fit k = Some f /\
    (forall x, In x l1 -> exists g, fit x = Some g /\ ltb g f = true) /\
    (forall x, In x l2 -> exists g, fit x = Some g /\ ltb f g = false).
End Runs.

(** a run: the [i]-th population shown to the continuator made it answer "go on",
    except the last *)
Definition stops_at_first_no {P W} (cont : P -> W -> res (bool * W)) (tr : list P) : Prop :=
  forall i p, nth_error tr i = Some p -> exists w w', cont p w = Ok (S i <? length tr, w').

(** nobody in [p] is better than everybody in [q] *)
Definition dominates_best {A} (ltb : A -> A -> bool) (p q : list A) : Prop :=
  forall x, In x p -> exists y, In y q /\ ltb y x = false.

(** eoSteadyFitContinue: with [b k] the best fitness at the [k]-th call, the [k]-th call
    stops iff some value reached after the [minGens] first calls has not been beaten
    during the more than [steadyGens] calls that followed *)
Definition stagnant {F} (ltb : F -> F -> bool) (minGens steadyGens : nat) (b : nat -> F) (k : nat) : Prop :=
  exists i, minGens < i /\ i + steadyGens < k /\ forall j, i < j <= k -> ltb (b i) (b j) = false.

(** the answers of [k] successive calls of a stateful predicate *)
Fixpoint answers {S} (f : S -> bool * S) (k : nat) (s : S) : list bool :=
  match k with 0 => [] | S k' => let (b, s') := f s in b :: answers f k' s' end.
