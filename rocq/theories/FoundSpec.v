(** Specification of eoFastGA, of the algorithm foundries, of the forges and of restarts
    (C114-C118), independent of the model. *)
From Coq Require Import List Bool QArith.
From Verif Require Import Lib Outcome BreedModel AlgoSpec.
Import ListNotations.
Close Scope Q_scope.
Open Scope nat_scope.

Section Fast.
Context {G F W : Type}.
Notation I := (indiv G F).
Variable cross : I -> I -> W -> res (I * I * bool * W).
Variable mutation : I -> W -> res (I * bool * W).
(** [g] is what the mutation made of [x] *)
Definition mutant (x : I) (g : G) : Prop := exists w z b w', mutation x w = Ok (z, b, w') /\ geno z = g.
(** [g] is one of the two results of crossing [x1] and [x2] *)
Definition crossed_from (x1 x2 : I) (g : G) : Prop := exists w y1 y2 b w', cross x1 x2 w = Ok (y1, y2, b, w') /\ (geno y1 = g \/ geno y2 = g).
(** an offspring of a population: a member crossed with a member, one of the two results kept and
    perhaps mutated; or a mutated member *)
Definition offspring_of (value : G -> F) (pop : list I) (g : G) : Prop :=
  (exists x, In x pop /\ mutant x g) \/
  (exists x1 x2 h, In x1 pop /\ In x2 pop /\ crossed_from x1 x2 h /\ (g = h \/ mutant (Ind h (Some (value h))) g)).
End Fast.

(** ** contracts of the parts of an algorithm *)
Section Parts.
Context {G F W : Type}.
Notation I := (indiv G F).
(** a selector takes members of the population *)
Definition takes_members (pick : list I -> W -> res (I * W)) : Prop := forall pop w x w', pick pop w = Ok (x, w') -> In x pop.
(** a replacement keeps parents and offspring only *)
Definition keeps_members (replace : list I -> list I -> W -> res (list I * W)) : Prop :=
  forall pop off w p w', replace pop off w = Ok (p, w') -> incl p (pop ++ off).
(** an evaluation that, unless it gives up, evaluates those that need it *)
Definition evaluates_all (value : G -> F) (peval : list I -> W -> res ((list I * W) + W)) : Prop :=
  forall l w l' w', peval l w = Ok (inl (l', w')) -> l' = all_evaluated value l.
End Parts.

(** the closest number to [x] in the interval *)
Definition capped (lo hi x y : Q) : Prop := (lo <= y <= hi /\ ((lo <= x <= hi -> y == x) /\ (x < lo -> y == lo) /\ (hi < x -> y == hi)))%Q.

(** ** a container of forges *)
(** what a client asks of it; [T] is the state of an operator *)
Inductive request T := Add (t : T) | Setup (i : nat) (t : T) | Instantiate (i : nat) | Use (p : nat) (step : T -> T).
Arguments Add {T}. Arguments Setup {T}. Arguments Instantiate {T}. Arguments Use {T}.
(** the initial states the forges are set up with after some requests *)
Fixpoint configured {T} (before : list T) (rs : list (request T)) : list T :=
  match rs with
  | [] => before
  | Add t :: rs => configured (before ++ [t]) rs
  | Setup i t :: rs => configured (set before i t) rs
  | _ :: rs => configured before rs
  end.
(** the request replaces the operator of forge [i], or makes it anew *)
Definition renews {T} (i : nat) (no_cache : bool) (r : request T) : Prop :=
  match r with Setup j _ => j = i | Instantiate j => j = i /\ no_cache = true | _ => False end.
Definition uses {T} (p : nat) (r : request T) : Prop := match r with Use q _ => q = p | _ => False end.
