(** Specifications for the evaluation of an algorithm assembled by a foundry (C186, C187). *)
From Coq Require Import List Arith Bool ZArith QArith.
From Verif Require Import Lib Outcome BreedModel AlgoModel AlgoSpec FoundModel EvfModel.
Import ListNotations.
Close Scope Q_scope.
Open Scope nat_scope.

(** the number [v] stands for the index [k]: it is [k], or lies in the unit interval below it *)
Definition stands_for (v : Q) (k : nat) : Prop := (inject_Z (Z.of_nat k) - 1 < v /\ v <= inject_Z (Z.of_nat k))%Q.
(** what an index selects in five containers *)
Definition selection {G F W C} (sh : shelves G F W C) (v : list Q) (k : nat) c x m s r : Prop :=
  exists v0 v1 v2 v3 v4 rest i1 i2 i3 i4, v = v0 :: v1 :: v2 :: v3 :: v4 :: rest /\
    stands_for v0 k /\ stands_for v1 i1 /\ stands_for v2 i2 /\ stands_for v3 i3 /\ stands_for v4 i4 /\
    nth_error (conts sh) k = Some c /\ nth_error (crosses sh) i1 = Some x /\ nth_error (muts sh) i2 = Some m /\
    nth_error (sels sh) i3 = Some s /\ nth_error (repls sh) i4 = Some r.
(** one of the five numbers stands for an index no container has, none is negative by a unit or more *)
Definition out_of_shelves {G F W C} (sh : shelves G F W C) (v : list Q) : Prop :=
  exists v0 v1 v2 v3 v4 rest k i1 i2 i3 i4, v = v0 :: v1 :: v2 :: v3 :: v4 :: rest /\
    stands_for v0 k /\ stands_for v1 i1 /\ stands_for v2 i2 /\ stands_for v3 i3 /\ stands_for v4 i4 /\
    (length (conts sh) <= k \/ length (crosses sh) <= i1 \/ length (muts sh) <= i2 \/ length (sels sh) <= i3 \/ length (repls sh) <= i4).
(** an object whose forges are those of the containers *)
Definition of_shelves {G F W C} (sh : shelves G F W C) (f : foundry C) : Prop := length (live f) = length (conts sh).
(** [v] is the best of the fitnesses of an evaluated population *)
Definition best_value_of {G F} (ltb : F -> F -> bool) (pop : list (indiv G F)) (v : F) : Prop :=
  (exists x, In x pop /\ fit x = Some v) /\ forall x u, In x pop -> fit x = Some u -> ltb v u = false.

Section Search.
Context {G F W C : Type}.
Notation I := (indiv G F).
Notation W' := (nat * C * W)%type.
Variable flip : Q -> W -> res (bool * W).
Variable wheel : list Q -> W -> res (nat * W).
Variable pop_eval : pop_evaluator (G:=G) (F:=F) (W:=W).
Variable max_gen : nat.
Variable init : W -> res (I * W).
Variable pop_size : nat.
Variable ltb : F -> F -> bool.
Variable value : G -> F.
(** the algorithm on chosen operators *)
Definition assembled (c : continuator G F W C) x m s (r : list I -> list I -> W -> res (list I * W)) (fuel : nat) (pop : list I) (w : W)
  : res (list I * list (list I) * W') :=
  easy_ea (fun p o => beside (pop_eval p o)) (fun p => beside (breeding flip wheel x m s p)) (fun p o => beside (r p o))
    (combined_continue [by_generations max_gen; by_continuator c]) fuel pop (0, fresh c, w).

(** what evaluating an unevaluated solution amounts to *)
Definition search c x m s r (fuel : nat) (w : W) : res (F * C * W) :=
  let! (pop, w) := initialised init pop_size w in
  let! (_, pop, w) := pop_eval [] pop w in
  let! (p, _, (_, c', w)) := assembled c x m s r fuel pop w in
  let! v := best_fitness ltb p in Ok (v, c', w).
(** a replacement that never loses the best of evaluated parents *)
Definition keeps_best (r : list I -> list I -> W -> res (list I * W)) : Prop := forall par off w par' w',
  Forall (evaluated value) par -> Forall (evaluated value) off -> r par off w = Ok (par', w') ->
  dominates_best (fun a b : I => ltb (value (geno a)) (value (geno b))) par par'.

(** couples of parents, crossed, then mutated one after the other; [tick] is what a certain flip does to the world *)
Variable tick : W -> W.
Fixpoint couples (x : quad_op (G:=G) (F:=F) (W:=W)) (m : mon_op (G:=G) (F:=F) (W:=W)) (choose : W -> res (I * W)) (n : nat) (w : W) : res (list I * W) :=
  match n with
  | 0 => Ok ([], w)
  | S n =>
      let! (p1, w) := choose (tick w) in
      let! (p2, w) := choose w in
      let! (y1, y2, b, w) := x p1 p2 w in
      let! (z1, b1, w) := m (touch b y1) (tick w) in
      let! (z2, b2, w) := m (touch b y2) (tick w) in
      let! (l, w) := couples x m choose n w in
      Ok (touch b1 z1 :: touch b2 z2 :: l, w)
  end.
End Search.
