(** Specification of the local searches (C36, C38, C69), independent of the searches' code. *)
From Coq Require Import List Arith.
From Verif Require Import Outcome NeighModel LsModel.
Import ListNotations.
Open Scope nat_scope.

(** A neighborhood behaves: on every genotype of the search space [Sp] and after every earlier use
    ([Inv] holds of the state of the iterator), hasNeighbor says whether there are neighbors, what
    init and next produce are neighbors, a whole exploration misses none of them and is possible
    with [cost] random draws. [Prog g]: an exploration of [g] is under way. *)
Record neighborhood_ok {G S I} (Sp : G -> Prop) (nbrs : G -> list I) (has : G -> bool) (nh : G -> iterator S I)
    (Inv : S -> Prop) (Prog : G -> S -> Prop) (fuel cost : nat) : Prop := NeighborhoodOk {
  nh_has : forall g, Sp g -> (has g = true <-> nbrs g <> []);
  nh_init : forall g s ds s' i ds', Sp g -> has g = true -> Inv s -> i_init (nh g) s ds = Ok (s', i, ds') ->
    Prog g s' /\ In i (nbrs g) /\ length ds' <= length ds;
  nh_next : forall g s ds s' i ds', Sp g -> Prog g s -> i_cont (nh g) s = true -> i_next (nh g) s ds = Ok (s', i, ds') ->
    Prog g s' /\ In i (nbrs g) /\ length ds' <= length ds;
  nh_inv : forall g s, Sp g -> Prog g s -> Inv s;
  nh_all : forall k g s ds l s' ds', Sp g -> has g = true -> Inv s -> explore (nh g) k s ds = Ok (l, s', ds') -> incl (nbrs g) l;
  nh_total : forall g s ds, Sp g -> has g = true -> Inv s -> cost <= length ds ->
    exists l s' ds', explore (nh g) fuel s ds = Ok (l, s', ds') /\ length ds <= cost + length ds' }.
(** Moves stay in the search space, and the evaluation of a neighbor of an evaluated solution is the
    full evaluation of the solution it leads to. *)
Definition moves_ok {G F I} (Sp : G -> Prop) (nbrs : G -> list I) (full : G -> F)
    (neval : sol G F -> I -> res F) (move : I -> G -> res G) : Prop :=
  forall g i, Sp g -> In i (nbrs g) ->
    exists g', move i g = Ok g' /\ Sp g' /\ neval (Sol g (Some (full g))) i = Ok (full g').
(** [g'] is reached from [g] by one move *)
Definition neighbor {G I} (nbrs : G -> list I) (move : I -> G -> res G) (g g' : G) : Prop :=
  exists i, In i (nbrs g) /\ move i g = Ok g'.
(** no neighbor of [g] is strictly better *)
Definition local_optimum {G F I} (lt : F -> F -> bool) (nbrs : G -> list I) (full : G -> F) (move : I -> G -> res G) (g : G) : Prop :=
  forall g', neighbor nbrs move g g' -> lt (full g) (full g') = false.
(** a neighbor, strictly better *)
Definition improves {G F I} (lt : F -> F -> bool) (nbrs : G -> list I) (full : G -> F) (move : I -> G -> res G) (g g' : G) : Prop :=
  neighbor nbrs move g g' /\ lt (full g) (full g') = true.
(** no neighbor of [g] is strictly better than [g'] *)
Definition steepest {G F I} (lt : F -> F -> bool) (nbrs : G -> list I) (full : G -> F) (move : I -> G -> res G) (g g' : G) : Prop :=
  forall g'', neighbor nbrs move g g'' -> lt (full g') (full g'') = false.
(** every two consecutive elements are related *)
Definition chain {T} (R : T -> T -> Prop) (l : list T) : Prop :=
  forall k a b, nth_error l k = Some a -> nth_error l (S k) = Some b -> R a b.
(** every two consecutive elements are related, except that the last element may repeat the one
    before *)
Definition climbs {T} (R : T -> T -> Prop) (l : list T) : Prop :=
  forall k a b, nth_error l k = Some a -> nth_error l (S k) = Some b -> R a b \/ (b = a /\ S (S k) = length l).
(** the solution carries its own evaluation *)
Definition evaluated {G F} (full : G -> F) (s : sol G F) : Prop := fit s = Some (full (geno s)).
(** it carries its own evaluation or none *)
Definition not_stale {G F} (full : G -> F) (s : sol G F) : Prop := fit s = None \/ evaluated full s.

(** the solution the search starts from: evaluated first if it is not (moLocalSearch.h:72-73) *)
Definition started {G F} (full : G -> F) (s : sol G F) : sol G F :=
  match fit s with Some _ => s | None => Sol (geno s) (Some (full (geno s))) end.
(** what tabu search may move to: a neighbor that the tabu list does not forbid, or that the
    aspiration rescues *)
Definition allowed {G F I M} (ms : memories G F I M) (s : sol G F) (m : M) (i : I) (f : F) : Prop :=
  m_tabu _ _ _ _ ms s (i, f) m = Ok false \/
  (m_tabu _ _ _ _ ms s (i, f) m = Ok true /\ m_aspired _ _ _ _ ms s (i, f) m = Ok true).
(** the move [i] leads from [g] to [g'], is admissible, and no admissible move is strictly better *)
Definition best_admissible {G F I} (lt : F -> F -> bool) (nbrs : G -> list I) (full : G -> F) (move : I -> G -> res G)
    (adm : I -> F -> Prop) (g : G) (i : I) (g' : G) : Prop :=
  In i (nbrs g) /\ move i g = Ok g' /\ adm i (full g') /\
  forall j h, In j (nbrs g) -> move j g = Ok h -> adm j (full h) -> lt (full g') (full h) = false.
(** no move is admissible *)
Definition none_admissible {G F I} (nbrs : G -> list I) (full : G -> F) (move : I -> G -> res G) (adm : I -> F -> Prop) (g : G) : Prop :=
  forall j h, In j (nbrs g) -> move j g = Ok h -> ~ adm j (full h).
(** a step of an intensification or diversification that does not change the solution *)
Definition leaves_solution {G F M} (f : sol G F -> M -> list nat -> res (sol G F * M * list nat)) : Prop :=
  forall s m ds s' m' ds', f s m ds = Ok (s', m', ds') -> s' = s.
(** one that gives an evaluated solution of the search space *)
Definition keeps_evaluated {G F M} (Sp : G -> Prop) (full : G -> F) (f : sol G F -> M -> list nat -> res (sol G F * M * list nat)) : Prop :=
  forall s m ds s' m' ds', Sp (geno s) -> evaluated full s -> f s m ds = Ok (s', m', ds') -> Sp (geno s') /\ evaluated full s'.
(** [b] is one of the solutions of [l] and none of them is strictly better *)
Definition best_of {G F} (lt : F -> F -> bool) (full : G -> F) (l : list (sol G F)) (b : sol G F) : Prop :=
  In b l /\ forall v, In v l -> lt (full (geno b)) (full (geno v)) = false.
