(** Specification of variable neighborhood search, iterated local search and simulated annealing
    (C52, C70, C71, C72), independent of their code. *)
From Coq Require Import List Arith Bool ZArith QArith Qabs Qminmax Permutation.
From Verif Require Import Outcome NeighModel LsModel MetaModel.
From Coq Require Import List.
Import ListNotations.
Open Scope nat_scope.

(** [b] is one of [l], carries a fitness, and no solution of [l] carries a strictly better one *)
Definition best_stored {G F} (lt : F -> F -> bool) (l : list (sol G F)) (b : sol G F) : Prop :=
  In b l /\ exists f, fit b = Some f /\ forall v g, In v l -> fit v = Some g -> lt f g = false.
(** the order of one round: each of the [size] heuristics once; the first to the last, the last to the
    first, or any order *)
Definition round_of (kind : vn_kind) (size : nat) (l : list nat) : Prop :=
  Permutation l (seq 0 size) /\ match kind with Forward => l = seq 0 size | Backward => l = rev (seq 0 size) | Random => True end.
(** [n] heuristics, round after round *)
Definition rounds (l : list nat) (n : nat) : list nat := map (fun k => nth (k mod length l) l 0) (seq 0 n).
(** a random selection that is new, or was used with [size] heuristics *)
Definition sel_fresh (kind : vn_kind) (size : nat) (s : vn_sel) : Prop :=
  match kind with Random => s_order s = [] \/ Permutation (s_order s) (seq 0 size) | _ => True end.
(** the number of turns of a run: the continuator is shown the start, then one solution per turn *)
Definition turns {T X C} (r : run T X C) : nat := length (r_visited r) - 1.

(** ** histories of searches that propose one solution per turn *)
(** [traced R s0 ds0 h l ds]: from the solution [s0] and the draws [ds0], the turns answered [h] (true: the
    proposal was accepted), the solutions were [l] (the start first), the draws [ds] remain; [R] tells one
    turn from the history before it: R history solution draws answer solution' draws' *)
Inductive traced {T} (R : list bool -> T -> list nat -> bool -> T -> list nat -> Prop) (s0 : T) (ds0 : list nat) : list bool -> list T -> list nat -> Prop :=
  | traced_nil : traced R s0 ds0 [] [s0] ds0
  | traced_step h l s ds b s' ds' : traced R s0 ds0 h (l ++ [s]) ds -> R h s ds b s' ds' -> traced R s0 ds0 (h ++ [b]) (l ++ [s; s']) ds'.
(** a turn of iterated local search: at the first one the local search starts from the solution, later from
    the perturbed solution; what it gives replaces the solution if the criterion says so *)
Definition ils_turn {G F P} (p_apply : sol G F -> P -> list nat -> res (sol G F * P * list nat)) (ls : sol G F -> list nat -> res (sol G F * list nat))
    (crit : sol G F -> sol G F -> res bool) (first : bool) (s from made s' : sol G F) : Prop :=
  (if first then from = s else exists p d p' d', p_apply s p d = Ok (from, p', d')) /\
  (exists d d', ls from d = Ok (made, d')) /\
  exists b, crit s made = Ok b /\ s' = if b : bool then made else s.
(** the memory [p] of the perturbation after the solutions [tr] have followed [s0]: it is initialised with
    [s0]; the perturbation is applied at each turn but the first; the memory is told of the solution (add)
    when it was replaced and only then, and is updated at each turn *)
Inductive remembers {G F P} (p_init : sol G F -> P -> list nat -> res (P * list nat)) (p_apply : sol G F -> P -> list nat -> res (sol G F * P * list nat))
    (p_add p_update : sol G F -> P -> list nat -> res (P * list nat)) (crit : sol G F -> sol G F -> res bool) (p0 : P) (s0 : sol G F) : list (sol G F) -> P -> Prop :=
  | remembers_start d p d' : p_init s0 p0 d = Ok (p, d') -> remembers p_init p_apply p_add p_update crit p0 s0 [] p
  | remembers_turn tr p from p1 made b p2 p3 d1 d1' d2 d2' d3 d3' : remembers p_init p_apply p_add p_update crit p0 s0 tr p ->
      (if length tr =? 0 then p1 = p else p_apply (last tr s0) p d1 = Ok (from, p1, d1')) ->
      crit (last tr s0) made = Ok b ->
      (if b : bool then p_add made p1 d2 = Ok (p2, d2') else p2 = p1) ->
      p_update (if b then made else last tr s0) p2 d3 = Ok (p3, d3') ->
      remembers p_init p_apply p_add p_update crit p0 s0 (tr ++ [if b then made else last tr s0]) p3.
(** ** annealing *)
(** what the code needs of exp, whatever its implementation *)
Definition exponential (exp : Q -> Q) : Prop :=
  (forall a b, a == b -> exp a == exp b)%Q /\ (exp 0 == 1)%Q /\ (forall a, 0 < exp a)%Q /\ (forall a b, a < b -> exp a < exp b)%Q.
(** the draw of rng.uniform() *)
Definition u01 (d : nat) : Q := (Z.of_nat d # 4294967296)%Q.
(** Metropolis' rule for a solution of fitness [f] and a neighbor of fitness [g] at temperature [t]: a
    strictly better neighbor is accepted without drawing; any other if u < exp(-|g - f| / t) *)
Definition metropolis {F} (lt : F -> F -> bool) (dbl : F -> Q) (exp : Q -> Q) (t : Q) (f g : F) (ds : list nat) (b : bool) (ds' : list nat) : Prop :=
  if lt f g then b = true /\ ds' = ds
  else exists d, ds = d :: ds' /\ (b = true <-> u01 d < exp (- (Qabs (dbl g - dbl f) / t)))%Q.
(** the ratio rule of the Metropolis-Hastings search for positive fitnesses: the smaller over the larger *)
Definition ratio {F} (lt : F -> F -> bool) (dbl : F -> Q) (f g : F) (ds : list nat) (b : bool) (ds' : list nat) : Prop :=
  if lt f g then b = true /\ ds' = ds
  else exists d, ds = d :: ds' /\ (b = true <-> u01 d < Qmin (dbl f) (dbl g) / Qmax (dbl f) (dbl g))%Q.
(** one turn: nothing happens if there is no neighbor; otherwise the neighborhood proposes one ([i_init]),
    [rule] answers, and an accepted neighbor becomes the solution, with its true fitness *)
Definition proposal {G F S I} (full : G -> F) (nbrs : G -> list I) (nh : G -> iterator S I) (move : I -> G -> res G)
    (rule : F -> F -> list nat -> bool -> list nat -> Prop) (s : sol G F) (ds : list nat) (b : bool) (s' : sol G F) (ds' : list nat) : Prop :=
  (nbrs (geno s) = [] /\ b = false /\ s' = s /\ ds' = ds) \/
  exists n i n' ds1 g', i_init (nh (geno s)) n ds = Ok (n', i, ds1) /\ In i (nbrs (geno s)) /\ move i (geno s) = Ok g' /\
    rule (full (geno s)) (full g') ds1 b ds' /\ s' = if b then Sol g' (Some (full g')) else s.
(** the temperature and the state of a schedule after a history of answers *)
Definition after {K} (cs : cooling K) (k0 : K) (h : list bool) : Q * K :=
  fold_left (fun tk b => k_update cs (fst tk) b (snd tk)) h (k_init cs k0).
(** whether the schedule lets the search go on *)
Definition goes_on {K} (cs : cooling K) (k0 : K) (h : list bool) : bool := k_go cs (fst (after cs k0 h)) (snd (after cs k0 h)).
Definition qpow (a : Q) (n : nat) : Q := Nat.iter n (fun t => (t * a)%Q) 1%Q.
(** ** the spans of a history of tries (true: the move was accepted): a span ends with its [tries]-th try or
    its [moves]-th move. [spans] gives the complete ones and what remains. *)
Definition accepted (h : list bool) : nat := length (filter (fun b => b) h).
Fixpoint spans (tries moves : nat) (cur : list bool) (h : list bool) : list (list bool) * list bool :=
  match h with
  | [] => ([], cur)
  | b :: r =>
      let cur' := cur ++ [b] in
      if (tries <=? length cur') || (moves <=? accepted cur')
      then let (l, e) := spans tries moves [] r in (cur' :: l, e)
      else spans tries moves cur' r
  end.
(** how many of the last spans of [l] had no move *)
Fixpoint quiet_end (l : list (list bool)) (n : nat) : nat :=
  match l with [] => n | h :: r => quiet_end r (if accepted h =? 0 then S n else 0) end.
