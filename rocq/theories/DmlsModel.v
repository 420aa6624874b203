(** Model of the dominance-based multiobjective local searches of moeo: moeoUnifiedDominanceBasedLS
    with its selectors of unvisited solutions and its neighborhood explorers, moeoPLS1, moeoPLS2 and
    moeoDMLSMonOp.

    A solution has a genotype, an objective vector and the flag (0: unvisited, 1: visited). The
    neighborhood [nh g] of a genotype is an iterator as in NeighModel, [has g] is hasNeighbor,
    [move k g] the neighbor's move, [eval g k] the neighbor's evaluation; the archive is the
    unbounded one with exact objective values. Simplified: the initial population is valid, so that
    popEval leaves it as it is; the fitness set to 0 by one of the explorers is not modelled. *)
From Coq Require Import List Bool QArith Arith.
From Verif Require Import Lib Outcome NeighModel ParetoModel ArchModel.
Import ListNotations.
Close Scope Q_scope.
Open Scope nat_scope.

Record sol (G : Type) := Sol { geno : G; vec : list Q; flag : nat }.
Arguments Sol {G}. Arguments geno {G}. Arguments vec {G}. Arguments flag {G}.

Section Dmls.
Variables G K S : Type.
Variable dirs : list bool.
Variable has : G -> bool.
Variable nh : G -> iterator S K.
Variable move : K -> G -> G.
Variable eval : G -> K -> list Q.
Notation dominated := (pareto 0 dirs).

(** what the explorers append: a copy of the source, moved, with the neighbor's vector and flag 0
    (moeoExhaustiveNeighborhoodExplorer.h:97-105) *)
Definition neighbour (src : sol G) (k : K) : sol G := Sol (move k (geno src)) (eval (geno src) k) 0.

(** results of explore: the solutions appended to _dest, whether the source is flagged 1, the
    neighborhood's state, the draws left; [fuel] bounds the number of neighbors *)
Notation explored := (res (list (sol G) * bool * S * list nat)).

(** moeoExhaustiveNeighborhoodExplorer::explore (90-118) *)
Fixpoint exhaustive_loop (fuel : nat) (src : sol G) (s : S) (ds : list nat) : res (list (sol G) * S * list nat) :=
  if i_cont (nh (geno src)) s then
    match fuel with
    | 0 => NoDraw
    | Datatypes.S f =>
        let! (s, k, ds) := i_next (nh (geno src)) s ds in
        let! (new, s, ds) := exhaustive_loop f src s ds in
        Ok (neighbour src k :: new, s, ds)
    end
  else Ok ([], s, ds).
Definition exhaustive (fuel : nat) (src : sol G) (s : S) (ds : list nat) : explored :=
  if has (geno src) then
    let! (s, k, ds) := i_init (nh (geno src)) s ds in
    let! (new, s, ds) := exhaustive_loop fuel src s ds in
    Ok (neighbour src k :: new, true, s, ds)
  else Ok ([], false, s, ds).

(** appended unless the source dominates it (moeoFirstImprovingNeighborhoodExplorer.h:102-115,
    moeoNoDesimprovingNeighborhoodExplorer.h:82-89) *)
Definition cycle (src : sol G) (k : K) : list (sol G) :=
  if dominated (eval (geno src) k) (vec src) then [] else [neighbour src k].
(** moeoFirstImprovingNeighborhoodExplorer::explore (78-95) *)
Fixpoint improving_loop (fuel : nat) (src : sol G) (k : K) (s : S) (ds : list nat) : res (list (sol G) * S * list nat) :=
  if negb (dominated (vec src) (eval (geno src) k)) && i_cont (nh (geno src)) s then
    match fuel with
    | 0 => NoDraw
    | Datatypes.S f =>
        let! (s, k, ds) := i_next (nh (geno src)) s ds in
        let! (new, s, ds) := improving_loop f src k s ds in
        Ok (cycle src k ++ new, s, ds)
    end
  else Ok ([], s, ds).
Definition first_improving (fuel : nat) (src : sol G) (s : S) (ds : list nat) : explored :=
  if has (geno src) then
    let! (s, k, ds) := i_init (nh (geno src)) s ds in
    let! (new, s, ds) := improving_loop fuel src k s ds in
    Ok (cycle src k ++ new, negb (i_cont (nh (geno src)) s), s, ds)
  else Ok ([], false, s, ds).

(** moeoNoDesimprovingNeighborhoodExplorer::explore (77-104); [tmp] is true until one is found *)
Fixpoint no_desimproving_loop (fuel : nat) (src : sol G) (tmp : bool) (s : S) (ds : list nat) : res (list (sol G) * S * list nat) :=
  if i_cont (nh (geno src)) s && tmp then
    match fuel with
    | 0 => NoDraw
    | Datatypes.S f =>
        let! (s, k, ds) := i_next (nh (geno src)) s ds in
        let! (new, s, ds) := no_desimproving_loop f src (dominated (eval (geno src) k) (vec src)) s ds in
        Ok (cycle src k ++ new, s, ds)
    end
  else Ok ([], s, ds).
Definition no_desimproving (fuel : nat) (src : sol G) (s : S) (ds : list nat) : explored :=
  if has (geno src) then
    let! (s, k, ds) := i_init (nh (geno src)) s ds in
    let! (new, s, ds) := no_desimproving_loop fuel src (dominated (eval (geno src) k) (vec src)) s ds in
    Ok (cycle src k ++ new, negb (i_cont (nh (geno src)) s), s, ds)
  else Ok ([], false, s, ds).

(** moeoSimpleSubNeighborhoodExplorer::explore (80-100): [tmp] neighbors are left to explore *)
Fixpoint sub_loop (tmp : nat) (src : sol G) (s : S) (ds : list nat) : res (list (sol G) * S * list nat) :=
  if i_cont (nh (geno src)) s then
    match tmp with
    | 0 => Ok ([], s, ds)
    | Datatypes.S tmp =>
        let! (s, k, ds) := i_next (nh (geno src)) s ds in
        let! (new, s, ds) := sub_loop tmp src s ds in
        Ok (neighbour src k :: new, s, ds)
    end
  else Ok ([], s, ds).
Definition simple_sub (number : nat) (src : sol G) (s : S) (ds : list nat) : explored :=
  if has (geno src) && (0 <? number) then
    let! (s, k, ds) := i_init (nh (geno src)) s ds in
    let! (new, s, ds) := sub_loop (number - 1) src s ds in
    Ok (neighbour src k :: new, negb (i_cont (nh (geno src)) s), s, ds)
  else Ok ([], false, s, ds).

(** the selectors: positions in the archive *)
(** moeoExhaustiveUnvisitedSelect::operator() (61-71) *)
Definition unvisited (arch : list (sol G)) (ds : list nat) : res (list nat * list nat) :=
  Ok (filter (fun i => match nth_error arch i with Some x => flag x =? 0 | None => false end) (seq 0 (length arch)), ds).
(** moeoNumberUnvisitedSelect::operator() (67-83); [shuf d] is std::shuffle seeded by d, a draw of
    std::random_device *)
Variable shuf : nat -> list nat -> list nat.
Definition number_unvisited (number : nat) (arch : list (sol G)) (ds : list nat) : res (list nat * list nat) :=
  let! (sel, ds) := unvisited arch ds in
  if number <? length sel then
    match ds with d :: ds => Ok (firstn number (shuf d sel), ds) | [] => NoDraw end
  else Ok (sel, ds).

(** the explorer on the selected solutions of the archive, flagged in place
    (moeoExhaustiveNeighborhoodExplorer.h:77-81, moeoSubNeighborhoodExplorer.h:76-80) *)
Variable explore : sol G -> S -> list nat -> explored.
Fixpoint explore_selected (sel : list nat) (arch dest : list (sol G)) (s : S) (ds : list nat) : res (list (sol G) * list (sol G) * S * list nat) :=
  match sel with
  | [] => Ok (arch, dest, s, ds)
  | i :: sel =>
      let! src := of_opt (nth_error arch i) in
      let! (new, visited, s, ds) := explore src s ds in
      let! arch := if visited : bool then of_opt (upd arch i (Sol (geno src) (vec src) 1)) else Ok arch in
      explore_selected sel arch (dest ++ new) s ds
  end.

(** moeoContinue (moeoUnifiedDominanceBasedLS.h:132-143): some solution of the archive is not visited *)
Definition natural_continue (arch : list (sol G)) : bool := existsb (fun x => negb (flag x =? 1)) arch.

(** the body of the loop (88-97), with the answer of the loop's condition; [C] is the state of the
    continuator *)
Variable replace : bool.
Variable select : list (sol G) -> list nat -> res (list nat * list nat).
Variable C : Type.
Variable continuator : C -> list (sol G) -> bool * C.
Notation archive_pop l pop := (update_pop (sol G) (list Q) vec dominated (same_vector 0) replace l pop false).
Record dmls_state := State { arch : list (sol G); nstate : S; cstate : C; draws : list nat }.
Definition dmls_turn (st : dmls_state) : res (dmls_state * bool) :=
  let! (sel, ds) := select (arch st) (draws st) in
  let! (a, dest, s, ds) := explore_selected sel (arch st) [] (nstate st) ds in
  let! (a, _) := archive_pop a dest in
  let (go, c) := continuator (cstate st) a in
  Ok (State a s c ds, go && natural_continue a).
Fixpoint dmls_loop (fuel : nat) (st : dmls_state) : res dmls_state :=
  match fuel with
  | 0 => NoDraw
  | Datatypes.S f =>
      let! (st, go) := dmls_turn st in
      if go : bool then dmls_loop f st else Ok st
  end.
(** operator() (82-98) *)
Definition dmls (fuel : nat) (pop : list (sol G)) (st : dmls_state) : res dmls_state :=
  let! (a, _) := archive_pop (arch st) pop in
  dmls_loop fuel (State a (nstate st) (cstate st) (draws st)).
(** moeoDMLSMonOp::operator() (moeoDMLSMonOp.h:98-114): a solution of the resulting archive *)
Definition dmls_mutate (fuel : nat) (x : sol G) (st : dmls_state) : res (sol G * dmls_state) :=
  let! st := dmls fuel [x] st in
  let! (i, ds) := draw (length (arch st)) (draws st) in
  let! y := of_opt (nth_error (arch st) i) in
  Ok (y, State (arch st) (nstate st) (cstate st) ds).
End Dmls.
Arguments arch {G S C}. Arguments nstate {G S C}. Arguments cstate {G S C}. Arguments draws {G S C}. Arguments State {G S C}.
