(** Model of the local searches of mo: moLocalSearch (mo/src/algo/moLocalSearch.h) and the
    neighborhood explorers (mo/src/explorer). *)
From Coq Require Import List Arith Bool.
From Verif Require Import Outcome NeighModel.
Import ListNotations.
Open Scope nat_scope.

(** a solution: its genotype and its fitness, if valid (eo/src/EO.h). Reading the fitness of an
    invalid solution throws (EO.h:92-97). *)
Record sol (G F : Type) := Sol { geno : G; fit : option F }.
Arguments Sol {G F}.
Arguments geno {G F}.
Arguments fit {G F}.
Definition fitness {G F} (s : sol G F) : res F := match fit s with Some f => Ok f | None => Throw end.

(** an explorer (moNeighborhoodExplorer.h): initParam, operator(), accept, move, updateParam (given
    moveApplied()), isContinue and terminate. [T]: solutions, [X]: the fields of the explorer and
    of the objects it refers to. *)
Record explorer (T X : Type) := Explorer {
  x_init : T -> X -> list nat -> res (X * list nat);
  x_explore : T -> X -> list nat -> res (T * X * list nat);
  x_accept : T -> X -> list nat -> res (bool * X * list nat);
  x_move : T -> X -> list nat -> res (T * X * list nat);
  x_update : bool -> T -> X -> list nat -> res (X * list nat);
  x_continue : T -> X -> bool;
  x_terminate : T -> X -> T }.
Arguments Explorer {T X}.
Arguments x_init {T X}.
Arguments x_explore {T X}.
Arguments x_accept {T X}.
Arguments x_move {T X}.
Arguments x_update {T X}.
Arguments x_continue {T X}.
Arguments x_terminate {T X}.
(** the external continuator (moContinuator.h): init and operator(). It is taken not to change the
    solution it is shown. *)
Record continuator (T C : Type) := Continuator { c_init : T -> C -> C; c_step : T -> C -> bool * C }.
Arguments Continuator {T C}.
Arguments c_init {T C}.
Arguments c_step {T C}.
(** what a run shows: the final solution, the solutions the continuator was shown (the first one by
    init, then one per iteration), whether the last answer of the continuator was to go on (the
    search then stopped by itself), and the states left behind *)
Record run (T X C : Type) := Run { r_final : T; r_visited : list T; r_by_itself : bool; r_x : X; r_c : C; r_draws : list nat }.
Arguments Run {T X C}.
Arguments r_final {T X C}.
Arguments r_visited {T X C}.
Arguments r_by_itself {T X C}.
Arguments r_x {T X C}.
Arguments r_c {T X C}.
Arguments r_draws {T X C}.

Section LocalSearch.
Variables (T X C : Type) (e : explorer T X) (c : continuator T C).
(** one turn of the loop, up to updateParam (moLocalSearch.h:84-95) *)
Definition ls_turn (s : T) (x : X) (ds : list nat) : res (bool * T * X * list nat) :=
  let! (s1, x1, ds1) := x_explore e s x ds in
  let! (b, x2, ds2) := x_accept e s1 x1 ds1 in
  let! (s2, x3, ds3) := (if b : bool then x_move e s1 x2 ds2 else Ok (s1, x2, ds2)) in
  let! (x4, ds4) := x_update e b s2 x3 ds3 in Ok (b, s2, x4, ds4).
(** the loop (82-98), then terminate (100); [fuel] bounds the number of turns *)
Fixpoint ls_loop (fuel : nat) (s : T) (x : X) (cs : C) (ds : list nat) : res (run T X C) :=
  match fuel with
  | 0 => NoDraw
  | Datatypes.S f =>
      let! (b, s', x', ds') := ls_turn s x ds in
      let (go, cs') := c_step c s' cs in
      if go && x_continue e s' x' then
        let! r := ls_loop f s' x' cs' ds' in
        Ok (Run (r_final r) (s' :: r_visited r) (r_by_itself r) (r_x r) (r_c r) (r_draws r))
      else Ok (Run (x_terminate e s' x') [s'] go x' cs' ds')
  end.
(** moLocalSearch::operator() (70-106) once the solution is evaluated; lastCall is not modelled *)
Definition ls_run (fuel : nat) (s : T) (x : X) (cs : C) (ds : list nat) : res (run T X C) :=
  let! (x', ds') := x_init e s x ds in
  let! r := ls_loop fuel s x' (c_init c s cs) ds' in
  Ok (Run (r_final r) (s :: r_visited r) (r_by_itself r) (r_x r) (r_c r) (r_draws r)).
End LocalSearch.

(** the solution is evaluated first if it is invalid (72-73) *)
Definition local_search {G F X C} (full : G -> F) (e : explorer (sol G F) X) (c : continuator (sol G F) C)
    (fuel : nat) (s : sol G F) (x : X) (cs : C) (ds : list nat) : res (run (sol G F) X C) :=
  let s0 := match fit s with Some _ => s | None => Sol (geno s) (Some (full (geno s))) end in
  ls_run _ _ _ e c fuel s0 x cs ds.

(** ** explorers that walk a neighborhood *)
Section Explorers.
Variables (G F S I : Type).
(** operator< of the fitness type (moNeighborComparator.h:55-57, moSolNeighborComparator.h:60-62),
    and operator== (65-67, 70-72) *)
Variables (lt eq : F -> F -> bool).
(** the neighborhood: hasNeighbor and the iterator, the evaluation of a neighbor and the move *)
Variables (has : G -> bool) (nh : G -> iterator S I).
Variables (neval : sol G F -> I -> res F) (move : I -> G -> res G).
(** bounds the length of an exploration *)
Variable xfuel : nat.
Notation nb := (I * F)%type.
Notation sol := (sol G F).

(** while (!stop && cont) { next; eval; step } *)
Fixpoint scan {A} (stop : A -> bool) (step : A -> nb -> res A) (fuel : nat) (s : sol) (a : A) (n : S) (ds : list nat)
    : res (A * S * list nat) :=
  if stop a then Ok (a, n, ds)
  else if i_cont (nh (geno s)) n then
    match fuel with
    | 0 => NoDraw
    | Datatypes.S k =>
        let! (n', i, ds') := i_next (nh (geno s)) n ds in
        let! f := neval s i in
        let! a' := step a (i, f) in scan stop step k s a' n' ds'
    end
  else Ok (a, n, ds).
(** init; eval *)
Definition start (s : sol) (n : S) (ds : list nat) : res (nb * S * list nat) :=
  let! (n', i, ds') := i_init (nh (geno s)) n ds in
  let! f := neval s i in Ok ((i, f), n', ds').
(** moNeighborhoodExplorer::move (86-91) with the selected neighbor *)
Definition move_to (p : nb) (s : sol) : res sol := let! g := move (fst p) (geno s) in Ok (Sol g (Some (snd p))).
(** solNeighborComparator(solution, neighbor) and its equals *)
Definition better (s : sol) (p : nb) : res bool := let! f := fitness s in Ok (lt f (snd p)).
Definition equals (s : sol) (p : nb) : res bool := let! f := fitness s in Ok (eq f (snd p)).
(** a selected neighbor that was never set has an invalid fitness: reading it throws *)
Definition get (o : option nb) : res nb := match o with Some p => Ok p | None => Throw end.

(** fields of the hill climbers: the state of the neighborhood, selectedNeighbor, isAccept *)
Record hc := Hc { h_nh : S; h_sel : option nb; h_acc : bool }.
(** accept (moSimpleHCexplorer.h:142-147, moFirstImprHCexplorer.h:150-155) *)
Definition hc_accept (s : sol) (x : hc) (ds : list nat) : res (bool * hc * list nat) :=
  if has (geno s) then
    let! p := get (h_sel x) in
    let! b := better s p in Ok (b, Hc (h_nh x) (h_sel x) b, ds)
  else Ok (h_acc x, x, ds).
Definition hc_move (s : sol) (x : hc) (ds : list nat) : res (sol * hc * list nat) :=
  let! p := get (h_sel x) in let! s' := move_to p s in Ok (s', x, ds).
Definition no_init {X} (s : sol) (x : X) (ds : list nat) : res (X * list nat) := Ok (x, ds).
Definition no_update {X} (b : bool) (s : sol) (x : X) (ds : list nat) : res (X * list nat) := Ok (x, ds).
Definition as_is {X} (s : sol) (x : X) : sol := s.

(** moSimpleHCexplorer::operator() (97-126) *)
Definition keep_best (a p : nb) : res nb := Ok (if lt (snd a) (snd p) then p else a).
Definition simple_explore (s : sol) (x : hc) (ds : list nat) : res (sol * hc * list nat) :=
  if has (geno s) then
    let! (p, n, ds1) := start s (h_nh x) ds in
    let! (q, n', ds2) := scan (fun _ => false) keep_best xfuel s p n ds1 in
    Ok (s, Hc n' (Some q) (h_acc x), ds2)
  else Ok (s, Hc (h_nh x) (h_sel x) false, ds).
Definition simple_hc : explorer sol hc :=
  Explorer no_init simple_explore hc_accept hc_move no_update (fun _ x => h_acc x) as_is.

(** moFirstImprHCexplorer::operator() (106-131) *)
Definition first_explore (s : sol) (x : hc) (ds : list nat) : res (sol * hc * list nat) :=
  if has (geno s) then
    let! (p, n, ds1) := start s (h_nh x) ds in
    let! f := fitness s in
    let! (q, n', ds2) := scan (fun a => lt f (snd a)) (fun _ p => Ok p) xfuel s p n ds1 in
    Ok (s, Hc n' (Some q) (h_acc x), ds2)
  else Ok (s, Hc (h_nh x) (h_sel x) false, ds).
(** [always]: alwaysContinue() was called *)
Definition first_hc (always : bool) : explorer sol hc :=
  Explorer no_init first_explore hc_accept hc_move no_update (fun _ x => always || h_acc x) as_is.

(** moRandomBestHCexplorer (moRandomBestHCexplorer.h:88-205): bestVector as well *)
Record rb := Rb { b_nh : S; b_sel : option nb; b_best : list nb; b_acc : bool }.
Definition keep_ties (a : list nb) (p : nb) : res (list nb) :=
  match a with
  | [] => UB
  | q :: _ => Ok (if lt (snd q) (snd p) then [p] else if eq (snd p) (snd q) then a ++ [p] else a)
  end.
Definition draw_from (l : list nb) (ds : list nat) : res (nb * list nat) :=
  if length l =? 0 then UB else
  let! (i, ds') := draw (length l) ds in let! p := of_opt (nth_error l i) in Ok (p, ds').
Definition rb_explore (s : sol) (x : rb) (ds : list nat) : res (sol * rb * list nat) :=
  if has (geno s) then
    let! (p, n, ds1) := start s (b_nh x) ds in
    let! (l, n', ds2) := scan (fun _ => false) keep_ties xfuel s (b_best x ++ [p]) n ds1 in
    let! (q, ds3) := draw_from l ds2 in
    Ok (s, Rb n' (Some q) l (b_acc x), ds3)
  else Ok (s, Rb (b_nh x) (b_sel x) (b_best x) false, ds).
Definition rb_accept (s : sol) (x : rb) (ds : list nat) : res (bool * rb * list nat) :=
  if has (geno s) then
    let! p := get (b_sel x) in
    let! b := better s p in Ok (b, Rb (b_nh x) (b_sel x) (b_best x) b, ds)
  else Ok (b_acc x, x, ds).
(** move draws another of the best neighbors (180-190) *)
Definition rb_move (s : sol) (x : rb) (ds : list nat) : res (sol * rb * list nat) :=
  let! (p, ds') := draw_from (b_best x) ds in let! s' := move_to p s in Ok (s', x, ds').
Definition rb_clear (x : rb) : rb := Rb (b_nh x) (b_sel x) [] (b_acc x).
Definition random_best_hc : explorer sol rb :=
  Explorer (fun _ x ds => Ok (rb_clear x, ds)) rb_explore rb_accept rb_move (fun _ _ x ds => Ok (rb_clear x, ds))
    (fun _ x => b_acc x) as_is.
(** moNeutralHCexplorer (moNeutralHCexplorer.h:90-139): a number of steps as well *)
Definition neutral_accept (s : sol) (x : rb * nat) (ds : list nat) : res (bool * (rb * nat) * list nat) :=
  let (y, k) := x in
  if has (geno s) then
    let! p := of_opt (nth_error (b_best y) 0) in
    let! b1 := better s p in
    let! b := (if b1 : bool then Ok true else equals s p) in
    Ok (b, (Rb (b_nh y) (b_sel y) (b_best y) b, k), ds)
  else Ok (b_acc y, x, ds).
Definition neutral_hc (nbStep : nat) : explorer sol (rb * nat) :=
  Explorer (fun _ x ds => Ok ((rb_clear (fst x), 0), ds))
    (fun s x ds => let! (s', y, ds') := rb_explore s (fst x) ds in Ok (s', (y, snd x), ds'))
    neutral_accept
    (fun s x ds => let! (s', y, ds') := rb_move s (fst x) ds in Ok (s', (y, snd x), ds'))
    (fun _ _ x ds => Ok ((rb_clear (fst x), Datatypes.S (snd x)), ds))
    (fun _ x => (snd x <? nbStep) && b_acc (fst x)) as_is.

(** moRandomWalkExplorer (moRandomWalkExplorer.h:80-140): one neighbor, always accepted *)
Definition walk_explore (s : sol) (x : hc) (ds : list nat) : res (sol * hc * list nat) :=
  if has (geno s) then
    let! (p, n, ds1) := start s (h_nh x) ds in Ok (s, Hc n (Some p) true, ds1)
  else Ok (s, Hc (h_nh x) (h_sel x) false, ds).
Definition random_walk : explorer sol hc :=
  Explorer (fun _ x ds => Ok (Hc (h_nh x) (h_sel x) true, ds)) walk_explore
    (fun s x ds => if has (geno s) then Ok (true, Hc (h_nh x) (h_sel x) true, ds) else Ok (h_acc x, x, ds))
    hc_move no_update (fun _ x => h_acc x) as_is.

(** moRandomNeutralWalkExplorer (moRandomNeutralWalkExplorer.h:90-158) *)
Definition nwalk_explore (s : sol) (x : hc * nat) (ds : list nat) : res (sol * (hc * nat) * list nat) :=
  let (y, k) := x in
  if has (geno s) then
    let! (p, n, ds1) := start s (h_nh y) ds in
    let! f := fitness s in
    let! (q, n', ds2) := scan (fun a => eq f (snd a)) (fun _ p => Ok p) xfuel s p n ds1 in
    Ok (s, (Hc n' (Some q) (h_acc y), k), ds2)
  else Ok (s, (Hc (h_nh y) (h_sel y) false, k), ds).
Definition nwalk_accept (s : sol) (x : hc * nat) (ds : list nat) : res (bool * (hc * nat) * list nat) :=
  let (y, k) := x in
  if has (geno s) then
    let! p := get (h_sel y) in
    let! b := equals s p in Ok (b, (Hc (h_nh y) (h_sel y) b, k), ds)
  else Ok (h_acc y, x, ds).
Definition neutral_walk (nbStep : nat) : explorer sol (hc * nat) :=
  Explorer (fun _ x ds => Ok ((Hc (h_nh (fst x)) (h_sel (fst x)) true, 0), ds)) nwalk_explore nwalk_accept
    (fun s x ds => let! (s', y, ds') := hc_move s (fst x) ds in Ok (s', (y, snd x), ds'))
    (fun _ _ x ds => Ok ((fst x, Datatypes.S (snd x)), ds))
    (fun _ x => (snd x <? nbStep) && h_acc (fst x)) as_is.

(** ** tabu search *)
Section Tabu.
(** the tabu list, the intensification, the diversification and the aspiration; [M]: their states
    together. Each function stands for the calls made one after the other on these objects. *)
Variable M : Type.
Record memories := Memories {
  m_init : sol -> M -> M;
  m_intensify : sol -> M -> list nat -> res (sol * M * list nat);
  m_diversify : sol -> M -> list nat -> res (sol * M * list nat);
  m_add : sol -> option nb -> M -> list nat -> res (M * list nat);
  m_update : sol -> option nb -> M -> M;
  m_tabu : sol -> nb -> M -> res bool;
  m_aspired : sol -> nb -> M -> res bool }.
Variable ms : memories.
Record ts := Ts { t_nh : S; t_sel : option nb; t_acc : bool; t_mem : M; t_best : sol }.
(** (!tabuList.check(...)) || aspiration(...) (moTSexplorer.h:147) *)
Definition admissible (s : sol) (m : M) (p : nb) : res bool :=
  let! t := m_tabu ms s p m in if t : bool then m_aspired ms s p m else Ok true.
(** moTSexplorer::operator() (134-184) *)
Definition ts_explore (s0 : sol) (x : ts) (ds0 : list nat) : res (sol * ts * list nat) :=
  let! (s1, m1, ds1) := m_intensify ms s0 (t_mem x) ds0 in
  let! (s, m, ds) := m_diversify ms s1 m1 ds1 in
  if has (geno s) then
    let! (p, n, ds1) := start s (t_nh x) ds in
    let! ok := admissible s m p in
    let! (o, n1, ds2) := scan (fun o => match o with Some _ => true | None => false end)
        (fun o q => let! b := admissible s m q in Ok (if b : bool then Some q else o))
        xfuel s (if ok : bool then Some p else None) n ds1 in
    match o with
    | Some q =>
        let! (q', n2, ds3) := scan (fun _ => false)
          (fun a r => let! b := admissible s m r in Ok (if b && lt (snd a) (snd r) then r else a)) xfuel s q n1 ds2 in
        Ok (s, Ts n2 (Some q') true m (t_best x), ds3)
    | None => Ok (s, Ts n1 (t_sel x) false m (t_best x), ds2)
    end
  else Ok (s, Ts (t_nh x) (t_sel x) false m (t_best x), ds).
(** updateParam (109-122) *)
Definition ts_update (moved : bool) (s : sol) (x : ts) (ds : list nat) : res (ts * list nat) :=
  let! (m, best, ds') :=
    (if moved then
       let! (m', ds') := m_add ms s (t_sel x) (t_mem x) ds in
       let! f := fitness s in let! fb := fitness (t_best x) in
       Ok (m', (if lt fb f then s else t_best x), ds')
     else Ok (t_mem x, t_best x, ds)) in
  Ok (Ts (t_nh x) (t_sel x) (t_acc x) (m_update ms s (t_sel x) m) best, ds').
(** initParam (95-102), accept (195-197), terminate (126-128) *)
Definition tabu_search : explorer sol ts :=
  Explorer (fun s x ds => Ok (Ts (t_nh x) (t_sel x) (t_acc x) (m_init ms s (t_mem x)) s, ds)) ts_explore
    (fun s x ds => Ok (t_acc x, x, ds))
    (fun s x ds => let! p := get (t_sel x) in let! s' := move_to p s in Ok (s', x, ds))
    ts_update (fun _ _ => true) (fun _ x => t_best x).
End Tabu.
End Explorers.
