(** Model of the other single-solution searches of mo: variable neighborhood search, iterated local
    search, simulated annealing and Metropolis-Hastings (mo/src/explorer), with the selections of
    heuristics (mo/src/neighborhood), the acceptance criteria (mo/src/acceptCrit) and the cooling
    schedules (mo/src/coolingSchedule). All are explorers of moLocalSearch (LsModel.v). *)
From Coq Require Import List Arith Bool ZArith QArith.
From Verif Require Import Outcome NeighModel LsModel.
From Coq Require Import List.
Import ListNotations.
Open Scope nat_scope.

(** ** selections of heuristics *)
Inductive vn_kind := Forward | Backward | Random.
(** current, order and currentOrder (moVectorVNSelection.h, moRndVectorVNSelection.h); [s_inits]: how many
    times init was called, which tells the shuffles apart *)
Record vn_sel := VnSel { s_current : nat; s_order : list nat; s_pos : nat; s_inits : nat }.
Section Selection.
(** the class, the number of heuristics, the flag cycle, the shuffles (std::shuffle seeded from
    std::random_device) *)
Variables (kind : vn_kind) (size : nat) (cycle : bool) (shuf : nat -> list nat -> list nat).
(** init (moForwardVectorVNSelection.h:81-83, moBackwardVectorVNSelection.h:81-83,
    moRndVectorVNSelection.h:84-102) *)
Definition sel_init (s : vn_sel) : res vn_sel :=
  match kind with
  | Forward => Ok (VnSel 0 (s_order s) (s_pos s) (S (s_inits s)))
  | Backward => Ok (VnSel (size - 1) (s_order s) (s_pos s) (S (s_inits s)))
  | Random =>
      let order := shuf (s_inits s) (if length (s_order s) =? 0 then seq 0 size else s_order s) in
      let! c := of_opt (nth_error order 0) in Ok (VnSel c order 0 (S (s_inits s)))
  end.
(** cont (72-74; 72-74; 75-77). [size() - 2] is unsigned: with one heuristic it is the largest size_t. *)
Definition le_minus_2 (k n : nat) : bool := (n <? 2) || (k <=? n - 2).
Definition sel_cont (s : vn_sel) : bool :=
  match kind with
  | Forward => cycle || le_minus_2 (s_current s) size
  | Backward => cycle || (0 <? s_current s)
  | Random => cycle || le_minus_2 (s_pos s) (length (s_order s))
  end.
(** next (90-92; 90-92; 109-113) *)
Definition sel_next (s : vn_sel) : res vn_sel :=
  match kind with
  | Forward => if size =? 0 then UB else Ok (VnSel ((s_current s + 1) mod size) (s_order s) (s_pos s) (s_inits s))
  | Backward => if size =? 0 then UB else Ok (VnSel ((s_current s + size - 1) mod size) (s_order s) (s_pos s) (s_inits s))
  | Random =>
      if length (s_order s) =? 0 then UB else
      let p := (s_pos s + 1) mod length (s_order s) in
      let! c := of_opt (nth_error (s_order s) p) in Ok (VnSel c (s_order s) p (s_inits s))
  end.
End Selection.

Section Searches.
Variables (G F : Type) (lt : F -> F -> bool).
Notation sol := (sol G F).
(** moAlwaysAcceptCrit.h and moBetterAcceptCrit.h: operator()(solution, new solution) *)
Definition always_accept (a b : sol) : res bool := Ok true.
Definition better_accept (a b : sol) : res bool := let! f := fitness a in let! g := fitness b in Ok (lt f g).

(** ** variable neighborhood search (moVNSexplorer.h) *)
Section Vns.
Variables (kind : vn_kind) (cycle : bool) (shuf : nat -> list nat -> list nat).
(** an operator (eoMonOp) on solutions; the heuristics are pairs of a shake and a local search *)
Notation operator := (sol -> list nat -> res (sol * list nat)).
Variable hs : list (operator * operator).
Variable crit : sol -> sol -> res bool.
(** fields: selection, bestSoFar, currentSol, stop, first; and, for the statements only, the solutions the
    local searches gave ([v_made]) and the heuristics used ([v_used]), in order *)
Record vns := Vns { v_sel : vn_sel; v_best : option sol; v_cur : option sol; v_stop : bool; v_first : bool; v_made : list sol; v_used : list nat }.
(** initParam (74-81) *)
Definition vns_init (s : sol) (x : vns) (ds : list nat) : res (vns * list nat) :=
  let! c := sel_init kind (length hs) shuf (v_sel x) in
  Ok (Vns c (Some s) (v_cur x) (v_stop x) true (v_made x) (v_used x), ds).
(** operator() (108-119) *)
Definition vns_explore (s : sol) (x : vns) (ds : list nat) : res (sol * vns * list nat) :=
  let! (shake, ls) := of_opt (nth_error hs (s_current (v_sel x))) in
  let! (s1, ds1) := shake s ds in
  let! (s2, ds2) := ls s1 ds1 in
  let! best := of_opt (v_best x) in
  let! f := fitness best in
  let! g := fitness s2 in
  Ok (s, Vns (v_sel x) (Some (if lt f g then s2 else best)) (Some s2) (v_stop x) (v_first x) (v_made x ++ [s2]) (v_used x ++ [s_current (v_sel x)]), ds2).
(** accept, move (134-146) *)
Definition vns_accept (s : sol) (x : vns) (ds : list nat) : res (bool * vns * list nat) :=
  let! c := of_opt (v_cur x) in let! b := crit s c in Ok (b, x, ds).
Definition vns_move (s : sol) (x : vns) (ds : list nat) : res (sol * vns * list nat) :=
  let! c := of_opt (v_cur x) in Ok (c, x, ds).
(** updateParam (87-96) *)
Definition vns_update (moved : bool) (s : sol) (x : vns) (ds : list nat) : res (vns * list nat) :=
  if negb (v_first x) && moved then
    let! c := sel_init kind (length hs) shuf (v_sel x) in
    Ok (Vns c (v_best x) (v_cur x) (v_stop x) false (v_made x) (v_used x), ds)
  else if sel_cont kind (length hs) cycle (v_sel x) then
    let! c := sel_next kind (length hs) (v_sel x) in
    Ok (Vns c (v_best x) (v_cur x) (v_stop x) (v_first x) (v_made x) (v_used x), ds)
  else Ok (Vns (v_sel x) (v_best x) (v_cur x) true (v_first x) (v_made x) (v_used x), ds).
(** isContinue (126-128), terminate (101-103) *)
Definition vns_search : explorer sol vns :=
  Explorer vns_init vns_explore vns_accept vns_move vns_update (fun _ x => negb (v_stop x))
    (fun s x => match v_best x with Some b => b | None => s end).
(** just constructed, with the selection given *)
Definition vns_new (c : vn_sel) : vns := Vns c None None false true [] [].
End Vns.

(** ** iterated local search (moILSexplorer.h) *)
Section Ils.
(** the perturbation (with its memory): operator(), and what init, add and update do to its state; the
    local search; the acceptance criterion, without memory *)
Variable P : Type.
Variables (p_init : sol -> P -> list nat -> res (P * list nat)) (p_apply : sol -> P -> list nat -> res (sol * P * list nat)).
Variables (p_add p_update : sol -> P -> list nat -> res (P * list nat)).
Variables (ls : sol -> list nat -> res (sol * list nat)) (crit : sol -> sol -> res bool).
(** firstIteration, currentSol, the perturbation; for the statements, what the local search was given and
    what it gave, in order *)
Record ils := Ils { i_first : bool; i_cur : option sol; i_pert : P; i_from : list sol; i_made : list sol }.
(** initParam (86-90) *)
Definition ils_init (s : sol) (x : ils) (ds : list nat) : res (ils * list nat) :=
  let! (p, ds1) := p_init s (i_pert x) ds in Ok (Ils true (i_cur x) p (i_from x) (i_made x), ds1).
(** operator() (115-131) *)
Definition ils_explore (s : sol) (x : ils) (ds : list nat) : res (sol * ils * list nat) :=
  let! (s1, p, ds1) := (if i_first x then Ok (s, i_pert x, ds) else p_apply s (i_pert x) ds) in
  let! (s2, ds2) := ls s1 ds1 in
  Ok (s, Ils false (Some s2) p (i_from x ++ [s1]) (i_made x ++ [s2]), ds2).
(** accept, move (146-157) *)
Definition ils_accept (s : sol) (x : ils) (ds : list nat) : res (bool * ils * list nat) :=
  let! c := of_opt (i_cur x) in let! b := crit s c in Ok (b, x, ds).
Definition ils_move (s : sol) (x : ils) (ds : list nat) : res (sol * ils * list nat) :=
  let! c := of_opt (i_cur x) in Ok (c, x, ds).
(** updateParam (96-103) *)
Definition ils_update (moved : bool) (s : sol) (x : ils) (ds : list nat) : res (ils * list nat) :=
  let! (p1, ds1) := (if moved then p_add s (i_pert x) ds else Ok (i_pert x, ds)) in
  let! (p2, ds2) := p_update s p1 ds1 in
  Ok (Ils (i_first x) (i_cur x) p2 (i_from x) (i_made x), ds2).
(** isContinue (138-140), terminate (109) *)
Definition ils_search : explorer sol ils := Explorer ils_init ils_explore ils_accept ils_move ils_update (fun _ _ => true) (fun s _ => s).
Definition ils_new (p : P) : ils := Ils true None p [] [].
End Ils.

(** ** simulated annealing and Metropolis-Hastings *)
Section Annealing.
Variables (S I : Type) (has : G -> bool) (nh : G -> iterator S I) (neval : sol -> I -> res F) (move : I -> G -> res G).
(** conversion of a fitness to double; the exponential. Doubles are exact here. *)
Variables (dbl : F -> Q) (exp : Q -> Q).
(** rng.uniform(): the draw divided by 2^32 (eoRNG.h:177-180) *)
Definition uniform01 (ds : list nat) : res (Q * list nat) :=
  match ds with [] => NoDraw | d :: r => Ok ((Z.of_nat d # 4294967296)%Q, r) end.
Definition below (a b : Q) : bool := negb (Qle_bool b a).
(** the cooling schedule (moCoolingSchedule.h): init, update (the new temperature), operator() *)
Record cooling (K : Type) := Cooling { k_init : K -> Q * K; k_update : Q -> bool -> K -> Q * K; k_go : Q -> K -> bool }.
Arguments k_init {K}.
Arguments k_update {K}.
Arguments k_go {K}.
Variables (K : Type) (cs : cooling K).
(** the neighborhood, selectedNeighbor, isAccept, temperature, the schedule *)
Record sa := Sa { a_hc : hc F S I; a_temp : Q; a_cool : K }.
(** operator() (moSAexplorer.h:112-125, moMetropolisHastingExplorer.h:111-124) *)
Definition random_neighbor (s : sol) (x : hc F S I) (ds : list nat) : res (hc F S I * list nat) :=
  if has (geno s) then
    let! (p, n, ds1) := start G F S I nh neval s (h_nh _ _ _ x) ds in
    Ok (Hc _ _ _ n (Some p) (h_acc _ _ _ x), ds1)
  else Ok (Hc _ _ _ (h_nh _ _ _ x) (h_sel _ _ _ x) false, ds).
(** accept (moSAexplorer.h:141-158) *)
Definition sa_accept (s : sol) (x : sa) (ds : list nat) : res (bool * sa * list nat) :=
  if has (geno s) then
    let! p := get F I (h_sel _ _ _ (a_hc x)) in
    let! f := fitness s in
    let! (b, ds1) := (if lt f (snd p) then Ok (true, ds)
      else
        let fit1 := dbl (snd p) in let fit2 := dbl f in
        let alpha := if below fit1 fit2 then exp ((fit1 - fit2) / a_temp x)%Q else exp ((fit2 - fit1) / a_temp x)%Q in
        let! (u, ds1) := uniform01 ds in Ok (below u alpha, ds1)) in
    Ok (b, Sa (Hc _ _ _ (h_nh _ _ _ (a_hc x)) (h_sel _ _ _ (a_hc x)) b) (a_temp x) (a_cool x), ds1)
  else Ok (h_acc _ _ _ (a_hc x), x, ds).
(** initParam, updateParam, isContinue (moSAexplorer.h:89-100, 132-134) *)
Definition sa_search : explorer sol sa :=
  Explorer
    (fun _ x ds => let (t, k) := k_init cs (a_cool x) in Ok (Sa (Hc _ _ _ (h_nh _ _ _ (a_hc x)) (h_sel _ _ _ (a_hc x)) false) t k, ds))
    (fun s x ds => let! (y, ds1) := random_neighbor s (a_hc x) ds in Ok (s, Sa y (a_temp x) (a_cool x), ds1))
    sa_accept
    (fun s x ds => let! (s', y, ds1) := hc_move G F S I move s (a_hc x) ds in Ok (s', Sa y (a_temp x) (a_cool x), ds1))
    (fun b _ x ds => let (t, k) := k_update cs (a_temp x) b (a_cool x) in Ok (Sa (a_hc x) t k, ds))
    (fun _ x => k_go cs (a_temp x) (a_cool x))
    (fun s _ => s).
(** moMetropolisHastingExplorer::accept (140-162) *)
Definition mh_accept (s : sol) (x : hc F S I * nat) (ds : list nat) : res (bool * (hc F S I * nat) * list nat) :=
  let (y, k) := x in
  if has (geno s) then
    let! p := get F I (h_sel _ _ _ y) in
    let! f := fitness s in
    let! (b, ds1) := (if lt f (snd p) then Ok (true, ds)
      else
        let fit1 := dbl (snd p) in let fit2 := dbl f in
        if Qeq_bool fit2 0 then Ok (below fit1 fit2, ds)
        else
          let alpha := if below fit1 fit2 then (fit1 / fit2)%Q else (fit2 / fit1)%Q in
          let! (u, ds1) := uniform01 ds in Ok (below u alpha, ds1)) in
    Ok (b, (Hc _ _ _ (h_nh _ _ _ y) (h_sel _ _ _ y) b, k), ds1)
  else Ok (h_acc _ _ _ y, x, ds).
(** initParam, updateParam, isContinue (moMetropolisHastingExplorer.h:88-101, 131-133) *)
Definition mh_search (nbStep : nat) : explorer sol (hc F S I * nat) :=
  Explorer
    (fun _ x ds => Ok ((Hc _ _ _ (h_nh _ _ _ (fst x)) (h_sel _ _ _ (fst x)) true, 0), ds))
    (fun s x ds => let! (y, ds1) := random_neighbor s (fst x) ds in Ok (s, (y, snd x), ds1))
    mh_accept
    (fun s x ds => let! (s', y, ds1) := hc_move G F S I move s (fst x) ds in Ok (s', (y, snd x), ds1))
    (fun _ _ x ds => Ok ((fst x, Datatypes.S (snd x)), ds))
    (fun _ x => snd x <? nbStep)
    (fun s _ => s).
End Annealing.
End Searches.

(** ** cooling schedules *)
Arguments Cooling {K}.
Arguments k_init {K}.
Arguments k_update {K}.
Arguments k_go {K}.
(** moSimpleCoolingSchedule.h:62-87; the state is step *)
Definition simple_cooling (initT alpha : Q) (span : nat) (finalT : Q) : cooling nat :=
  Cooling (fun _ => (initT, 0))
    (fun t _ step => if span <=? step then ((t * alpha)%Q, 0) else (t, S step))
    (fun t _ => below finalT t).
(** moDynSpanCoolingSchedule.h:67-110; the state is spanTries, spanMove, nbSpan *)
Definition dyn_cooling (initT alpha : Q) (spanTriesMax spanMoveMax nbSpanMax : nat) : cooling (nat * nat * nat) :=
  Cooling (fun _ => (initT, (0, 0, 0)))
    (fun t moved '(tries, moves, nb) =>
       let tries1 := S tries in
       let moves1 := if moved then S moves else moves in
       if (spanTriesMax <=? tries1) || (spanMoveMax <=? moves1)
       then ((t * alpha)%Q, (0, 0, if moves1 =? 0 then S nb else 0))
       else (t, (tries1, moves1, nb)))
    (fun _ '(_, _, nb) => nb <=? nbSpanMax).
