(** The full evaluation of a neighbor by modification (mo/src/eval/moFullEvalByModif.h), the
    perturbations of mo (mo/src/perturb), moCountMoveMemory (mo/src/memory) and the pure random
    search (mo/src/algo/moRandomSearch.h, mo/src/explorer/moRandomSearchExplorer.h). *)
From Coq Require Import List Arith Bool.
From Verif Require Import Outcome NeighModel LsModel.
Import ListNotations.
Open Scope nat_scope.

Section Pert.
Variables (G F : Type).
Notation sol := (sol G F).
(** the evaluation function: it evaluates a solution that is invalid and leaves the others (eoEvalFuncPtr.h:71-75) *)
Variable full : G -> F.
Definition full_eval (s : sol) : sol := match fit s with Some _ => s | None => Sol (geno s) (Some (full (geno s))) end.
Definition invalidate (s : sol) : sol := Sol (geno s) None.

(** moFullEvalByModif::operator() (moFullEvalByModif.h:67-91): the solution and the fitness given to the
    neighbor.  The moves of solutions leave the fitness as it is. *)
Definition eval_by_modif {I} (move back : I -> G -> res G) (s : sol) (i : I) : res (sol * F) :=
  let! tmp := fitness s in
  let! g := move i (geno s) in
  let s := full_eval (invalidate (Sol g (fit s))) in
  let! f := fitness s in
  let! g := back i (geno s) in
  Ok (Sol g (Some tmp), f).
(** moEvalCounter::operator() (moEvalCounter.h:57-60) *)
Definition counted {I} (eval : sol -> I -> res F) (k : nat) (s : sol) (i : I) : res (nat * F) :=
  let! f := eval s i in Ok (S k, f).

(** an eoMonOp: the solution and the answer *)
Notation mon_op := (sol -> list nat -> res (sol * bool * list nat)).
Notation init_op := (sol -> list nat -> res (sol * list nat)).

(** the loop of moMonOpPerturb::operator() (moMonOpPerturb.h:72-73) *)
Fixpoint repeat_op (op : mon_op) (n : nat) (s : sol) (r : bool) (ds : list nat) : res (sol * bool * list nat) :=
  match n with
  | 0 => Ok (s, r, ds)
  | S n => let! (s, b, ds) := op s ds in repeat_op op n s (b || r) ds
  end.
(** operator() (66-79). [inl n]: a fixed number of applications; [inr (lo, hi)]: random.  lo > hi, whose
    unsigned difference wraps round, is not modelled.  rng.random(0) is 0 and draws. *)
Definition perturb_number (how : nat + nat * nat) (ds : list nat) : res (nat * list nat) :=
  match how with
  | inl n => Ok (n, ds)
  | inr (lo, hi) =>
      if hi <? lo then UB
      else let! (d, ds) := draw (hi - lo) ds in Ok (lo + (if hi - lo =? 0 then 0 else d), ds)
  end.
Definition mon_op_perturb (op : mon_op) (how : nat + nat * nat) (s : sol) (ds : list nat) : res (sol * bool * list nat) :=
  let! (n, ds) := perturb_number how ds in
  let! (s, r, ds) := repeat_op op n s false ds in
  Ok (full_eval (invalidate s), r, ds).

(** moCountMoveMemory (moCountMoveMemory.h:46-109): nbMove, nbNoMove, counter; uninitialised before init *)
Record counters := Counters { nbMove : nat; nbNoMove : nat; counter : nat }.
Definition count_init (_ : sol) (_ : option counters) (ds : list nat) : res (option counters * list nat) :=
  Ok (Some (Counters 0 0 0), ds).
Definition count_add (_ : sol) (c : option counters) (ds : list nat) : res (option counters * list nat) :=
  let! c := of_opt c in Ok (Some (Counters (S (nbMove c)) (nbNoMove c) 0), ds).
Definition count_update (_ : sol) (c : option counters) (ds : list nat) : res (option counters * list nat) :=
  let! c := of_opt c in Ok (Some (Counters (nbMove c) (S (nbNoMove c)) (S (counter c))), ds).
(** moRestartPerturb::operator() (moRestartPerturb.h:62-69) *)
Definition restart_apply (init : init_op) (threshold : nat) (s : sol) (c : option counters) (ds : list nat)
    : res (sol * option counters * list nat) :=
  let! c := of_opt c in
  if threshold <=? counter c then
    let! (s, ds) := init s ds in
    Ok (full_eval s, Some (Counters (nbMove c) (nbNoMove c) 0), ds)
  else Ok (s, Some c, ds).

(** moNeighborhoodPerturb (moNeighborhoodPerturb.h:59-96): the state of the other neighborhood and the
    current neighbor, which is not set before the first init *)
Section Neighborhood.
Variables (S I : Type) (has : G -> bool) (nh : G -> iterator S I) (neval : sol -> I -> res F) (move : I -> G -> res G).
Definition nbh_init (s : sol) (p : S * option I) (ds : list nat) : res (S * option I * list nat) :=
  if has (geno s) then let! (n, i, ds) := i_init (nh (geno s)) (fst p) ds in Ok ((n, Some i), ds) else Ok (p, ds).
Definition nbh_update (s : sol) (p : S * option I) (ds : list nat) : res (S * option I * list nat) :=
  if i_cont (nh (geno s)) (fst p) then let! (n, i, ds) := i_next (nh (geno s)) (fst p) ds in Ok ((n, Some i), ds)
  else nbh_init s p ds.
Definition nbh_apply (s : sol) (p : S * option I) (ds : list nat) : res (sol * (S * option I) * list nat) :=
  if has (geno s) then
    let! i := of_opt (snd p) in
    let! f := neval s i in
    let! g := move i (geno s) in Ok (Sol g (Some f), p, ds)
  else Ok (s, p, ds).
End Neighborhood.

(** moRandomSearchExplorer (moRandomSearchExplorer.h:66-133): the field is step *)
Definition random_search_explorer (init : init_op) (nbStep : nat) : explorer sol nat :=
  Explorer (fun _ _ ds => Ok (0, ds))
    (fun s x ds => let! (s, ds) := init s ds in Ok (full_eval s, x, ds))
    (fun _ x ds => Ok (true, x, ds))
    (fun s x ds => Ok (s, x, ds))
    (fun _ _ x ds => Ok (S x, ds))
    (fun _ x => x <? nbStep)
    (fun s _ => s).
(** moRandomSearch (moRandomSearch.h:57-73) *)
Definition random_search {C} (init : init_op) (nbSolMax : nat) (c : continuator sol C) fuel s cs ds :=
  local_search full (random_search_explorer init (if 0 <? nbSolMax then nbSolMax - 1 else 0)) c fuel s 0 cs ds.
(** moLocalSearchInit (moLocalSearchInit.h:57-60), moSolInit (moSolInit.h:58-60) *)
Definition local_search_init (init : init_op) (ls : sol -> list nat -> res (sol * list nat)) (s : sol) (ds : list nat) : res (sol * list nat) :=
  let! (s, ds) := init s ds in ls s ds.
Definition sol_init (ext : sol) (s : sol) (ds : list nat) : res (sol * list nat) := Ok (ext, ds).
End Pert.
