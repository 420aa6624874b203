(** Model of the multi-objective replacements (moeo/src/replacement), comparators of
    individuals (moeo/src/comparator) and selectors (moeo/src/selection). *)
From Coq Require Import List Arith Bool ZArith QArith.
From Verif Require Import Outcome Lib PopModel SelectModel.
Import ListNotations.
Close Scope Q_scope.
Open Scope nat_scope.

(** an evaluated individual: the solution (with its objective vector), its fitness and its
    diversity (moeo/src/core/MOEO.h; the accessors throw on invalid ones, not modelled) *)
Record moeo (B : Type) := Moeo { sol : B; mfit : Q; mdiv : Q }.
Arguments Moeo {B}.
Arguments sol {B}.
Arguments mfit {B}.
Arguments mdiv {B}.

Definition qlt (x y : Q) : bool := negb (Qle_bool y x).
(** moeoFitnessThenDiversityComparator.h:55-65 *)
Definition fit_then_div {B} (a b : moeo B) : bool :=
  if Qeq_bool (mfit a) (mfit b) then qlt (mdiv a) (mdiv b) else qlt (mfit a) (mfit b).
(** moeoDiversityThenFitnessComparator.h:55-65 *)
Definition div_then_fit {B} (a b : moeo B) : bool :=
  if Qeq_bool (mdiv a) (mdiv b) then qlt (mfit a) (mfit b) else qlt (mdiv a) (mdiv b).
(** moeoAggregativeComparator.h:67-70; exact arithmetic *)
Definition aggregative {B} (wf wd : Q) (a b : moeo B) : bool :=
  qlt (wf * mfit a + wd * mdiv a)%Q (wf * mfit b + wd * mdiv b)%Q.

Section Repl.
Variable A : Type.
Variable comp : A -> A -> bool.
Variable sort : forall T : Type, (T -> T -> bool) -> list T -> list T.
(** fitnessAssignment(pop), diversityAssignment(pop): any functions *)
Variables fit div : list A -> list A.
(** updateByDeleting(pop, removed) *)
Variables fit_del div_del : list A -> A -> list A.

(** moeoElitistReplacement::operator() (101-116): the parents and the (cleared) offspring *)
Definition elitist (parents offspring : list A) : list A * list A :=
  let sz := length parents in
  let merged := div (fit (parents ++ offspring)) in
  (firstn sz (sort A (fun a b => comp b a) merged), []).

(** the while loop of moeoEnvironmentalReplacement (117-129); out of fuel is [NoDraw] *)
Fixpoint env_loop (fuel sz : nat) (pop : list A) : res (list A) :=
  if sz <? length pop then
    match fuel with
    | 0 => NoDraw
    | S f =>
        let! i := of_opt (it_worse_element A comp pop) in
        let! w := of_opt (nth_error pop i) in
        let! back := of_opt (nth_error pop (length pop - 1)) in
        let! p := of_opt (upd pop i back) in
        let p' := removelast p in
        env_loop f sz (div_del (fit_del p' w) w)
    end
  else Ok pop.
(** moeoEnvironmentalReplacement::operator() (105-132) *)
Definition environmental (parents offspring : list A) : res (list A * list A) :=
  let merged := div (fit (parents ++ offspring)) in
  let! p := env_loop (length merged) (length parents) merged in Ok (p, []).
End Repl.

(** rng.flip(rate) with rate 1 ([certain]) or with a rate strictly between 0 and 1 *)
Definition the_flip (certain : bool) (ds : list nat) : res (bool * list nat) :=
  let! (b, ds') := draw_flip ds in Ok (certain || b, ds').
Section MoSelect.
Variable A : Type.
Variable comp : A -> A -> bool.
(** mo_deterministic_tournament (moeoSelectors.h:44-58) *)
Fixpoint mo_det_loop (pop : list A) (n : nat) (best : A) (ds : list nat) : res (A * list nat) :=
  match n with
  | 0 => Ok (best, ds)
  | S n' =>
      let! (i, ds') := draw (length pop) ds in
      let! c := of_opt (nth_error pop i) in
      mo_det_loop pop n' (if comp best c then c else best) ds'
  end.
Definition mo_det_tournament (pop : list A) (t : nat) (ds : list nat) : res (A * list nat) :=
  let! (i, ds') := draw (length pop) ds in
  let! b := of_opt (nth_error pop i) in
  mo_det_loop pop (t - 1) b ds'.
(** moeoDetTournamentSelect (58-70, 90-94): the size is at least 2 *)
Definition moeo_det_select (t : nat) (pop : list A) (ds : list nat) : res (A * list nat) :=
  mo_det_tournament pop (if t <? 2 then 2 else t) ds.
(** mo_stochastic_tournament (moeoSelectors.h:75-98); with rate 1 ([certain]) the flip always succeeds *)
Definition mo_stoch_tournament (pop : list A) (certain : bool) (ds : list nat) : res (A * list nat) :=
  let! (i1, ds1) := draw (length pop) ds in
  let! (i2, ds2) := draw (length pop) ds1 in
  let! a := of_opt (nth_error pop i1) in
  let! b := of_opt (nth_error pop i2) in
  let! (better, ds3) := the_flip certain ds2 in
  Ok ((if comp a b then if better then b else a else if better then a else b), ds3).
(** moeoSelectFromPopAndArch::operator() (83-96) *)
Definition pop_and_arch (arch : list A) (from_pop from_arch : list A -> list nat -> res (A * list nat))
    (certain : bool) (pop : list A) (ds : list nat) : res (A * list nat) :=
  if 0 <? length arch then
    let! (b, ds') := the_flip certain ds in
    if b then from_pop pop ds' else from_arch arch ds'
  else from_pop pop ds.
(** moeoDetArchiveSelect::operator() (58-92); the shuffle uses std::random_device *)
Fixpoint cyclic (arch : list A) (i k : nat) : res (list A) :=
  match k with
  | 0 => Ok []
  | S k' => if length arch =? 0 then UB else
            let! x := of_opt (nth_error arch (i mod length arch)) in
            let! r := cyclic arch (S i) k' in Ok (x :: r)
  end.
Fixpoint pick_all (arch : list A) (idx : list nat) : res (list A) :=
  match idx with
  | [] => Ok []
  | i :: r => let! x := of_opt (nth_error arch i) in let! s := pick_all arch r in Ok (x :: s)
  end.
Definition det_archive_select (shuf : list nat -> list nat) (arch : list A) (mx mn : nat) (dest : list A) : res (list A) :=
  if mx <? mn then Ok dest
  else if (mn <=? length arch) && (length arch <=? mx) then Ok arch
  else if mx <? length arch then pick_all arch (firstn mx (shuf (seq 0 (length arch))))
  else cyclic arch 0 mn.
(** moeoExhaustiveUnvisitedSelect and moeoNumberUnvisitedSelect (64-80) *)
Definition unvisited (visited : A -> bool) (pop : list A) : list nat :=
  filter (fun i => match nth_error pop i with Some x => negb (visited x) | None => false end) (seq 0 (length pop)).
Definition number_unvisited (shuf : list nat -> list nat) (visited : A -> bool) (number : nat) (pop : list A) : list nat :=
  let r := unvisited visited pop in
  if number <? length r then firstn number (shuf r) else r.
End MoSelect.

(** mo_roulette_wheel(_pop, total) (moeoSelectors.h:136-152): fitnesses only, exact arithmetic.
    [u]: the number drawn in [0, total). The loop runs past the end (undefined) when the
    fitnesses sum to less than [u]. *)
Fixpoint wheel (fs : list Q) (i : nat) (u : Q) : res nat :=
  if qlt 0 u then
    match fs with
    | [] => UB
    | f :: r => wheel r (S i) (u - f)%Q
    end
  else Ok (i - 1).
(** moeoRouletteSelect::operator() (71-75) calls it with the tournament size as total *)
Definition moeo_roulette (tsize : nat) (frac : Q) (fs : list Q) (ds : list nat) : res (nat * list nat) :=
  let u := (frac * inject_Z (Z.of_nat (if tsize <? 2 then 2 else tsize)))%Q in
  if Qeq_bool u 0 then draw (length fs) ds else let! i := wheel fs 0 u in Ok (i, ds).
