(** Model of the samplings of fitness landscapes of mo (mo/src/sampling), with the statistics of
    mo/src/continuator they use, moVectorMonitor (mo/src/continuator/moVectorMonitor.h), and
    moLocalSearchInit applied to a hill climber.  Doubles are exact rationals; the conversions of
    unsigned numbers to double are exact (they are below 2^53). *)
From Coq Require Import List Bool Arith QArith.
From Verif Require Import Outcome NeighModel LsModel PertModel StatModel StopModel.
Import ListNotations.
Close Scope Q_scope.
Open Scope nat_scope.

(** ** statistics, monitors, checkpoint *)
Section Checkpoint.
Variables (T V A C : Type).
(** a statistic (moStatBase.h): init and operator(); [V]: the fields of all statistics together *)
Record stat := Stat { st_init : T -> V -> V; st_call : T -> V -> V }.
(** moVectorMonitor (moVectorMonitor.h:150-170, 285-293): the value of the statistic it reads, and the
    vector of the values saved so far (valueVec or eotVec) *)
Record monitor := Monitor { m_read : V -> A; m_values : list A }.
(** operator() (156-170): push_back *)
Definition save (v : V) (m : monitor) : monitor := Monitor (m_read m) (m_values m ++ [m_read m v]).
(** clear (226-229) *)
Definition clear (m : monitor) : monitor := Monitor (m_read m) [].
Variables (stats : list stat) (c : continuator T C).
(** for (i = 0; i < stats.size(); ++i) (moCheckpoint.h:108-109, 138-142 with interval 1) *)
Definition inits (s : T) (v : V) : V := fold_left (fun v st => st_init st s v) stats v.
Definition calls (s : T) (v : V) : V := fold_left (fun v st => st_call st s v) stats v.
(** moCheckpoint::init (107-120) and operator() (134-158), with statistics, monitors and one continuator *)
Definition checkpoint : continuator T (V * list monitor * C) :=
  Continuator
    (fun s st => let '(v, ms, cs) := st in let v' := inits s v in (v', map (save v') ms, c_init c s cs))
    (fun s st => let '(v, ms, cs) := st in let v' := calls s v in
       let '(b, cs') := c_step c s cs in (if negb b then false else true, (v', map (save v') ms, cs'))).
End Checkpoint.
Arguments Stat {T V}.
Arguments st_init {T V}.
Arguments st_call {T V}.
Arguments Monitor {V A}.
Arguments m_read {V A}.
Arguments m_values {V A}.
Arguments save {V A}.
Arguments clear {V A}.
Arguments inits {T V}.
Arguments calls {T V}.
Arguments checkpoint {T V A C}.

(** moSampling::add (moSampling.h:98-107): a statistic, and a monitor of it if _monitoring *)
Definition added {T V A} (l : list (stat T V * option (V -> A))) : list (stat T V) * list (monitor V A) :=
  fold_left (fun p q => (fst p ++ [fst q], match snd q with Some read => snd p ++ [Monitor read []] | None => snd p end)) l ([], []).

(** moSampling::operator() (112-135): the vectors are cleared, a solution is built ([blank]) and initialised,
    and the search is run with the checkpoint. The continuator is passed to the search as an argument: setting it
    back (134) is not modelled. *)
Definition sampling {G F X V A C} (full : G -> F) (init : sol G F -> list nat -> res (sol G F * list nat)) (blank : sol G F)
    (e : explorer (sol G F) X) (c : continuator (sol G F) C) (stats : list (stat (sol G F) V)) (ms : list (monitor V A))
    (fuel : nat) (x : X) (v : V) (cs : C) (ds : list nat) : res (run (sol G F) X (V * list (monitor V A) * C)) :=
  let! (s, ds) := init blank ds in
  local_search full e (checkpoint stats c) fuel s x (v, map clear ms, cs) ds.

(** moTrueContinuator (moTrueContinuator.h) *)
Definition true_cont {T} : continuator T unit := Continuator (fun _ x => x) (fun _ x => (true, x)).

(** ** statistics; [get] and [put] read and write value() *)
(** a statistic that computes value() from the solution: moFitnessStat (moFitnessStat.h:61-73), moSolutionStat
    (moSolutionStat.h:62-72), moDistanceStat (moDistanceStat.h:63-73) *)
Definition value_stat {T V B} (put : B -> V -> V) (f : T -> B) : stat T V :=
  Stat (fun s v => put (f s) v) (fun s v => put (f s) v).
(** moStatFromStat (moStatFromStat.h:60-70): the value of another statistic *)
Definition from_stat {T V B} (get : V -> B) (put : B -> V -> V) : stat T V :=
  Stat (fun _ v => put (get v) v) (fun _ v => put (get v) v).
(** moCounterStat (moCounterStat.h:59-69) *)
Definition counter_stat {T V} (get : V -> nat) (put : nat -> V -> V) : stat T V :=
  Stat (fun _ v => put 0 v) (fun _ v => put (get v + 1) v).
(** moMinusOneCounterStat (moMinusOneCounterStat.h:61-76): the counter and value() *)
Definition minus_one_stat {T V} (get : V -> nat * nat) (put : nat * nat -> V -> V) : stat T V :=
  Stat (fun _ v => put (0, 0) v)
    (fun _ v => let n := S (fst (get v)) in put (n, if 0 <? n then n - 1 else 0) v).
(** moValueStat (moValueStat.h:63-78): [param] reads the parameter; the fields are value_start and value().
    The difference of unsigned numbers wraps in the code when the parameter went below value_start; it is
    truncated here. *)
Definition param_stat {T V} (restart : bool) (param : T -> nat) (get : V -> nat * nat) (put : nat * nat -> V -> V) : stat T V :=
  Stat (fun s v => let start := if restart then param s else 0 in put (start, param s - start) v)
    (fun s v => let start := fst (get v) in put (start, param s - start) v).

(** the value of moFitnessStat; [None]: the code throws, since the fitness is invalid (EO.h:92-97) *)
Definition fit_of {G F} (s : sol G F) : option F := fit s.

(** ** samplings with one or two statistics of the solution *)
Section Simple.
Variables (G F S I : Type) (full : G -> F) (init : sol G F -> list nat -> res (sol G F * list nat)) (blank : sol G F).
Notation sol := (sol G F).
(** moAutocorrelationSampling (moAutocorrelationSampling.h:68-74): a random walk with moIterContinuator
    (moRandomWalk.h:62-66), the fitness *)
Definition autocorrelation_sampling (has : G -> bool) (nh : G -> iterator S I) (neval : sol -> I -> res F) (move : I -> G -> res G)
    (nbStep : nat) (fuel : nat) (x : hc F S I) (v : option F) (cs : nat) (ds : list nat) :=
  let '(stats, ms) := added [(value_stat (fun b _ => b) fit_of, Some (fun v : option F => v))] in
  sampling full init blank (random_walk G F S I has nh neval move) (iter_cont sol nbStep) stats ms fuel x v cs ds.
(** moDensityOfStatesSampling (moDensityOfStatesSampling.h:64-68): a random search, the fitness *)
Definition random_search_of (nbSol : nat) : explorer sol nat :=
  random_search_explorer G F full init (if 0 <? nbSol then nbSol - 1 else 0).
Definition density_sampling (nbSol : nat) (fuel : nat) (v : option F) (ds : list nat) :=
  let '(stats, ms) := added [(value_stat (fun b _ => b) fit_of, Some (fun v : option F => v))] in
  sampling full init blank (random_search_of nbSol) true_cont stats ms fuel 0 v tt ds.
(** moFDCsampling (moFDCsampling.h:70-79): the fitness, and the distance to a reference solution; a cell of a
    column is a fitness or a distance *)
Definition fdc_sampling (dist : sol -> sol -> Q) (ref : sol) (nbSol : nat) (fuel : nat) (v : option F * Q) (ds : list nat) :=
  let '(stats, ms) := added [(value_stat (fun b v => (b, snd v)) fit_of, Some (fun v : option F * Q => inl (fst v)));
                             (value_stat (fun b v => (fst v, b)) (fun s => dist s ref), Some (fun v => inr (snd v)))] in
  sampling full init blank (random_search_of nbSol) true_cont stats ms fuel 0 v tt ds.

(** ** samplings that look at the neighborhood *)
(** a statistic that explores the neighborhood: its value, the state of the neighborhood and the draws it uses
    (it has its own draws, and its failures are kept with its value) *)
Definition nb_stat {B} (f : sol -> option B -> S -> list nat -> res (B * S * list nat)) (s : sol)
    (w : res (option B * S * list nat)) : res (option B * S * list nat) :=
  let! (o, n, ds) := w in let! (b, n, ds) := f s o n ds in Ok (Some b, n, ds).
Section Cloud.
Variables (lt eq : F -> F -> bool) (has : G -> bool) (nh : G -> iterator S I) (neval : sol -> I -> res F) (xfuel : nat) (no_fitness : F).
(** moNeighborBestStat::operator() (moNeighborBestStat.h:102-139); [no_fitness]: Fitness() *)
Definition best_neighbor_stat (kmax : nat) (s : sol) (_ : option F) (n : S) (ds : list nat) : res (F * S * list nat) :=
  if has (geno s) then
    let! (p, n, ds) := start G F S I nh neval s n ds in
    let! (a, n, ds) := scan G F S I nh neval (fun a => negb ((kmax =? 0) || (snd a <? kmax)))
      (fun a p => Ok (if lt (snd (fst a)) (snd p) then p else fst a, snd a + 1)) xfuel s (p, 1) n ds in
    Ok (snd (fst a), n, ds)
  else Ok (no_fitness, n, ds).
(** moNeighborFitnessStat::operator() (moNeighborFitnessStat.h:81-97) *)
Definition one_neighbor_stat (s : sol) (_ : option F) (n : S) (ds : list nat) : res (F * S * list nat) :=
  if has (geno s) then
    let! (p, n, ds) := start G F S I nh neval s n ds in Ok (snd p, n, ds)
  else Ok (no_fitness, n, ds).
(** moNeighborhoodStat followed by moNeutralDegreeNeighborStat (moNeutralDegreeNeighborStat.h:66-76): getNbEqual()
    is left as it was when the solution has no neighbor; it is not initialised before ([UB]) *)
Definition neutral_degree_stat (val : F -> Q) (as_fit : Q -> F) (sqrt : Q -> Q) (sort : forall T : Type, (T -> T -> bool) -> list T -> list T)
    (s : sol) (old : option nat) (n : S) (ds : list nat) : res (nat * S * list nat) :=
  let! (b, o, n, ds) := neighborhood_stat G F S I lt eq has nh neval val as_fit sqrt sort xfuel s (true, None) n ds in
  match o with
  | Some r => Ok (n_equal F r, n, ds)
  | None => let! k := of_opt old in Ok (k, n, ds)
  end.
(** two columns: the fitness, and a statistic of the neighborhood; [e]: moRandomSearch or moMetropolisHasting
    (moRndBestFitnessCloudSampling.h:76-103, moRndRndFitnessCloudSampling.h:76-103, moMHBestFitnessCloudSampling.h:78-105,
    moMHRndFitnessCloudSampling.h:78-105, moNeutralDegreeSampling.h:71-82) *)
Definition cloud_sampling {B X} (f : sol -> option B -> S -> list nat -> res (B * S * list nat)) (e : explorer sol X)
    (fuel : nat) (x : X) (v : option F * res (option B * S * list nat)) (ds : list nat) :=
  let '(stats, ms) := added [(value_stat (fun b v => (b, snd v)) fit_of, Some (fun v : option F * res (option B * S * list nat) => inl (fst v)));
      (Stat (fun s v => (fst v, nb_stat f s (snd v))) (fun s v => (fst v, nb_stat f s (snd v))),
       Some (fun v => inr (match snd v with Ok (o, _, _) => o | _ => None end)))] in
  sampling full init blank e true_cont stats ms fuel x v tt ds.
End Cloud.
End Simple.

(** ** samplings of climbs *)
Section Climbs.
Variables (G F X : Type) (full : G -> F).
(** a solution of the outer search: the genotype, and what the climb that made it left: the fields of the hill
    climber and the value of its moMinusOneCounterStat *)
Notation walked := (G * (X * nat))%type.
Definition inner_part (t : sol walked F) : sol G F := Sol (fst (geno t)) (fit t).
(** moLocalSearchInit (moLocalSearchInit.h:56-59) with a hill climber whose checkpoint counts the iterations
    (moHillClimberSampling.h:78-92, moAdaptiveWalkSampling.h:86-97): the fields of the statistic start anew *)
Definition climb_init (init : sol G F -> list nat -> res (sol G F * list nat)) (climber : explorer (sol G F) X) (cfuel : nat)
    (t : sol walked F) (ds : list nat) : res (sol walked F * list nat) :=
  let! (s, ds) := init (inner_part t) ds in
  let! r := local_search full climber (checkpoint [minus_one_stat (fun v : nat * nat => v) (fun b _ => b)] true_cont) cfuel s
      (fst (snd (geno t))) ((0, 0), [] : list (monitor (nat * nat) unit), tt) ds in
  Ok (Sol (geno (r_final r), (r_x r, snd (fst (fst (r_c r))))) (fit (r_final r)), r_draws r).
(** moHillClimberSampling (moHillClimberSampling.h:73-92) with moSimpleHC; moAdaptiveWalkSampling
    (moAdaptiveWalkSampling.h:81-107) with moFirstImprHC, without its column of the numbers of evaluations:
    a random search whose solutions are made by climbs; the length of the climb and the solution *)
Definition climb_sampling (init : sol G F -> list nat -> res (sol G F * list nat)) (climber : explorer (sol G F) X) (blank : sol G F)
    (nbWalk cfuel fuel : nat) (x : X) (v : nat * sol G F) (ds : list nat) :=
  let init' := climb_init init climber cfuel in
  let '(stats, ms) := added [(value_stat (fun b v => (b, snd v)) (fun t => snd (snd (geno t))), Some (fun v : nat * sol G F => inl (fst v)));
      (value_stat (fun b v => (fst v, b)) inner_part, Some (fun v => inr (snd v)))] in
  sampling (fun g : walked => full (fst g)) init' (Sol (geno blank, (x, 0)) (fit blank))
    (random_search_explorer walked F (fun g => full (fst g)) init' (if 0 <? nbWalk then nbWalk - 1 else 0))
    true_cont stats ms fuel 0 v tt ds.
End Climbs.

(** ** files; texts are lists of characters, 10 is the end of line *)
Definition text := list nat.
Definition endl : text := [10].
Section Export.
(** getValue (moVectorMonitor.h:191-202): the text of a value; [names]: longName of each statistic *)
Variables (names : list text) (cols : list (list text)).
(** one line: monitorVec[0], then for j = 1 .. the delimiter and monitorVec[j] *)
Definition line (delim : text) (cells : list text) : res text :=
  match cells with [] => UB | c :: r => Ok (c ++ concat (map (fun d => delim ++ d) r) ++ endl) end.
(** monitorVec[j]->getValue(i) for each j: out of range is undefined *)
Fixpoint cells_at (i : nat) (cs : list (list text)) : res (list text) :=
  match cs with
  | [] => Ok []
  | c :: r => let! t := of_opt (nth_error c i) in let! ts := cells_at i r in Ok (t :: ts)
  end.
Fixpoint lines (delim : text) (is : list nat) : res text :=
  match is with
  | [] => Ok []
  | i :: r => let! cells := cells_at i cols in let! l := line delim cells in let! ls := lines delim r in Ok (l ++ ls)
  end.
(** moSampling::fileExport (moSampling.h:152-190): [old] is what the file held, kept if _openFile *)
Definition file_export (delim : text) (openFile header : bool) (old : text) : res text :=
  let! head := (if negb openFile && header then line delim names else Ok []) in
  let! c0 := of_opt (nth_error cols 0) in
  let! body := lines delim (seq 0 (length c0)) in
  Ok ((if openFile then old else []) ++ head ++ body).
(** moVectorMonitor::fileExport (254-276) and moSampling::fileExport of one column (198-207), which throws when the
    column does not exist *)
Definition export_column (col : nat) (openFile : bool) (old : text) : res text :=
  match nth_error cols col with
  | None => Throw
  | Some c => Ok ((if openFile then old else []) ++ concat (map (fun t => t ++ endl) c))
  end.
End Export.
