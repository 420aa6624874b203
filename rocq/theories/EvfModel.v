(** Model of eoAlgoFoundryEA (eo/src/eoAlgoFoundryEA.h) and of eoEvalFoundryEA (eo/src/eoEvalFoundryEA.h).

    [W] is the state of everything outside the populations and outside the continuators of the foundry.
    The forges of the continuators hold the instance made last: [C] is the private state of a continuator. *)
From Coq Require Import List Arith Bool ZArith QArith Qround.
From Verif Require Import Lib Outcome PopModel BreedModel AlgoModel FoundModel.
Import ListNotations.
Close Scope Q_scope.
Open Scope nat_scope.

Section Foundry.
Context {G F W C : Type}.
Notation I := (indiv G F).
Variable flip : Q -> W -> res (bool * W).
Variable wheel : list Q -> W -> res (nat * W).
(** _eval *)
Variable pop_eval : pop_evaluator (G:=G) (F:=F) (W:=W).
(** a continuator class: what its constructor makes and its operator() *)
Record continuator := Continuator { fresh : C; ask : list I -> C * W -> res (bool * (C * W)) }.
(** the five containers (eoAlgoFoundryEA.h:103-107) *)
Record shelves := Shelves {
  conts : list continuator; crosses : list (quad_op (G:=G) (F:=F) (W:=W)); muts : list (mon_op (G:=G) (F:=F) (W:=W));
  sels : list (selector G F W); repls : list (list I -> list I -> W -> res (list I * W)) }.
Variable sh : shelves.
(** _max_gen *)
Variable max_gen : nat.
(** the object: _encodings (eoAlgoFoundry.h:300) and the _instantiated pointer of each forge of continuators
    (eoForge.h:178) *)
Record foundry := Foundry { encodings : list encoding; live : list (option C) }.
(** the constructor (eoAlgoFoundryEA.h:89-98, eoAlgoFoundry.h:209-211): no encoding is chosen *)
Definition new_foundry : foundry := Foundry [] (map (fun _ => None) (conts sh)).
(** select (eoAlgoFoundry.h:236-240), whose assertion is a precondition *)
Definition select_encodings (e : list encoding) (f : foundry) : res foundry :=
  if length e =? 5 then Ok (Foundry e (live f)) else UB.

(** instantiate (eoForge.h:129-138, 300-303) of the forge at a rank, with the parameter no_cache *)
Definition instantiate (no_cache : bool) (r : nat) (f : foundry) : res (continuator * C * foundry) :=
  let! c := shelf (conts sh) r in
  let! o := shelf (live f) r in
  match o with
  | Some x => let x := if no_cache then fresh c else x in Ok (c, x, Foundry (encodings f) (set (live f) r (Some x)))
  | None => Ok (c, fresh c, Foundry (encodings f) (set (live f) r (Some (fresh c))))
  end.

(** what the components of the algorithm see of a run: the counter of the eoGenContinue, the continuator, the rest *)
Notation W' := (nat * C * W)%type.
Definition beside {A} (f : W -> res (A * W)) (s : W') : res (A * W') := let! (a, w) := f (snd s) in Ok (a, (fst s, w)).
(** the two members of the combined continuator (eoAlgoFoundryEA.h:125-127) *)
Definition by_generations : list I -> W' -> res (bool * W') := fun _ s =>
  let '(g, c, w) := s in let (b, g) := gen_continue max_gen g in Ok (b, (g, c, w)).
Definition by_continuator (k : continuator) : list I -> W' -> res (bool * W') := fun pop s =>
  let '(g, c, w) := s in let! (b, (c, w)) := ask k pop (c, w) in Ok (b, (g, c, w)).
(** the breeder (eoAlgoFoundryEA.h:119-123, eoGeneralBreeder.h:87-100): the selector is set up, then as many
    offspring as parents; every turn of its loop makes one at least *)
Definition breeding (x : quad_op (G:=G) (F:=F) (W:=W)) (m : mon_op (G:=G) (F:=F) (W:=W)) (s : selector G F W) (pop : list I) (w : W) : res (list I * W) :=
  let! w := setup s pop w in
  let! h := hm_of_rate 1 in
  general_breeder pop (pick s pop) flip wheel (S (S (length pop))) (Sequential [(1%Q, QuadGen x); (1%Q, MonGen m)]) h w.
(** operator() (eoAlgoFoundryEA.h:111-132), without its assertions, whose failures are exceptions here too.
    C++ leaves no order open that matters: the accessors touch only their own forge.
    [fuel] bounds the number of generations; the populations of the run are returned too. *)
Definition run (fuel : nat) (pop : list I) (f : foundry) (w : W) : res (list I * list (list I) * foundry * W) :=
  let! x := taken (encodings f) 1 (crosses sh) in
  let! m := taken (encodings f) 2 (muts sh) in
  let! s := taken (encodings f) 3 (sels sh) in
  let! rk := rank (encodings f) 0 in
  let! (k, c, f) := instantiate true rk f in
  let! re := taken (encodings f) 4 (repls sh) in
  let! (p, tr, (_, c, w)) :=
    easy_ea (fun p o => beside (pop_eval p o)) (fun p => beside (breeding x m s p)) (fun p o => beside (re p o))
      (combined_continue [by_generations; by_continuator k]) fuel pop (0, c, w) in
  Ok (p, tr, Foundry (encodings f) (set (live f) rk (Some c)), w).

(** *** eoEvalFoundryEA *)
Variable init : W -> res (I * W).
Variable pop_size : nat.
Variable penalization : F.
Variable ltb : F -> F -> bool.
(** a solution of the selection problem: a vector of numbers and a fitness *)
Notation sol := (indiv (list Q) F).
(** static_cast<size_t>(std::ceil(x)) (eoEvalFoundryEA.h:100-104): the cast of a negative number is undefined.
    Not modelled: numbers beyond the largest size_t, infinities and NaN. *)
Definition index_of (x : Q) : res nat := let z := Qceiling x in if (z <? 0)%Z then UB else Ok (Z.to_nat z).
(** operator[] of the solution: out of range is undefined *)
Definition coordinate (v : list Q) (i : nat) : res nat := let! x := of_opt (nth_error v i) in index_of x.
(** decode (eoEvalFoundryEA.h:89-107); the slots i_cont .. i_repl are 0 .. 4 *)
Definition decode (v : list Q) : res (list encoding) :=
  let! c := coordinate v 0 in
  let! x := coordinate v 1 in
  let! m := coordinate v 2 in
  let! s := coordinate v 3 in
  let! r := coordinate v 4 in
  Ok [inl c; inl x; inl m; inl s; inl r].
(** eoPop::append (eoPop.h:141-159) on an empty population *)
Fixpoint initialised (n : nat) (w : W) : res (list I * W) :=
  match n with
  | 0 => Ok ([], w)
  | S n => let! (x, w) := init w in let! (l, w) := initialised n w in Ok (x :: l, w)
  end.
(** comparison and fitness of individuals: an invalid fitness throws (EO.h:113, 83-89) *)
Definition fitness_of (x : I) : res F := match fit x with Some v => Ok v | None => Throw end.
(** pop.best_element().fitness() (eoPop.h:213-233) *)
Definition best_fitness (pop : list I) : res F := let! vs := fold_right (fun x r => let! v := fitness_of x in let! l := r in Ok (v :: l)) (Ok []) pop in best_element F ltb vs.
(** operator() (eoEvalFoundryEA.h:114-149).  _subpb_eval(pop, pop) hands the same population twice. *)
Definition eval_foundry (fuel : nat) (x : sol) (f : foundry) (w : W) : res (sol * foundry * W) :=
  match fit x with
  | Some _ => Ok (x, f, w)
  | None =>
      let! (pop, w) := initialised pop_size w in
      let! (_, pop, w) := pop_eval [] pop w in
      let! config := decode (geno x) in
      let! c := rank config 0 in
      let! cr := rank config 1 in
      let! m := rank config 2 in
      let! s := rank config 3 in
      let! r := rank config 4 in
      if ((c <? length (conts sh)) && (cr <? length (crosses sh)) && (m <? length (muts sh)) && (s <? length (sels sh)) && (r <? length (repls sh)))%bool then
        let! f := select_encodings config f in
        let! (pop, _, f, w) := run fuel pop f w in
        let! v := best_fitness pop in
        Ok (Ind (geno x) (Some v), f, w)
      else Ok (Ind (geno x) (Some penalization), f, w)
  end.
End Foundry.
Arguments continuator G F W C : clear implicits. Arguments shelves G F W C : clear implicits. Arguments foundry C : clear implicits.
