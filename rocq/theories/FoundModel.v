(** Model of eoFastGA, eoAlgoFoundryFastGA, the forges (eoForge.h) and of eoAlgoRestart with
    eoAlgoPopReset.

    [W] is the state of everything outside the populations, as in AlgoModel. *)
From Coq Require Import List Arith Bool QArith Qround.
From Verif Require Import Lib Outcome PopModel BreedModel AlgoModel BoundsModel FoundSpec.
Import ListNotations.
Close Scope Q_scope.
Open Scope nat_scope.

Section FastGA.
Context {G F W : Type}.
Notation I := (indiv G F).
Variable flip : Q -> W -> res (bool * W).
(** an eoSelectOne: setup and operator() *)
Record selector := Selector { setup : list I -> W -> res W; pick : list I -> W -> res (I * W) }.
(** the operators of the algorithm (eoFastGA.h:34-48) *)
Record operators := Operators {
  crate : Q; select_cross : selector; crossover : quad_op (G:=G) (F:=F) (W:=W); select_after : selector;
  mrate : Q; select_mut : selector; mutation : mon_op (G:=G) (F:=F) (W:=W);
  replace : list I -> list I -> W -> res (list I * W); cont : list I -> W -> res (bool * W) }.
(** the evaluation of a list of individuals (eoPopLoopEval, which leaves the parents alone):
    [inr] is an eoMaxEvalException *)
Variable peval : list I -> W -> res ((list I * W) + W).
Variable ops : operators.
(** one turn of the inner loop (97-150) *)
Definition make_offspring (pop : list I) (w : W) : res ((I * W) + W) :=
  let! (c, w) := flip (crate ops) w in
  if c : bool then
    let! w := setup (select_cross ops) pop w in
    let! (x1, w) := pick (select_cross ops) pop w in
    let! (x2, w) := pick (select_cross ops) pop w in
    let! (y1, y2, b, w) := crossover ops x1 x2 w in
    let! r := peval [touch b y1; touch b y2] w in
    match r with
    | inr w => Ok (inr w)
    | inl (crossed, w) =>
        let! w := setup (select_after ops) crossed w in
        let! (x3, w) := pick (select_after ops) crossed w in
        let! (m, w) := flip (mrate ops) w in
        if m : bool then let! (z, b, w) := mutation ops x3 w in Ok (inl (touch b z, w))
        else Ok (inl (x3, w))
    end
  else
    let! w := setup (select_mut ops) pop w in
    let! (x3, w) := pick (select_mut ops) pop w in
    let! (z, b, w) := mutation ops x3 w in Ok (inl (touch b z, w)).
Fixpoint make_offsprings (n : nat) (pop : list I) (w : W) : res ((list I * W) + W) :=
  match n with
  | 0 => Ok (inl ([], w))
  | S n =>
      let! r := make_offspring pop w in
      match r with
      | inr w => Ok (inr w)
      | inl (x, w) =>
          let! r := make_offsprings n pop w in
          match r with inr w => Ok (inr w) | inl (l, w) => Ok (inl (x :: l, w)) end
      end
  end.
(** the body of the do-while loop (94-158), without the test; an exception leaves the population as it was *)
Definition generation (lambda : nat) (pop : list I) (w : W) : res ((list I * W) + W) :=
  let! r := make_offsprings lambda pop w in
  match r with
  | inr w => Ok (inr w)
  | inl (off, w) =>
      let! r := peval off w in
      match r with inr w => Ok (inr w) | inl (off, w) => let! o := replace ops pop off w in Ok (inl o) end
  end.
(** the loop (94-158): the final population, the populations after each complete generation,
    whether the exception ended it *)
Fixpoint fastga_loop (fuel lambda : nat) (pop : list I) (w : W) : res (list I * list (list I) * bool * W) :=
  match fuel with
  | 0 => NoDraw
  | S f =>
      let! r := generation lambda pop w in
      match r with
      | inr w => Ok (pop, [], true, w)
      | inl (pop, w) =>
          let! (b, w) := cont ops pop w in
          if b : bool then let! (p, tr, e, w) := fastga_loop f lambda pop w in Ok (p, pop :: tr, e, w)
          else Ok (pop, [pop], false, w)
      end
  end.
(** operator() (79-165): the member _offsprings_size (a double; sizes are below 2^53) keeps the size
    of the first population when it was 0 *)
Definition fastga (fuel size : nat) (pop : list I) (w : W) : res (list I * list (list I) * bool * W * nat) :=
  let lambda := if size =? 0 then length pop else size in
  let! (p, tr, e, w) := fastga_loop fuel lambda pop w in Ok (p, tr, e, w, lambda).
End FastGA.
Arguments selector G F W : clear implicits. Arguments operators G F W : clear implicits.

(** ** eoAlgoFoundryFastGA *)
(** eoForgeScalar::instantiate (eoForge.h:543-559), with NDEBUG: the value is capped *)
Definition scalar (lo hi v : Q) : Q :=
  if (negb (qltb v lo) && negb (qltb hi v))%bool then v else if qltb v lo then lo else if qltb hi v then hi else v.
Section Foundry.
Context {G F W : Type}.
Notation I := (indiv G F).
(** the containers of operators (eoAlgoFoundryFastGA.h:127-138) *)
Record shelves := Shelves {
  crates : Q * Q; cross_selectors : list (selector G F W); crossovers : list (quad_op (G:=G) (F:=F) (W:=W)); after_selectors : list (selector G F W);
  mrates : Q * Q; mut_selectors : list (selector G F W); mutations : list (mon_op (G:=G) (F:=F) (W:=W));
  replacements : list (list I -> list I -> W -> res (list I * W)); continuators : list (list I -> W -> res (bool * W)); sizes : nat * nat }.
(** std::variant<size_t, double> *)
Definition encoding := (nat + Q)%type.
(** at, rank, value and len (eoAlgoFoundry.h:254-281): std::vector::at and std::get throw *)
Definition rank (encs : list encoding) (slot : nat) : res nat := match nth_error encs slot with Some (inl n) => Ok n | _ => Throw end.
Definition value (encs : list encoding) (slot : nat) : res Q := match nth_error encs slot with Some (inr q) => Ok q | _ => Throw end.
(** eoForgeVector::instantiate (eoForge.h:300-303): at throws *)
Definition shelf {A} (l : list A) (r : nat) : res A := match nth_error l r with Some a => Ok a | None => Throw end.
Definition taken {A} (encs : list encoding) (slot : nat) (l : list A) : res A := let! r := rank encs slot in shelf l r.
(** the accessors called by operator() (159-171), without the assertions, whose
    failures are exceptions here too *)
Definition assemble (sh : shelves) (encs : list encoding) : res (operators G F W * nat) :=
  let! c := value encs 0 in
  let! sc := taken encs 1 (cross_selectors sh) in
  let! cx := taken encs 2 (crossovers sh) in
  let! sa := taken encs 3 (after_selectors sh) in
  let! m := value encs 4 in
  let! sm := taken encs 5 (mut_selectors sh) in
  let! mu := taken encs 6 (mutations sh) in
  let! re := taken encs 7 (replacements sh) in
  let! co := taken encs 8 (continuators sh) in
  let! n := rank encs 9 in
  Ok (Operators (scalar (fst (crates sh)) (snd (crates sh)) c) sc cx sa (scalar (fst (mrates sh)) (snd (mrates sh)) m) sm mu re co,
      Nat.max (fst (sizes sh)) (Nat.min (snd (sizes sh)) n)).
End Foundry.
Arguments shelves G F W : clear implicits.
(** the operators do not see the evaluation counter *)
Section Lift.
Context {G F W : Type}.
Notation I := (indiv G F).
Definition aside {A} (f : W -> res (A * W)) (s : nat * W) : res (A * (nat * W)) := let! (a, w) := f (snd s) in Ok (a, (fst s, w)).
Definition lift_selector (sel : selector G F W) : selector G F (nat * W) :=
  Selector (fun pop s => let! w := setup sel pop (snd s) in Ok (fst s, w)) (fun pop => aside (pick sel pop)).
Definition lift_ops (o : operators G F W) : operators G F (nat * W) :=
  Operators (crate o) (lift_selector (select_cross o)) (fun x y => aside (crossover o x y)) (lift_selector (select_after o))
    (mrate o) (lift_selector (select_mut o)) (fun x => aside (mutation o x)) (fun p q => aside (replace o p q)) (fun p => aside (cont o p)).
End Lift.
Section FoundryRun.
Context {G F W : Type}.
Notation I := (indiv G F).
Notation W' := (nat * W)%type.
Variable flip : Q -> W -> res (bool * W).
Variable func : I -> W -> res (I * W).
(** eoPopLoopEval over the throwing counter (eoAlgoFoundryFastGA.h:154-156) *)
Definition budget_eval (max_evals : nat) (l : list I) (s : W') : res ((list I * W') + W') :=
  let! r := apply_throw func max_evals l s in
  Ok (match r with inl o => inl o | inr (_, s) => inr s end).
(** operator() (143-190): a new counter, a new algorithm; the exception is caught *)
Definition foundry_run (sh : shelves G F W) (encs : list encoding) (max_evals fuel : nat) (pop : list I) (w : W)
  : res (list I * list (list I) * bool * W' * nat) :=
  let! (ops, n) := assemble sh encs in
  fastga (fun q => aside (flip q)) (budget_eval max_evals) (lift_ops ops) fuel n pop (0, w).
End FoundryRun.

(** ** the forges *)
Section Forge.
(** [T] is the state of an operator, a forge holds the state its constructor gives *)
Variable T : Type.
Record object := Object { alive : bool; content : T }.
Record forge := Forge { initial : T; inst : option nat }.
(** an eoForgeVector and the objects its forges have created; a pointer is a position *)
Record vector := Vector { no_cache : bool; forges : list forge; heap : list object }.
(** delete of the instance of a forge, silent on nullptr *)
Definition delete (h : list object) (p : option nat) : list object :=
  match p with
  | None => h
  | Some i => match nth_error h i with Some o => set h i (Object false (content o)) | None => h end
  end.
(** eoForgeVector::instantiate (eoForge.h:300-303) with eoForgeOperator::instantiate (129-138, 192-201) *)
Definition instantiate (v : vector) (i : nat) : res (vector * nat) :=
  match nth_error (forges v) i with
  | None => Throw
  | Some f =>
      match no_cache v, inst f with
      | false, Some p => Ok (v, p)
      | _, p =>
          let h := delete (heap v) p ++ [Object true (initial f)] in
          Ok (Vector (no_cache v) (set (forges v) i (Forge (initial f) (Some (length (heap v))))) h, length (heap v))
      end
  end.
(** add (319-336) *)
Definition add (v : vector) (t : T) : vector := Vector (no_cache v) (forges v ++ [Forge t None]) (heap v).
(** setup (347-366); the destructor of the forge deletes its instance (152-155) *)
Definition setup_at (v : vector) (i : nat) (t : T) : res vector :=
  match nth_error (forges v) i with
  | None => Throw
  | Some f => Ok (Vector (no_cache v) (set (forges v) i (Forge t None)) (delete (heap v) (inst f)))
  end.
(** a call of a member function through a reference: undefined on a deleted object *)
Definition use (v : vector) (p : nat) (step : T -> T) : res vector :=
  match nth_error (heap v) p with
  | Some o => if alive o then Ok (Vector (no_cache v) (forges v) (set (heap v) p (Object true (step (content o))))) else UB
  | None => UB
  end.
(** the destructor (368-373) *)
Definition destroy (v : vector) : list object := fold_left (fun h f => delete h (inst f)) (forges v) (heap v).
(** a client of the vector *)
Definition do_call (v : vector) (c : request T) : res vector :=
  match c with
  | Add t => Ok (add v t)
  | Setup i t => setup_at v i t
  | Instantiate i => let! (v, _) := instantiate v i in Ok v
  | Use p step => use v p step
  end.
Fixpoint do_calls (v : vector) (cs : list (request T)) : res vector :=
  match cs with [] => Ok v | c :: cs => let! v := do_call v c in do_calls v cs end.

(** eoForgeOperator::instantiate_ptr (140-150): the test looks at the other pointer. A forge as
    instantiate_ptr sees it: whether the other pointer is set, the shared pointer and the number of
    objects created. [with_args] is false for the specialisation (203-209), which makes an empty one. *)
Record pforge := PForge { plain_set : bool; shared : option nat; created : nat }.
Definition instantiate_ptr (with_args nocache : bool) (f : pforge) : pforge * option nat :=
  if nocache || negb (plain_set f) then
    if with_args then (PForge (plain_set f) (Some (created f)) (S (created f)), Some (created f))
    else (PForge (plain_set f) None (created f), None)
  else (f, shared f).

(** eoForgeMap (410-504): names are numbers, the map holds the initial states of its forges;
    insert (448-465) does nothing when the name exists. The template setup (476-493) passes a braced
    list to emplace, which cannot be instantiated *)
Definition fmap := list (nat * T).
Definition map_add (m : fmap) (name : nat) (t : T) : fmap :=
  if existsb (fun e => fst e =? name) m then m else m ++ [(name, t)].
(** instantiate (435-438): the state of the new operator *)
Definition map_instantiate (m : fmap) (name : nat) : res T :=
  match find (fun e => fst e =? name) m with None => Throw | Some e => Ok (snd e) end.
End Forge.
Arguments Object {T}. Arguments alive {T}. Arguments content {T}. Arguments Forge {T}. Arguments initial {T}. Arguments inst {T}.
Arguments Vector {T}. Arguments no_cache {T}. Arguments forges {T}. Arguments heap {T}.
Arguments instantiate {T}. Arguments add {T}. Arguments setup_at {T}. Arguments use {T}. Arguments destroy {T}. Arguments do_call {T}. Arguments do_calls {T}. Arguments delete {T}. Arguments map_add {T}. Arguments map_instantiate {T}.
(** eoForgeVector::instantiate_from (276-285): the assertion is that the fractional part is not 0, so
    an index with one is only reported and truncated; [index] is non-negative *)
Definition from_index (index : Q) : nat := Z.to_nat (Qfloor index).

(** ** restarts *)
Section Restart.
Context {G F W : Type}.
Notation I := (indiv G F).
Variable init : W -> res (I * W).
Variable peval : list I -> W -> res (list I * W).
(** pop.append(n, init) on an empty population (eoPop.h) *)
Fixpoint fill (n : nat) (w : W) : res (list I * W) :=
  match n with 0 => Ok ([], w) | S n => let! (x, w) := init w in let! (l, w) := fill n w in Ok (x :: l, w) end.
(** eoAlgoPopReset::operator() (eoAlgoReset.h:83-91) *)
Definition pop_reset (size : option nat) (pop : list I) (w : W) : res (list I * W) :=
  let! (l, w) := fill (match size with Some n => n | None => length pop end) w in peval l w.
(** eoAlgoRestart::operator() (eoAlgoRestart.h:147-156): also the populations given to the algorithm *)
Variable algo : list I -> W -> res (list I * W).
Variable cont : list I -> W -> res (bool * W).
Fixpoint restart (fuel : nat) (size : option nat) (pop : list I) (w : W) : res (list I * list (list I * list I) * W) :=
  match fuel with
  | 0 => NoDraw
  | S f =>
      let! (p0, w) := pop_reset size pop w in
      let! (p1, w) := algo p0 w in
      let! (b, w) := cont p1 w in
      if b : bool then let! (p, tr, w) := restart f size p1 w in Ok (p, (p0, p1) :: tr, w)
      else Ok (p1, [(p0, p1)], w)
  end.
End Restart.
