(** Model of the breeding machinery of eo/src: eoPopulator, eoGenOp wrappers,
    eoOpContainer, eoGeneralBreeder, eoOneToOneBreeder, eoSelectTransform and
    eoSGATransform.

    [W] is the state of everything outside the populations: the random generator and
    the private state of selectors and user operators.  User operators, selectors and
    random flips are arbitrary functions of it.  Vector capacity and reference
    stability (eoPopulator::reserve) are not modelled. *)
From Coq Require Import List Arith Bool QArith.
From Verif Require Import Lib Outcome PopModel.
Import ListNotations.
Close Scope Q_scope.
Open Scope nat_scope.

(** EO<F> (eo/src/EO.h:60-169) with its genotype: the fitness is None when invalid. *)
Record indiv (G F : Type) := Ind { geno : G; fit : option F }.
Arguments Ind {G F}.
Arguments geno {G F}.
Arguments fit {G F}.

Section Breed.
Context {G F W : Type}.
Notation I := (indiv G F).

(** EO::invalidate (EO.h:93) *)
Definition invalidate (x : I) : I := Ind (geno x) None.
(** "if (op(x)) x.invalidate()" *)
Definition touch (changed : bool) (x : I) : I := if changed then invalidate x else x.

(** eoMonOp, eoBinOp, eoQuadOp (eo/src/eoOp.h): modify their first argument(s), answer
    whether they did *)
Definition mon_op := I -> W -> res (I * bool * W).
Definition bin_op := I -> I -> W -> res (I * bool * W).
Definition quad_op := I -> I -> W -> res (I * I * bool * W).

(** wrapped operators and containers (eo/src/eoGenOp.h, eo/src/eoOpContainer.h) *)
Inductive genop : Type :=
| MonGen (op : mon_op)
| BinGen (op : bin_op)
| SelBinGen (op : bin_op) (sel : list I -> W -> res (I * W))
| QuadGen (op : quad_op)
| Sequential (l : list (Q * genop))
| Proportional (l : list (Q * genop)).

(** eoPopulator: the offspring and the position of the current individual, which is
    end() when it equals the size (eoPopulator.h:44-145) *)
Record populator := Pop { dest : list I; cur : nat }.

Section Ops.
Variable source : list I.
(** select() of the derived class (eoPopulator.h:164-172, 196-198) *)
Variable select : W -> res (I * W).
(** eo::rng.flip(rate) and eo::rng.roulette_wheel(rates) *)
Variable flip : Q -> W -> res (bool * W).
Variable wheel : list Q -> W -> res (nat * W).

(** exhausted() (eoPopulator.h:116) *)
Definition at_end (p : populator) : bool := cur p =? length (dest p).
(** operator* (eoPopulator.h:60-66, 130-142) *)
Definition deref (p : populator) (w : W) : res (populator * W) :=
  if at_end p then let! (x, w1) := select w in Ok (Pop (dest p ++ [x]) (length (dest p)), w1)
  else Ok (p, w).
(** operator++ (eoPopulator.h:72-81) *)
Definition incr (p : populator) : populator := if at_end p then p else Pop (dest p) (S (cur p)).
(** the current individual, and writing it back *)
Definition current (p : populator) : res I := of_opt (nth_error (dest p) (cur p)).
Definition store (p : populator) (i : nat) (x : I) : res populator :=
  let! d := of_opt (upd (dest p) i x) in Ok (Pop d (cur p)).

(** the do-while loop of eoSequentialOp (eoOpContainer.h:109-135); [fuel] bounds the
    number of turns, running out of it is NoDraw *)
Fixpoint seq_loop (fuel : nat) (apply : populator -> W -> res (populator * W)) (rate : Q) (p : populator) (w : W)
  : res (populator * W) :=
  match fuel with
  | 0 => NoDraw
  | S f =>
      let! (b, w1) := flip rate w in
      let! (p2, w2) := (if (b : bool) then apply p w1 else Ok (p, w1)) in
      let p3 := if at_end p2 then p2 else incr p2 in
      if at_end p3 then Ok (p3, w2) else seq_loop f apply rate p3 w2
  end.

(** eoGenOp::operator() / apply: eoMonGenOp (eoGenOp.h:97-102), eoBinGenOp (122-129),
    eoSelBinGenOp (146-150; the current individual is fetched before the mate is
    selected, C++ leaves the order open), eoQuadGenOp (169-181), eoSequentialOp
    (eoOpContainer.h:102-138), eoProportionalOp (158-170; no selection throws the
    exception it catches, see eoPopulator.h:49, 177). *)
Fixpoint apply (op : genop) (p : populator) (w : W) {struct op} : res (populator * W) :=
  match op with
  | MonGen f =>
      let! (p1, w1) := deref p w in
      let! x := current p1 in
      let! (x', ch, w2) := f x w1 in
      let! p2 := store p1 (cur p1) (touch ch x') in
      Ok (p2, w2)
  | BinGen f =>
      let! (p1, w1) := deref p w in
      let! (y, w2) := select w1 in
      let! x := current p1 in
      let! (x', ch, w3) := f x y w2 in
      let! p2 := store p1 (cur p1) (touch ch x') in
      Ok (p2, w3)
  | SelBinGen f sel =>
      let! (p1, w1) := deref p w in
      let! (y, w2) := sel source w1 in
      let! x := current p1 in
      let! (x', ch, w3) := f x y w2 in
      let! p2 := store p1 (cur p1) (touch ch x') in
      Ok (p2, w3)
  | QuadGen f =>
      let! (p1, w1) := deref p w in
      let a := cur p1 in
      let! (p2, w2) := deref (incr p1) w1 in
      let b := cur p2 in
      let! x := of_opt (nth_error (dest p2) a) in
      let! y := of_opt (nth_error (dest p2) b) in
      let! (x', y', ch, w3) := f x y w2 in
      let! p3 := store p2 a (touch ch x') in
      let! p4 := store p3 b (touch ch y') in
      Ok (p4, w3)
  | Sequential l =>
      let pos := cur p in
      (fix all (l : list (Q * genop)) (p : populator) (w : W) : res (populator * W) :=
         match l with
         | [] => Ok (p, w)
         | (rate, o) :: r =>
             let p0 := Pop (dest p) pos in
             let! (p1, w1) := seq_loop (S (length (dest p0) - pos)) (apply o) rate p0 w in
             all r p1 w1
         end) l p w
  | Proportional l =>
      let! (i, w1) := wheel (map fst l) w in
      let! (p1, w2) :=
        (fix pick (l : list (Q * genop)) (i : nat) : res (populator * W) :=
           match l, i with
           | [], _ => UB
           | (_, o) :: _, 0 => apply o p w1
           | _ :: r, S j => pick r j
           end) l i in
      Ok (incr p1, w2)
  end.

(** the loop of eoGeneralBreeder::operator() (eoGeneralBreeder.h:93-97) *)
Fixpoint breed_loop (fuel : nat) (op : genop) (target : nat) (p : populator) (w : W) : res (populator * W) :=
  match fuel with
  | 0 => NoDraw
  | S f =>
      if length (dest p) <? target then
        let! (p1, w1) := apply op p w in breed_loop f op target (incr p1) w1
      else Ok (p, w)
  end.
(** eoGeneralBreeder::operator() (eoGeneralBreeder.h:87-100), after the setup of the
    selector; [fuel] bounds the number of turns of the loop *)
Definition general_breeder (fuel : nat) (op : genop) (h : how_many) (w : W) : res (list I * W) :=
  let! target := hm_call h (length source) in
  let! (p, w1) := breed_loop fuel op target (Pop [] 0) w in
  Ok (firstn target (dest p), w1).

(** eoOneToOneBreeder::operator() (eoOneToOneBreeder.h:77-108).  [eval] evaluates the
    offspring, [better a b] is a > b (EO.h:113), throwing on an invalid operand;
    [accept] is rng.uniform() < pReplace. *)
Variable eval : I -> W -> res (I * W).
Variable ltb : F -> F -> bool.
Variable accept : W -> res (bool * W).
Definition better (a b : I) : res bool :=
  match fit a, fit b with Some fa, Some fb => Ok (ltb fb fa) | _, _ => Throw end.
Definition one_to_one_step (op : genop) (p : populator) (w : W) : res (populator * W) :=
  let pos := cur p in
  let! (p1, w1) := deref p w in
  let! parent := current p1 in
  let! (p2, w2) := apply op p1 w1 in
  let! (p3, w3) := deref p2 w2 in
  if cur p3 =? pos then
    let! x := current p3 in
    let! (x', w4) := eval x w3 in
    let! b := better parent x' in
    let! (x'', w5) :=
      (if (b : bool) then let! (c, w5) := accept w4 in Ok ((if (c : bool) then parent else x'), w5) else Ok (x', w4)) in
    let! p4 := store p3 (cur p3) x'' in
    Ok (incr p4, w5)
  else Throw.
Fixpoint one_to_one_loop (todo : nat) (op : genop) (p : populator) (w : W) : res (populator * W) :=
  match todo with
  | 0 => Ok (p, w)
  | S t => let! (p1, w1) := one_to_one_step op p w in one_to_one_loop t op p1 w1
  end.
Definition one_to_one_breeder (op : genop) (h : how_many) (w : W) : res (list I * W) :=
  let! target := hm_call h (length source) in
  let! (p, w1) := one_to_one_loop target op (Pop [] 0) w in
  Ok (dest p, w1).

(** eoSGATransform::operator() (eoSGATransform.h:64-85) with the eoInvalidateQuadOp and
    eoInvalidateMonOp wrappers (eoInvalidateOps.h:52-65, 110-126) *)
Fixpoint sga_cross (todo i : nat) (f : quad_op) (rate : Q) (pop : list I) (w : W) : res (list I * W) :=
  match todo with
  | 0 => Ok (pop, w)
  | S t =>
      let! (b, w1) := flip rate w in
      if (b : bool) then
        let! x := of_opt (nth_error pop (2 * i)) in
        let! y := of_opt (nth_error pop (2 * i + 1)) in
        let! (x', y', ch, w2) := f x y w1 in
        let! pop1 := of_opt (upd pop (2 * i) (touch ch x')) in
        let! pop2 := of_opt (upd pop1 (2 * i + 1) (touch ch y')) in
        sga_cross t (S i) f rate pop2 w2
      else sga_cross t (S i) f rate pop w1
  end.
Fixpoint sga_mutate (todo i : nat) (f : mon_op) (rate : Q) (pop : list I) (w : W) : res (list I * W) :=
  match todo with
  | 0 => Ok (pop, w)
  | S t =>
      let! (b, w1) := flip rate w in
      if (b : bool) then
        let! x := of_opt (nth_error pop i) in
        let! (x', ch, w2) := f x w1 in
        let! pop1 := of_opt (upd pop i (touch ch x')) in
        sga_mutate t (S i) f rate pop1 w2
      else sga_mutate t (S i) f rate pop w1
  end.
Definition sga_transform (cross : quad_op) (crate : Q) (mut : mon_op) (mrate : Q) (pop : list I) (w : W) : res (list I * W) :=
  let! (p1, w1) := sga_cross (length pop / 2) 0 cross crate pop w in
  sga_mutate (length p1) 0 mut mrate p1 w1.
(** eoSelectTransform::operator() (eoBreed.h:66-70) *)
Definition select_transform (sel : list I -> W -> res (list I * W)) (tr : list I -> W -> res (list I * W))
  (parents : list I) (w : W) : res (list I * W) :=
  let! (off, w1) := sel parents w in tr off w1.
End Ops.
End Breed.
