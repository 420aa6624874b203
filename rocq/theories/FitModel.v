(** Model of the fitness classes: eo/src/eoScalarFitness.h, eoDualFitness.h and
    eoScalarFitnessAssembled.h, and of eoAverageStat (eo/src/utils/eoStat.h).

    The scalar type is an arbitrary [V] with the comparison [cmp] of the template argument
    (std::less to maximise, std::greater to minimise). *)
From Coq Require Import List Bool Arith.
From Verif Require Import Outcome Lib.
Import ListNotations.

Section Fit.
Context {V : Type}.
Variable cmp : V -> V -> bool.
Variable veq : V -> V -> bool.
Variables vadd vsub vdiv : V -> V -> V.

(** ** eoScalarFitness (eoScalarFitness.h:72-86) *)
Definition s_lt (a b : V) : bool := cmp a b.
Definition s_gt (a b : V) : bool := s_lt b a.
Definition s_le (a b : V) : bool := negb (s_gt a b).
Definition s_ge (a b : V) : bool := negb (s_lt a b).

(** ** eoDualFitness (eoDualFitness.h:68-338) *)
Record dual := Dual { value : V; feasible : bool; initialised : bool }.
(** the constructors (103-145) *)
Definition dual_default (zero : V) : dual := Dual zero false false.
Definition dual_of_scalar (v : V) : dual := Dual v false false.
Definition dual_of_pair (v : V) (f : bool) : dual := Dual v f true.
(** is_feasible() (155-159): the assertion aborts (modelled as [Throw]) when the
    feasibility was never set; without assertions the stored flag is returned *)
Definition is_feasible (d : dual) : res bool := if initialised d then Ok (feasible d) else Throw.
(** is_feasible(bool) (162-166) *)
Definition set_feasible (d : dual) (f : bool) : dual := Dual (value d) f true.

(** operator< (177-196) *)
Definition d_lt (a b : dual) : res bool :=
  let! fa := is_feasible a in
  let! fb := is_feasible b in
  if fa && negb fb then Ok false
  else if negb fa && fb then Ok true
  else Ok (cmp (value a) (value b)).
(** operators >, <=, >=, == (199-208) *)
Definition d_gt (a b : dual) : res bool := d_lt b a.
Definition d_le (a b : dual) : res bool := let! x := d_lt b a in Ok (negb x).
Definition d_ge (a b : dual) : res bool := let! x := d_lt a b in Ok (negb x).
Definition d_eq (a b : dual) : res bool :=
  let! fa := is_feasible a in
  let! fb := is_feasible b in
  Ok (Bool.eqb fa fb && veq (value a) (value b)).

(** operators +=, -=, /= with another dual fitness (227-282) *)
Definition d_op_assign (op : V -> V -> V) (a b : dual) : dual :=
  Dual (op (value a) (value b)) (feasible a && feasible b) (initialised b).
(** operators +=, -=, /= with a scalar (219-224, 244-249, 266-271) *)
Definition d_op_assign_scalar (op : V -> V -> V) (a : dual) (v : V) : dual :=
  Dual (op (value a) v) (feasible a) (initialised a).
(** operators +, -, / with another dual fitness (295-300, 309-314, 324-329): the left
    operand afterwards and the result *)
Definition d_op (op : V -> V -> V) (a b : dual) : dual * dual := (a, d_op_assign op a b).
(** operators +, -, / with a scalar (285-290, 302-307, 317-322): they update the left
    operand in place and return a copy of it *)
Definition d_op_scalar (op : V -> V -> V) (a : dual) (v : V) : dual * dual :=
  let a' := d_op_assign_scalar op a v in (a', a').
Definition d_plus := d_op vadd.
Definition d_plus_scalar := d_op_scalar vadd.
Definition d_minus := d_op vsub.
Definition d_div_scalar := d_op_scalar vdiv.

(** eoAverageStat on dual fitnesses (utils/eoStat.h:157-160, 172-178): sumFitness adds in
    the scalar type and converts the sum to a fitness at each step; [size] is the
    population size as a scalar *)
Definition sum_fitness (sum x : dual) : dual := dual_of_scalar (vadd (value sum) (value x)).
Definition average (zero size : V) (pop : list dual) : dual :=
  snd (d_div_scalar (fold_left sum_fitness pop (dual_of_scalar zero)) size).

(** eoDualPopSplit (383-413): individuals are pairs of a payload and a fitness *)
Definition split_step {G} (acc : res (list (G * dual) * list (G * dual))) (x : G * dual) :=
  let! (f, u) := acc in
  let! b := is_feasible (snd x) in
  Ok (if b then (f ++ [x], u) else (f, u ++ [x])).
Definition pop_split {G} (pop : list (G * dual)) : res (list (G * dual) * list (G * dual)) :=
  fold_left split_step pop (Ok ([], [])).
(** merge (416-423) *)
Definition pop_merge {G} (s : list (G * dual) * list (G * dual)) : list (G * dual) := fst s ++ snd s.

(** ** eoScalarFitnessAssembled (eoScalarFitnessAssembled.h:47-245)

    The descriptions of the terms are a static vector of the traits class (47-78), here an
    explicit argument and result.  [text] are strings. *)
Variable text : Type.
Variable unnamed : text.
Definition traits := list text.
(** vector::resize *)
Definition resize {A} (l : list A) (n : nat) (d : A) : list A :=
  firstn n l ++ repeat d (n - length l).
(** setDescription (53-60); writing beyond the end of the vector is undefined *)
Definition set_description (t : traits) (i : nat) (d : text) : res traits :=
  if i <? length t then Ok (set t i d)
  else of_opt (upd (resize t i unnamed) i d).
(** getDescription (62-67) *)
Definition get_description (t : traits) (i : nat) : text :=
  match nth_error t i with Some d => d | None => unnamed end.

Definition assembled := list V.
(** default constructor (101-104) and the one from a size and a value (106-114) *)
Definition asm_default (zero : V) (t : traits) : assembled := repeat zero (length t).
Definition asm_make (t : traits) (n : nat) (v : V) (d : text) : traits * assembled :=
  (if length t <? n then resize t n d else t, repeat v n).
(** push_back without and with a description (149-159) *)
Definition asm_push (t : traits) (a : assembled) (v : V) : res (traits * assembled) :=
  let a' := a ++ [v] in
  if length t <? length a' then
    let! t' := set_description t (length a' - 1) unnamed in Ok (t', a')
  else Ok (t, a').
Definition asm_push_named (t : traits) (a : assembled) (v : V) (d : text) : res (traits * assembled) :=
  let a' := a ++ [v] in
  let! t' := set_description t (length a' - 1) d in Ok (t', a').
(** resize (162-165) *)
Definition asm_resize (t : traits) (a : assembled) (n : nat) (v : V) (d : text) : traits * assembled :=
  (resize t n d, resize a n v).
(** assignment from a scalar (135-142) *)
Definition asm_assign (t : traits) (a : assembled) (v : V) : res (traits * assembled) :=
  match a with [] => asm_push t a v | _ :: a' => Ok (t, v :: a') end.
(** operator< (219-224) and the others (233-239) *)
Definition asm_lt (a b : assembled) : bool :=
  match a, b with x :: _, y :: _ => cmp x y | _, _ => false end.
Definition asm_gt (a b : assembled) : bool := asm_lt b a.
Definition asm_le (a b : assembled) : bool := negb (asm_gt a b).
Definition asm_ge (a b : assembled) : bool := negb (asm_lt a b).
End Fit.
Arguments dual : clear implicits.
