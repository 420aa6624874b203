(** Model of the other parts of the particle swarms of eo/src: the star topology, the velocities with a changing
    weight or changing bounds, the integer velocity, the weight updaters, the bound modifiers and the binary flight. *)
From Coq Require Import List Arith Bool ZArith QArith Qround Qminmax.
From Verif Require Import Lib Outcome PsoModel.
From Coq Require Import List.
Import ListNotations.
Open Scope nat_scope.

Section Star.
Context {A V F : Type} (lt : F -> F -> bool).
Notation particle := (particle A V F).
Notation hood := (hood A V F).
(** operator< (PO.h:157-160) inside std::max_element: the first of the largest *)
Fixpoint largest (m : particle) (l : list particle) : res particle :=
  match l with
  | [] => Ok m
  | p :: r => let! a := fitness A V F m in let! b := fitness A V F p in largest (if lt a b then p else m) r
  end.
(** eoPop::best_element (eoPop.h:223-233): throws on an empty population *)
Definition best_element (pop : list particle) : res particle := match pop with [] => Throw | p :: r => largest p r end.
(** eoStarTopology::setup (eoStarTopology.h:60-83) on a topology not set up yet; the only neighborhood is the list of
    one element *)
Definition star_setup (pop : list particle) : res (list hood) :=
  let! b := best_element pop in Ok [Hood (seq 0 (length pop)) b].
(** the test of isSetup around it *)
Definition star_setup_again (known : option (list hood)) (pop : list particle) : res (list hood) :=
  match known with Some hs => Ok hs | None => star_setup pop end.
(** updateNeighborhood (91-105) *)
Definition star_update (hs : list hood) (p : particle) (k : nat) : res (particle * list hood) :=
  let! p' := update_best A V F lt p in
  let! hs' := update_hood A V F lt hs 0 p' in
  Ok (p', hs').
(** best(k) and globalBest() (112-126) *)
Definition star_best (hs : list hood) : res particle := let! h := of_opt (nth_error hs 0) in Ok (lbest h).
End Star.

(** *** the velocities *)
Section Velocities.
Context {F : Type}.
Notation particle := (particle Q Q F).
(** eoRealVectorBounds: what minimum(j) and maximum(j) are, if there are such bounds *)
Definition bound := (option Q * option Q)%type.
(** adjust_size (eoRealBounds.cpp:170-182): the last bound is repeated; back() of an empty vector is undefined *)
Definition adjust (n : nat) (b : list bound) : res (list bound) :=
  if length b <? n then
    match rev b with [] => UB | last :: _ => Ok (b ++ repeat last (n - length b)) end
  else Ok b.
(** an eoRealBoundModifier (eoRealBoundModifier.h:44) *)
Definition modifier := list bound -> nat -> res (list bound).
(** eoDummyRealBoundModifier (51-62) *)
Definition dummy_modifier : modifier := fun b i => Ok b.
(** eoExpDecayingBoundModifier (75-108): [power] is pow(t / Nt, alpha), computed from the counter at each call.
    minimum(i) and maximum(i) throw when there is no such bound; the old bound is not deleted *)
Definition decay_modifier (power : Q) : modifier := fun b i =>
  let! (lo, hi) := of_opt (nth_error b i) in
  match hi with
  | None => Throw
  | Some h =>
      let new_max := ((1 - power) * h)%Q in
      match lo with
      | None => Throw
      | Some l => Ok (set b i (Some l, Some (std_max l new_max)))
      end
  end.
(** the check of the bounds of component [j] (eoVariableInertiaWeightedVelocity.h:162-166), with the bounds of now *)
Definition check_in (b : list bound) (j : nat) (x : Q) : res Q :=
  let! c := of_opt (nth_error b j) in Ok (check (fun _ => c) j x).
(** the loop over the components *)
Fixpoint components (modify : modifier) (value : nat -> Q -> res Q) (j : nat) (xs : list Q) (b : list bound) : res (list Q * list bound) :=
  match xs with
  | [] => Ok ([], b)
  | x :: r =>
      let! v := value j x in
      let! b := modify b j in
      let! y := check_in b j v in
      let! (l, b) := components modify value (S j) r b in
      Ok (y :: l, b)
  end.
(** eoVariableInertiaWeightedVelocity::operator() (eoVariableInertiaWeightedVelocity.h:136-170) and, with [coeff],
    eoConstrictedVariableWeightVelocity (eoConstrictedVariableWeightVelocity.h:145-179): [weight] is what the updater
    has just put in the weight, [u1] and [u2] are the numbers drawn. The new velocities and the bounds left *)
Definition weighted_velocity (modify : modifier) (coeff weight c1 c2 u1 u2 : Q) (p lb : particle) (b : list bound) : res (list Q * list bound) :=
  let r1 := (u1 * c1)%Q in
  let r2 := (u2 * c2)%Q in
  let! b := adjust (length (pos p)) b in
  let! (l, b) := components modify (fun j x => raw F weight coeff r1 r2 0 p lb lb j x) 0 (pos p) b in
  Ok (l ++ skipn (length (pos p)) (vel p), b).
Definition variable_velocity (modify : modifier) (updater : Q -> Q) (weight c1 c2 u1 u2 : Q) (p lb : particle) (b : list bound) : res (list Q * Q * list bound) :=
  let weight := updater weight in
  let! (l, b) := weighted_velocity modify 1 weight c1 c2 u1 u2 p lb b in Ok (l, weight, b).
Definition constricted_variable_velocity (modify : modifier) (updater : Q -> Q) (coeff weight c1 c2 u1 u2 : Q) (p lb : particle) (b : list bound) : res (list Q * Q * list bound) :=
  let weight := updater weight in
  let! (l, b) := weighted_velocity modify coeff weight c1 c2 u1 u2 p lb b in Ok (l, weight, b).
(** eoFixedInertiaWeightedVelocity::operator() (eoFixedInertiaWeightedVelocity.h:134-163) *)
Definition fixed_velocity (modify : modifier) (weight c1 c2 u1 u2 : Q) (p lb : particle) (b : list bound) : res (list Q * list bound) :=
  weighted_velocity modify 1 weight c1 c2 u1 u2 p lb b.

(** round of <cmath>: the nearest integer, halves away from zero *)
Definition c_round (q : Q) : Z := if Qle_bool 0 q then Qfloor (q + (1 # 2)) else (- Qfloor (- q + (1 # 2)))%Z.
(** eoIntegerVelocity::operator() (eoIntegerVelocity.h:135-162): VelocityType is double (std::max is called on it and on
    a bound); the bound modifier given to the constructor is stored and never called *)
Definition integer_velocity (modify : modifier) (c1 c2 c3 u2 u3 : Q) (p lb : particle) (b : list bound) : res (list Q * list bound) :=
  let r2 := (u2 * c2)%Q in
  let r3 := (u3 * c3)%Q in
  let! b := adjust (length (pos p)) b in
  let! (l, b) := components dummy_modifier
    (fun j x => let! v := raw F c1 1 r2 r3 0 p lb lb j x in Ok (inject_Z (c_round v))) 0 (pos p) b in
  Ok (l ++ skipn (length (pos p)) (vel p), b).
End Velocities.

(** *** the weight updaters *)
(** eoLinearDecreasingWeightUp::operator() (eoLinearDecreasingWeightUp.h:58-62) with a StopCriteriaType of 32 unsigned
    bits, in which stop - counter is computed; [None]: a division by zero *)
Definition linear_weight (stop counter : Z) (initial final : Q) : option Q :=
  if (stop =? 0)%Z then None
  else Some ((initial - final) * inject_Z ((stop - counter) mod 2 ^ 32) / inject_Z stop + final)%Q.
(** eoRandomRealWeightUp (eoRandomRealWeightUp.h:46-72): the test of the constructor, then a draw [u] in [0,1) *)
Definition random_weight (mn mx u : Q) : res Q :=
  if Qlt_le_dec mx mn then Throw else Ok (u * (mx - mn) + mn)%Q.

(** *** the binary flight *)
Section Binary.
Context {V F : Type}.
(** eoSigBinaryFlight::sigmoid (eoSigBinaryFlight.h:58-62) *)
Variable sigmoid : V -> Q.
(** operator() (68-83): one number drawn per component *)
Fixpoint binary_from (j : nat) (xs : list nat) (vs : list V) (us : list Q) : res (list nat * list Q) :=
  match xs with
  | [] => Ok ([], us)
  | x :: r =>
      match us with
      | [] => NoDraw
      | sigma :: us =>
          let! v := of_opt (nth_error vs j) in
          let y := if Qlt_le_dec sigma (sigmoid v) then 1 else 0 in
          let! (l, us) := binary_from (S j) r vs us in
          Ok (y :: l, us)
      end
  end.
Definition binary_flight (p : particle nat V F) (us : list Q) : res (particle nat V F * list Q) :=
  let! (l, us) := binary_from 0 (pos p) (vel p) us in
  Ok (Particle l (vel p) (bpos p) None (best p), us).
End Binary.
