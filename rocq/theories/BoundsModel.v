(** Model of the bounds of real and integer variables (eo/src/utils/eoRealBounds.h,
    eoIntBounds.h, eoRealVectorBounds.h).

    Values are rationals.  Every arithmetic operation of the code goes through a rounding
    function [rnd]: the identity gives exact arithmetic, [round_double] IEEE doubles.
    Infinities and NaN are not modelled. *)
From Coq Require Import ZArith QArith Qround List Bool.
From Verif Require Import Outcome.
Import ListNotations.
Open Scope Q_scope.

(** x < y on doubles *)
Definition qltb (x y : Q) : bool := negb (Qle_bool y x).
(** conversion of a double to an integer type: truncation *)
Definition qtrunc (x : Q) : Z := if Qle_bool 0 x then Qfloor x else Qceiling x.

(** rounding to 53 significant bits, ties to even, without bounds on the exponent *)
Definition round_double (x : Q) : Q :=
  let n := Z.abs (Qnum x) in
  let d := Zpos (Qden x) in
  if (n =? 0)%Z then 0
  else
    let k0 := (53 + Z.log2 d - Z.log2 n)%Z in
    let num k := (n * 2 ^ Z.max k 0)%Z in
    let den k := (d * 2 ^ Z.max (- k) 0)%Z in
    let k := if (2 ^ 53 <=? num k0 / den k0)%Z then (k0 - 1)%Z else k0 in
    let q := (num k / den k)%Z in
    let r := (num k mod den k)%Z in
    let q' := if (2 * r <? den k)%Z then q
              else if (den k <? 2 * r)%Z then (q + 1)%Z
              else if Z.even q then q else (q + 1)%Z in
    let v := if (0 <=? k)%Z then Qmake q' (Z.to_pos (2 ^ k)) else inject_Z (q' * 2 ^ (- k)) in
    if (Qnum x <? 0)%Z then - v else v.

Section Rnd.
Variable rnd : Q -> Q.

(** the derived classes: eoRealNoBounds (eoRealBounds.h:143-213), eoRealInterval
    (223-340), eoRealBelowBound (347-440), eoRealAboveBound (445-539), and their eoInt
    counterparts (eoIntBounds.h), which compute in double too *)
Inductive bounds := NoBounds | Interval (mn mx : Q) | Below (mn : Q) | Above (mx : Q).

(** isInBounds (eoRealBounds.h:259-266, 385-390, 483-488) *)
Definition in_bounds (b : bounds) (r : Q) : bool :=
  match b with
  | NoBounds => true
  | Interval mn mx => if qltb r mn then false else if qltb mx r then false else true
  | Below mn => if qltb r mn then false else true
  | Above mx => if qltb mx r then false else true
  end.
(** truncate (eoRealBounds.h:298-305, 400-405, 498-503) *)
Definition truncate (b : bounds) (r : Q) : Q :=
  match b with
  | NoBounds => r
  | Interval mn mx => if qltb r mn then mn else if qltb mx r then mx else r
  | Below mn => if qltb r mn then mn else r
  | Above mx => if qltb mx r then mx else r
  end.

Definition long_max : Z := 9223372036854775807.
(** (long)(x / y): a null divisor or a value outside of long is undefined *)
Definition quotient (x y : Q) : res Z :=
  if Qeq_bool y 0 then UB
  else let q := qtrunc (rnd (x / y)) in
       if ((q <=? long_max) && (- long_max - 1 <=? q))%Z then Ok q else UB.
(** eoRealInterval::foldsInBounds (eoRealBounds.h:269-295; eoIntBounds.h:276-303 is the
    same text); [u] is the value of rng.uniform(repRange) *)
Definition fold_interval (mn mx r u : Q) : res Q :=
  let range := rnd (mx - mn) in
  let dlarg := rnd (2 * range) in
  if qltb 1000000000 r || qltb 1000000000 (- r) then Ok (rnd (mn + u))
  else
    let! r1 :=
      (if qltb mx r then
         let! iloc := quotient (rnd (r - mn)) dlarg in
         let r' := rnd (r - rnd (dlarg * inject_Z iloc)) in
         Ok (if qltb mx r' then rnd (rnd (2 * mx) - r') else r')
       else Ok r) in
    if qltb r1 mn then
      let! iloc := quotient (rnd (mx - r1)) dlarg in
      let r' := rnd (r1 + rnd (dlarg * inject_Z iloc)) in
      Ok (if qltb r' mn then rnd (rnd (2 * mn) - r') else r')
    else Ok r1.
(** foldsInBounds (also eoRealBounds.h:392-397, 490-495) *)
Definition fold (b : bounds) (r u : Q) : res Q :=
  match b with
  | NoBounds => Ok r
  | Interval mn mx => fold_interval mn mx r u
  | Below mn => Ok (if qltb r mn then rnd (rnd (2 * mn) - r) else r)
  | Above mx => Ok (if qltb mx r then rnd (rnd (2 * mx) - r) else r)
  end.
(** uniform (eoRealBounds.h:252-255); half-bounded and unbounded ones throw *)
Definition uniform_in (b : bounds) (u : Q) : res Q :=
  match b with Interval mn _ => Ok (rnd (mn + u)) | _ => Throw end.

(** vectors of bounds (eoRealVectorBounds.h: foldsInBounds 143-149, truncate 162-168,
    isInBounds 178-184): one call per bound; indexing the vector beyond its end is
    undefined.  [us] holds one uniform value per component. *)
Fixpoint fold_vector (bs : list bounds) (v us : list Q) : res (list Q) :=
  match bs with
  | [] => Ok v
  | b :: bs' =>
      match v, us with
      | r :: v', u :: us' =>
          let! r' := fold b r u in
          let! v2 := fold_vector bs' v' us' in
          Ok (r' :: v2)
      | _, _ => UB
      end
  end.
Fixpoint truncate_vector (bs : list bounds) (v : list Q) : res (list Q) :=
  match bs with
  | [] => Ok v
  | b :: bs' =>
      match v with
      | r :: v' => let! v2 := truncate_vector bs' v' in Ok (truncate b r :: v2)
      | [] => UB
      end
  end.
Fixpoint in_bounds_vector (bs : list bounds) (v : list Q) : res bool :=
  match bs with
  | [] => Ok true
  | b :: bs' =>
      match v with
      | r :: v' => if in_bounds b r then in_bounds_vector bs' v' else Ok false
      | [] => UB
      end
  end.
End Rnd.

(** eoIntInterval::random (eoIntBounds.h:264-267): [k] is rng.random(repRange) *)
Definition int_random (mn mx k : Z) : Z := (mn + k)%Z.
