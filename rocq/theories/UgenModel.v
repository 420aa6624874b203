(** Model of the generators of random atoms, eo/src/utils/eoRndGenerators.h, eo/src/utils/eoUniformInit.h and eo/src/utils/rnd_generators.h. The
    number [r] is what rng.rand() answers; the doubles are rounded as in RngModel. *)
From Coq Require Import NArith ZArith QArith Bool.
From Verif Require Import Lib Outcome RngModel.
From Coq Require Import List.
Import ListNotations.
Close Scope Q_scope.
Open Scope Z_scope.

Definition int_min : Z := - 2 ^ 31.
Definition int_max : Z := 2 ^ 31 - 1.
Definition is_int (z : Z) : bool := (int_min <=? z) && (z <=? int_max).

(** static_cast<T>(uniform.uniform(range)) for an integral T (eoRNG.h:177-180): the product and the quotient in double, truncated towards 0; the double
    of a negative range is the opposite of that of the range. *)
Definition part_of (range : Z) (r : N) : Z :=
  if range <? 0 then - Z.of_N (random (Z.to_N (- range)) r) else Z.of_N (random (Z.to_N range) r).

(** the generator object: minim and range *)
Record gen := G { minim : Z; range : Z }.
(** eoUniformGenerator<int>, eoUniformInit<int> and uniform_generator<int> with a maximum only (eoRndGenerators.h:79-80, eoUniformInit.h:71-73,
    rnd_generators.h:54-55) *)
Definition upto (mx : Z) : res gen := Ok (G 0 mx).
(** with a minimum and a maximum (eoRndGenerators.h:81-87 [asserts = true], eoUniformInit.h:81-86 and rnd_generators.h:56-61 [asserts = false]): the
    subtraction of the initialiser comes first. A failed assert is [UB] here: without asserts compiled in, the check after it is the one of the others. *)
Definition between (asserts : bool) (mn mx : Z) : res gen :=
  if negb (is_int (mx - mn)) then UB else
  if asserts && negb (mn <? mx) then UB else
  if mx <? mn then Throw else Ok (G mn (mx - mn)).
(** operator() (eoRndGenerators.h:93, eoUniformInit.h:92-95, rnd_generators.h:63) *)
Definition generate (g : gen) (r : N) : res Z :=
  let v := minim g + part_of (range g) r in if is_int v then Ok v else UB.

(** the same for uint32_t: the subtraction and the addition wrap around *)
Definition wrap (z : Z) : Z := z mod 2 ^ 32.
Definition between_u (asserts : bool) (mn mx : Z) : res gen :=
  if asserts && negb (mn <? mx) then UB else
  if mx <? mn then Throw else Ok (G mn (wrap (mx - mn))).
Definition generate_u (g : gen) (r : N) : Z := wrap (minim g + part_of (range g) r).

(** random_generator<T> (rnd_generators.h:92-113): random() takes and returns an uint32_t; for int the sum is made in uint32_t and converted back, which
    the compilers do modulo 2^32. *)
Definition to_int (z : Z) : Z := if wrap z <=? int_max then wrap z else wrap z - 2 ^ 32.
Definition random_between (mn mx : Z) : res gen :=
  if negb (is_int (mx - mn)) then UB else if mx <? mn then Throw else Ok (G mn (mx - mn)).
Definition random_int (g : gen) (r : N) : Z := to_int (wrap (minim g) + Z.of_N (random (Z.to_N (wrap (range g))) r)).
Definition random_unsigned (g : gen) (r : N) : Z := wrap (minim g + Z.of_N (random (Z.to_N (range g)) r)).
(** UF_random_generator (rnd_generators.h:128-149) *)
Definition uf_draw (mx : Z) (r : N) : Z := Z.of_N (random (Z.to_N mx) r).
Definition uf_draw_below (m : Z) (r : N) : Z := Z.of_N (random (Z.to_N m) r).
Definition uf_min : Z := 0.
Definition uf_max (mx : Z) : Z := mx.

(** the specialisations for bool (eoRndGenerators.h:107-111, eoUniformInit.h:105-109, rnd_generators.h:116-120) and the biased ones
    (eoRndGenerators.h:124, eoUniformInit.h:120, rnd_generators.h:80) *)
Definition coin (r : N) : bool := flip (1 # 2)%Q r.
Definition biased (bias : Q) (r : N) : bool := flip bias r.

(** eoUniformGenerator<double> and eoUniformInit<double>, exactly *)
Definition real_upto (mx : Q) (r : N) : Q := uniform mx r.
Definition real_between (mn mx : Q) (r : N) : Q := (mn + uniform (mx - mn) r)%Q.

(** eoUniformGenerator<float>() : static_cast<float>(r / 2^32), that is r rounded to 24 bits, over 2^32: the numerator *)
Definition round24 (p : N) : N :=
  (if p <? 2 ^ 24 then p else
   let e := N.log2 p - 23 in
   let q := p / 2 ^ e in
   let rem := p mod 2 ^ e in
   let half := 2 ^ (e - 1) in
   (if rem <? half then q else if half <? rem then q + 1 else if N.even q then q else q + 1) * 2 ^ e)%N.
Definition float_unit (r : N) : Q := (inject_Z (Z.of_N (round24 r)) / inject_Z (2 ^ 32))%Q.

(** a vector filled by a generator, as eoInitFixedLength does (eo/src/eoInit.h:122-127): one draw for each atom, in order *)
Fixpoint fill (g : gen) (n : nat) (rs : list N) : res (list Z * list N) :=
  match n with
  | O => Ok ([], rs)
  | S k => match rs with [] => NoDraw | r :: rs => let! x := generate g r in let! (l, rs) := fill g k rs in Ok (x :: l, rs) end
  end.
