(** Model of eoRng (eo/src/utils/eoRNG.h), the library's random generator. *)
From Coq Require Import NArith ZArith QArith List Bool.
From Verif Require Import Lib.
Import ListNotations.
Open Scope N_scope.

(** Constants N, M, K (eo/src/utils/eoRNG.cpp:30-33). *)
Definition cN : nat := 624.
Definition cM : nat := 397.
Definition cK : N := 2567483615.                  (* 0x9908B0DFU *)

(** truncation of an unsigned 32-bit computation *)
Definition u32 (x : N) : N := x mod 4294967296.

(** hiBit, loBit, loBits, mixBits (eoRNG.h:501-504). *)
Definition hiBit (u : N) : N := N.land u 2147483648.      (* 0x80000000U *)
Definition loBit (u : N) : N := N.land u 1.
Definition loBits (u : N) : N := N.land u 2147483647.     (* 0x7FFFFFFFU *)
Definition mixBits (u v : N) : N := N.lor (hiBit u) (loBits v).

(** The generator object (eoRNG.h:450-475): the array of N+1 words ([state]; its
    last word is allocated but never initialised), the offset of the [next]
    pointer from [state], the counter [left], and the Gaussian cache.  [gnext] is
    meaningless before the first block has been generated (the C++ pointer is
    null or stale then).  [gcacheval] stands for the C++ double, kept opaque. *)
Record gen := Gen { gstate : list N; gnext : nat; gleft : Z; gcached : bool; gcacheval : Z }.

(** eoRng::initialize (eoRNG.h:508-516): x = seed|1; state[0]=x; then N-1 times
    x *= 69069 (mod 2^32), stored in the following words. *)
Fixpoint init_words (j : nat) (i : nat) (x : N) (st : list N) : option (list N) :=
  match j with
  | O => Some st
  | S j' =>
      let x' := u32 (x * 69069) in
      do st' <- upd st i x'; init_words j' (S i) x' st'
  end.
Definition initialize (seed : N) (g : gen) : option gen :=
  let x := N.lor seed 1 in
  do st0 <- upd (gstate g) 0 x;
  do st1 <- init_words (cN - 1) 1 x st0;
  Some (Gen st1 (gnext g) 0 (gcached g) (gcacheval g)).

(** eoRng::eoRng(s) and eoRng::reseed(s) (eoRNG.h:126-131, 150-153): the seed is
    doubled (32-bit wrap-around) before initialisation.  [junk] is the
    uninitialised content of the new array, [g0next]/[g0val] uninitialised fields. *)
Definition construct (junk : list N) (s : N) : option gen :=
  initialize (u32 (2 * s)) (Gen junk 0 (-1) false 0).
Definition reseed (s : N) (g : gen) : option gen := initialize (u32 (2 * s)) g.

(** One word of the next block, as in the loop bodies of restart (eoRNG.h:527-532). *)
Definition twist (m s0 s1 : N) : N :=
  N.lxor (N.lxor m (N.shiftr (mixBits s0 s1) 1)) (if loBit s1 =? 0 then 0 else cK).

(** The loops of eoRng::restart (eoRNG.h:527-532): body then s0=s1, s1=*p2++.
    Reads and writes outside the array give [None]. *)
Fixpoint twist_loop (j p0 p2 pM : nat) (s0 s1 : N) (st : list N)
  : option (nat * nat * nat * N * N * list N) :=
  match j with
  | O => Some (p0, p2, pM, s0, s1, st)
  | S j' =>
      do m <- nth_error st pM;
      do st' <- upd st p0 (twist m s0 s1);
      do s2 <- nth_error st' p2;
      twist_loop j' (S p0) (S p2) (S pM) s1 s2 st'
  end.

(** tempering (eoRNG.h:535-538 and 547-550), 32-bit wrap-around on shifts left
    is implied by the masks *)
Definition temper (y : N) : N :=
  let y := N.lxor y (N.shiftr y 11) in
  let y := N.lxor y (N.land (u32 (N.shiftl y 7)) 2636928640) in    (* 0x9D2C5680U *)
  let y := N.lxor y (N.land (u32 (N.shiftl y 15)) 4022730752) in   (* 0xEFC60000U *)
  N.lxor y (N.shiftr y 18).

(** eoRng::restart (eoRNG.h:520-538). *)
Definition restart (g : gen) : option (N * gen) :=
  let st := gstate g in
  do s0 <- nth_error st 0;
  do s1 <- nth_error st 1;
  do r1 <- twist_loop (cN - cM + 1 - 1) 0 2 cM s0 s1 st;
  let '(p0, p2, _, s0, s1, st) := r1 in
  do r2 <- twist_loop (cM - 1) p0 p2 0 s0 s1 st;
  let '(p0, p2, pM, s0, s1, st) := r2 in
  do s1 <- nth_error st 0;
  do m <- nth_error st pM;
  do st <- upd st p0 (twist m s0 s1);
  Some (temper s1, Gen st 1 (Z.of_nat cN - 1) (gcached g) (gcacheval g)).

(** eoRng::rand (eoRNG.h:542-551). *)
Definition rand (g : gen) : option (N * gen) :=
  let l := (gleft g - 1)%Z in
  if (l <? 0)%Z then restart (Gen (gstate g) (gnext g) l (gcached g) (gcacheval g))
  else
    do y <- nth_error (gstate g) (gnext g);
    Some (temper y, Gen (gstate g) (S (gnext g)) l (gcached g) (gcacheval g)).

(** [n] successive draws *)
Fixpoint rands (n : nat) (g : gen) : option (list N * gen) :=
  match n with
  | O => Some ([], g)
  | S n' =>
      do r <- rand g; let '(y, g1) := r in
      do r2 <- rands n' g1; let '(ys, g2) := r2 in
      Some (y :: ys, g2)
  end.

(** eoRng::printOn / readFrom (eoRNG.h:358-386), at the level of the blank
    separated tokens.  Decimal conversion of integers is trusted; the token for
    [cacheValue] is lossy in C++ (6 digits), hence [lossy]. *)
Definition print_gen (lossy : Z -> Z) (g : gen) : list Z :=
  map Z.of_N (firstn cN (gstate g)) ++
  [Z.of_nat (gnext g); gleft g; if gcached g then 1%Z else 0%Z; lossy (gcacheval g)].
Fixpoint read_words (j i : nat) (toks : list Z) (st : list N) : option (list Z * list N) :=
  match j with
  | O => Some (toks, st)
  | S j' =>
      match toks with
      | t :: toks' => do st' <- upd st i (Z.to_N t); read_words j' (S i) toks' st'
      | [] => None
      end
  end.
Definition read_gen (toks : list Z) (g : gen) : option gen :=
  do r <- read_words cN 0 toks (gstate g);
  match r with
  | ([n; l; c; v], st) => Some (Gen st (Z.to_nat n) l (negb (c =? 0)%Z) v)
  | _ => None
  end.

(** ** Derived draws, as functions of the 32-bit value [r] returned by rand(). *)

(** eoRng::uniform(m) (eoRNG.h:177-180), exact rational arithmetic (for m = 1 the
    double computation r / 2^32 is exact: r has 32 bits). *)
Definition uniform (m : Q) (r : N) : Q := (m * inject_Z (Z.of_N r) / inject_Z 4294967296)%Q.
(** eoRng::uniform(min,max) (eoRNG.h:188-191), exact arithmetic. *)
Definition uniform2 (mn mx : Q) (r : N) : Q := (mn + uniform (mx - mn) r)%Q.
(** eoRng::flip(bias) (eoRNG.h:215-218).  The bias is any rational. *)
Definition flip (bias : Q) (r : N) : bool := negb (Qle_bool bias (uniform 1 r)).

(** Rounding of a non-negative integer to 53 significant bits, ties to even: the
    significand rounding of an IEEE binary64 operation in round-to-nearest mode. *)
Definition round53 (p : N) : N :=
  if p <? 9007199254740992 then p
  else
    let e := N.log2 p - 52 in
    let q := p / 2 ^ e in
    let rem := p mod 2 ^ e in
    let half := 2 ^ (e - 1) in
    let q' := if rem <? half then q
              else if half <? rem then q + 1
              else if N.even q then q else q + 1 in
    q' * 2 ^ e.

(** eoRng::random(m) (eoRNG.h:198-206) in IEEE doubles: uniform() = r / 2^32 is
    exact, the product with double(m) (exact) is rounded to 53 bits (scaling by
    2^-32 commutes with rounding: the result is 0 or at least 2^-32, far from the
    subnormal range), then truncated. *)
Definition random (m : N) (r : N) : N := round53 (r * m) / 4294967296.

(** eoRng::binomial(n,p) (eoRNG.h:225-232): successes among n flips. *)
Fixpoint binomial (n : nat) (p : Q) (rs : list N) : option (nat * list N) :=
  match n with
  | O => Some (O, rs)
  | S n' =>
      match rs with
      | [] => None
      | r :: rs' =>
          do x <- binomial n' p rs';
          Some ((if flip p r then S (fst x) else fst x), snd x)
      end
  end.

(** Every state a generator can reach through the API: construction, reseeding,
    drawing, and restoring from the text of another reachable generator. *)
Inductive reachable (lossy : Z -> Z) : gen -> Prop :=
| reach_construct junk s g :
    length junk = 625%nat -> construct junk s = Some g -> reachable lossy g
| reach_reseed s g g' : reachable lossy g -> reseed s g = Some g' -> reachable lossy g'
| reach_rand y g g' : reachable lossy g -> rand g = Some (y, g') -> reachable lossy g'
| reach_restore g d d' :
    reachable lossy g -> reachable lossy d ->
    read_gen (print_gen lossy g) d = Some d' -> reachable lossy d'.
