(** Independent specification of the generator: the Mersenne Twister recurrence
    as a property of an infinite sequence of words, and the output tempering.
    (Matsumoto & Nishimura 1998, with the multiplicative seeding 69069.) *)
From Coq Require Import NArith List.
Import ListNotations.
Open Scope N_scope.

Definition w32 : N := 4294967296.                  (* 2^32 *)

(** upper bit of [u] joined with the 31 lower bits of [v] *)
Definition join (u v : N) : N := N.lor (N.land u 2147483648) (N.land v 2147483647).

(** x(k+624) = x(k+397) xor (join(x k, x(k+1)) >> 1) xor (magic if x(k+1) is odd) *)
Definition mt_recurrence (x : nat -> N) : Prop :=
  forall k : nat,
    x (k + 624)%nat =
      N.lxor (N.lxor (x (k + 397)%nat) (N.shiftr (join (x k) (x (k + 1)%nat)) 1))
             (if N.odd (x (k + 1)%nat) then 2567483615 else 0).

(** the first 624 words: x(0) is the seed made odd, then x(k+1) = 69069 x(k) mod 2^32 *)
Definition mt_seeded (seed : N) (x : nat -> N) : Prop :=
  x 0%nat = N.lor seed 1 /\
  forall k : nat, (k < 623)%nat -> x (S k) = (69069 * x k) mod w32.

(** MT19937 output tempering *)
Definition mt_temper (y0 : N) : N :=
  let y1 := N.lxor y0 (N.shiftr y0 11) in
  let y2 := N.lxor y1 (N.land (N.shiftl y1 7) 2636928640) in
  let y3 := N.lxor y2 (N.land (N.shiftl y2 15) 4022730752) in
  N.lxor y3 (N.shiftr y3 18).
