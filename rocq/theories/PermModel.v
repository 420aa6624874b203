(** Model of the permutation operators of eo/src: eoSwapMutation, eoShiftMutation,
    eoTwoOptMutation, eoOrderXover, eoPartiallyMappedXover and eoInitPermutation. *)
From Coq Require Import List Arith NArith Bool.
From Verif Require Import Lib Outcome BitModel.
Import ListNotations.

Section Seq.
Context {A : Type}.

(** "i = random(size); do j = random(size) while (i == j)", shared by the three
    mutations (eoSwapMutation.h:65-66, eoShiftMutation.h:65-66,
    eoTwoOptMutation.h:56-60). *)
Definition two_indices (n : nat) (ds : list nat) : res (nat * nat * list nat) :=
  let! (i, ds1) := draw n ds in
  let! (j, ds2) := draw_other n i ds1 in Ok (i, j, ds2).

(** eoSwapMutation::operator() (eoSwapMutation.h:59-73). *)
Fixpoint swap_mutation (how_many : nat) (c : list A) (ds : list nat) : res (list A * bool * list nat) :=
  match how_many with
  | 0 => Ok (c, true, ds)
  | S k =>
      let! (i, j, ds1) := two_indices (length c) ds in
      let! c' := of_opt (swap_at c i j) in
      swap_mutation k c' ds1
  end.

(** the loop of eoShiftMutation (eoShiftMutation.h:76-77): k = to; k > from; k-- *)
Fixpoint shift_loop (steps k : nat) (c : list A) : option (list A) :=
  match steps with
  | 0 => Some c
  | S s => do x <- nth_error c (k - 1); do c' <- upd c k x; shift_loop s (k - 1) c'
  end.
(** eoShiftMutation::operator() (eoShiftMutation.h:58-83). *)
Definition shift_mutation (c : list A) (ds : list nat) : res (list A * bool * list nat) :=
  let! (i, j, ds1) := two_indices (length c) ds in
  let from := Nat.min i j in
  let to := Nat.max i j in
  let! tmp := of_opt (nth_error c to) in
  let! c1 := of_opt (shift_loop (to - from) to c) in
  let! c2 := of_opt (upd c1 from tmp) in
  Ok (c2, true, ds1).

(** the loop of eoTwoOptMutation (eoTwoOptMutation.h:65-66): k = 0 .. idx *)
Fixpoint two_opt_loop (todo k from to : nat) (c : list A) : option (list A) :=
  match todo with
  | 0 => Some c
  | S t => do c' <- swap_at c (from + k) (to - k); two_opt_loop t (S k) from to c'
  end.
(** eoTwoOptMutation::operator() (eoTwoOptMutation.h:54-68). *)
Definition two_opt_mutation (c : list A) (ds : list nat) : res (list A * bool * list nat) :=
  let! (i, j, ds1) := two_indices (length c) ds in
  let from := Nat.min i j in
  let to := Nat.max i j in
  let! c' := of_opt (two_opt_loop (S ((to - from) / 2)) 0 from to c) in
  Ok (c', true, ds1).
End Seq.

(** ** eoOrderXover (eoOrderXover.h:37-86) on vectors of unsigned integers *)

(** first loop of cross (eoOrderXover.h:69-72) *)
Fixpoint ox_copy (todo i id : nat) (c1 child : list nat) (verif : list bool)
  : option (list nat * list bool * nat) :=
  match todo with
  | 0 => Some (child, verif, id)
  | S t =>
      do x <- nth_error c1 i;
      do child' <- upd child id x;
      do verif' <- upd verif (x mod length c1) true;
      ox_copy t (S i) (S id) c1 child' verif'
  end.
(** the search loop (eoOrderXover.h:74-75); running off the end is None *)
Fixpoint ox_find (c2 : list nat) (y : nat) (from : nat) : option nat :=
  match c2 with
  | [] => None
  | x :: r => if x =? y then Some from else ox_find r y (S from)
  end.
(** j = (_direction*i + from + size) % size in 32-bit unsigned arithmetic
    (eoOrderXover.h:78); [dir] is _direction converted to unsigned. *)
Definition ox_index (dir : N) (from size i : nat) : nat :=
  N.to_nat ((((dir * N.of_nat i) mod 4294967296 + N.of_nat from + N.of_nat size) mod 4294967296)
              mod N.of_nat size).
(** last loop (eoOrderXover.h:77-83), over the successive values of j *)
Fixpoint ox_fill (js : list nat) (id size : nat) (c2 child : list nat) (verif : list bool) : option (list nat) :=
  match js with
  | [] => Some child
  | j :: r =>
      do x <- nth_error c2 j;
      do seen <- nth_error verif (x mod size);
      if (seen : bool) then ox_fill r id size c2 child verif
      else
        do child' <- upd child id x;
        do verif' <- upd verif (x mod size) true;
        ox_fill r (S id) size c2 child' verif'
  end.
(** eoOrderXover::cross (eoOrderXover.h:62-84). *)
Definition ox_cross (c1 c2 child : list nat) (dir : N) (cut1 cut2 : nat) : option (list nat) :=
  let size := length c1 in
  do r <- ox_copy (cut2 - cut1) cut1 0 c1 child (repeat false size);
  let '(child1, verif1, id) := (r : list nat * list bool * nat) in
  do y <- nth_error child1 (cut2 - 1);
  do from <- ox_find c2 y 0;
  ox_fill (map (ox_index dir from size) (seq 0 size)) id size c2 child1 verif1.
(** [neg] is the value of [char direction = -1] once converted to unsigned int:
    2^32-1 where plain char is signed, 255 where it is unsigned. *)
Definition neg_signed : N := 4294967295.
Definition neg_unsigned : N := 255.
(** eoOrderXover::operator() (eoOrderXover.h:37-55). *)
Definition order_xover (neg : N) (c1 c2 : list nat) (ds : list nat) : res (list nat * list nat * bool * list nat) :=
  let! (f, ds1) := draw_flip ds in
  let dir := if f then 1%N else neg in
  let! (r2, ds2) := draw (length c1) ds1 in
  let cut2 := 1 + r2 in
  let! (cut1, ds3) := draw cut2 ds2 in
  let! x1 := of_opt (ox_cross c1 c2 c1 dir cut1 cut2) in
  let! x2 := of_opt (ox_cross c2 c1 c2 dir cut1 cut2) in
  Ok (x1, x2, true, ds3).

(** ** eoPartiallyMappedXover (eoPartiallyMappedXover.h:53-115).
    The arrays p1, p2 are lists of options, None standing for the value -1. *)

(** the two maps (eoPartiallyMappedXover.h:77-80) *)
Fixpoint pmx_maps (todo i : nat) (s1 s2 : list nat) (p1 p2 : list (option nat))
  : option (list (option nat) * list (option nat)) :=
  match todo with
  | 0 => Some (p1, p2)
  | S t =>
      do x <- nth_error s1 i;
      do y <- nth_error s2 i;
      do p1' <- upd p1 y (Some x);
      do p2' <- upd p2 x (Some y);
      pmx_maps t (S i) s1 s2 p1' p2'
  end.
(** while (p[v] != -1) v = p[v]; NoDraw when the loop is not finished after [fuel]
    tests *)
Fixpoint pmx_chase (fuel : nat) (p : list (option nat)) (v : nat) : res nat :=
  match fuel with
  | 0 => NoDraw
  | S f =>
      match nth_error p v with
      | None => UB
      | Some None => Ok v
      | Some (Some w) => pmx_chase f p w
      end
  end.
(** one turn of the replacement loops (lines 83-88 and 97-102), for the positions [js] *)
Fixpoint pmx_replace (fuel : nat) (js : list nat) (p1 p2 : list (option nat)) (s1 s2 : list nat)
  : res (list nat * list nat) :=
  match js with
  | [] => Ok (s1, s2)
  | i :: r =>
      let! x := of_opt (nth_error s1 i) in
      let! x' := pmx_chase fuel p1 x in
      let! s1' := of_opt (upd s1 i x') in
      let! y := of_opt (nth_error s2 i) in
      let! y' := pmx_chase fuel p2 y in
      let! s2' := of_opt (upd s2 i y') in
      pmx_replace fuel r p1 p2 s1' s2'
  end.
(** the exchange of the segment (lines 91-94).  Storing the sentinel -1 (which
    cannot happen for permutations) is reported as UB. *)
Fixpoint pmx_exchange (js : list nat) (p1 p2 : list (option nat)) (s1 s2 : list nat) : option (list nat * list nat) :=
  match js with
  | [] => Some (s1, s2)
  | i :: r =>
      do x <- nth_error s1 i;
      do ox <- nth_error p2 x; do x' <- ox;
      do s1' <- upd s1 i x';
      do y <- nth_error s2 i;
      do oy <- nth_error p1 y; do y' <- oy;
      do s2' <- upd s2 i y';
      pmx_exchange r p1 p2 s1' s2'
  end.
Definition pmx_body (fuel i1 i2 : nat) (s1 s2 : list nat) : res (list nat * list nat) :=
  let n := length s1 in
  let! (p1, p2) := of_opt (pmx_maps (S i2 - i1) i1 s1 s2 (repeat None n) (repeat None n)) in
  let! (a1, a2) := pmx_replace fuel (seq 0 i1) p1 p2 s1 s2 in
  let! (b1, b2) := of_opt (pmx_exchange (seq i1 (S i2 - i1)) p1 p2 a1 a2) in
  pmx_replace fuel (seq (S i2) (n - S i2)) p1 p2 b1 b2.
(** eoPartiallyMappedXover::operator(). *)
Definition pmx (fuel : nat) (s1 s2 : list nat) (ds : list nat) : res (list nat * list nat * bool * list nat) :=
  if 1 <? length s1 then
    let! (i, j, ds1) := two_indices (length s1) ds in
    let! (x1, x2) := pmx_body fuel (Nat.min i j) (Nat.max i j) s1 s2 in
    Ok (x1, x2, true, ds1)
  else Ok (s1, s2, false, ds).

(** eoInitPermutation::operator() (eoInit.h:194-205): consecutive integers, then
    std::shuffle with a std::random_device seed (any rearrangement). *)
Definition init_permutation (shuf : list nat -> list nat -> list nat * list nat) (size start : nat) (ds : list nat)
  : list nat * list nat := shuf ds (map (fun idx => idx + start) (seq 0 size)).

(** ** Initialisers (eo/src/eoInit.h).  A generator of atoms consumes draws and, like
    an eoInit<AtomType>, may read the value it overwrites. *)
Section Init.
Context {A F : Type}.
(** for (it = begin; it < end; it++) init( *it )  (eoInit.h:157-159); also
    std::generate (line 125) and the loops of eoPop (eoPop.h:96-99, 119-122) *)
Fixpoint init_each (gen : A -> list nat -> res (A * list nat)) (l : list A) (ds : list nat) : res (list A * list nat) :=
  match l with
  | [] => Ok ([], ds)
  | x :: r => let! (y, ds1) := gen x ds in let! (r', ds2) := init_each gen r ds1 in Ok (y :: r', ds2)
  end.
(** std::vector::resize: cut, or fill with the default value *)
Definition resize (dflt : A) (n : nat) (l : list A) : list A := firstn n l ++ repeat dflt (n - length l).
(** eoInitFixedLength::operator() (eoInit.h:122-127); an individual is its genes and
    its fitness, None once invalidated *)
Definition init_fixed (dflt : A) gen (dim : nat) (chrom : list A * option F) (ds : list nat)
  : res ((list A * option F) * list nat) :=
  let! (c, ds1) := init_each gen (resize dflt dim (fst chrom)) ds in Ok ((c, None), ds1).
(** eoInitVariableLength: constructor check (eoInit.h:147-152) and operator() (154-162) *)
Definition init_variable (dflt : A) gen (min max : nat) (chrom : list A * option F) (ds : list nat)
  : res ((list A * option F) * list nat) :=
  if max <=? min then Throw else
  let! (r, ds1) := draw (max - min) ds in
  let! (c, ds2) := init_each gen (resize dflt (min + r) (fst chrom)) ds1 in Ok ((c, None), ds2).
(** eoPop::eoPop(unsigned, eoInit&) (eoPop.h:92-100) *)
Definition pop_create (dflt : A) gen (n : nat) (ds : list nat) : res (list A * list nat) :=
  init_each gen (repeat dflt n) ds.
(** eoPop::append (eoPop.h:108-123) *)
Definition pop_append (dflt : A) gen (n : nat) (pop : list A) (ds : list nat) : res (list A * list nat) :=
  if n <? length pop then Throw
  else if n =? length pop then Ok (pop, ds)
  else let! (t, ds1) := init_each gen (skipn (length pop) (resize dflt n pop)) ds in Ok (pop ++ t, ds1).
End Init.
