(** Model of the bit-string operators: eo/src/ga/eoBitOp.h and
    eo/src/ga/eoStandardBitMutation.h.  A chromosome is a list of booleans; an
    operator returns the new chromosome(s) and the boolean it reports. *)
From Coq Require Import List Arith NArith Bool.
From Verif Require Import Lib Outcome.
Import ListNotations.

(** chrom[i] = !chrom[i]; None when i is out of range. *)
Definition flip_at (c : list bool) (i : nat) : option (list bool) :=
  do b <- nth_error c i; upd c i (negb b).

(** eoOneBitFlip::operator() (eoBitOp.h:57-62). *)
Definition one_bit_flip (c : list bool) (ds : list nat) : res (list bool * bool * list nat) :=
  let! (i, ds') := draw (length c) ds in
  let! c' := of_opt (flip_at c i) in Ok (c', true, ds').

(** eoDetBitFlip::operator() (eoBitOp.h:87-96). *)
Fixpoint det_flip_loop (k : nat) (c : list bool) (ds : list nat) : res (list bool * list nat) :=
  match k with
  | 0 => Ok (c, ds)
  | S k' =>
      let! (i, ds') := draw (length c) ds in
      let! c' := of_opt (flip_at c i) in det_flip_loop k' c' ds'
  end.
Definition det_bit_flip (k : nat) (c : list bool) (ds : list nat) : res (list bool * bool * list nat) :=
  let! (c', ds') := det_flip_loop k c ds in Ok (c', true, ds').

(** eoDetSingleBitFlip::operator() (eoBitOp.h:123-149): shuffle by n transpositions,
    then flip the bits at the first k shuffled indices.  k > n is out of range
    (an assertion in debug builds). *)
Fixpoint shuffle_loop (todo i : nat) (idx : list nat) (ds : list nat) : res (list nat * list nat) :=
  match todo with
  | 0 => Ok (idx, ds)
  | S t =>
      let! (other, ds') := draw (length idx) ds in
      let! idx' := of_opt (swap_at idx i other) in
      shuffle_loop t (S i) idx' ds'
  end.
Fixpoint flip_all (idx : list nat) (c : list bool) : option (list bool) :=
  match idx with
  | [] => Some c
  | i :: r => do c' <- flip_at c i; flip_all r c'
  end.
Definition det_single_bit_flip (k : nat) (c : list bool) (ds : list nat) : res (list bool * bool * list nat) :=
  let! (idx, ds') := shuffle_loop (length c) 0 (seq 0 (length c)) ds in
  if length c <? k then UB
  else let! c' := of_opt (flip_all (firstn k idx) c) in Ok (c', 0 <? k, ds').

(** eoBitMutation::operator() (eoBitOp.h:184-196): one flip(rate) per position. *)
Fixpoint bit_mutation_loop (c : list bool) (ds : list nat) : res (list bool * bool * list nat) :=
  match c with
  | [] => Ok ([], false, ds)
  | b :: r =>
      let! (f, ds1) := draw_flip ds in
      let! (r', ch, ds2) := bit_mutation_loop r ds1 in
      Ok ((if f then negb b else b) :: r', f || ch, ds2)
  end.
Definition bit_mutation := bit_mutation_loop.

(** eoBitInversion::operator() (eoBitOp.h:219-228). *)
Fixpoint draw_other (n u1 : nat) (ds : list nat) : res (nat * list nat) :=
  match ds with
  | [] => NoDraw
  | d :: ds' => if d mod n =? u1 then draw_other n u1 ds' else Ok (d mod n, ds')
  end.
Definition reverse_range {A} (r1 r2 : nat) (c : list A) : list A :=
  firstn r1 c ++ rev (firstn (r2 - r1) (skipn r1 c)) ++ skipn r2 c.
Definition bit_inversion (c : list bool) (ds : list nat) : res (list bool * bool * list nat) :=
  let! (u1, ds1) := draw (length c + 1) ds in
  let! (u2, ds2) := draw_other (length c + 1) u1 ds1 in
  Ok (reverse_range (Nat.min u1 u2) (Nat.max u1 u2) c, true, ds2).

(** eoBitNext::operator() (eoBitOp.h:247-262): from the last position towards the
    first, 1 -> 0 and continue, 0 -> 1 and stop.  The loop runs on the reversed list. *)
Fixpoint next_rev (r : list bool) : list bool :=
  match r with
  | [] => []
  | true :: r' => false :: next_rev r'
  | false :: r' => true :: r'
  end.
Definition bit_next (c : list bool) : list bool := rev (next_rev (rev c)).
(** eoBitPrev::operator() (eoBitOp.h:281-296). *)
Fixpoint prev_rev (r : list bool) : list bool :=
  match r with
  | [] => []
  | true :: r' => false :: r'
  | false :: r' => true :: prev_rev r'
  end.
Definition bit_prev (c : list bool) : list bool := rev (prev_rev (rev c)).

(** ** crossovers: (chrom1, chrom2, reported change) *)
Definition bits_eqb (a b : list bool) : bool := if list_eq_dec bool_dec a b then true else false.

(** eo1PtBitXover::operator() (eoBitOp.h:316-328): std::equal then std::swap_ranges on
    the first [site] positions.  With an empty parent random(0) is 0, std::equal compares two
    empty ranges and nothing changes. *)
Definition one_pt_xover (c1 c2 : list bool) (ds : list nat) : res (list bool * list bool * bool * list nat) :=
  let m := Nat.min (length c1) (length c2) in
  if m =? 0 then let! (_, ds') := draw m ds in Ok (c1, c2, false, ds')
  else
    let! (site, ds') := draw m ds in
    if bits_eqb (firstn site c1) (firstn site c2) then Ok (c1, c2, false, ds')
    else Ok (firstn site c2 ++ skipn site c1, firstn site c1 ++ skipn site c2, true, ds').

(** eoUBitXover::operator() (eoBitOp.h:355-372): a flip is drawn only where the
    parents differ.  The size check builds an exception without throwing it, so a
    longer first parent reads past the end of the second. *)
Fixpoint u_xover (c1 c2 : list bool) (ds : list nat) : res (list bool * list bool * bool * list nat) :=
  match c1, c2 with
  | [], _ => Ok ([], c2, false, ds)
  | _ :: _, [] => UB
  | a :: r1, b :: r2 =>
      if Bool.eqb a b then
        let! (x1, x2, ch, ds2) := u_xover r1 r2 ds in Ok (a :: x1, b :: x2, ch, ds2)
      else
        let! (f, ds1) := draw_flip ds in
        let! (x1, x2, ch, ds2) := u_xover r1 r2 ds1 in
        if f then Ok (b :: x1, a :: x2, true, ds2) else Ok (a :: x1, b :: x2, ch, ds2)
  end.

(** The do-while loop choosing distinct points, shared by eoNPtsBitXover
    (eoBitOp.h:407-416) and eoBitGxOver (eoBitOp.h:475-484): the counter is a 32-bit
    unsigned that is decremented before it is tested. *)
Definition udec (x : N) : N := if (x =? 0)%N then 4294967295%N else (x - 1)%N.
Fixpoint choose_points (points : list bool) (count : N) (ds : list nat) : res (list bool * list nat) :=
  match ds with
  | [] => NoDraw
  | d :: ds' =>
      let bit := d mod length points in
      match nth_error points bit with
      | None => UB
      | Some true => if (count =? 0)%N then Ok (points, ds') else choose_points points count ds'
      | Some false =>
          let! p' := of_opt (upd points bit true) in
          if (udec count =? 0)%N then Ok (p', ds') else choose_points p' (udec count) ds'
      end
  end.

(** the swapping loop of eoNPtsBitXover (eoBitOp.h:419-427), position by position *)
Fixpoint cut_swap (points : list bool) (change : bool) (c1 c2 : list bool) : option (list bool * list bool) :=
  match points with
  | [] => Some (c1, c2)
  | p :: ps =>
      let ch := if p then negb change else change in
      match c1, c2 with
      | a :: r1, b :: r2 =>
          do x <- cut_swap ps ch r1 r2;
          let (x1, x2) := (x : list bool * list bool) in
          Some (if ch then (b :: x1, a :: x2) else (a :: x1, b :: x2))
      | _, _ => None
      end
  end.
(** eoNPtsBitXover::operator() (eoBitOp.h:401-429).  [max_size - 1] wraps when a
    chromosome is empty; random(0) is then 0 and points[0] is read in an empty vector. *)
Definition n_pts_xover (num_points : N) (c1 c2 : list bool) (ds : list nat)
  : res (list bool * list bool * bool * list nat) :=
  let m := Nat.min (length c1) (length c2) in
  match c1, c2 with
  | a :: r1, b :: r2 =>
      let max_points := N.min (N.of_nat (m - 1)) num_points in
      let! (points, ds') := choose_points (repeat false m) max_points ds in
      let! x := of_opt (cut_swap (tl points) false r1 r2) in
      Ok (a :: fst x, b :: snd x, true, ds')
  | _, _ => UB
  end.

(** eoBitGxOver::operator() (eoBitOp.h:467-494): whole genes of [g] bits. *)
Fixpoint gene_swap (g : nat) (points : list bool) (c1 c2 : list bool) : list bool * list bool :=
  match points with
  | [] => (c1, c2)
  | p :: ps =>
      let '(x1, x2) := gene_swap g ps (skipn g c1) (skipn g c2) in
      if p then (firstn g c2 ++ x1, firstn g c1 ++ x2) else (firstn g c1 ++ x1, firstn g c2 ++ x2)
  end.
Definition gene_xover (g : nat) (num_points : N) (c1 c2 : list bool) (ds : list nat)
  : res (list bool * list bool * bool * list nat) :=
  if g =? 0 then UB
  else
    let m := Nat.min (length c1) (length c2) / g in
    if m =? 0 then UB
    else
      let! (points, ds') := choose_points (repeat false m) (N.min (N.of_nat m) num_points) ds in
      let '(x1, x2) := gene_swap g points c1 c2 in Ok (x1, x2, true, ds').

(** ** eo/src/ga/eoStandardBitMutation.h: how many bits to flip, then
    eoDetSingleBitFlip.  One draw stands for the result of rng.binomial(n,.), a
    count between 0 and n. *)
(** eoStandardBitMutation::operator() (eoStandardBitMutation.h:29-38). *)
Definition standard_bit_mutation (c : list bool) (ds : list nat) :=
  let! (k, ds') := draw (length c + 1) ds in det_single_bit_flip k c ds'.
(** eoUniformBitMutation::operator() (eoStandardBitMutation.h:64-69). *)
Definition uniform_bit_mutation (c : list bool) (ds : list nat) :=
  let! (k, ds') := draw (length c) ds in det_single_bit_flip k c ds'.
(** eoConditionalBitMutation::operator() (eoStandardBitMutation.h:97-109). *)
Definition conditional_bit_mutation (c : list bool) (ds : list nat) :=
  let! (k, ds') := draw_other (length c + 1) 0 ds in det_single_bit_flip k c ds'.
(** eoShiftedBitMutation::operator() (eoStandardBitMutation.h:133-145). *)
Definition shifted_bit_mutation (c : list bool) (ds : list nat) :=
  let! (k, ds') := draw (length c + 1) ds in det_single_bit_flip (if k =? 0 then 1 else k) c ds'.
