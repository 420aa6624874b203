(** Model of the neighborhoods flipping several bits (mo/src/problems/bitString: moBitsNeighborhood.h,
    moBitsWithReplNeighborhood.h, moBitsWithoutReplNeighborhood.h, moBitsNeighbor.h). *)
From Coq Require Import List Arith Bool NArith.
From Verif Require Import Outcome Lib NeighModel.
Import ListNotations.
Open Scope nat_scope.

(** the two products of numberOfNeighbors (moBitsNeighborhood.h:82-94), in 32-bit unsigned arithmetic *)
Fixpoint fact32 (d : nat) : N :=
  match d with
  | 0 => 1%N
  | S k => ((fact32 k * N.of_nat (S k)) mod two32)%N
  end.
Fixpoint falling32 (acc : N) (k cnt : nat) : N :=
  match cnt with
  | 0 => acc
  | S c => falling32 ((acc * N.of_nat k) mod two32)%N (k - 1) c
  end.
(** numberOfNeighbors (82-94). For d > length the bound length - d wraps round and the second loop
    does nothing. Division by zero is undefined. *)
Definition number_of (length d : nat) : res N :=
  if N.eqb (fact32 d) 0 then UB
  else Ok (N.div (if d <=? length then falling32 1 length d else 1%N) (fact32 d)).
(** constructor of moBitsNeighborhood (66-75) *)
Fixpoint number_upto (length d : nat) : res N :=
  match d with
  | 0 => Ok 0%N
  | S k => let! a := number_upto length k in let! b := number_of length (S k) in Ok ((a + b) mod two32)%N
  end.
Definition neighborhood_size (length nBits : nat) (exact : bool) : res N :=
  if exact then number_of length nBits else number_upto length nBits.

(** ** moBitsWithoutReplNeighborhood: construction of neighborsVec (96-133) *)
(** while ((j >= 0) && (bits[j] + 1 == bits[j+1])) j--; the argument is j + 1 *)
Fixpoint scan (bits : list nat) (j1 : nat) : res (option nat) :=
  match j1 with
  | 0 => Ok None
  | S j =>
      let! b := of_opt (nth_error bits j) in
      let! c := of_opt (nth_error bits (S j)) in
      if b + 1 =? c then scan bits j else Ok (Some j)
  end.
(** for(i = j+1; i < d; i++) bits[i] = bits[i-1] + 1 *)
Fixpoint fill (bits : list nat) (i cnt : nat) : res (list nat) :=
  match cnt with
  | 0 => Ok bits
  | S c =>
      let! b := of_opt (nth_error bits (i - 1)) in
      let! bits' := of_opt (upd bits i (b + 1)) in
      fill bits' (S i) c
  end.
(** body of the while loop (109-131): the next subset, or none when [last] becomes true *)
Definition next_subset (length d : nat) (bits : list nat) : res (option (list nat)) :=
  if d =? 0 then UB else
  let! b := of_opt (nth_error bits (d - 1)) in
  if b <? length - 1 then let! bits' := of_opt (upd bits (d - 1) (b + 1)) in Ok (Some bits')
  else
    let! o := scan bits (d - 1) in
    match o with
    | None => Ok None
    | Some j =>
        let! c := of_opt (nth_error bits j) in
        let! bits1 := of_opt (upd bits j (c + 1)) in
        let! bits2 := fill bits1 (S j) (d - 1 - j) in
        Ok (Some bits2)
    end.
(** while(!last); [fuel] bounds the number of rounds *)
Fixpoint subsets_loop (fuel length d : nat) (bits : list nat) : res (list (list nat)) :=
  match fuel with
  | 0 => NoDraw
  | S f =>
      let! o := next_subset length d bits in
      match o with
      | None => Ok []
      | Some b => let! r := subsets_loop f length d b in Ok (b :: r)
      end
  end.
(** one value of d (97-132) *)
Definition subsets_of (fuel length d : nat) : res (list (list nat)) :=
  let! r := subsets_loop fuel length d (seq 0 d) in Ok (seq 0 d :: r).
(** for (d = firstIndex; d <= nBits; d++) *)
Fixpoint subsets_from (fuel length d cnt : nat) : res (list (list nat)) :=
  match cnt with
  | 0 => Ok []
  | S c => let! l := subsets_of fuel length d in let! r := subsets_from fuel length (S d) c in Ok (l ++ r)
  end.
Definition neighbors_vec (fuel length nBits : nat) (exact : bool) : res (list (list nat)) :=
  if exact then subsets_from fuel length nBits 1 else subsets_from fuel length 1 nBits.

(** init, next (145-176) and cont (183-185) for a neighborhood of [size] subsets [vec]; what is
    produced is neighborsVec[key], copied in the neighbor by setNeighbor (220-225) *)
Definition clamp_sample (sampleSize size : nat) : nat :=
  if (size <? sampleSize) || (sampleSize =? 0) then size else sampleSize.
Definition bits_without_nh (vec : list (list nat)) (size sampleSize : nat) : iterator wr_state (list nat) :=
  let produce r := let! (s, key, ds) := r in let! b := of_opt (nth_error vec key) in Ok (s, b, ds) in
  Iterator wr_state (list nat)
    (fun s ds => produce (wr_draw {| maxIndex := size; indexVector := indexVector s |} ds))
    (fun s ds => produce (wr_draw s ds))
    (fun s => size - maxIndex s <? clamp_sample sampleSize size).

(** ** moBitsWithReplNeighborhood: randomNeighbor with a number of bits (101-117) *)
Fixpoint random_bits (length k cnt : nat) (index : list nat) (ds : list nat) : res (list nat * list nat * list nat) :=
  match cnt with
  | 0 => Ok ([], index, ds)
  | S c =>
      if length - k =? 0 then UB else
      let! (i, ds1) := draw (length - k) ds in
      let! b := of_opt (nth_error index i) in
      let! e := of_opt (nth_error index (length - k - 1)) in
      let! index1 := of_opt (upd index i e) in
      let! index2 := of_opt (upd index1 (length - k - 1) b) in
      let! (r, index3, ds2) := random_bits length (S k) c index2 ds1 in
      Ok (b :: r, index3, ds2)
  end.
(** while (n < nSize[d - 1]) d++; (134): the argument is d - 1, [fuel] the number of entries left *)
Fixpoint distance_loop (nSize : list nat) (n d1 : nat) (fuel : nat) : res nat :=
  match nth_error nSize d1, fuel with
  | Some s, S f => if n <? s then distance_loop nSize n (S d1) f else Ok (S d1)
  | _, _ => UB
  end.
(** randomNeighbor (126-138), when the sizes do not overflow: [nSize] holds the number of subsets of
    at most 1, 2, ... bits *)
Definition random_neighbor (length nBits size : nat) (exact : bool) (nSize index ds : list nat) : res (list nat * list nat * list nat) :=
  if exact then random_bits length 0 nBits index ds
  else
    let! (n, ds1) := draw size ds in
    let! d := distance_loop nSize n 0 (S nBits) in
    random_bits length 0 d index ds1.

(** moBitsNeighbor::move (104-107); moveBack (113-116) is the same *)
Fixpoint bits_move (bits : list nat) (sol : list bool) : res (list bool) :=
  match bits with
  | [] => Ok sol
  | b :: r => let! sol' := bit_move b sol in bits_move r sol'
  end.
