(** Model of moeo2DMinHypervolumeArchive (moeo/src/archive/moeo2DMinHypervolumeArchive.h), an
    archive of bounded size for two minimised objectives, kept in a std::set.

    The set is the list of its members in the order of the set; an iterator is the index of the
    member it designates (the length of the list is end()).  Objective values are exact
    rationals: the code computes the products of differences in double.  A member is its point
    (the two objectives and the rest of the individual, [gen]) together with its fitness, [None]
    when it has not been set.  Reading a fitness that is not set throws (MOEO.h:96-103). *)
From Coq Require Import List Bool Arith QArith.
From Verif Require Import Lib Outcome BoundsModel.
Import ListNotations.
Close Scope Q_scope.
Open Scope nat_scope.

Section Archive.
Context {G : Type}.

Record pt := Pt { px : Q; py : Q; gen : G }.
Definition member : Type := (pt * option Q)%type.
Definition mpt (e : member) : pt := fst e.

(** comp (moeo2DMinHypervolumeArchive.h:54-57): by the second objective, then the first *)
Definition comp (a b : pt) : bool :=
  qltb (py a) (py b) || (Qeq_bool (py a) (py b) && qltb (px a) (px b)).

(** std::set::upper_bound: the first member that comes after [v] *)
Fixpoint upper (l : list member) (v : pt) : nat :=
  match l with [] => 0 | e :: l' => if comp v (mpt e) then 0 else S (upper l' v) end.

(** std::set::insert, with or without a hint: [v] goes at its place in the order unless an
    equivalent member is there; the result is the set and the index of the new member *)
Definition set_insert (l : list member) (v : member) : list member * option nat :=
  let k := upper l (mpt v) in
  match k with
  | 0 => (v :: l, Some 0)
  | S p => match nth_error l p with
           | Some e => if comp (mpt e) (mpt v) then (firstn k l ++ v :: skipn k l, Some k) else (l, None)
           | None => (l, None)
           end
  end.
(** an iterator designating index [h] before an insertion designates this index after it *)
Definition moved (h : nat) (at_ : option nat) : nat :=
  match at_ with Some k => if k <=? h then S h else h | None => h end.

(** std::set::erase *)
Definition erase (l : list member) (k : nat) : list member := firstn k l ++ skipn (S k) l.

(** fitness (230-235): writes the fitness of a member in place *)
Definition fitness (l : list member) (k : nat) (q : Q) : res (list member) :=
  let! e := of_opt (nth_error l k) in Ok (set l k (mpt e, Some q)).

(** compute (288-316); [mv] is maxValue *)
Definition compute (mv : Q) (l : list member) (k : nat) : res (list member) :=
  if k =? 0 then fitness l k mv
  else if S k =? length l then fitness l k mv
  else
    let! e := of_opt (nth_error l k) in
    let! a := of_opt (nth_error l (k - 1)) in
    let! b := of_opt (nth_error l (S k)) in
    fitness l k ((px (mpt a) - px (mpt e)) * (py (mpt b) - py (mpt e)))%Q.

(** computeFitness (259-281) *)
Definition computeFitness (mv : Q) (l : list member) (k : nat) : res (list member) :=
  let! l1 := if k =? 0 then Ok l else compute mv l (k - 1) in
  let! l2 := if S k =? length l1 then Ok l1 else compute mv l1 (S k) in
  compute mv l2 k.

(** computeTmp (318-349) with the member [hint] at index [h]; [where_] is 0, -1 or 1 *)
Inductive place := Here | Before | After.
Definition computeTmp (mv : Q) (l : list member) (h : nat) (v : pt) (where_ : place) : res Q :=
  if (h =? 0) || (h =? length l) then Ok mv
  else
    let! c := of_opt (nth_error l h) in
    match where_ with
    | Here => let! p := of_opt (nth_error l (h - 1)) in Ok ((py (mpt c) - py v) * (px (mpt p) - px v))%Q
    | Before => let! p := of_opt (nth_error l (h - 1)) in Ok ((py v - py (mpt c)) * (px (mpt p) - px (mpt c)))%Q
    | After => let! n := of_opt (nth_error l (S h)) in Ok ((px v - px (mpt c)) * (py (mpt n) - py (mpt c)))%Q
    end.

(** the search of the member with the least fitness below [min] (362-369, 418-425) *)
Fixpoint scan (l : list member) (k : nat) (min : Q) (itd : option nat) : res (Q * option nat) :=
  match l with
  | [] => Ok (min, itd)
  | e :: l' =>
      match snd e with
      | None => Throw
      | Some f => if qltb f min then scan l' (S k) f (Some k) else scan l' (S k) min itd
      end
  end.
(** filterbis (352-378).  [min] and [itd] live across the rounds, as in the code; [itd] is
    uninitialised at first, and invalid once its member is erased. *)
Fixpoint filterbis (fuel : nat) (m : nat) (mv : Q) (l : list member) (min : Q) (itd : option nat) : res (list member) :=
  if length l <=? m then Ok l
  else match fuel with
  | 0 => NoDraw
  | S fuel =>
      let! (min, itd) := scan l 0 min itd in
      let! d := of_opt itd in
      match d with
      | 0 => UB
      | S p =>
          let l1 := erase l d in
          let! l2 := compute mv l1 p in
          if d <? length l2 then
            let! l3 := compute mv l2 d in
            filterbis fuel m mv l3 min None
          else UB
      end
  end.

(** remove (243-252): erases from index [h] on while the first objective is not better than [x] *)
Fixpoint drop_covered (l : list member) (x : Q) : list member :=
  match l with
  | [] => []
  | e :: l' => if Qle_bool x (px (mpt e)) then drop_covered l' x else l
  end.
Definition remove (l : list member) (h : nat) (x : Q) : list member :=
  firstn h l ++ drop_covered (skipn h l) x.

(** insert(const ObjectiveVector&) (169-198): [None] when the point is refused, otherwise the
    set without the members it covers, and the hint *)
Definition insert_test (l : list member) (v : pt) : res (option (list member * nat)) :=
  let it := upper l v in
  let! b := of_opt (nth_error l 0) in
  let! mn := if it =? 0 then Ok (px (mpt b)) else let! p := of_opt (nth_error l (it - 1)) in Ok (px (mpt p)) in
  if (it =? 0) || qltb (px v) mn then Ok (Some (remove l it (px v), it)) else Ok None.

(** insert(hint, _moeo); hint--; computeFitness(hint) (118-124, 391-393): decrementing begin()
    is undefined *)
Definition put (mv : Q) (l : list member) (h : nat) (v : member) : res (list member) :=
  let (l1, at_) := set_insert l v in
  match moved h at_ with
  | 0 => UB
  | S h1 => computeFitness mv l1 h1
  end.

(** filter (383-443) *)
Definition filter_ (m : nat) (mv : Q) (l : list member) (h : nat) (v : member) : res (list member * bool) :=
  let add := let! l1 := put mv l h v in let! l2 := filterbis (S (length l1)) m mv l1 mv None in Ok (l2, true) in
  if (h =? 0) || (h =? length l) then add
  else
    let! tmp := computeTmp mv l h (mpt v) Here in
    let! pred := computeTmp mv l (h - 1) (mpt v) Before in
    let! succ := computeTmp mv l h (mpt v) After in
    if qltb succ tmp || qltb pred tmp then add
    else
      let! (minFit, _) := scan l 0 mv None in
      if Qle_bool tmp minFit then Ok (l, false) else add.

(** operator() on one solution (95-143) *)
Fixpoint all_max (mv : Q) (l : list member) : list member :=
  match l with [] => [] | e :: l' => (mpt e, Some mv) :: all_max mv l' end.
Definition offer (m : nat) (mv : Q) (l : list member) (v : member) : res (list member * bool) :=
  match l with
  | [] => let (l1, _) := set_insert l v in let! l2 := fitness l1 0 mv in Ok (l2, true)
  | _ =>
      let! t := insert_test l (mpt v) in
      match t with
      | None => Ok (l, false)
      | Some (l1, h) =>
          if length l1 <? m then
            let (l2, at_) := set_insert l1 v in
            if 2 <? length l2 then
              match moved h at_ with
              | 0 => UB
              | S h1 => let! l3 := computeFitness mv l2 h1 in Ok (l3, true)
              end
            else Ok (all_max mv l2, true)
          else filter_ m mv l1 h v
      end
  end.

(** operator() on a population (150-161): true when one of them was added *)
Fixpoint offers (m : nat) (mv : Q) (l : list member) (vs : list member) (result : bool) : res (list member * bool) :=
  match vs with
  | [] => Ok (l, result)
  | v :: vs' => let! (l1, tmp) := offer m mv l v in offers m mv l1 vs' (tmp || result)
  end.

(** the constructor (84-87) keeps at least two places *)
Definition capacity (maxSize : nat) : nat := Nat.max 2 maxSize.
End Archive.
Arguments pt : clear implicits.
Arguments member : clear implicits.
