(** Model of the index of a bi-objective archive, moeo/src/scalarStuffs/archive/moeoQuickUnboundedArchiveIndex.h, and of the archive that uses it,
    moeo/src/scalarStuffs/archive/moeoIndexedArchive.h.

    Objective values are integers, for which the tolerance of the comparator and of the equality (1e-6) plays no part; an individual is its objective
    vector; the vectors have two objectives. *)
From Coq Require Import Arith ZArith Bool.
From Verif Require Import Lib Outcome.
From Coq Require Import List.
Import ListNotations.

Notation vec2 := (Z * Z)%type.
(** entree (moeoQuickUnboundedArchiveIndex.h:45-52) *)
Record entry := Entry { obj : vec2; indice : nat }.

Section Dirs.
(** minimizing(0), minimizing(1) *)
Variables d0 d1 : bool.
Definition worse (d : bool) (x y : Z) : bool := if d then Z.ltb y x else Z.ltb x y.
(** moeoParetoObjectiveVectorComparator: [a] is dominated by [b] *)
Definition dominated (a b : vec2) : bool :=
  negb (worse d0 (fst b) (fst a)) && negb (worse d1 (snd b) (snd a)) && (worse d0 (fst a) (fst b) || worse d1 (snd a) (snd b)).
Definition vec_eqb (a b : vec2) : bool := Z.eqb (fst a) (fst b) && Z.eqb (snd a) (snd b).
(** CompareByLast (moeoQuickUnboundedArchiveIndex.h:77-94) *)
Definition by_last (a b : vec2) : bool := if d1 then Z.ltb (snd a) (snd b) else Z.ltb (snd b) (snd a).

(** std::set with that order: lists in order, without two equivalent entries *)
Fixpoint set_insert (e : entry) (l : list entry) : list entry :=
  match l with
  | [] => [e]
  | x :: r => if by_last (obj e) (obj x) then e :: x :: r else if by_last (obj x) (obj e) then x :: set_insert e r else x :: r
  end.
Fixpoint set_erase (o : vec2) (l : list entry) : list entry :=
  match l with
  | [] => []
  | x :: r => if negb (by_last o (obj x)) && negb (by_last (obj x) o) then r else x :: set_erase o r
  end.
(** lower_bound: the entries before it, and the ones from it on *)
Fixpoint lower_bound (o : vec2) (l : list entry) : list entry * list entry :=
  match l with
  | [] => ([], [])
  | x :: r => if by_last (obj x) o then let (a, b) := lower_bound o r in (x :: a, b) else ([], x :: r)
  end.
Fixpoint span (p : entry -> bool) (l : list entry) : list entry * list entry :=
  match l with [] => ([], []) | x :: r => if p x then let (a, b) := span p r in (x :: a, b) else ([], x :: r) end.
Definition last_of (l : list entry) : option entry := nth_error l (length l - 1).

(** insert (moeoQuickUnboundedArchiveIndex.h:172-231): whether the vector can be inserted, the deletions to make, and the index *)
Definition insert (o : vec2) (ins : bool) (index : list entry) : bool * list entry * list entry :=
  let put l := if ins then set_insert (Entry o (length l)) l else index in
  match index with
  | [] => (true, [], put index)
  | _ =>
      let (before, from) := lower_bound o index in
      let below := match last_of before with Some e => dominated o (obj e) | None => false end in
      match from with
      | [] => if negb below then (true, [], put index) else (false, [], index)
      | it :: _ =>
          if vec_eqb o (obj it) || dominated o (obj it) then (false, [], index)
          else if below then (false, [], index)
          else
            let (gone, _) := span (fun e => dominated (obj e) o) from in
            (true, gone, put (fold_left (fun l e => set_erase (obj e) l) gone index))
      end
  end.
(** update (moeoQuickUnboundedArchiveIndex.h:135-141) *)
Definition update (o : vec2) (new_idx : nat) (index : list entry) : list entry := set_insert (Entry o new_idx) (set_erase o index).

(** moeoIndexedArchive: the individuals and the index *)
Record archive := Archive { members : list vec2; the_index : list entry }.
(** apply_modif (moeoIndexedArchive.h:73-82) for a deletion *)
Definition apply_modif (e : entry) (a : archive) : res archive :=
  let! last := of_opt (nth_error (members a) (length (members a) - 1)) in
  let! m := of_opt (upd (members a) (indice e) last) in
  Ok (Archive (firstn (length m - 1) m) (update last (indice e) (the_index a))).
Fixpoint apply_modifs (es : list entry) (a : archive) : res archive :=
  match es with [] => Ok a | e :: r => let! a := apply_modif e a in apply_modifs r a end.
(** operator() (moeoIndexedArchive.h:39-51) *)
Definition add_member (o : vec2) (a : archive) : res (bool * archive) :=
  let '(ok, gone, index) := insert o true (the_index a) in
  if ok then let! a := apply_modifs gone (Archive (members a) index) in Ok (true, Archive (members a ++ [o]) (the_index a))
  else Ok (false, Archive (members a) index).
End Dirs.
