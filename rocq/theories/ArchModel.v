(** Model of moeo's archives (moeo/src/archive).

    [A] is the type of individuals, [V] that of objective vectors; [dominated v w] is the
    archive's comparator ("v is dominated by w"), [same] is operator== on objective vectors,
    [replace] the flag given to the constructor. *)
From Coq Require Import List Arith Bool.
From Verif Require Import Outcome Lib.
Import ListNotations.

Section Archive.
Variables A V : Type.
Variable obj : A -> V.
Variable dominated same : V -> V -> bool.
Variable replace : bool.

(** moeoArchive::dominates (moeoArchive.h:89-100) *)
Definition arch_dominates (l : list A) (v : V) : bool := existsb (fun a => dominated v (obj a)) l.
(** moeoArchive::contains (moeoArchive.h:107-117) *)
Definition contains (l : list A) (v : V) : bool := existsb (fun a => same (obj a) v) l.
(** moeoArchive::equals (moeoArchive.h:142-159) *)
Definition equals (l l' : list A) : bool :=
  forallb (fun a => contains l' (obj a)) l && forallb (fun a => contains l (obj a)) l'.

(** operator[](j) = back(); pop_back(); *)
Definition drop_at (l : list A) (j : nat) : option (list A) :=
  obind (nth_error l (length l - 1)) (fun b => option_map (@removelast A) (upd l j b)).
(** first loop of update (moeoArchive.h:168-187) *)
Fixpoint purge (fuel : nat) (l : list A) (j : nat) (x : A) : res (list A) :=
  match fuel with
  | 0 => NoDraw
  | S f =>
      match nth_error l j with
      | None => Ok l
      | Some y =>
          if dominated (obj y) (obj x) then let! l' := of_opt (drop_at l j) in purge f l' j x
          else if replace && same (obj x) (obj y) then let! l' := of_opt (drop_at l j) in purge f l' j x
          else purge f l (S j) x
      end
  end.
(** second loop (188-202) *)
Definition rejected (l : list A) (x : A) : bool :=
  existsb (fun y => dominated (obj x) (obj y) || (negb replace && same (obj x) (obj y))) l.
(** update(const MOEOT &) (moeoArchive.h:166-208), also moeoUnboundedArchive::operator() *)
Definition update (l : list A) (x : A) : res (list A * bool) :=
  let! l' := purge (S (length l)) l 0 x in
  if rejected l' x then Ok (l', false) else Ok (l' ++ [x], true).
(** update(const eoPop &) (moeoArchive.h:215-225) *)
Fixpoint update_pop (l : list A) (pop : list A) (acc : bool) : res (list A * bool) :=
  match pop with
  | [] => Ok (l, acc)
  | x :: r => let! (l', b) := update l x in update_pop l' r (b || acc)
  end.

(** moeoImprOnlyBoundedArchive::update (moeoImprOnlyBoundedArchive.h:121-166) *)
Definition bounded_update (maxSize : nat) (l : list A) (x : A) : res (list A * bool) :=
  let! l' := purge (S (length l)) l 0 x in
  if rejected l' x then Ok (l', false)
  else if length l' <? maxSize then Ok (l' ++ [x], true) else Ok (l', false).
(** moeoImprOnlyBoundedArchive::operator()(pop) (102-112) *)
Fixpoint bounded_pop (maxSize : nat) (l : list A) (pop : list A) (acc : bool) : res (list A * bool) :=
  match pop with
  | [] => Ok (l, acc)
  | x :: r => let! (l', b) := bounded_update maxSize l x in bounded_pop maxSize l' r (b || acc)
  end.

(** moeoFitDivBoundedArchive::operator() (moeoFitDivBoundedArchive.h:105-137): [assign] is
    the fitness then the diversity assignment on the archive, [worse] the comparator of
    individuals ("the first is smaller, that is worse, than the second"), [sort] std::sort *)
Variable assign : list A -> list A.
Variable worse : A -> A -> bool.
Variable sort : forall T : Type, (T -> T -> bool) -> list T -> list T.
Definition shrink (maxSize : nat) (l : list A) : list A :=
  if maxSize <? length l then firstn maxSize (sort A worse (assign l)) else l.
Definition fitdiv_update (maxSize : nat) (l : list A) (x : A) : res (list A * bool) :=
  let! (l', b) := update l x in Ok (shrink maxSize l', b).
Definition fitdiv_pop (maxSize : nat) (l : list A) (pop : list A) : res (list A * bool) :=
  let! (l', b) := update_pop l pop false in Ok (shrink maxSize l', b).
End Archive.
