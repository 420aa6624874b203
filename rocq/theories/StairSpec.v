(** Specification of the two-objective archive (C124-C126), independent of the model's
    functions: it only uses the two objectives of a point. *)
From Coq Require Import List Bool Arith QArith Permutation.
From Verif Require Import StairModel.
Import ListNotations.
Close Scope Q_scope.
Open Scope nat_scope.

Section Spec.
Context {G : Type}.
Notation pt := (pt G).

(** [a] is at least as good as [b] on both objectives *)
Definition covers (a b : pt) : Prop := (px a <= px b)%Q /\ (py a <= py b)%Q.
(** from one point to the next the second objective gets worse and the first gets better *)
Definition staircase (l : list pt) : Prop :=
  forall i j a b, i < j -> nth_error l i = Some a -> nth_error l j = Some b -> (py a < py b)%Q /\ (px b < px a)%Q.
(** the position (x, y) of the objective space is covered by [a] *)
Definition reaches (a : pt) (x y : Q) : Prop := (px a <= x)%Q /\ (py a <= y)%Q.
(** the positions that member [i] of [l] alone covers *)
Definition only_by (l : list pt) (i : nat) (x y : Q) : Prop :=
  (exists a, nth_error l i = Some a /\ reaches a x y) /\
  (forall j b, nth_error l j = Some b -> reaches b x y -> j = i).
(** [q] is what member [i] contributes to the area covered: the area of the rectangle of the
    positions that it alone covers, or [mv] when that region is unbounded (first or last) *)
Definition contributes (mv : Q) (l : list pt) (i : nat) (q : Q) : Prop :=
  i < length l /\
  if (i =? 0) || (S i =? length l) then q = mv
  else exists x1 x2 y1 y2, (x1 < x2)%Q /\ (y1 < y2)%Q /\ (q == (x2 - x1) * (y2 - y1))%Q /\
       forall x y, only_by l i x y <-> (x1 <= x < x2)%Q /\ (y1 <= y < y2)%Q.
(** member [i] is one of those that contribute least *)
Definition contributes_least (mv : Q) (l : list pt) (i : nat) : Prop :=
  exists q, contributes mv l i q /\ forall j r, contributes mv l j r -> (q <= r)%Q.
(** [l'] is [l] without the member at position [i] *)
Definition without (l : list pt) (i : nat) : list pt := firstn i l ++ skipn (S i) l.

(** what offering [v] to an archive of capacity [m] holding [old] must give: [new], and [r] to
    tell whether [v] was taken *)
Definition offered (m : nat) (mv : Q) (old : list pt) (v : pt) (new : list pt) (r : bool) : Prop :=
  ((exists e, In e old /\ covers e v) /\ new = old /\ r = false) \/
  ((forall e, In e old -> ~ covers e v) /\
   exists before after gone,
     Permutation old (before ++ gone ++ after) /\
     (forall e, In e gone -> covers v e) /\ (forall e, In e (before ++ after) -> ~ covers v e) /\
     staircase (before ++ v :: after) /\
     ((length (before ++ v :: after) <= m /\ new = before ++ v :: after /\ r = true) \/
      (length (before ++ v :: after) = S m /\ gone = [] /\
       exists i, contributes_least mv (before ++ v :: after) i /\
                 new = without (before ++ v :: after) i /\ (r = false <-> i = length before)))).
(** the points of [seen] that no point of [seen] beats *)
Definition undominated (seen : list pt) (a : pt) : Prop :=
  In a seen /\ forall b, In b seen -> covers b a -> covers a b.
(** by its second objective, [v] falls between the last member and the one before *)
Definition next_to_last (l : list pt) (v : pt) : Prop := exists before last, l = before ++ [last] /\ before <> [] /\
  (forall e, In e before -> (py e < py v)%Q) /\ (py v < py last)%Q.
End Spec.
