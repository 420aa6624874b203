(** Specification of the tabu lists (C37): what is tabu after a history of calls, in terms of the
    history only. *)
From Coq Require Import List Arith Bool.
From Verif Require Import TabuModel.
Import ListNotations.
Open Scope nat_scope.

Definition is_add {E} (c : call E) : bool := match c with CAdd _ => true | _ => false end.
Definition is_update {E} (c : call E) : bool := match c with CUpdate => true | _ => false end.
Definition is_clear {E} (c : call E) : bool := match c with CClear => true | _ => false end.
(** how many calls of a kind *)
Definition number {A} (p : A -> bool) (l : list A) : nat := length (filter p l).
(** A history whose calls of add carry the tenure chosen. Move [i] is tabu: its last add was given a
    tenure longer than the number of updates since, and the list was not cleared since. *)
Definition tabu_move (hist : list (call nat * nat)) (i : nat) : Prop :=
  exists before after h, hist = before ++ (CAdd i, h) :: after /\
    (forall c, In c (map fst after) -> c <> CAdd i /\ c <> CClear) /\ number is_update (map fst after) < h.
(** the tenures that can be chosen *)
Definition tenure_in (k : tenure_kind) (h : nat) : Prop :=
  match k with
  | Fixed n => h = n
  | Robust mn mx => mn <= h /\ (h < mx \/ (h = mn /\ mx = mn))
  | Rnd n r => n <= h /\ (h < n + r \/ (h = n /\ r = 0))
  end.
(** A list of the last [maxSize] entries. [x] is tabu: an entry equal to [x] was added, the list was
    not cleared since, fewer than [maxSize] entries were added since, and, unless [howlong] is 0,
    fewer than [howlong] updates took place since. *)
Definition tabu_entry {E} (equals : E -> E -> bool) (maxSize howlong : nat) (hist : list (call E)) (x : E) : Prop :=
  exists before after y, hist = before ++ CAdd y :: after /\ equals y x = true /\
    number is_clear after = 0 /\ number is_add after < maxSize /\ (howlong = 0 \/ number is_update after < howlong).
