(** Independent specifications for the selection properties (C11-C15, C59). *)
From Coq Require Import List Arith Bool ZArith QArith Permutation Sorted.
From Verif Require Import Outcome OrderSpec SelectModel.
Import ListNotations.
Close Scope Q_scope.
Open Scope nat_scope.

(** [sel] behaves as a selector: on a non-empty population, once it is [ready] for
    that population, each call returns a member of it and leaves the selector
    ready (or the list of draws is exhausted); a successful setup makes it ready. *)
Definition selector_contract {A S} (sel : selector A S) (ready : S -> list A -> Prop) : Prop :=
  (forall s pop ds s' ds', sel_setup sel s pop ds = Ok (s', ds') -> ready s' pop) /\
  (forall s pop ds, ready s pop -> pop <> [] ->
     sel_call sel s pop ds = NoDraw \/
     exists x s' ds', sel_call sel s pop ds = Ok (x, s', ds') /\ In x pop /\ ready s' pop).

(** sum of the first [i] fitnesses *)
Fixpoint prefix (fs : list Q) (i : nat) : Q :=
  match i, fs with
  | S i', f :: r => (f + prefix r i')%Q
  | _, _ => 0%Q
  end.
Definition total (fs : list Q) : Q := prefix fs (length fs).
Definition non_negative (fs : list Q) : Prop := forall f, In f fs -> (0 <= f)%Q.

(** [c] is the share [f * n / tot] rounded down or up. *)
Definition rounded_share (f tot : Q) (n c : nat) : Prop :=
  (inject_Z (Z.of_nat c - 1) * tot < f * inject_Z (Z.of_nat n))%Q /\
  (f * inject_Z (Z.of_nat n) < inject_Z (Z.of_nat c + 1) * tot)%Q.

(** no sampling point u*T + k*T/n (k < n), taken modulo T, falls on a slot boundary *)
Definition generic_position (fs : list Q) (u : Q) : Prop :=
  forall k i, k < length fs -> i <= length fs ->
    let x := (u * total fs + inject_Z (Z.of_nat k) * (total fs / inject_Z (Z.of_nat (length fs))))%Q in
    ~ (x == prefix fs i)%Q /\ ~ (x == total fs + prefix fs i)%Q.

(** decreasing fitness *)
Definition best_to_worst {A} (ltb : A -> A -> bool) (l : list A) : Prop :=
  StronglySorted (fun a b => ltb a b = false) l.

(** [ranks]: the rank of each individual, 0 for the best; ranks are all different
    and a fitter individual has a smaller rank. *)
Definition ranking_of {A} (ltb : A -> A -> bool) (pop : list A) (ranks : list nat) : Prop :=
  Permutation ranks (seq 0 (length pop)) /\
  forall i j a b ri rj, nth_error pop i = Some a -> nth_error pop j = Some b ->
    nth_error ranks i = Some ri -> nth_error ranks j = Some rj ->
    ltb a b = true -> rj < ri.

(** linear ranking weight of rank [r] among [n] *)
Definition linear_weight (p : Q) (n r : nat) : Q :=
  ((2 * p - 2) / inject_Z (Z.of_nat n * (Z.of_nat n - 1)) * inject_Z (Z.of_nat n - Z.of_nat r)
   + (2 - p) / inject_Z (Z.of_nat n))%Q.

(** the positions met by [t] draws *)
Definition contestants {A} (pop : list A) (t : nat) (ds : list nat) : list nat :=
  map (fun d => d mod length pop) (firstn t ds).

(** the pass over the population is over: the next call starts a new one *)
Definition ends_pass (s : seq_state) (n : nat) : Prop :=
  match sq_current s with None => True | Some k => n <= k end.

Definition starts_with_best {A} (ltb : A -> A -> bool) (l : list A) : Prop :=
  match l with [] => False | x :: _ => is_best ltb l x end.
