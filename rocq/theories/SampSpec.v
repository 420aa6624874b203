(** Specification of the samplings (C156, C157), independent of the model's helpers. *)
From Coq Require Import List Arith Bool.
From Verif Require Import Outcome NeighModel LsModel LsSpec SampModel.
Import ListNotations.
Open Scope nat_scope.

(** the functions are applied one after the other *)
Inductive in_turn {V} : list (V -> V) -> V -> V -> Prop :=
| turn_none v : in_turn [] v v
| turn_one f fs v v' : in_turn fs (f v) v' -> in_turn (f :: fs) v v'.
(** [vs]: what the statistics hold at each solution: all are initialised with the first one, all are called on each
    of the next ones, in the order they were added *)
Definition observed {T V} (stats : list (stat T V)) (v0 : V) (sols : list T) (vs : list V) : Prop :=
  length vs = length sols /\
  (forall s v, nth_error sols 0 = Some s -> nth_error vs 0 = Some v -> in_turn (map (fun st => st_init st s) stats) v0 v) /\
  (forall k s v v', nth_error sols (S k) = Some s -> nth_error vs k = Some v -> nth_error vs (S k) = Some v' -> in_turn (map (fun st => st_call st s) stats) v v').
(** the run without what the sampling adds to the continuator *)
Definition plain {T X W C} (r : run T X (W * C)) : run T X C :=
  Run (r_final r) (r_visited r) (r_by_itself r) (r_x r) (snd (r_c r)) (r_draws r).
(** the columns of a sampling *)
Definition columns {T X V A C} (r : run T X (V * list (monitor V A) * C)) : list (list A) := map m_values (snd (fst (r_c r))).

(** an initialisation: whatever it is given, it makes a solution of the search space, whose fitness, if it has one, is right *)
Definition initialises {G F} (Sp : G -> Prop) (full : G -> F) (init : sol G F -> list nat -> res (sol G F * list nat)) : Prop :=
  forall s ds s' ds', init s ds = Ok (s', ds') -> Sp (geno s') /\ not_stale full s'.
(** a climb of [n] moves from [a] to [b], each to a neighbor related by [R], that ends where it cannot go on *)
Definition climb {G} (R : G -> G -> Prop) (stop : G -> Prop) (n : nat) (a b : G) : Prop :=
  exists path, length path = S n /\ nth_error path 0 = Some a /\ nth_error path n = Some b /\ chain R path /\ stop b.
(** what the two columns hold at one place *)
Definition row {A} (cols : list (list A)) (k : nat) (cells : list A) : Prop :=
  Forall2 (fun col c => nth_error col k = Some c) cols cells.

(** ** the neighborhood of a solution; [none]: the value given when there is no neighbor *)
(** [b] is the fitness of a neighbor *)
Definition a_neighbors_fitness {G F I} (nbrs : G -> list I) (move : I -> G -> res G) (full : G -> F) (none : F) (s : sol G F) (b : F) : Prop :=
  (nbrs (geno s) = [] /\ b = none) \/ exists g', neighbor nbrs move (geno s) g' /\ b = full g'.
(** [b] is the best fitness of the neighbors that were looked at: all if kmax = 0, else kmax of them if there are enough *)
Definition best_looked_at {G F I} (lt : F -> F -> bool) (nbrs : G -> list I) (move : I -> G -> res G) (full : G -> F) (none : F) (kmax : nat) (s : sol G F) (b : F) : Prop :=
  (nbrs (geno s) = [] /\ b = none) \/
  exists seen, seen <> [] /\ incl seen (nbrs (geno s)) /\
    (exists i g', In i seen /\ move i (geno s) = Ok g' /\ b = full g') /\
    (forall i g', In i seen -> move i (geno s) = Ok g' -> lt b (full g') = false) /\
    (kmax = 0 -> incl (nbrs (geno s)) seen) /\
    (kmax <> 0 -> length seen <= kmax /\ (length seen = kmax \/ incl (nbrs (geno s)) seen)).
(** [k] of the neighbors visited by an exploration, which visits them all, have the fitness of the solution *)
Definition neutral_degree {G F S I} (eq : F -> F -> bool) (nbrs : G -> list I) (nh : G -> iterator S I) (move : I -> G -> res G) (full : G -> F) (xfuel : nat) (s : sol G F) (k : nat) : Prop :=
  nbrs (geno s) <> [] -> exists n ds seen n' ds' fs, explore (nh (geno s)) xfuel n ds = Ok (seen, n', ds') /\ incl (nbrs (geno s)) seen /\ incl seen (nbrs (geno s)) /\
    Forall2 (fun i f => exists g', move i (geno s) = Ok g' /\ f = full g') seen fs /\ k = length (filter (eq (full (geno s))) fs).

(** ** files *)
(** the parts of a text between separators *)
Fixpoint pieces (sep : nat) (t : list nat) : list (list nat) :=
  match t with
  | [] => [[]]
  | a :: r => if a =? sep then [] :: pieces sep r else match pieces sep r with [] => [[a]] | w :: ws => (a :: w) :: ws end
  end.
(** the lines of a text: each ends with the end of line *)
Definition lines_of (t : list nat) : list (list nat) := removelast (pieces 10 t).
(** the table a text holds *)
Definition table_of (delim : nat) (t : list nat) : list (list (list nat)) := map (pieces delim) (lines_of t).
Definition free_of (a : nat) (t : list nat) : Prop := ~ In a t.
