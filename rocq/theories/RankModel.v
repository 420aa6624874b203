(** Model of dominance-depth fitness assignment
    (moeo/src/fitness/moeoDominanceDepthFitnessAssignment.h).
    A population is given by its objective vectors and its (possibly invalid) fitnesses;
    fitness values are integers. *)
From Coq Require Import List Arith Bool ZArith QArith.
From Verif Require Import Outcome Lib BoundsModel ParetoModel.
Import ListNotations.
Close Scope Q_scope.

(** ** more than two objectives (283-343), for any comparator *)
Section Peel.
Variable V : Type.
Variable dominated : V -> V -> bool.
Variable vs : list V.
(** comparator(_pop[i].objectiveVector(), _pop[j].objectiveVector()) *)
Definition cmp_at (i j : nat) : bool :=
  match nth_error vs i, nth_error vs j with Some a, Some b => dominated a b | _, _ => false end.
Notation size := (length vs).
(** S[p] (295-302) *)
Definition dominated_by (p : nat) : list nat := filter (fun q => cmp_at q p) (seq 0 size).
(** n[p] (303-308): counted only when q is not itself dominated by p *)
Definition dominators (p : nat) : nat := length (filter (fun q => negb (cmp_at q p) && cmp_at p q) (seq 0 size)).
(** first front and its fitness (310-317) *)
Definition first_front : list nat := filter (fun p => dominators p =? 0) (seq 0 size).
Definition set_fitness (f : list (option Z)) (i : nat) (v : Z) : list (option Z) := set f i (Some v).
Definition first_fitness (f : list (option Z)) : list (option Z) := fold_left (fun f p => set_fitness f p 1%Z) first_front f.
(** the body of the inner loop (331-339); an unsigned counter decremented at 0 would wrap *)
Definition visit (counter : nat) (st : list nat * list (option Z) * list nat) (q : nat) : res (list nat * list (option Z) * list nat) :=
  let '(n, f, next) := st in
  let! c := of_opt (nth_error n q) in
  match c with
  | 0 => UB
  | S c' =>
      if c' =? 0 then Ok (set n q c', set_fitness f q (Z.of_nat (counter + 1)), next ++ [q])
      else Ok (set n q c', f, next)
  end.
Fixpoint visit_all (counter : nat) (st : list nat * list (option Z) * list nat) (qs : list nat) : res (list nat * list (option Z) * list nat) :=
  match qs with
  | [] => Ok st
  | q :: r => let! st' := visit counter st q in visit_all counter st' r
  end.
Fixpoint visit_front (counter : nat) (st : list nat * list (option Z) * list nat) (ps : list nat) : res (list nat * list (option Z) * list nat) :=
  match ps with
  | [] => Ok st
  | p :: r => let! st' := visit_all counter st (dominated_by p) in visit_front counter st' r
  end.
(** while (! F[counter].empty()) (321-342): F has size+2 vectors *)
Fixpoint peel (fuel : nat) (counter : nat) (front : list nat) (n : list nat) (f : list (option Z)) : res (list (option Z)) :=
  match fuel with
  | 0 => NoDraw
  | S fuel' =>
      if size + 2 <=? counter then UB else
      match front with
      | [] => Ok f
      | _ =>
          if size + 2 <=? counter + 1 then UB else
          let! (n', f', next) := visit_front counter (n, f, []) front in
          peel fuel' (S counter) next n' f'
      end
  end.
Definition mObjectives (f : list (option Z)) : res (list (option Z)) :=
  peel (size + 2) 1 first_front (map dominators (seq 0 size)) (first_fitness f).
End Peel.

(** the final inversion in operator() (108-117); reading an invalid fitness throws, and
    _pop[0] of an empty population is undefined *)
Fixpoint all_valid (f : list (option Z)) : option (list Z) :=
  match f with
  | [] => Some []
  | None :: _ => None
  | Some z :: r => option_map (cons z) (all_valid r)
  end.
Definition invert (f : list (option Z)) : res (list Z) :=
  match f with
  | [] => UB
  | _ =>
      match all_valid f with
      | None => Throw
      | Some zs => Ok (map (fun z => (fold_right Z.max (hd 0 zs) zs - z)%Z) zs)
      end
  end.

(** ** one objective (174-189): [sort] is std::sort, applied to the population itself. The
    result is the sorted population with its ranks. [minimise] is the direction. *)
Section Sorted.
Variable sort : forall T : Type, (T -> T -> bool) -> list T -> list T.
(** ObjectiveComparator (152-168), with tolerance [tol] *)
Definition obj_before (tol : Q) (dirs : list bool) (v w : list Q) : bool :=
  match dirs with
  | true :: _ => lexicographic tol dirs v w
  | _ => lexicographic tol dirs w v
  end.
(** an individual has the one objective [obj a] *)
Fixpoint ranks_from {A} (obj : A -> Q) (tol : Q) (prev : Q) (rank : Z) (pop : list A) : list Z :=
  match pop with
  | [] => []
  | x :: r =>
      let rank' := (if same_vector tol [obj x] [prev] then rank else rank + 1)%Z in
      rank' :: ranks_from obj tol (obj x) rank' r
  end.
Definition oneObjective {A} (obj : A -> Q) (tol : Q) (minimise : bool) (pop : list A) : res (list A * list Z) :=
  let sorted := sort A (fun a b => obj_before tol [minimise] [obj a] [obj b]) pop in
  match sorted with
  | [] => UB
  | x :: r => Ok (sorted, 1%Z :: ranks_from obj tol (obj x) 1 r)
  end.

(** ** two objectives (196-276): the population keeps its order, pointers are sorted *)
(** std::upper_bound on a range; it requires the range to be partitioned by the value: the
    elements greater than it come last *)
Fixpoint first_above (v : Q) (d : list Q) : nat :=
  match d with
  | [] => 0
  | x :: r => if qltb v x then 0 else S (first_above v r)
  end.
Fixpoint all_above (v : Q) (d : list Q) : bool :=
  match d with [] => true | x :: r => qltb v x && all_above v r end.
Definition upper_bound (d : list Q) (v : Q) : res nat :=
  let k := first_above v d in
  if all_above v (skipn k d) then Ok k else UB.
(** std::numeric_limits<double>::min() = 2^-1022 *)
Definition dbl_min : Q := (1 # (2 ^ 1022)%positive)%Q.
Definition qmax (a b : Q) : Q := if qltb a b then b else a.
(** an objective vector of two objectives *)
Definition vec2 (v : Q * Q) : list Q := [fst v; snd v].
Definition max_obj1 (vs : list (Q * Q)) : Q := (fold_left (fun m v => qmax m (snd v)) vs dbl_min + 1)%Q.
(** one step of the loop (232-266): d, last_front, previous vector; the front of the current
    individual. fronts.back() is front number size-1. *)
Definition place (rm_equiv : bool) (dirs : list bool) (tol top : Q) (size : nat) (st : list Q * nat * option (Q * Q)) (v : Q * Q)
    : res ((list Q * nat * option (Q * Q)) * nat) :=
  let '(d, last_front, prev) := st in
  let equiv := match prev with Some w => rm_equiv && same_vector tol (vec2 v) (vec2 w) | None => false end in
  if equiv then Ok ((d, last_front, Some v), size - 1)
  else
    let value := if nth 1 dirs true then snd v else (top - snd v)%Q in
    let! front := upper_bound (firstn last_front d) value in
    let last' := if front =? last_front then S last_front else last_front in
    let! d' := of_opt (upd d front value) in
    Ok ((d', last', Some v), front).
Fixpoint place_all (rm_equiv : bool) (dirs : list bool) (tol top : Q) (size : nat) (st : list Q * nat * option (Q * Q)) (sorted : list (Q * Q)) : res (list nat) :=
  match sorted with
  | [] => Ok []
  | v :: r =>
      let! (st', k) := place rm_equiv dirs tol top size st v in
      let! ks := place_all rm_equiv dirs tol top size st' r in
      Ok (k :: ks)
  end.
(** fitness(i+1) for the individuals of front i, through the sorted pointers (267-275) *)
Fixpoint assign_fronts (f : list (option Z)) (ptrs : list nat) (ks : list nat) : list (option Z) :=
  match ptrs, ks with
  | p :: ps, k :: ks' => assign_fronts (set f p (Some (Z.of_nat (k + 1)))) ps ks'
  | _, _ => f
  end.
Definition sorted_ptrs (tol : Q) (dirs : list bool) (vs : list (Q * Q)) : list nat :=
  sort nat (fun i j => obj_before tol dirs (vec2 (nth i vs (0, 0)%Q)) (vec2 (nth j vs (0, 0)%Q))) (seq 0 (length vs)).
Definition twoObjectives (rm_equiv : bool) (tol : Q) (dirs : list bool) (vs : list (Q * Q)) (f : list (option Z)) : res (list (option Z)) :=
  let ptrs := sorted_ptrs tol dirs vs in
  let top := max_obj1 vs in
  let size := length vs in
  let! ks := place_all rm_equiv dirs tol top size (repeat top size, 0, None) (map (fun i => nth i vs (0, 0)%Q) ptrs) in
  Ok (assign_fronts f ptrs ks).
End Sorted.

(** operator() (84-118), by number of objectives *)
Definition depth_many {V} (dominated : V -> V -> bool) (vs : list V) (f : list (option Z)) : res (list Z) :=
  let! f' := mObjectives V dominated vs f in invert f'.
Definition depth_two sort rm_equiv tol dirs vs f : res (list Z) :=
  let! f' := twoObjectives sort rm_equiv tol dirs vs f in invert f'.
Definition depth_one sort {A} (obj : A -> Q) tol minimise pop : res (list A * list Z) :=
  let! (pop', f') := oneObjective sort obj tol minimise pop in
  let! f'' := invert (map Some f') in Ok (pop', f'').

(** updateByDeleting (125-136) *)
Definition depth_delete {V} (dominated : V -> V -> bool) (vs : list V) (f : list Z) (gone : V) : list Z :=
  map (fun p => if dominated (fst p) gone then (snd p + 1)%Z else snd p) (combine vs f).
