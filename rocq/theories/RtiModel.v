(** Model of the operators on reals used on integers, eo/src/eoRealToIntMonOp.h, eo/src/eoRealToIntQuadOp.h and eo/src/eoRealToIntInit.h, of the selection
    from an archive, moeo/src/selection/moeoDetArchiveSelect.h, and of the continuator that checks the parameters of an adaptive distribution,
    edo/src/edoContAdaptiveFinite.h. *)
From Coq Require Import Arith ZArith QArith Qround Bool.
From Verif Require Import Lib Outcome BoundsModel UgenModel.
From Coq Require Import List.
Import ListNotations.
Close Scope Q_scope.
Open Scope Z_scope.

(** * Real operators on integers *)

(** std::round: to the nearest integer, halves away from 0 *)
Definition qround (x : Q) : Z := (if Qle_bool 0 x then Qfloor (x + (1 # 2)) else Qceiling (x - (1 # 2)))%Q.
(** eoIntBounds (eo/src/utils/eoIntBounds.h:152-235 eoIntNoBounds, 236-360 eoIntInterval, 362-467 eoIntBelowBound, 469-577 eoIntAboveBound): the bounds are integers, the
    operations are the ones of the real bounds of BoundsModel *)
Inductive int_bounds := Free | Both (mn mx : Z) | AtLeast (mn : Z) | AtMost (mx : Z).
Definition real_bounds (b : int_bounds) : bounds :=
  match b with Free => NoBounds | Both mn mx => Interval (inject_Z mn) (inject_Z mx) | AtLeast mn => Below (inject_Z mn) | AtMost mx => Above (inject_Z mx) end.
Inductive repair := Folds | Truncate.
(** one atom (eoRealToIntMonOp.h:48-59, eoRealToIntQuadOp.h:54-65 and 68-79, eoRealToIntInit.h:49-60); [u] is what rng.uniform(range) would answer;
    the doubles are exact (rounded values are integers). The conversion of a value that is not an int is undefined. *)
Definition atom (b : int_bounds) (w : repair) (x u : Q) : res Z :=
  let rounded := inject_Z (qround x) in
  let! y := (if in_bounds (real_bounds b) rounded then Ok rounded else
             match w with Truncate => Ok (truncate (real_bounds b) rounded) | Folds => fold (fun x => x) (real_bounds b) rounded u end) in
  let z := qtrunc y in if is_int z then Ok z else UB.
(** the loops over the real solution: what the integer one becomes; writing past its end is undefined *)
Fixpoint write (b : int_bounds) (w : repair) (real : list Q) (sol : list Z) (us : nat -> Q) (i : nat) : res (list Z) :=
  match real, sol with
  | [], _ => Ok sol
  | x :: real, _ :: sol => let! z := atom b w x (us i) in let! r := write b w real sol us (S i) in Ok (z :: r)
  | _ :: _, [] => UB
  end.
(** the asserts on entry (eoRealToIntMonOp.h:35-39, eoRealToIntQuadOp.h:35-42, eoRealToIntInit.h:35-39) *)
Definition asserted (b : int_bounds) (sol : list Z) : bool := forallb (fun z => in_bounds (real_bounds b) (inject_Z z)) sol.
(** eoRealToIntMonOp::operator() (eoRealToIntMonOp.h:33-63) *)
Definition mon_op (b : int_bounds) (w : repair) (op : list Q -> list Q * bool) (sol : list Z) (us : nat -> Q) : res (list Z * bool) :=
  if negb (asserted b sol) then UB else
  let (real, changed) := op (map inject_Z sol) in
  if changed then let! s := write b w real sol us 0 in Ok (s, true) else Ok (sol, false).
(** eoRealToIntQuadOp::operator() (eoRealToIntQuadOp.h:33-83) *)
Definition quad_op (b : int_bounds) (w : repair) (op : list Q -> list Q -> list Q * list Q * bool) (sol1 sol2 : list Z) (us1 us2 : nat -> Q) : res (list Z * list Z * bool) :=
  if negb (asserted b sol1) || negb (asserted b sol2) then UB else
  let '(real1, real2, changed) := op (map inject_Z sol1) (map inject_Z sol2) in
  if changed then let! s1 := write b w real1 sol1 us1 0 in let! s2 := write b w real2 sol2 us2 0 in Ok (s1, s2, true) else Ok (sol1, sol2, false).
(** eoRealToIntInit::operator() (eoRealToIntInit.h:33-62) *)
Definition resized (l : list Z) (n : nat) : list Z := firstn n l ++ repeat 0 (n - length l).
Definition init_op (b : int_bounds) (w : repair) (init : list Q -> list Q) (sol : list Z) (us : nat -> Q) : res (list Z) :=
  if negb (asserted b sol) then UB else
  let real := init (map inject_Z sol) in write b w real (resized sol (length real)) us 0.

(** * Selection from an archive *)
Open Scope nat_scope.
(** the loops that push archive[k] for the given indices: a read past the end is undefined *)
Fixpoint pushed {X} (archive : list X) (ks : list nat) : res (list X) :=
  match ks with [] => Ok [] | k :: r => let! x := of_opt (nth_error archive k) in let! l := pushed archive r in Ok (x :: l) end.
(** moeoDetArchiveSelect::operator() (moeoDetArchiveSelect.h:60-91); [perm] is the permutation of the indices that std::shuffle makes; the remainder
    by 0 is undefined *)
Definition archive_select {X} (archive : list X) (mx mn : nat) (perm : list nat) (dest : list X) : res (list X) :=
  if mx <? mn then Ok dest else
  let n := length archive in
  if (mn <=? n) && (n <=? mx) then pushed archive (seq 0 n)
  else if mx <? n then pushed archive (firstn mx perm)
  else if n =? 0 then UB else pushed archive (map (fun i => i mod n) (seq 0 mn)).

(** * Finite parameters *)
(** a double that is finite or not *)
Inductive dbl := Fin (q : Q) | NotFinite.
Definition isfinite (x : dbl) : bool := match x with Fin _ => true | NotFinite => false end.
(** the parameters of an edoNormalAdaptive *)
Record adaptive := Adaptive { a_mean : list dbl; a_sigma : dbl; a_path_sigma : list dbl; a_scaling : list dbl; a_coord : list (list dbl); a_path_covar : list dbl; a_covar : list (list dbl) }.
(** is_finite for vectors (edoContAdaptiveFinite.h:94-102) and matrices (80-92) *)
Fixpoint finite_vec (v : list dbl) : bool := match v with [] => true | x :: r => if negb (isfinite x) then false else finite_vec r end.
Fixpoint finite_mat (m : list (list dbl)) : bool := match m with [] => true | v :: r => if negb (finite_vec v) then false else finite_mat r end.
(** edoContAdaptiveFinite::operator() (edoContAdaptiveFinite.h:48-75) *)
Definition go_on (d : adaptive) : bool :=
  finite_mat (a_covar d) && finite_vec (a_path_covar d) && finite_mat (a_coord d) && finite_vec (a_scaling d) && finite_vec (a_path_sigma d) && isfinite (a_sigma d).
