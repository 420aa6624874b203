(** Model of moeo/src/metric/moeoHyperVolumeMetric.h and moeoHyperVolumeDifferenceMetric.h.
    The doubles are exact rationals here. *)
From Coq Require Import List Arith Bool ZArith QArith.
From Verif Require Import Outcome Lib ReplModel.
Import ListNotations.
Close Scope Q_scope.
Open Scope nat_scope.

Notation point := (list Q).
Definition at_ (front : list point) (i j : nat) : res Q := of_opt (obind (nth_error front i) (fun p => nth_error p j)).

(** dominates (173-187), on the first [k] objectives; greater is better *)
Fixpoint dom_loop (k : nat) (p q : point) (better : bool) : res bool :=
  match k with
  | 0 => Ok better
  | S k' =>
      match p, q with
      | x :: p', y :: q' => if qlt y x then dom_loop k' p' q' true else if qlt x y then Ok false else dom_loop k' p' q' better
      | _, _ => UB
      end
  end.
Definition hv_dominates (p q : point) (k : nat) : res bool := dom_loop k p q false.

(** the inner loop of filter_nondominated_set (225-242): stops at the end or, with [true], at
    the break, after point [i] has been replaced *)
Fixpoint filter_inner (fuel : nat) (front : list point) (i j n k : nat) : res (list point * nat * bool) :=
  if j <? n then
    match fuel with
    | 0 => NoDraw
    | S f =>
        let! p := of_opt (nth_error front i) in
        let! q := of_opt (nth_error front j) in
        let! d := hv_dominates p q k in
        if d then let! front' := of_opt (swap_at front j (n - 1)) in filter_inner f front' i j (n - 1) k
        else
          let! d' := hv_dominates q p k in
          if d' then let! front' := of_opt (swap_at front i (n - 1)) in Ok (front', n - 1, true)
          else filter_inner f front i (S j) n k
    end
  else Ok (front, n, false).
(** filter_nondominated_set (219-246): [i] decremented then incremented stays the same *)
Fixpoint filter_outer (fuel : nat) (front : list point) (i n k : nat) : res (list point * nat) :=
  if i <? n then
    match fuel with
    | 0 => NoDraw
    | S f =>
        let! (front', n', broke) := filter_inner n front i (S i) n k in
        filter_outer f front' (if broke then i else S i) n' k
    end
  else Ok (front, n).
Definition filter_nondominated (front : list point) (n k : nat) : res (list point * nat) := filter_outer (2 * n) front 0 n k.

(** surface_unchanged_to (255-269) *)
Fixpoint min_loop (front : list point) (i cnt obj : nat) (m : Q) : res Q :=
  match cnt with
  | 0 => Ok m
  | S c => let! v := at_ front i obj in min_loop front (S i) c obj (if qlt v m then v else m)
  end.
Definition surface_unchanged_to (front : list point) (n obj : nat) : res Q :=
  if n <? 1 then Throw else let! m := at_ front 0 obj in min_loop front 1 (n - 1) obj m.

(** reduce_nondominated_set (281-293) *)
Fixpoint reduce_loop (fuel : nat) (front : list point) (i n obj : nat) (t : Q) : res (list point * nat) :=
  if i <? n then
    match fuel with
    | 0 => NoDraw
    | S f =>
        let! v := at_ front i obj in
        if Qle_bool v t then let! front' := of_opt (swap_at front i (n - 1)) in reduce_loop f front' i (n - 1) obj t
        else reduce_loop f front (S i) n obj t
    end
  else Ok (front, n).
Definition reduce_nondominated (front : list point) (n obj : nat) (t : Q) : res (list point * nat) := reduce_loop n front 0 n obj t.

(** the while loop of calc_hypervolume (310-339) for [k] objectives, with fuel; [sub]: the
    computation of temp_vol, from the front and the number of points kept by the filter *)
Fixpoint slices (k : nat) (sub : list point -> nat -> res (Q * list point)) (fuel : nat)
    (front : list point) (n : nat) (volume distance : Q) : res (Q * list point) :=
  if 0 <? n then
    match fuel with
    | 0 => NoDraw
    | S f =>
        let! (front1, nn) := filter_nondominated front n (k - 1) in
        let! (temp_vol, front2) := sub front1 nn in
        let! temp_dist := surface_unchanged_to front2 n (k - 1) in
        let! (front3, n') := reduce_nondominated front2 n (k - 1) temp_dist in
        slices k sub f front3 n' (volume + temp_vol * (temp_dist - distance))%Q temp_dist
    end
  else Ok (volume, front).
(** front[0][0] (325) *)
Definition first_value (front : list point) (_ : nat) : res (Q * list point) :=
  let! x := at_ front 0 0 in Ok (x, front).
(** calc_hypervolume (303-340); with less than 3 objectives temp_vol is the first coordinate
    of the first point, otherwise it is computed recursively (322-330) *)
Fixpoint calc_hypervolume (k : nat) (front : list point) (n : nat) : res (Q * list point) :=
  slices k (match k with
            | 0 => fun _ _ => Throw
            | S k' => if k <? 3 then first_value else calc_hypervolume k'
            end) n front n 0%Q 0%Q.

(** bounds of the values of an objective (setup, 149-167) *)
Definition qmin2 (x y : Q) : Q := if qlt y x then y else x.
Definition qmax2 (x y : Q) : Q := if qlt x y then y else x.
Fixpoint bounds_of (set : list point) (i : nat) (mn mx : Q) : res (Q * Q) :=
  match set with
  | [] => Ok (mn, mx)
  | p :: r => let! x := of_opt (nth_error p i) in bounds_of r i (qmin2 mn x) (qmax2 mx x)
  end.
Definition setup1 (set : list point) (i : nat) : res (Q * Q) :=
  match set with
  | [] => Throw
  | p :: r => let! x := of_opt (nth_error p i) in bounds_of r i x x
  end.
(** front[i][j] (118-127). A zero range divides by zero: no number results ([UB] here). *)
Definition shifted (minimise : bool) (ref x mn mx : Q) : res Q :=
  if Qeq_bool (mx - mn) 0 then UB
  else Ok (if minimise then ref - (x - mn) / (mx - mn) else (x - mn) / (mx - mn) - ref)%Q.
Fixpoint shift_point (dirs : list bool) (ref : list Q) (bounds : list (Q * Q)) (p : point) : res point :=
  match dirs, ref, bounds, p with
  | [], _, _, _ => Ok []
  | d :: dirs', r :: ref', (mn, mx) :: bounds', x :: p' =>
      let! y := shifted d r x mn mx in let! s := shift_point dirs' ref' bounds' p' in Ok (y :: s)
  | _, _, _, _ => UB
  end.
Fixpoint shift_all (dirs : list bool) (ref : list Q) (bounds : list (Q * Q)) (set : list point) : res (list point) :=
  match set with
  | [] => Ok []
  | p :: r => let! q := shift_point dirs ref bounds p in let! s := shift_all dirs ref bounds r in Ok (q :: s)
  end.
Fixpoint for_all_objectives {T} (f : nat -> res T) (l : list nat) : res (list T) :=
  match l with [] => Ok [] | i :: r => let! x := f i in let! s := for_all_objectives f r in Ok (x :: s) end.
(** the reference point from rho (95-109) *)
Definition ref_of (normalize : bool) (rho : Q) (d : bool) (b : Q * Q) : Q :=
  if normalize then (if d then rho else 1 - rho)%Q else (if d then snd b * rho else snd b * (1 - rho))%Q.
(** operator() (89-132); [ref]: the reference point given to the constructor, used when
    [rho < 1]; [bounds0]: the bounds held by the object *)
Definition hv_metric (dirs : list bool) (normalize : bool) (rho : Q) (ref : list Q) (bounds0 : list (Q * Q)) (set : list point) : res Q :=
  let k := length dirs in
  let unit := repeat (0, 1)%Q k in
  let! (ref', bounds) :=
    if Qle_bool 1 rho then
      let! b := for_all_objectives (setup1 set) (seq 0 k) in
      Ok (map (fun db => ref_of normalize rho (fst db) (snd db)) (combine dirs b), if normalize then b else unit)
    else if normalize then let! b := for_all_objectives (setup1 set) (seq 0 k) in Ok (ref, b)
    else Ok (ref, bounds0) in
  let! front := shift_all dirs ref' bounds set in
  let! (v, _) := calc_hypervolume k front (length front) in Ok v.
(** moeoHyperVolumeDifferenceMetric with a reference point and no normalisation
    (moeoHyperVolumeDifferenceMetric.h:88-121): bounds are 0..1 *)
Definition hv_difference (dirs : list bool) (ref : list Q) (set1 set2 : list point) : res Q :=
  let unit := repeat (0, 1)%Q (length dirs) in
  let! a := hv_metric dirs false 0 ref unit set1 in
  let! b := hv_metric dirs false 0 ref unit set2 in Ok (a - b)%Q.
