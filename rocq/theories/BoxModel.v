(** Model of moeoEpsilonHyperboxArchive (moeo/src/archive/moeoEpsilonHyperboxArchive.h) with its
    default comparator, and of the part of moeoObjectiveVectorNormalizer it uses.

    Objective values are exact rationals; [dirs] tells which objectives are minimised ([true]),
    [tol] is the tolerance of the Pareto comparator, [eps] the vector epsilon.  The members
    ideal and nadir are one list of pairs (ideal[i], nadir[i]).  An entry of the scale of the
    normalizer is (scale[i][0], scale[i][1]); scale[i][0] is [None] when it is the infinity that
    1.0/0.0 gives.  A normalised value is [None] when it is the NaN that 0.0 * infinity gives.
    Non-zero * infinity is not modelled: it gives [UB] (and is proved not to happen).
    Vectors have nObjectives() components; a shorter one gives [UB]. *)
From Coq Require Import List Bool Arith ZArith QArith Qround.
From Verif Require Import Lib Outcome BoundsModel ParetoModel.
Import ListNotations.
Close Scope Q_scope.
Open Scope nat_scope.

Section Archive.
Context {G : Type}.
Variable obj : G -> list Q.
Variable tol : Q.
Variable dirs : list bool.
Variable eps : list Q.

(** [x] is strictly better than [y] on an objective *)
Definition bett (d : bool) (x y : Q) : bool := if d then qltb x y else qltb y x.

Record box := Box { mem : list G; bnd : list (Q * Q); scale : list (option Q * Q) }.

(** make_scale_from_bounds(bounds, 1.0) with bounds (0.0, 1.0), from the constructor
    (moeoObjectiveVectorNormalizer.h:163-173, moeoEpsilonHyperboxArchive.h:90) *)
Definition empty_box : box := Box [] [] (map (fun _ => (Some 1%Q, 0%Q)) dirs).

(** make_scale_from_minmax (moeoObjectiveVectorNormalizer.h:182-191) with max = 1.0, on the
    smaller and the larger of ideal[i] and nadir[i]
    (moeoEpsilonHyperboxArchive.h:337-343, 391-397) *)
Definition scale1 (b : Q * Q) : option Q * Q :=
  let mini := if qltb (snd b) (fst b) then snd b else fst b in
  let maxi := if qltb (fst b) (snd b) then snd b else fst b in
  (if Qeq_bool (maxi - mini)%Q 0 then None else Some (1 / (maxi - mini))%Q, mini).
Definition scale_of (bs : list (Q * Q)) : list (option Q * Q) := map scale1 bs.

(** hyperbox (275-291): normalise, divide by epsilon, round down (up when maximised) *)
Fixpoint hyperbox (ds : list bool) (es : list Q) (sc : list (option Q * Q)) (v : list Q) : res (list (option Z)) :=
  match ds with
  | [] => Ok []
  | d :: ds' =>
      match es, sc, v with
      | e :: es', (c, mn) :: sc', x :: v' =>
          let! r := match c with
            | Some k => let t := ((x - mn) * k * 1 / e)%Q in Ok (Some (if d then Qfloor t else Qceiling t))
            | None => if Qeq_bool x mn then Ok None else UB
            end in
          let! rs := hyperbox ds' es' sc' v' in Ok (r :: rs)
      | _, _, _ => UB
      end
  end.

(** moeoParetoObjectiveVectorComparator (moeoParetoObjectiveVectorComparator.h:56-91) on corners:
    a comparison with NaN is false *)
Definition differ_c (a b : option Z) : bool :=
  match a, b with Some x, Some y => differ tol (inject_Z x) (inject_Z y) | _, _ => false end.
Definition less_c (a b : option Z) : bool :=
  match a, b with Some x, Some y => qltb (inject_Z x) (inject_Z y) | _, _ => false end.
Fixpoint corner_loop (ds : list bool) (c1 c2 : list (option Z)) (dom : bool) : bool :=
  match ds, c1, c2 with
  | d :: ds', a :: c1', b :: c2' =>
      if differ_c a b then
        if d then (if less_c b a then corner_loop ds' c1' c2' true else false)
        else (if less_c a b then corner_loop ds' c1' c2' true else false)
      else corner_loop ds' c1' c2' dom
  | _, _, _ => dom
  end.
Definition corner_dom (c1 c2 : list (option Z)) : bool := corner_loop dirs c1 c2 false.

(** the test of 163-164: every component equal (NaN is not equal to itself) *)
Fixpoint same_corner (c1 c2 : list (option Z)) : bool :=
  match c1, c2 with
  | a :: c1', b :: c2' => match a, b with Some x, Some y => Z.eqb x y | _, _ => false end && same_corner c1' c2'
  | _, _ => true
  end.

(** moeoEuclideanDistance between an objective vector and a corner
    (moeoEuclideanDistance.h:75-86): the square of it, which has the same order *)
Fixpoint sq_dist (v : list Q) (c : list (option Z)) : res Q :=
  match v, c with
  | x :: v', Some z :: c' => let! r := sq_dist v' c' in Ok ((x - inject_Z z) * (x - inject_Z z) + r)%Q
  | _ :: _, None :: _ => UB
  | [], _ => Ok 0%Q
  | _, [] => UB
  end.

(** changeBounds (299-350): the two loops and the change of scale.  The result is 1, 0 or -1. *)
Fixpoint ideal_loop (ds : list bool) (bs : list (Q * Q)) (v : list Q) (r : Z) : res (list (Q * Q) * Z) :=
  match ds with
  | [] => Ok ([], r)
  | d :: ds' =>
      match bs, v with
      | (i, n) :: bs', x :: v' =>
          if bett d x i then let! (rest, r) := ideal_loop ds' bs' v' 1 in Ok ((x, n) :: rest, r)
          else let! (rest, r) := ideal_loop ds' bs' v' r in Ok ((i, n) :: rest, r)
      | _, _ => UB
      end
  end.
Fixpoint nadir_loop (ds : list bool) (bs : list (Q * Q)) (v : list Q) (r : Z) : res (list (Q * Q) * Z) :=
  match ds with
  | [] => Ok ([], r)
  | d :: ds' =>
      match bs, v with
      | (i, n) :: bs', x :: v' =>
          if bett d n x then
            if Z.eqb r 1 then let! (rest, r) := nadir_loop ds' bs' v' r in Ok ((i, x) :: rest, r)
            else let! (rest, r) := nadir_loop ds' bs' v' (-1) in Ok ((i, n) :: rest, r)
          else let! (rest, r) := nadir_loop ds' bs' v' r in Ok ((i, n) :: rest, r)
      | _, _ => UB
      end
  end.
Definition changeBounds (st : box) (v : G) : res (box * Z) :=
  let! (bs, r) := ideal_loop dirs (bnd st) (obj v) 0 in
  let! (bs, r) := nadir_loop dirs bs (obj v) r in
  Ok (Box (mem st) bs (if Z.eqb r 1 then scale_of bs else scale st), r).

(** recalculateBounds (366-398), the loop over the members outside that over the objectives *)
Fixpoint widen (ds : list bool) (bs : list (Q * Q)) (v : list Q) : res (list (Q * Q)) :=
  match ds with
  | [] => Ok []
  | d :: ds' =>
      match bs, v with
      | (i, n) :: bs', x :: v' =>
          let! rest := widen ds' bs' v' in
          if bett d x i then Ok ((x, n) :: rest)
          else if bett d n x then Ok ((i, x) :: rest)
          else Ok ((i, n) :: rest)
      | _, _ => UB
      end
  end.
Fixpoint widen_all (bs : list (Q * Q)) (l : list G) : res (list (Q * Q)) :=
  match l with [] => Ok bs | a :: l' => let! bs := widen dirs bs (obj a) in widen_all bs l' end.
Definition point (v : list Q) : list (Q * Q) := map (fun x => (x, x)) v.
Definition recalculateBounds (l : list G) : res box :=
  match l with
  | [] => UB
  | a :: l' => let! bs := widen_all (point (obj a)) l' in Ok (Box l bs (scale_of bs))
  end.

(** changeBoundsByDeleting (356-361) *)
Fixpoint on_bound (ds : list bool) (bs : list (Q * Q)) (v : list Q) : bool :=
  match ds, bs, v with
  | _ :: ds', (i, n) :: bs', x :: v' => Qeq_bool x n || Qeq_bool x i || on_bound ds' bs' v'
  | _, _, _ => false
  end.
Definition changeBoundsByDeleting (st : box) (v : G) : res box :=
  if on_bound dirs (bnd st) (obj v) then recalculateBounds (mem st) else Ok st.

(** erasing the member at the current index: the last one takes its place and is looked at next
    (134-139, 170-175, 194-199) *)
Definition fill (rest : list G) : list G :=
  match rest with [] => [] | a :: _ => last rest a :: removelast rest end.

(** the loop (122-218): [kept] are the members before the current index, [todo] those from it on.
    The result is the state, nonstop and res. *)
Fixpoint scan (fuel : nat) (bs : list (Q * Q)) (sc : list (option Q * Q)) (change : Z) (v : G) (corner : list (option Z))
    (kept todo : list G) (r : bool) : res (box * bool * bool) :=
  match todo with
  | [] => Ok (Box kept bs sc, true, r)
  | a :: rest =>
      match fuel with
      | 0 => NoDraw
      | S fuel =>
          let st := Box (kept ++ todo) bs sc in
          let! tmp := hyperbox dirs eps sc (obj a) in
          if corner_dom tmp corner then scan fuel bs sc change v corner kept (fill rest) true
          else if corner_dom corner tmp then
            let! st := if Z.eqb change 1 then changeBoundsByDeleting st v else Ok st in Ok (st, false, r)
          else if same_corner corner tmp then
            if pareto tol dirs (obj a) (obj v) then scan fuel bs sc change v corner kept (fill rest) true
            else if pareto tol dirs (obj v) (obj a) then
              let! st := changeBoundsByDeleting st v in Ok (st, false, r)
            else
              let! d1 := sq_dist (obj v) corner in
              let! d2 := sq_dist (obj a) corner in
              if Qle_bool d1 d2 then scan fuel bs sc change v corner kept (fill rest) true
              else Ok (st, false, true)
          else scan fuel bs sc change v corner (kept ++ [a]) rest r
      end
  end.

(** operator() on a solution (98-225) *)
Definition offer (st : box) (v : G) : res (box * bool) :=
  match mem st with
  | [] => Ok (Box [v] (point (obj v)) (scale st), true)
  | _ =>
      let! (st, change) := changeBounds st v in
      if (change <? 0)%Z then Ok (st, false)
      else
        let! corner := hyperbox dirs eps (scale st) (obj v) in
        let! (st, nonstop, r) := scan (length (mem st)) (bnd st) (scale st) change v corner [] (mem st) false in
        if nonstop : bool then let! st := recalculateBounds (mem st ++ [v]) in Ok (st, true) else Ok (st, r)
  end.
(** operator() on a population (232-240), without its result, which is uninitialised *)
Fixpoint offers (st : box) (vs : list G) : res box :=
  match vs with [] => Ok st | v :: vs' => let! (st, _) := offer st v in offers st vs' end.
(** filtre (258-264): every member is offered again *)
Definition filtre (st : box) : res box := offers st (mem st).
End Archive.
Arguments box : clear implicits.
