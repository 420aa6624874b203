(** Model of the metrics between two Pareto sets: the contribution (moeo/src/metric/moeoContributionMetric.h), the additive and
    multiplicative epsilon indicators (moeoVecVsVec*EpsilonBinaryMetric.h) and the parts of the entropy (moeoEntropyMetric.h).
    Doubles are exact rationals; [None] is NaN. [dirs] and [tol] as in ParetoModel. *)
From Coq Require Import List Bool Arith QArith.
From Verif Require Import Outcome BoundsModel ParetoModel IndModel.
Import ListNotations.
Local Open Scope Q_scope.

(** ** moeoContributionMetric *)
Section Contribution.
Variable tol : Q.
Variable dirs : list bool.
Notation vector := (list Q).
(** a loop over set1 that counts the elements for which the loop over set2 reaches its break *)
Definition count (p : vector -> bool) (s : list vector) : nat := fold_left (fun n x => if p x then S n else n) s 0%nat.
(** card_C (79-90), card_W (98-109), card_N (117-134). paretoComparator(x, y): x is dominated by y *)
Definition card_C (s1 s2 : list vector) : nat := count (fun a => existsb (fun b => same_vector tol a b) s2) s1.
Definition card_W (s1 s2 : list vector) : nat := count (fun a => existsb (fun b => pareto tol dirs b a) s2) s1.
Definition card_N (s1 s2 : list vector) : nat := count (fun a => negb (existsb (fun b => pareto tol dirs b a || pareto tol dirs a b) s2)) s1.
(** operator() (58-66) from the five numbers; 0 / 0 is NaN *)
Definition natq (n : nat) : Q := inject_Z (Z.of_nat n).
Definition ratio (c w1 n1 w2 n2 : nat) : option Q :=
  if ((c + w1 + n1 + w2 + n2) =? 0)%nat then None
  else Some ((natq c / 2 + natq w1 + natq n1) / natq (c + w1 + n1 + w2 + n2)).
Definition contribution (s1 s2 : list vector) : option Q :=
  ratio (card_C s1 s2) (card_W s1 s2) (card_N s1 s2) (card_W s2 s1) (card_N s2 s1).
End Contribution.

(** ** moeoVecVsVecEpsilonBinaryMetric *)
(** a comparison with NaN is false *)
Definition lt_nan (a b : option Q) : bool := match a, b with Some x, Some y => qltb x y | _, _ => false end.
(** the loops of operator() (77-97): the first value, then the greatest (or the least); no value at all leaves the variable
    uninitialised *)
Definition greatest_of (l : list (option Q)) : res (option Q) :=
  match l with [] => UB | e :: l => Ok (fold_left (fun m t => if lt_nan m t then t else m) l e) end.
Definition least_of (l : list (option Q)) : res (option Q) :=
  match l with [] => UB | e :: l => Ok (fold_left (fun m t => if lt_nan t m then t else m) l e) end.
Fixpoint each_of {A B} (f : A -> res B) (l : list A) : res (list B) :=
  match l with [] => Ok [] | x :: l => let! y := f x in let! r := each_of f l in Ok (y :: r) end.
(** [eps a b]: the values epsilon(a, b, k) for k from 0. An exception leaves the loops at once. *)
Definition set_metric (eps : list Q -> list Q -> res (list (option Q))) (s1 s2 : list (list Q)) : res (option Q) :=
  let! es := each_of (fun b => let! l := each_of (fun a => let! es := eps a b in greatest_of es) s1 in least_of l) s2 in
  greatest_of es.
(** setup (110-127): the bounds as (minimum, range) *)
Definition bounds_at (s1 s2 : list (list Q)) (i : nat) : res (Q * Q) :=
  let! first := of_opt (hd_error s1) in
  let! x := of_opt (nth_error first i) in
  let! xs := each_of (fun v => of_opt (nth_error v i)) (tl s1 ++ s2) in
  let mn := fold_left std_min xs x in
  let mx := fold_left std_max xs x in
  Ok (mn, mx - mn).
Definition setup (n : nat) (s1 s2 : list (list Q)) : res (list (Q * Q)) := each_of (bounds_at s1 s2) (seq 0 n).
(** moeoVecVsVecAdditiveEpsilonBinaryMetric::epsilon (70-87). A range of 0 comes from values that are all equal to the minimum:
    0 / 0 is NaN. *)
Definition additive1 (d : bool) (b : Q * Q) (x y : Q) : option Q :=
  if Qeq_bool (snd b) 0 then None else Some (epsilon1 d b x y).
Fixpoint additive (dirs : list bool) (bs : list (Q * Q)) (v w : list Q) : res (list (option Q)) :=
  match dirs with
  | [] => Ok []
  | d :: dirs => match bs, v, w with
                 | b :: bs, x :: v, y :: w => let! r := additive dirs bs v w in Ok (additive1 d b x y :: r)
                 | _, _, _ => UB
                 end
  end.
(** the constructor's bounds (58-64) *)
Definition additive_metric (dirs : list bool) (normalize : bool) (s1 s2 : list (list Q)) : res (option Q) :=
  let! bs := if normalize then setup (length dirs) s1 s2 else Ok (repeat (0, 1) (length dirs)) in
  set_metric (additive dirs bs) s1 s2.
(** moeoVecVsVecMultiplicativeEpsilonBinaryMetric::epsilon (68-95) *)
Fixpoint multiplicative (dirs : list bool) (v w : list Q) : res (list (option Q)) :=
  match dirs with
  | [] => Ok []
  | d :: dirs => match v, w with
                 | x :: v, y :: w =>
                     if Qle_bool (x * y) 0 then Throw
                     else let! r := multiplicative dirs v w in Ok (Some (if d then x / y else y / x) :: r)
                 | _, _ => UB
                 end
  end.
Definition multiplicative_metric (dirs : list bool) (s1 s2 : list (list Q)) : res (option Q) :=
  set_metric (multiplicative dirs) s1 s2.

(** ** moeoEntropyMetric *)
Section Entropy.
Variable tol : Q.
Variable dirs : list bool.
Notation vector := (list Q).
(** the element taken from the back when one is erased *)
Definition fill (rest : list vector) : list vector := match rest with [] => [] | a :: _ => last rest a :: removelast rest end.
(** removeDominated (112-131): [kept] are the elements before i, [todo] those from i on. i != j is left out: no vector is
    dominated by itself. *)
Fixpoint remove_loop (fuel : nat) (kept todo : list vector) : list vector :=
  match fuel, todo with
  | S fuel, a :: rest =>
      if existsb (fun b => pareto tol dirs a b) (kept ++ todo) then remove_loop fuel kept (fill rest) else remove_loop fuel (kept ++ [a]) rest
  | _, _ => kept ++ todo
  end.
Definition remove_dominated (f : list vector) : list vector := remove_loop (length f) [] f.
(** computeUnion (178-193) *)
Definition union (f1 f2 : list vector) : list vector :=
  fold_left (fun f x => if existsb (fun y => same_vector tol y x) f1 then f else f ++ [x]) f2 f1.
(** euclidianDistance and howManyInNicheOf (199-221): squares are compared *)
Fixpoint square (v w : list Q) : res Q :=
  match v with [] => Ok 0 | x :: v => match w with [] => UB | y :: w => let! r := square v w in Ok ((x - y) * (x - y) + r) end end.
Definition in_niche (f : list vector) (s : vector) (size : nat) : res nat :=
  let radius := natq (length s) / natq size in
  fold_left (fun n x => let! n := n in let! d := square x s in Ok (if qltb d (radius * radius) then S n else n)) f (Ok 0%nat).
(** prenormalize (138-158), normalize (165-170) *)
Definition extent (f : list vector) (i : nat) : res (Q * Q) :=
  let! first := of_opt (hd_error f) in
  let! x := of_opt (nth_error first i) in
  let! xs := each_of (fun v => of_opt (nth_error v i)) (tl f) in
  Ok (fold_left (fun m y => if qltb y m then y else m) xs x, fold_left (fun m y => if qltb m y then y else m) xs x).
Definition prenormalize (f : list vector) : res (list (Q * Q)) := each_of (extent f) (seq 0 (length dirs)).
Fixpoint normalize1 (mm : list (Q * Q)) (v : vector) : vector :=
  match mm, v with (mn, mx) :: mm, x :: v => (x - mn) / (mx - mn) :: normalize1 mm v | _, _ => v end.
Definition normalize (mm : list (Q * Q)) (f : list vector) : list vector := map (normalize1 mm) f.
End Entropy.
(** the sets of operator() (58-81): set1 and set2 without their dominated vectors and normalised, the non-dominated vectors of
    their union, the union with set1; then (N_i, n_i) for every vector of the last (83-87) *)
Definition niches (tol : Q) (dirs : list bool) (s1 s2 : list (list Q)) : res (list (nat * nat)) :=
  let s1 := remove_dominated tol dirs s1 in
  let s2 := remove_dominated tol dirs s2 in
  let! mm := prenormalize dirs s1 in
  let s1 := normalize mm s1 in
  let s2 := normalize mm s2 in
  let star := remove_dominated tol dirs (union tol s1 s2) in
  let all := union tol s1 star in
  each_of (fun v => let! big := in_niche all v (length star) in let! small := in_niche s1 v (length star) in Ok (big, small)) all.
