(** Model of problems/DTLZ/src: the evaluations DTLZ1 to DTLZ7, the SBX crossover and the polynomial mutation, on
    exact reals. M_PI is the real number pi and pow is the real power. *)
From Coq Require Import List Arith Bool ZArith Reals Lra.
From Verif Require Import Lib Outcome.
From Coq Require Import List.
Import ListNotations.
Open Scope nat_scope.

(** ** the evaluations *)
(** for (i in is) acc = f(x[i], acc), reading [x] where it is given *)
Fixpoint reading (x : list R) (is : list nat) (f : R -> R -> R) (acc : R) : res R :=
  match is with
  | [] => Ok acc
  | i :: r => let! v := of_opt (nth_error x i) in reading x r f (f v acc)
  end.
(** for (unsigned i = nbVar - k + 1; i <= nbVar; i++) g += term(x[i-1]), with k = nbVar - nbFun + 1: the first i is
    nbFun (DTLZ1Eval.cpp:52-55 and the same in the others); [m] is nbFun, at least 1 *)
Definition tail_sum (term : R -> R) (m : nat) (x : list R) : res R :=
  reading x (seq (m - 1) (length x + 1 - m)) (fun v acc => (acc + term v)%R) 0%R.
(** objective i: f = scale; for (j = nbFun - i; j >= 1; j--) f *= c(a[j-1]); if (i > 1) f *= s(a[nbFun - i])
    (DTLZ1Eval.cpp:59-68 and the same in the others) *)
Definition objective (c s : R -> R) (scale : R) (m : nat) (a : list R) (i : nat) : res R :=
  let! f := reading a (rev (seq 0 (m - i))) (fun v acc => (acc * c v)%R) scale in
  if 1 <? i then let! v := of_opt (nth_error a (m - i)) in Ok (f * s v)%R else Ok f.
Fixpoint for_objectives (f : nat -> res R) (is : list nat) : res (list R) :=
  match is with [] => Ok [] | i :: r => let! v := f i in let! l := for_objectives f r in Ok (v :: l) end.
Definition shape (c s : R -> R) (scale : R) (m : nat) (a : list R) : res (list R) :=
  for_objectives (objective c s scale m a) (seq 1 m).

Definition g1_term (v : R) : R := ((v - / 2) ^ 2 - cos (20 * PI * (v - / 2)))%R.
Definition g2_term (v : R) : R := ((v - / 2) ^ 2)%R.
Definition quarter_cos (v : R) : R := cos (v * PI / 2).
Definition quarter_sin (v : R) : R := sin (v * PI / 2).
(** pow(x, y) for x >= 0 and y > 0 *)
Definition c_pow (x y : R) : R := if Req_EM_T x 0 then 0%R else Rpower x y.

(** DTLZ1Eval::operator() (DTLZ1Eval.cpp:43-74), on an element whose objective vector is invalid *)
Definition dtlz1 (m : nat) (x : list R) : res (list R) :=
  let! g := tail_sum g1_term m x in
  let g := (100 * (INR (length x + 1 - m) + g))%R in
  shape (fun v => v) (fun v => (1 - v)%R) (/ 2 * (1 + g))%R m x.
(** DTLZ2Eval::operator() (DTLZ2Eval.cpp:44-73) *)
Definition dtlz2 (m : nat) (x : list R) : res (list R) :=
  let! g := tail_sum g2_term m x in
  shape quarter_cos quarter_sin (1 + g)%R m x.
(** DTLZ3Eval::operator() (DTLZ3Eval.cpp:44-74) *)
Definition dtlz3 (m : nat) (x : list R) : res (list R) :=
  let! g := tail_sum g1_term m x in
  let g := (100 * (INR (length x + 1 - m) + g))%R in
  shape quarter_cos quarter_sin (1 + g)%R m x.
(** DTLZ4Eval::operator() (DTLZ4Eval.cpp:46-75) *)
Definition dtlz4 (alpha : R) (m : nat) (x : list R) : res (list R) :=
  let! g := tail_sum g2_term m x in
  shape (fun v => quarter_cos (c_pow v alpha)) (fun v => quarter_sin (c_pow v alpha)) (1 + g)%R m x.
(** the array theta (DTLZ5Eval.cpp:52-66, DTLZ6Eval.cpp:51-65): theta[0] from x[0], then i from 1 to nbFun - 2. With
    nbFun = 1 the array has no element and nbFun - 2 is, as an unsigned, 2^32 - 1: out of bounds *)
Fixpoint later_angles (t g : R) (x : list R) (is : list nat) : res (list R) :=
  match is with
  | [] => Ok []
  | i :: r => let! v := of_opt (nth_error x i) in let! l := later_angles t g x r in Ok (t * (1 + 2 * g * v) :: l)%R
  end.
Definition angles (g : R) (m : nat) (x : list R) : res (list R) :=
  if m <? 2 then UB
  else
    let t := (PI / (4 * (1 + g)))%R in
    let! v := of_opt (nth_error x 0) in
    let! l := later_angles t g x (seq 1 (m - 2)) in
    Ok (PI / 2 * v :: l)%R.
(** DTLZ5Eval::operator() (DTLZ5Eval.cpp:45-82) *)
Definition dtlz5 (m : nat) (x : list R) : res (list R) :=
  let! g := tail_sum g2_term m x in
  let! a := angles g m x in
  shape cos sin (1 + g)%R m a.
(** DTLZ6Eval::operator() (DTLZ6Eval.cpp:44-81) *)
Definition dtlz6 (m : nat) (x : list R) : res (list R) :=
  let! g := tail_sum (fun v => c_pow v (/ 10)) m x in
  let! a := angles g m x in
  shape cos sin (1 + g)%R m a.
(** DTLZ7Eval::operator() (DTLZ7Eval.cpp:43-74); [UB] also stands for the division by k = 0 *)
Definition dtlz7 (m : nat) (x : list R) : res (list R) :=
  let! g := tail_sum (fun v => v) m x in
  let k := length x + 1 - m in
  if k =? 0 then UB
  else
    let g := (1 + 9 * g / INR k)%R in
    let! front := for_objectives (fun i => of_opt (nth_error x (i - 1))) (seq 1 (m - 1)) in
    let! h := reading x (seq 0 (m - 1)) (fun v acc => (acc + v / (1 + g) * (1 + sin (3 * PI * v)))%R) 0%R in
    let h := (INR m - h)%R in
    Ok (front ++ [(1 + g) * h])%R.

(** ** the operators *)
(** eoRealVectorBounds: the interval of each variable; [None]: minimum(i) throws *)
Definition interval := option (R * R).
(** truncate (eoRealInterval, eoRealBounds.h:297-308) *)
Definition truncate (lo hi v : R) : R := if Rlt_dec v lo then lo else if Rlt_dec hi v then hi else v.

(** the two branches that compute betaq (SBXCrossover.h:138-148, 151-160) *)
Definition betaq (eta alpha rand : R) : R :=
  if Rle_dec rand (1 / alpha) then c_pow (rand * alpha) (1 / (eta + 1)) else c_pow (1 / (2 - rand * alpha)) (1 / (eta + 1)).
(** c1 and c2 before truncate (137-161) *)
Definition sbx_low (eta y1 y2 lo rand : R) : R :=
  let beta := (1 + 2 * (y1 - lo) / (y2 - y1))%R in
  let alpha := (2 - c_pow beta (- (eta + 1)))%R in
  (/ 2 * ((y1 + y2) - betaq eta alpha rand * (y2 - y1)))%R.
Definition sbx_high (eta y1 y2 hi rand : R) : R :=
  let beta := (1 + 2 * (hi - y2) / (y2 - y1))%R in
  let alpha := (2 - c_pow beta (- (eta + 1)))%R in
  (/ 2 * ((y1 + y2) + betaq eta alpha rand * (y2 - y1)))%R.
(** #define EPS 1.0e-14 (96) *)
Definition eps : R := (/ (10 ^ 14))%R.
(** SBXCrossover::operator() (SBXCrossover.h:109-186): a number and a coin are drawn for each variable on which the
    parents differ by more than EPS *)
Fixpoint sbx (eta : R) (bounds : list interval) (x y : list R) (us : list R) (coins : list bool)
  : res (bool * list R * list R * list R * list bool) :=
  match x with
  | [] => Ok (false, [], y, us, coins)
  | a :: x' =>
      match y with
      | [] => UB
      | b :: y' =>
          if Rlt_dec eps (Rabs (a - b)) then
            let '(y1, y2) := if Rlt_dec a b then (a, b) else (b, a) in
            match bounds with
            | [] => UB
            | None :: _ => Throw
            | Some (lo, hi) :: bs =>
                match us, coins with
                | rand :: us', flip :: coins' =>
                    let c1 := truncate lo hi (sbx_low eta y1 y2 lo rand) in
                    let c2 := truncate lo hi (sbx_high eta y1 y2 hi rand) in
                    let! (_, l1, l2, us'', coins'') := sbx eta bs x' y' us' coins' in
                    if (flip : bool) then Ok (true, c2 :: l1, c1 :: l2, us'', coins'') else Ok (true, c1 :: l1, c2 :: l2, us'', coins'')
                | _, _ => NoDraw
                end
            end
          else
            let! (ch, l1, l2, us', coins') := sbx eta (tl bounds) x' y' us coins in
            Ok (ch, a :: l1, b :: l2, us', coins')
      end
  end.

(** one variable of the polynomial mutation (PolynomialMutation.h:68-104) *)
Definition poly_move (eta y lo hi rnd : R) : R :=
  let delta1 := ((y - lo) / (hi - lo))%R in
  let delta2 := ((hi - y) / (hi - lo))%R in
  let delta_max := if Rlt_dec (hi - y) (y - lo) then delta2 else delta1 in
  let mut_pow := (1 / (eta + 1))%R in
  let xy := (1 - delta_max)%R in
  let deltaq :=
    if Rle_dec rnd (/ 2) then
      let val := (2 * rnd + (1 - 2 * rnd) * c_pow xy (eta + 1))%R in (c_pow val mut_pow - 1)%R
    else
      let val := (2 * (1 - rnd) + 2 * (rnd - / 2) * c_pow xy (eta + 1))%R in (1 - c_pow val mut_pow)%R in
  let deltaq := if Rlt_dec delta_max deltaq then delta_max else if Rlt_dec deltaq (- delta_max) then (- delta_max)%R else deltaq in
  (y + deltaq * (hi - lo))%R.
(** PolynomialMutation::operator() (PolynomialMutation.h:57-112): a coin per variable, a number if it is true *)
Fixpoint poly (eta : R) (bounds : list interval) (x : list R) (coins : list bool) (us : list R) : res (bool * list R * list bool * list R) :=
  match x with
  | [] => Ok (false, [], coins, us)
  | y :: x' =>
      match coins with
      | [] => NoDraw
      | false :: coins' => let! (ch, l, cs, us') := poly eta (tl bounds) x' coins' us in Ok (ch, y :: l, cs, us')
      | true :: coins' =>
          match bounds with
          | [] => UB
          | None :: _ => Throw
          | Some (lo, hi) :: bs =>
              match us with
              | [] => NoDraw
              | rnd :: us' =>
                  let v := truncate lo hi (poly_move eta y lo hi rnd) in
                  let! (_, l, cs, us'') := poly eta bs x' coins' us' in
                  Ok (true, v :: l, cs, us'')
              end
          end
      end
  end.
