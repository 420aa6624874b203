(** moNeighborhoodStat (mo/src/continuator/moNeighborhoodStat.h) and moStatistics
    (mo/src/sampling/moStatistics.h).  Doubles are exact rationals; sqrt is any function. *)
From Coq Require Import List Bool Arith QArith.
From Verif Require Import Lib Outcome NeighModel LsModel EvalModel BoundsModel.
Import ListNotations.
Close Scope Q_scope.
Open Scope nat_scope.

Definition qnat (n : nat) : Q := inject_Z (Z.of_nat n).

Section Neighborhood.
Variables (G F S I : Type).
Variables (lt eq : F -> F -> bool).
Variables (has : G -> bool) (nh : G -> iterator S I).
Variable neval : sol G F -> I -> res F.
(** the conversion of the fitness to double; [as_fit] is the conversion back, of the quartiles *)
Variables (val : F -> Q) (as_fit : Q -> F).
Variable sqrt : Q -> Q.
Variable sort : forall T : Type, (T -> T -> bool) -> list T -> list T.

(** the fields (296-306) *)
Record nstat := Nstat { n_max : F; n_min : F; n_mean : Q; n_sd : Q; n_q1 : F; n_q2 : F; n_q3 : F;
  n_nb : nat; n_inf : nat; n_equal : nat; n_sup : nat }.
(** the local variables of the loop: best, lowest, mean, neighborFitness and the counters *)
Record seen := Seen { s_best : F; s_low : F; s_sum : Q; s_all : list Q; s_nb : nat; s_inf : nat; s_equal : nat; s_sup : nat }.
(** the counters (119-124, 142-147), given the fitness of the solution *)
Definition count (f0 f : F) (c : nat * nat * nat) : nat * nat * nat :=
  let '(inf, eq', sup) := c in
  if eq f0 f then (inf, Datatypes.S eq', sup) else if lt f0 f then (inf, eq', Datatypes.S sup) else (Datatypes.S inf, eq', sup).
(** the first neighbor (107-128) *)
Definition first_seen (s : sol G F) (p : I * F) : res seen :=
  let! f0 := fitness s in
  let '(i, e, u) := count f0 (snd p) (0, 0, 0) in
  Ok (Seen (snd p) (snd p) (val (snd p)) [val (snd p)] 1 i e u).
(** the next ones (131-154) *)
Definition next_seen (s : sol G F) (a : seen) (p : I * F) : res seen :=
  let! f0 := fitness s in
  let '(i, e, u) := count f0 (snd p) (s_inf a, s_equal a, s_sup a) in
  Ok (Seen (if lt (s_best a) (snd p) then snd p else s_best a) (if lt (snd p) (s_low a) then snd p else s_low a)
           (s_sum a + val (snd p)) (s_all a ++ [val (snd p)]) (Datatypes.S (s_nb a)) i e u).
(** the end (156-179) *)
Definition finish (a : seen) : res nstat :=
  let nb := s_nb a in
  let mean := (s_sum a / qnat nb)%Q in
  if 1 <? nb then
    let! sd := for_in (seq 0 nb) (fun i acc => let! x := of_opt (nth_error (s_all a) i) in Ok (acc + (x - mean) * (x - mean))%Q) 0%Q in
    let all := sort _ qltb (s_all a) in
    let! q1 := of_opt (nth_error all (nb / 4)) in
    let! q2 := of_opt (nth_error all (nb / 2)) in
    let! q3 := of_opt (nth_error all (3 * nb / 4)) in
    Ok (Nstat (s_best a) (s_low a) mean (sqrt (sd / (qnat nb - 1))%Q) (as_fit q1) (as_fit q2) (as_fit q3) nb (s_inf a) (s_equal a) (s_sup a))
  else Ok (Nstat (s_best a) (s_low a) mean 0 (s_best a) (s_best a) (s_best a) nb (s_inf a) (s_equal a) (s_sup a)).
(** operator() and init (87-185): value() and the fields, which have no value ([None]) before the
    first solution that has neighbors *)
Definition neighborhood_stat (fuel : nat) (s : sol G F) (st : bool * option nstat) (n : S) (ds : list nat)
    : res (bool * option nstat * S * list nat) :=
  if has (geno s) then
    let! (p, n, ds) := start G F S I nh neval s n ds in
    let! a := first_seen s p in
    let! (a, n, ds) := scan G F S I nh neval (fun _ => false) (next_seen s) fuel s a n ds in
    let! r := finish a in
    Ok (true, Some r, n, ds)
  else Ok (false, snd st, n, ds).
End Neighborhood.

Section Statistics.
Variable sqrt : Q -> Q.
(** moStatistics::basic (65-100): min, max, average and the variance from which std is computed *)
Definition basic (data : list Q) : Q * Q * Q * Q :=
  match data with
  | [] => (0, 0, 0, 0)%Q
  | d0 :: _ =>
      let n := qnat (length data) in
      let '(mn, mx, avg, std) := fold_left (fun acc d => let '(mn, mx, avg, std) := acc in
        (if qltb d mn then d else mn, if qltb mx d then d else mx, avg + d, std + d * d)%Q) data (d0, d0, 0%Q, 0%Q) in
      let avg := (avg / n)%Q in
      let std := (std / n - avg * avg)%Q in
      (mn, mx, avg, if qltb 0 std then sqrt std else std)
  end.
(** moStatistics::distances (109-131) *)
Definition put (mt : list (list Q)) (i j : nat) (x : Q) : res (list (list Q)) :=
  let! row := of_opt (nth_error mt i) in
  let! row := of_opt (upd row j x) in of_opt (upd mt i row).
Definition at_ (mt : list (list Q)) (i j : nat) : res Q := let! row := of_opt (nth_error mt i) in of_opt (nth_error row j).
Definition distance_matrix {T} (dist : T -> T -> Q) (data : list T) : res (list (list Q)) :=
  let n := length data in
  for_in (seq 0 n) (fun i mt =>
    let! mt := put mt i i 0 in
    for_in (seq 0 i) (fun j mt =>
      let! a := of_opt (nth_error data i) in
      let! b := of_opt (nth_error data j) in
      let! mt := put mt i j (dist a b) in
      let! x := at_ mt i j in put mt j i x) mt) (repeat (repeat 0%Q n) n).

(** moStatistics::autocorrelation (141-219) *)
Record sums := Sums { c_m : list Q; c_sig : list Q; c_cov : list Q }.
Definition addto (l : list Q) (j : nat) (x : Q) : res (list Q) :=
  let! y := of_opt (nth_error l j) in of_opt (upd l j (y + x)%Q).
(** the body of the second while (176-182) *)
Definition gather (data : list Q) (k s : nat) (a : sums) : res sums :=
  for_in (seq 0 (S s)) (fun j a =>
    let! x := of_opt (nth_error data (k + j)) in
    let! x0 := of_opt (nth_error data k) in
    let! m := addto (c_m a) j x in
    let! sig := addto (c_sig a) j (x * x) in
    let! cov := addto (c_cov a) j (x0 * x) in
    Ok (Sums m sig cov)) a.
(** one turn of the first while (175-196), for k from the value left by the previous turns; n - s
    is unsigned: for s > n it wraps round, which is not modelled (the answers are then not numbers
    or zero) *)
Definition lag (data : list Q) (s k : nat) (a : sums) (rho : list Q) : res (nat * sums * list Q) :=
  let n := length data in
  let! a := for_in (seq k (n - s - k)) (fun k a => gather data k s a) a in
  let d := qnat (n - s) in
  let! ms := of_opt (nth_error (c_m a) s) in
  let ms := (ms / d)%Q in
  let! sg := of_opt (nth_error (c_sig a) s) in
  let sg := (sg / d - ms * ms)%Q in
  let sg := if Qle_bool sg 0 then 0%Q else sqrt sg in
  let! m_0 := of_opt (nth_error (c_m a) 0) in
  let m0 := (m_0 / d)%Q in
  let! sig_0 := of_opt (nth_error (c_sig a) 0) in
  let s0 := sqrt (sig_0 / d - m0 * m0)%Q in
  let! cs := of_opt (nth_error (c_cov a) s) in
  let cs := (cs / d - m_0 / d * ms)%Q in
  let! m := of_opt (upd (c_m a) s ms) in
  let! sig := of_opt (upd (c_sig a) s sg) in
  let! cov := of_opt (upd (c_cov a) s cs) in
  let! rho := of_opt (upd rho s (cs / (sg * s0))%Q) in
  Ok (Nat.max k (n - s), Sums m sig cov, rho).
Fixpoint lags (data : list Q) (s k : nat) (a : sums) (rho : list Q) : res (list Q) :=
  match s with
  | 0 => Ok rho
  | S s' => let! (k, a, rho) := lag data s k a rho in lags data s' k a rho
  end.
Definition correlations (data : list Q) (nbS : nat) : res (list Q) :=
  let z := repeat 0%Q (S nbS) in
  let! rho := of_opt (upd z 0 1%Q) in
  lags data nbS 0 (Sums z z z) rho.
(** the partial autocorrelations (198-217): one turn for [k] *)
Definition partial (rho : list Q) (k : nat) (phi2 : list (list Q)) : res (list (list Q)) :=
  let! (t1, t2) := for_in (seq 1 (k - 1)) (fun j t =>
    let! p := at_ phi2 (k - 1) j in
    let! r := of_opt (nth_error rho (k - j)) in
    let! r' := of_opt (nth_error rho j) in
    Ok (fst t + p * r, snd t + p * r')%Q) (0, 0)%Q in
  let! r := of_opt (nth_error rho k) in
  let! phi2 := put phi2 k k ((r - t1) / (1 - t2))%Q in
  for_in (seq 1 (k - 1)) (fun j phi2 =>
    let! a := at_ phi2 (k - 1) j in
    let! b := at_ phi2 k k in
    let! c := at_ phi2 (k - 1) (k - j) in
    put phi2 k j (a - b * c)%Q) phi2.
Definition partials (rho : list Q) (nbS : nat) : res (list (list Q)) :=
  let z := repeat (repeat 0%Q (S nbS)) (S nbS) in
  let! r := of_opt (nth_error rho 1) in
  let! phi2 := put z 1 1 r in
  for_in (seq 2 (nbS - 1)) (partial rho) phi2.
Definition autocorrelation (data : list Q) (nbS : nat) : res (list Q * list Q) :=
  match data with
  | [] => Ok ([], [])
  | _ =>
      let! rho := correlations data nbS in
      let! phi2 := partials rho nbS in
      let! phi := of_opt (upd (repeat 0%Q (S nbS)) 0 1%Q) in
      let! phi := for_in (seq 1 nbS) (fun j phi => let! x := at_ phi2 j j in of_opt (upd phi j x)) phi in
      Ok (rho, phi)
  end.
End Statistics.
