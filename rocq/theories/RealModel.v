(** Model of the operators on real vectors and of the evolution-strategy operators (eo/src/es/eoRealOp.h, eoSBXcross.h,
    eoNormalMutation.h, eoEsMutate.h, eoRealAtomXover.h, eoEsStandardXover.h, eoEsGlobalXover.h, eoRealInitBounded.h,
    eoEsChromInit.h). Doubles are exact rationals. The random generator is the list of the values its next calls of uniform() and
    of normal() return; exp, sin, cos, the power of SBX and pi are parameters. *)
From Coq Require Import ZArith QArith Qround List Bool Arith.
From Verif Require Import Lib Outcome BoundsModel.
From Coq Require Import List.
Import ListNotations.
Open Scope Q_scope.

(** eo::rng (eo/src/utils/eoRNG.h:177-218, normal 260-285) *)
Record rand := Rand { us : list Q; zs : list Q }.
Definition uniform (r : rand) : res (Q * rand) := match us r with u :: t => Ok (u, Rand t (zs r)) | [] => NoDraw end.
Definition normal (r : rand) : res (Q * rand) := match zs r with z :: t => Ok (z, Rand (us r) t) | [] => NoDraw end.
Definition flip (p : Q) (r : rand) : res (bool * rand) := let! (u, r) := uniform r in Ok (qltb u p, r).
Definition random (m : nat) (r : rand) : res (nat * rand) := let! (u, r) := uniform r in Ok (Z.to_nat (Qfloor (u * inject_Z (Z.of_nat m))), r).

Definition std_max (a b : Q) : Q := if qltb a b then b else a.
Definition std_min (a b : Q) : Q := if qltb b a then b else a.

(** eoDummyVectorNoBounds, or an eoRealVectorBounds (eoRealVectorBounds.h:81-178, 355-412) *)
Inductive vbounds := Dummy | Vec (l : list bounds).
Definition lower (b : bounds) : option Q := match b with Interval mn _ => Some mn | Below mn => Some mn | _ => None end.
Definition upper (b : bounds) : option Q := match b with Interval _ mx => Some mx | Above mx => Some mx | _ => None end.
Definition bound_at (vb : vbounds) (i : nat) : res bounds := match vb with Dummy => Ok NoBounds | Vec l => of_opt (nth_error l i) end.
Definition vsize (vb : vbounds) : nat := match vb with Dummy => 0 | Vec l => length l end.
(** foldsInBounds of one value: eoRealInterval draws a number for values beyond 1e9 *)
Definition far (x : Q) : bool := qltb 1000000000 x || qltb 1000000000 (- x).
Definition fold_at (b : bounds) (x : Q) (r : rand) : res (Q * rand) :=
  match b with
  | Interval mn mx => if far x then let! (u, r) := uniform r in let! y := fold (fun q => q) b x ((mx - mn) * u) in Ok (y, r)
                      else let! y := fold (fun q => q) b x 0 in Ok (y, r)
  | _ => let! y := fold (fun q => q) b x 0 in Ok (y, r)
  end.

(** for (i = 0; i < v.size(); i++) v[i] = ..., with a state *)
Section Loops.
Context {A : Type}.
Fixpoint each (f : nat -> Q -> A -> res (Q * A)) (i : nat) (v : list Q) (a : A) : res (list Q * A) :=
  match v with
  | [] => Ok ([], a)
  | x :: v => let! (y, a) := f i x a in let! (v, a) := each f (S i) v a in Ok (y :: v, a)
  end.
(** the same over the indices of a first vector, with a second one *)
Fixpoint each2 (f : nat -> Q -> Q -> A -> res (Q * Q * A)) (i : nat) (v w : list Q) (a : A) : res (list Q * list Q * A) :=
  match v with
  | [] => Ok ([], w, a)
  | x :: v => match w with
              | [] => UB
              | y :: w => let! (x, y, a) := f i x y a in let! (v, w, a) := each2 f (S i) v w a in Ok (x :: v, y :: w, a)
              end
  end.
End Loops.

(** ** eoUniformMutation (eoRealOp.h:46-134) *)
(** the scaling of the constructors with bounds (74-76; 176-178): epsilon[i] already holds _epsilon *)
Definition range_of (b : bounds) : option Q := match b with Interval mn mx => Some (mx - mn) | _ => None end.
Definition scale (e : Q) (b : bounds) : Q := match range_of b with Some r => e * (e * r) | None => e end.
Definition scaled (bs : list bounds) (e : Q) : list Q := map (scale e) bs.
(** 96-104 *)
Definition uniform_homogeneous (eps p : Q) (v : list Q) (r : rand) : res (list Q * (bool * rand)) :=
  each (fun _ x '(c, r) => let! (b, r) := flip p r in
    if b then let! (u, r) := uniform r in Ok (x + (2 * eps * u - eps), (true, r)) else Ok (x, (c, r))) 0 v (false, r).
(** 113-124, 189-203: a new value for coordinate i *)
Definition in_range (b : bounds) (e x u : Q) : Q :=
  let emin := match lower b with Some m => std_max m (x - e) | None => x - e end in
  let emax := match upper b with Some m => std_min m (x + e) | None => x + e end in
  emin + (emax - emin) * u.
(** 106-125 *)
Definition uniform_bounded (bs : list bounds) (eps ps : list Q) (v : list Q) (r : rand) : res (list Q * (bool * rand)) :=
  if length v =? length bs then
    each (fun i x '(c, r) =>
      let! p := of_opt (nth_error ps i) in let! (b, r) := flip p r in
      if b then
        let! e := of_opt (nth_error eps i) in let! bd := of_opt (nth_error bs i) in let! (u, r) := uniform r in
        Ok (in_range bd e x u, (true, r))
      else Ok (x, (c, r))) 0 v (false, r)
  else Throw.

(** ** eoDetUniformMutation (eoRealOp.h:145-232) *)
(** the constructor with a vector of epsilon (176-178) *)
Fixpoint scaled_each (bs : list bounds) (eps : list Q) : res (list Q) :=
  match bs with
  | [] => Ok eps
  | b :: bs => match eps with [] => match range_of b with Some _ => UB | None => scaled_each bs [] end | e :: eps => let! l := scaled_each bs eps in Ok (scale e b :: l) end
  end.
(** 191-197 *)
Fixpoint det_homogeneous (no : nat) (eps : Q) (v : list Q) (r : rand) : res (list Q * rand) :=
  match no with
  | O => Ok (v, r)
  | S no =>
      let! (i, r) := random (length v) r in let! (u, r) := uniform r in
      let! v := of_opt (upd v i (2 * eps * u - eps)) in det_homogeneous no eps v r
  end.
(** 199-217 *)
Fixpoint det_loop (no : nat) (bs : list bounds) (eps : list Q) (v : list Q) (r : rand) : res (list Q * rand) :=
  match no with
  | O => Ok (v, r)
  | S no =>
      let! (i, r) := random (length v) r in
      let! x := of_opt (nth_error v i) in let! e := of_opt (nth_error eps i) in let! b := of_opt (nth_error bs i) in
      let! (u, r) := uniform r in
      let! v := of_opt (upd v i (in_range b e x u)) in det_loop no bs eps v r
  end.
Definition det_bounded (no : nat) (bs : list bounds) (eps : list Q) (v : list Q) (r : rand) : res (list Q * rand) :=
  if length v =? length bs then det_loop no bs eps v r else Throw.

(** ** eoSegmentCrossover (eoRealOp.h:245-335) *)
(** fact * r1 + (1-fact) * r2, and the converse (323-324) *)
Definition mix (f r1 r2 : Q) : Q * Q := (f * r1 + (1 - f) * r2, (1 - f) * r1 + f * r2).
(** the limits on the factor given by one coordinate (295-312) *)
Definition limit (b : bounds) (r1 r2 : Q) (lim : Q * Q) : Q * Q :=
  if Qeq_bool r1 r2 then lim else
    let rmin := std_min r1 r2 in let rmax := std_max r1 r2 in let len := rmax - rmin in
    let lim := match lower b with
               | Some m => (std_max (fst lim) ((m - rmin) / len), std_min (snd lim) ((rmax - m) / len))
               | None => lim end in
    match upper b with
    | Some m => (std_max (fst lim) ((rmax - m) / len), std_min (snd lim) ((m - rmin) / len))
    | None => lim
    end.
Fixpoint limits (vb : vbounds) (i : nat) (v w : list Q) (lim : Q * Q) : res (Q * Q) :=
  match v with
  | [] => Ok lim
  | r1 :: v =>
      match w with
      | [] => UB
      | r2 :: w => if Qeq_bool r1 r2 then limits vb (S i) v w lim
                   else let! b := bound_at vb i in limits vb (S i) v w (limit b r1 r2 lim)
      end
  end.
Definition segment (vb : vbounds) (alpha : Q) (v w : list Q) (r : rand) : res (list Q * list Q * rand) :=
  let! (f, r) :=
    (if Qeq_bool alpha 0 then let! (u, r) := uniform r in Ok (- alpha + (1 + 2 * alpha) * u, r)
     else let! (lo, hi) := limits vb 0 v w (- alpha, 1 + alpha) in let! (u, r) := uniform r in Ok (lo + (hi - lo) * u, r)) in
  each2 (fun _ r1 r2 (r : rand) => Ok (mix f r1 r2, r)) 0 v w r.

(** ** eoHypercubeCrossover (eoRealOp.h:345-460); the constructors refuse a negative alpha (359-360, 376-377) *)
Definition hyper_plain (r1 r2 : Q) (s : bool * rand) : res (Q * Q * (bool * rand)) :=
  if Qeq_bool r1 r2 then Ok (r1, r2, s) else let! (u, r) := uniform (snd s) in Ok (mix u r1 r2, (true, r)).
Definition hyper_wide (vb : vbounds) (alpha : Q) (i : nat) (r1 r2 : Q) (s : bool * rand) : res (Q * Q * (bool * rand)) :=
  if Qeq_bool r1 r2 then Ok (r1, r2, s) else
    let! b := bound_at vb i in
    let rmin := std_min r1 r2 in let rmax := std_max r1 r2 in
    let omin := - alpha * rmax + (1 + alpha) * rmin in
    let omax := - alpha * rmin + (1 + alpha) * rmax in
    let omin := match lower b with Some m => std_max omin m | None => omin end in
    let omax := match upper b with Some m => std_min omax m | None => omax end in
    let median := (omin + omax) / 2 in
    let! (u1, r) := uniform (snd s) in let! (u2, r) := uniform r in
    let vmin := omin + (median - omin) * u1 in
    let vmax := median + (omax - median) * u2 in
    let! (c, r) := flip (1 # 2) r in
    Ok (if c then (vmin, vmax) else (vmax, vmin), (true, r)).
Definition hypercube (vb : vbounds) (alpha : Q) (v w : list Q) (r : rand) : res (list Q * list Q * (bool * rand)) :=
  if qltb alpha 0 then Throw
  else if Qeq_bool alpha 0 then each2 (fun _ => hyper_plain) 0 v w (false, r)
  else each2 (hyper_wide vb alpha) 0 v w (false, r).

(** ** eoRealUXover (eoRealOp.h:470-506): the run-time errors are built but not thrown *)
Definition real_ux (p : Q) (v w : list Q) (r : rand) : res (list Q * list Q * (bool * rand)) :=
  each2 (fun _ x y '(c, r) => let! (b, r) := flip p r in
    if b && negb (Qeq_bool x y) then Ok (y, x, (true, r)) else Ok (x, y, (c, r))) 0 v w (false, r).

Section Functions.
Variables (power : Q -> Q -> Q) (expo sine cosine : Q -> Q) (pi : Q).

(** ** eoSBXCrossover (eoSBXcross.h:93-128); [power x y] is exp(y * log(x)) *)
Definition sbx_beta (eta u : Q) : Q := if Qle_bool u (1 # 2) then power (2 * u) (1 / (eta + 1)) else power (1 / (2 * (1 - u))) (1 / (eta + 1)).
Definition fix_in (b : bounds) (x : Q) (r : rand) : res (Q * rand) := if in_bounds b x then Ok (x, r) else fold_at b x r.
Definition sbx (vb : vbounds) (eta : Q) (v w : list Q) (r : rand) : res (list Q * list Q * rand) :=
  each2 (fun i r1 r2 r =>
    let! (u, r) := uniform r in
    let beta := sbx_beta eta u in
    let x := (1 # 2) * ((1 + beta) * r1 + (1 - beta) * r2) in
    let y := (1 # 2) * ((1 - beta) * r1 + (1 + beta) * r2) in
    let! b := bound_at vb i in
    let! (x, r) := fix_in b x r in let! (y, r) := fix_in b y r in Ok (x, y, r)) 0 v w r.

(** ** eoNormalVecMutation (eoNormalMutation.h:50-105), eoNormalMutation (118-168) *)
(** the constructor without bounds: sigma(_sigma) makes a vector of (size_t)_sigma zeros *)
Definition normal_vec_unbounded (sigma : Q) : list Q := repeat 0 (Z.to_nat (qtrunc sigma)).
Definition normal_vec (vb : vbounds) (sigma : list Q) (p : Q) (v : list Q) (r : rand) : res (list Q * (bool * rand)) :=
  each (fun i x '(c, r) => let! (b, r) := flip p r in
    if b then let! s := of_opt (nth_error sigma i) in let! (z, r) := normal r in let! bd := bound_at vb i in
              let! (y, r) := fold_at bd (x + s * z) r in Ok (y, (true, r))
    else Ok (x, (c, r))) 0 v (false, r).
Definition normal_mutation (vb : vbounds) (sigma p : Q) (v : list Q) (r : rand) : res (list Q * (bool * rand)) :=
  each (fun i x '(c, r) => let! (b, r) := flip p r in
    if b then let! (z, r) := normal r in let! bd := bound_at vb i in
              let! (y, r) := fold_at bd (x + sigma * z) r in Ok (y, (true, r))
    else Ok (x, (c, r))) 0 v (false, r).

(** ** eoEsMutate (eoEsMutate.h:95-235) *)
Definition stdev_eps : Q := 1 # (10 ^ 40).
Definition clamp_dev (s : Q) : Q := if qltb s stdev_eps then stdev_eps else s.
(** bounds.foldsInBounds(_eo): one call per bound (eoRealVectorBounds.h:128-134) *)
Fixpoint fold_all (bs : list bounds) (v : list Q) (r : rand) : res (list Q * rand) :=
  match bs with
  | [] => Ok (v, r)
  | b :: bs => match v with [] => UB | x :: v => let! (y, r) := fold_at b x r in let! (v, r) := fold_all bs v r in Ok (y :: v, r) end
  end.
Definition fold_vec (vb : vbounds) (v : list Q) (r : rand) : res (list Q * rand) := match vb with Dummy => Ok (v, r) | Vec bs => fold_all bs v r end.
(** eoEsSimple (98-110) *)
Definition es_simple (vb : vbounds) (tau : Q) (v : list Q) (dev : Q) (r : rand) : res (list Q * Q * rand) :=
  let! (z, r) := normal r in
  let dev := clamp_dev (dev * expo (tau * z)) in
  let! (v, r) := each (fun _ x r => let! (z, r) := normal r in Ok (x + dev * z, r)) 0 v r in
  let! (v, r) := fold_vec vb v r in Ok (v, dev, r).
(** eoEsStdev (128-143) *)
Definition es_stdev (vb : vbounds) (taul taug : Q) (v devs : list Q) (r : rand) : res (list Q * list Q * rand) :=
  let! (g, r) := normal r in
  let! (v, devs, r) := each2 (fun _ x d r => let! (z, r) := normal r in
      let d := clamp_dev (d * expo (taug * g + taul * z)) in
      let! (z, r) := normal r in Ok (x + d * z, d, r)) 0 v devs r in
  let! (v, r) := fold_vec vb v r in Ok (v, devs, r).
(** the rotation angles (176-183): the conversion to int of a value out of range is undefined *)
Definition turn_angle (tau : Q) (c z : Q) : res Q :=
  let c := c + tau * z in
  if qltb pi (if qltb c 0 then - c else c) then
    let k := qtrunc (c / pi) in
    if (Z.leb k 2147483647 && Z.leb (-2147483648) k)%bool then Ok (c - pi * inject_Z k) else UB
  else Ok c.
(** the correlated mutation (185-208); [nq] counts down from the last angle: [None] is the value -1 *)
Definition rotate (angles : list Q) (st : list Q) (n1 n2 nq : nat) : res (list Q) :=
  let! d1 := of_opt (nth_error st n1) in let! d2 := of_opt (nth_error st n2) in let! a := of_opt (nth_error angles nq) in
  let! st := of_opt (upd st n2 (d1 * sine a + d2 * cosine a)) in
  of_opt (upd st n1 (d1 * cosine a - d2 * sine a)).
(** for (i = 0; i < k; i++) rotate, n2--, nq--: [used] is the number of angles used so far *)
Fixpoint inner (k : nat) (angles st : list Q) (n1 n2 used : nat) : res (list Q * nat) :=
  match k with
  | O => Ok (st, used)
  | S k => if used <? length angles then let! st := rotate angles st n1 n2 (length angles - 1 - used) in inner k angles st n1 (n2 - 1) (S used) else UB
  end.
Fixpoint outer (ks : list nat) (angles st : list Q) (used : nat) : res (list Q * nat) :=
  match ks with
  | [] => Ok (st, used)
  | k :: ks => let! (st, used) := inner k angles st (length st - k - 1) (length st - 1) used in outer ks angles st used
  end.
(** eoEsFull (160-214), for a non-empty vector *)
Definition es_full (vb : vbounds) (taul taug taub : Q) (v devs angles : list Q) (r : rand) : res (list Q * list Q * list Q * rand) :=
  let! (g, r) := normal r in
  let! (_, devs, r) := each2 (fun _ x d r => let! (z, r) := normal r in Ok (x, clamp_dev (d * expo (taug * g + taul * z)), r)) 0 v devs r in
  let! (angles, r) := each (fun _ a r => let! (z, r) := normal r in let! a := turn_angle taub a z in Ok (a, r)) 0 angles r in
  let! (_, st, r) := each2 (fun _ x d r => let! (z, r) := normal r in Ok (x, d * z, r)) 0 v (firstn (length v) devs) r in
  let! (st, _) := outer (seq 0 (length v - 1)) angles st 0 in
  let! (v, _, r) := each2 (fun _ x s r => Ok (x + s, s, r)) 0 v st r in
  let! (v, r) := fold_vec vb v r in Ok (v, devs, angles, r).
(** eoEsChromInit (eoEsChromInit.h:66-190): sigmas of the constructor *)
Definition init_range (b : bounds) : res Q := match range_of b with Some r => Ok r | None => Throw end.
Fixpoint init_vector (bs : list bounds) (r : rand) : res (list Q * rand) :=
  match bs with
  | [] => Ok ([], r)
  | b :: bs => let! rg := init_range b in let! (u, r) := uniform r in let! x := uniform_in (fun q => q) b (rg * u) in
               let! (v, r) := init_vector bs r in Ok (x :: v, r)
  end.
Fixpoint ranges (bs : list bounds) : res (list Q) :=
  match bs with [] => Ok [] | b :: bs => let! x := init_range b in let! l := ranges bs in Ok (x :: l) end.
Definition vec_sigma (bs : list bounds) (sigma : Q) (to_scale : bool) : res (list Q) :=
  if to_scale then let! l := ranges bs in Ok (map (fun x => sigma * x) l) else Ok (map (fun _ => sigma) bs).
Fixpoint init_angles (n : nat) (r : rand) : res (list Q * rand) :=
  match n with O => Ok ([], r) | S n => let! (u, r) := uniform r in let! (l, r) := init_angles n r in Ok (2 * pi * u - pi :: l, r) end.
Definition es_full_init (bs : list bounds) (sigma : Q) (to_scale : bool) (r : rand) : res (list Q * list Q * list Q * rand) :=
  let! s := vec_sigma bs sigma to_scale in
  let! (v, r) := init_vector bs r in
  let! (a, r) := init_angles (length bs * (length bs - 1) / 2) r in Ok (v, s, a, r).
End Functions.

(** ** atom crossovers (eoRealAtomXover.h:57-66, 88-93) *)
Definition exchange (x y : Q) (r : rand) : res (Q * bool * rand) :=
  let! (b, r) := flip (1 # 2) r in if b && negb (Qeq_bool x y) then Ok (y, true, r) else Ok (x, false, r).
Definition intermediate (x y : Q) (r : rand) : res (Q * bool * rand) :=
  let! (a, r) := uniform r in Ok (a * y + (1 - a) * x, true, r).

(** an evolution-strategy individual: object variables, deviations and angles (one deviation and no angle in eoEsSimple; no angle in eoEsStdev) *)
Record es := Es { obj : list Q; devs : list Q; angles : list Q; valid : bool }.
Definition atom := Q -> Q -> rand -> res (Q * bool * rand).
(** eoEsStandardXover (eoEsStandardXover.h:65-110) *)
Definition cross_all (f : atom) (v w : list Q) (s : bool * rand) : res (list Q * (bool * rand)) :=
  let! (v, _, s) := each2 (fun _ x y '(c, r) => let! (x, b, r) := f x y r in Ok (x, y, (c || b, r))) 0 v w s in Ok (v, s).
Definition standard_xover (fo fm : atom) (a b : es) (r : rand) : res (es * (bool * rand)) :=
  let! (o, s) := cross_all fo (obj a) (obj b) (false, r) in
  let! (d, s) := cross_all fm (devs a) (devs b) s in
  let! (g, s) := cross_all fm (angles a) (angles b) s in
  Ok (Es o d g (valid a), s).
(** eoEsGlobalXover (eoEsGlobalXover.h:70-145): two parents, chosen by eoRandomSelect, for each component *)
Definition pick (pop : list es) (r : rand) : res (es * rand) := let! (i, r) := random (length pop) r in let! p := of_opt (nth_error pop i) in Ok (p, r).
Definition global_each (f : atom) (part : es -> list Q) (pop : list es) (v : list Q) (r : rand) : res (list Q * rand) :=
  each (fun i _ r => let! (p, r) := pick pop r in let! (q, r) := pick pop r in
    let! x := of_opt (nth_error (part p) i) in let! y := of_opt (nth_error (part q) i) in
    let! (x, _, r) := f x y r in Ok (x, r)) 0 v r.
Definition global_xover (fo fm : atom) (pop : list es) (a : es) (r : rand) : res (es * rand) :=
  let! (o, r) := global_each fo obj pop (obj a) r in
  let! (d, r) := global_each fm devs pop (devs a) r in
  let! (g, r) := global_each fm angles pop (angles a) r in
  Ok (Es o d g false, r).

(** ** eoOneFifthMutation (eoNormalMutation.h:180-281) *)
Section OneFifth.
Context {F : Type}.
Variable better : F -> F -> bool.
Variable eval : list Q -> F.
Variables (vb : vbounds) (p factor threshold : Q).
Record fifth := Fifth { sigma : Q; nb_mut : list nat; nb_success : list nat; gen : nat }.
(** 201-213: a factor of 1 or more is refused *)
Definition new_fifth (s : Q) (window : nat) : res fifth := if Qle_bool 1 factor then Throw else Ok (Fifth s (repeat 0%nat window) (repeat 0%nat window) 0).
Record indi := Indi { genes : list Q; fit : option F }.
Definition incr (l : list nat) (i : nat) : res (list nat) := let! k := of_opt (nth_error l i) in of_opt (upd l i (S k)).
(** 224-243 *)
Definition fifth_call (st : fifth) (x : indi) (r : rand) : res (fifth * indi * bool * rand) :=
  let old := match fit x with Some f => f | None => eval (genes x) end in
  let! (v, (changed, r)) := normal_mutation vb (sigma st) p (genes x) r in
  if changed then
    let! m := incr (nb_mut st) (gen st) in
    let f := eval v in
    if better f old then let! s := incr (nb_success st) (gen st) in Ok (Fifth (sigma st) m s (gen st), Indi v (Some f), false, r)
    else Ok (Fifth (sigma st) m (nb_success st) (gen st), Indi v (Some f), false, r)
  else Ok (st, Indi v (Some old), false, r).
(** 248-274; 0/0 is not greater than the threshold *)
Definition fifth_update (st : fifth) : res fifth :=
  let m := list_sum (nb_mut st) in let s := list_sum (nb_success st) in
  let up := match m with O => false | _ => qltb threshold (inject_Z (Z.of_nat s) / inject_Z (Z.of_nat m)) end in
  let sg := if up then sigma st / factor else sigma st * factor in
  if length (nb_mut st) =? 0 then UB else
    let g := ((gen st + 1) mod length (nb_mut st))%nat in
    let! m := of_opt (upd (nb_mut st) g 0%nat) in let! s := of_opt (upd (nb_success st) g 0%nat) in Ok (Fifth sg m s g).
End OneFifth.
