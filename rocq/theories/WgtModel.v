(** Model of moeo's scalarizations (moeo/src/fitness/moeoAggregationFitnessAssignment.h, moeo/src/scalarStuffs/distance,
    moeo/src/scalarStuffs/fitness, moeo/src/metric/moeoDistanceMetric.h, moeo/src/utils/moeoObjectiveVectorNormalizer.h) and of its
    weight strategies (moeo/src/scalarStuffs/weighting). Doubles are exact rationals. An objective is a boolean, [true] when it
    is minimised. *)
From Coq Require Import List Bool Arith QArith Qabs.
From Verif Require Import Lib Outcome BoundsModel ParetoModel ArchModel.
Import ListNotations.
Local Open Scope Q_scope.

(** ** moeoObjectiveVectorNormalizer *)
(** operator() (214-221): a scale is a list of (coefficient, minimum) *)
Fixpoint scaled (sc : list (Q * Q)) (v : list Q) : res (list Q) :=
  match v with
  | [] => Ok []
  | x :: v => match sc with [] => UB | (c, m) :: sc => let! r := scaled sc v in Ok ((x - m) * c :: r) end
  end.
(** make_scale_from_pop (100-138) with a positive maximum, one objective: the loop over the population, then the coefficient *)
Definition extremes (xs : list Q) (x : Q) : Q * Q :=
  fold_left (fun mm y => (if qltb y (fst mm) then y else fst mm, if qltb (snd mm) y then y else snd mm)) xs (x, x).
Definition scale1 (max : Q) (xs : list Q) : res (Q * Q) :=
  match xs with
  | [] => UB
  | x :: _ => let '(mn, mx) := extremes xs x in Ok (if Qeq_bool (mx - mn) 0 then 1 else max / (mx - mn), mn)
  end.
Fixpoint each_col {B} (f : list Q -> res B) (cols : list (list Q)) : res (list B) :=
  match cols with [] => Ok [] | c :: cols => let! y := f c in let! r := each_col f cols in Ok (y :: r) end.
Fixpoint column_of (i : nat) (pop : list (list Q)) : res (list Q) :=
  match pop with [] => Ok [] | v :: pop => let! x := of_opt (nth_error v i) in let! r := column_of i pop in Ok (x :: r) end.
Fixpoint columns_of (is : list nat) (pop : list (list Q)) : res (list (list Q)) :=
  match is with [] => Ok [] | i :: is => let! c := column_of i pop in let! r := columns_of is pop in Ok (c :: r) end.
Definition scale_from_pop (n : nat) (max : Q) (pop : list (list Q)) : res (list (Q * Q)) :=
  match pop with [] => Ok [] | _ => let! cols := columns_of (seq 0 n) pop in each_col (scale1 max) cols end.
(** make_scale_from_minmax (182-191), make_scale_from_bounds (146-155): finite, different bounds; division by 0 is not modelled *)
Fixpoint scale_from_minmax (max : Q) (best worst : list Q) : list (Q * Q) :=
  match best, worst with b :: best, w :: worst => (max / (w - b), b) :: scale_from_minmax max best worst | _, _ => [] end.

(** ** the scalarizations *)
(** moeoAggregationFitnessAssignment::operator()(ObjectiveVector) (86-100) *)
Fixpoint aggregate (dirs : list bool) (weight v : list Q) (r : Q) : res Q :=
  match dirs with
  | [] => Ok r
  | d :: dirs => match weight, v with
                 | w :: weight, x :: v => aggregate dirs weight v (if d then r - x * w else r + x * w)
                 | _, _ => UB
                 end
  end.
Definition aggregation (dirs : list bool) (weight v : list Q) : res Q :=
  if (length weight <? length dirs)%nat then Ok 0 else aggregate dirs weight v 0.
(** iteration (moeoAchievementScalarizingFunctionDistance.h:96-107): w (obj - ref) when minimised, w (ref - obj) otherwise; for
    every objective *)
Fixpoint shortfalls (dirs : list bool) (weight ref v : list Q) : res (list Q) :=
  match dirs with
  | [] => Ok []
  | d :: dirs => match weight, ref, v with
                 | w :: weight, y :: ref, x :: v => let! r := shortfalls dirs weight ref v in Ok (w * (if d then x - y else y - x) :: r)
                 | _, _, _ => UB
                 end
  end.
(** operator() (75-87): the first, then the greatest; the normalizer of the distance is the default one, the identity *)
Definition achievement (dirs : list bool) (weight ref v : list Q) : res Q :=
  let! l := shortfalls dirs weight ref v in
  match l with [] => UB | x :: _ => Ok (fold_left (fun m t => if qltb m t then t else m) l x) end.
(** moeoAugmentedAchievementScalarizingFunctionDistance.h:79-90 *)
Definition augmented_achievement (rho : Q) (dirs : list bool) (weight ref v : list Q) : res Q :=
  let! l := shortfalls dirs weight ref v in
  match l with
  | [] => UB
  | x :: _ => let '(m, r) := fold_left (fun mr t => (if qltb (fst mr) t then t else fst mr, snd mr + t)) l (x, 0) in Ok (r + rho * m)
  end.
(** moeoAugmentedWeightedChebychevDistance.h:75-87 *)
Fixpoint distances (ref v : list Q) : res (list Q) :=
  match v with [] => Ok [] | x :: v => match ref with y :: ref => let! r := distances ref v in Ok (Qabs (x - y) :: r) | [] => UB end end.
Fixpoint chebychev_loop (weight ds : list Q) (res max : Q) : Outcome.res (Q * Q) :=
  match ds with
  | [] => Ok (res, max)
  | t :: ds => match weight with
               | [] => UB
               | w :: weight => chebychev_loop weight ds (res + t) (if qltb max (t * w) then t * w else max)
               end
  end.
Definition augmented_chebychev (rho : Q) (weight ref v : list Q) : Outcome.res Q :=
  let! ds := distances ref v in
  match ds, weight with
  | t :: ds, w :: weight => let! (r, m) := chebychev_loop weight ds t (t * w) in Ok (r * rho + m)
  | _, _ => UB
  end.
(** moeoAchievementFitnessAssignment::compute (153-166): min starts from the greatest double *)
Fixpoint achievement_loop (lambdas ref v : list Q) (m : option Q) (s : Q) : res (option Q * Q) :=
  match v with
  | [] => Ok (m, s)
  | x :: v => match lambdas, ref with
              | l :: lambdas, y :: ref =>
                  let t := l * (y - x) in
                  achievement_loop lambdas ref v (match m with None => Some t | Some b => Some (if qltb t b then t else b) end) (s + t)
              | _, _ => UB
              end
  end.
Definition achievement_fitness (lambdas ref : list Q) (spn : Q) (v : list Q) : res Q :=
  let! (m, s) := achievement_loop lambdas ref v None 0 in
  match m with None => UB | Some b => Ok (b + spn * s) end.
(** moeoDistanceMetric::operator() (moeoDistanceMetric.h:76-78): reference and vector are normalised; then minus the distance
    (moeoAchievementScalarizingFunctionMetricFitnessAssignment.h:112-114) *)
Definition metric_fitness (sc : list (Q * Q)) (dirs : list bool) (weight ref v : list Q) : res Q :=
  let! r := scaled sc ref in let! x := scaled sc v in let! d := achievement dirs weight r x in Ok (- d).
(** the constructor that takes a normalizer (68) builds the metric with the default one; the one that also takes an
    evaluation function (87) uses the given one *)
Definition assignment_with_normalizer (sc : list (Q * Q)) (dirs : list bool) (weight ref v : list Q) : res Q :=
  metric_fitness (repeat (1, 0) (length dirs)) dirs weight ref v.
Definition assignment_with_both (sc : list (Q * Q)) (dirs : list bool) (weight ref v : list Q) : res Q :=
  metric_fitness sc dirs weight ref v.

(** ** weight strategies for two objectives: the result is the first weight and the second *)
(** moeoQexploreWeightStrategy (68-103); coprim calls itself on smaller and smaller numbers *)
Fixpoint coprim (fuel a b : nat) : bool :=
  match fuel with O => false | S fuel => if (b =? 0)%nat then (a =? 1)%nat else coprim fuel b (a mod b) end.
Fixpoint skip (fuel depth num : nat) : nat :=
  match fuel with
  | O => num
  | S fuel => if (num <? depth)%nat && negb (coprim (S num) depth num) then skip fuel depth (S num) else num
  end.
Record qstate := QState { q_depth : nat; q_num : nat }.
Definition natq (n : nat) : Q := inject_Z (Z.of_nat n).
Definition qexplore (s : qstate) : (Q * Q) * qstate :=
  if (q_depth s =? 0)%nat
  then if (q_num s =? 0)%nat then ((0, 1), QState 0 1) else ((1, 0), QState 1 1)
  else
    let num := skip (q_depth s) (q_depth s) (q_num s) in
    let '(depth, num) := if (q_depth s <=? num)%nat then (S (q_depth s), 1%nat) else (q_depth s, num) in
    ((natq num / natq depth, 1 - natq num / natq depth), QState depth (S num)).
(** the weights of [n] calls *)
Fixpoint calls {S} (f : S -> (Q * Q) * S) (n : nat) (s : S) : list (Q * Q) :=
  match n with O => [] | Datatypes.S n => let '(w, s) := f s in w :: calls f n s end.
(** moeoFixedTimeOneDirectionWeightStrategy (62-73) *)
Definition one_direction (step : Q) (current : Q) : (Q * Q) * Q :=
  let '(r, current) := if Qeq_bool current 1 then (1, 0) else (current, current) in
  let current := if qltb 1 (current + step) then 1 else current + step in
  ((r, 1 - r), current).
(** moeoFixedTimeBothDirectionWeightStrategy (62-79) *)
Definition both_directions (step : Q) (s : Q * bool) : (Q * Q) * (Q * bool) :=
  let '(current, dir) := s in
  let '(r, current, dir) := if Qeq_bool current 1 then (1, 0, negb dir) else (current, current, dir) in
  let current := if qltb 1 (current + step) then 1 else current + step in
  (if dir then (r, 1 - r) else (1 - r, r), (current, dir)).
(** moeoAnytimeWeightStrategy (69-90); None: the branch that only prints an error *)
Record astate := AState { a_depth : nat; a_old1 : Q; a_old2 : Q; a_list : list Q }.
Definition anytime (s : astate) : option (Q * Q) * astate :=
  if (a_depth s <? 2)%nat
  then let l := if (a_depth s =? 0)%nat then a_list s ++ [1 # 2] else a_list s in
       (Some (natq (a_depth s), 1 - natq (a_depth s)), AState (S (a_depth s)) 0 1 l)
  else match a_list s with
       | [] => (None, s)
       | w :: l => (Some (w, 1 - w), AState (a_depth s) w (a_old1 s) (l ++ [(w + a_old1 s) / 2; (w + a_old2 s) / 2]))
       end.
Fixpoint anytime_calls (n : nat) (s : astate) : list (option (Q * Q)) :=
  match n with O => [] | S n => let '(w, s) := anytime s in w :: anytime_calls n s end.
(** moeoRandWeightStrategy (65-76): the draws, then the division by their sum *)
Definition rand_weights (draws : list Q) : list Q := let sum := fold_left Qplus draws 0 in map (fun x => x / sum) draws.
(** moeoDummyWeightStrategy (54-58) *)
Definition dummy_weights (n : nat) : list Q := repeat (1 / natq n) n.

(** ** moeoAugmentedQexploreWeightStrategy *)
Record gstate := GState { g_depth : nat; g_nums : list nat }.
(** do_reset (119-127) *)
Definition do_reset (s : gstate) : gstate :=
  let depth := if (g_depth s =? 0)%nat then 1%nat else (g_depth s * 2)%nat in GState depth (repeat 0%nat depth).
(** next_num (80-93), for a depth that is not 0: the index from the back, then the assignments *)
Fixpoint last_not (fuel : nat) (max : nat) (nums : list nat) (idx : nat) : nat :=
  match fuel with
  | O => idx
  | S fuel => if (0 <? idx)%nat && (nth idx nums 0%nat =? max)%nat then last_not fuel max nums (idx - 1) else idx
  end.
Definition next_num (dim : nat) (s : gstate) : gstate :=
  let nums := g_nums s in
  let idx := last_not (length nums) (dim - 1) nums (length nums - 1) in
  GState (g_depth s) (firstn idx nums ++ repeat (S (nth idx nums 0%nat)) (length nums - idx)).
(** is2pow (150-161) *)
Fixpoint is2pow (fuel a : nat) : bool :=
  match fuel with O => false | S fuel => if (a =? 1)%nat || (a =? 0)%nat then true else if negb (a mod 2 =? 0)%nat then false else is2pow fuel (a / 2) end.
(** translate (95-117): the counts, with the early return; then the test *)
Fixpoint tally (depth : nat) (nums : list nat) (w : list nat) : option (list nat) :=
  match nums with
  | [] => Some w
  | i :: nums => let c := S (nth i w 0%nat) in if (1 <? depth)%nat && (c =? depth)%nat then None else tally depth nums (set w i c)
  end.
Definition translate (dim : nat) (s : gstate) : option (list Q) :=
  match tally (g_depth s) (g_nums s) (repeat 0%nat dim) with
  | None => None
  | Some w =>
      let pow := existsb (fun c => negb (c =? 1)%nat && negb (is2pow (S c) c)) w in
      let prim := existsb (fun c => coprim (S (S (g_depth s))) c (g_depth s)) w in
      if prim && pow then Some (map (fun c => natq c / natq (g_depth s)) w) else None
  end.
(** operator() (64-76) *)
Fixpoint augmented_loop (fuel dim : nat) (s : gstate) : res (list Q * gstate) :=
  match fuel with
  | O => NoDraw
  | S fuel =>
      let r := translate dim s in
      let s := next_num dim s in
      let s := if (dim - 1 <? nth 0 (g_nums s) 0)%nat then do_reset s else s in
      match r with Some w => Ok (w, s) | None => augmented_loop fuel dim s end
  end.
Definition augmented_qexplore (fuel dim : nat) (s : gstate) : res (list Q * gstate) :=
  augmented_loop fuel dim (if (g_depth s =? 0)%nat then do_reset s else s).

(** ** moeoDichoWeightStrategy (69-134) *)
Section Dicho.
Variables (tol : Q) (dirs : list bool) (replace : bool).
Variable sort : forall T : Type, (T -> T -> bool) -> list T -> list T.
(** d_it: the position of the iterator; None when it points nowhere (never set, or the archive was changed since) *)
Record dstate := DState { d_arch : list (list Q); d_toadd : list (list Q); d_num : nat; d_it : option nat }.
Definition first_of (v : list Q) : Q := nth 0 v 0.
Definition sort_arch (l : list (list Q)) : list (list Q) := sort _ (fun a b => qltb (first_of b) (first_of a)) l.
(** normal (122-134); 0 / 0 is left to the theorems *)
Definition normal_of (v w : list Q) : list Q :=
  let l := map (fun p => Qabs (fst p - snd p)) (combine v w) in let sum := fold_left Qplus l 0 in map (fun x => x / sum) l.
Definition pair_of (l : list Q) : res (Q * Q) := match l with a :: b :: _ => Ok (a, b) | _ => UB end.
(** the iterator is taken as lost after an insertion in an archive of less than two elements: its elements are moved unless
    a previous, larger archive has left room *)
Fixpoint dicho (fuel : nat) (s : dstate) (v : list Q) : res ((Q * Q) * dstate) :=
  match fuel with
  | O => NoDraw
  | S fuel =>
      if (length (d_arch s) <? 2)%nat
      then let! (arch, _) := update (list Q) (list Q) (fun x => x) (pareto tol dirs) (same_vector tol) replace (d_arch s) v in
           if (d_num s =? 0)%nat then Ok ((0, 1), DState arch (d_toadd s) 1 None)
           else Ok ((1, 0), DState (sort_arch arch) (d_toadd s) 0 (Some 0%nat))
      else
        let! i := of_opt (d_it s) in
        match nth_error (d_arch s) i with
        | Some a =>
            match nth_error (d_arch s) (S i) with
            | None => dicho fuel (DState (d_arch s) (d_toadd s) (d_num s) (Some (S i))) v
            | Some b => let! w := pair_of (normal_of a b) in Ok (w, DState (d_arch s) (d_toadd s ++ [v]) (d_num s) (Some (S i)))
            end
        | None =>
            let! (arch, _) := update_pop (list Q) (list Q) (fun x => x) (pareto tol dirs) (same_vector tol) replace (d_arch s) (d_toadd s) false in
            dicho fuel (DState (sort_arch arch) [] (d_num s) (Some 0%nat)) v
        end
  end.
Fixpoint dicho_calls (vs : list (list Q)) (s : dstate) : res (list (Q * Q)) :=
  match vs with [] => Ok [] | v :: vs => let! (w, s) := dicho 4 s v in let! r := dicho_calls vs s in Ok (w :: r) end.
End Dicho.
