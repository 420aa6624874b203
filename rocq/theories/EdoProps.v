(** Properties C137 (repairers), C138 (estimators and samplers), C140 (the search loop) and C141 (what edo documents and does not do). *)
From Coq Require Import ZArith QArith Qround Qabs List Bool Arith Lia Lqa.
From Verif Require Import Lib Outcome BoundsModel RealModel RealSpec RealProofs StatSpec.
From Verif Require Import BreedModel AlgoModel AlgoSpec EdoModel EdoSpec EdoProofs EdoRest EdoRun.
From Coq Require Import List.
Import ListNotations.
Open Scope Q_scope.

(** ** C137 *)
(** edoBounderBound: the result is the nearest point of the box *)
Theorem C137_bound : forall (F : Type) mins maxs (x : indiv (list Q) F) r, proper_box mins maxs -> length (geno x) = length mins ->
  exists v, bounder_bound mins maxs x r = Ok (Ind v (fit x), r) /\ in_box mins maxs v /\
    (forall d, inside_at mins maxs (geno x) d -> nth d v 0 = nth d (geno x) 0) /\
    (forall w d, in_box mins maxs w -> dist (nth d v 0) (nth d (geno x) 0) <= dist (nth d w 0) (nth d (geno x) 0)).
Proof.
  intros F mins maxs x r H L. destruct (bound_each mins maxs H (geno x) r L) as (v & E & B & _ & K & D).
  exists v. unfold bounder_bound. rewrite E. auto.
Qed.
Print Assumptions C137_bound.
Example C137_bound_ex : proper_box [0; 1] [2; 3] /\
  bounder_bound (F := nat) [0; 1] [2; 3] (Ind [5; 2] None) (Rand [] []) = Ok (Ind [2; 2] None, Rand [] []).
Proof. split; [repeat constructor; lra|reflexivity]. Qed.
(** edoBounderUniform: in the box, components inside untouched, one draw for each component outside *)
Theorem C137_uniform : forall (F : Type) mins maxs (x : indiv (list Q) F) r, proper_box mins maxs -> length (geno x) = length mins ->
  unit_numbers (us r) -> (length (filter (fun p => qltb (snd p) (fst (fst p)) || qltb (snd (fst p)) (snd p)) (combine (combine mins maxs) (geno x))) <= length (us r))%nat ->
  exists v r', bounder_uniform mins maxs x r = Ok (Ind v (fit x), r') /\ in_box mins maxs v /\
    (forall d, inside_at mins maxs (geno x) d -> nth d v 0 = nth d (geno x) 0) /\
    (length (us r) = length (filter (fun p => qltb (snd p) (fst (fst p)) || qltb (snd (fst p)) (snd p)) (combine (combine mins maxs) (geno x))) + length (us r'))%nat.
Proof.
  intros F mins maxs x r H L G Lr.
  destruct (uniform_each_total mins maxs H (geno x) r L Lr (uniform_at mins maxs)) as (v & r' & E & C).
  { intros d r0 Hd L0. destruct (proper_at _ _ _ H Hd) as (mn & mx & E1 & E2 & _). unfold uniform_at. rewrite E1, E2. cbn [of_opt rbind].
    unfold uniform2, uniform. destruct (us r0) as [|u l] eqn:Eu; [cbn in L0; lia|]. cbn [rbind]. do 2 eexists. split; reflexivity. }
  destruct (redraw_each (uniform_at mins maxs) mins maxs H) with (2 := L) (3 := G) (4 := E) as (_ & B & _ & K).
  { intros. eapply uniform_at_ok; eauto. }
  exists v, r'. unfold bounder_uniform. rewrite E. auto.
Qed.
Print Assumptions C137_uniform.
Example C137_uniform_ex : unit_numbers [1#2] /\
  bounder_uniform (F := nat) [0; 1] [2; 3] (Ind [5; 2] None) (Rand [1#2] []) = Ok (Ind [0 + (2 - 0) * (1#2); 2] None, Rand [] []).
Proof. split; [repeat constructor; lra|reflexivity]. Qed.
(** edoBounderRng: in the box as soon as the generator draws between all the bounds *)
Theorem C137_rng : forall (F : Type) gen mins maxs (x y : indiv (list Q) F) r r', proper_box mins maxs -> length (geno x) = length mins -> unit_numbers (us r) ->
  (forall r z r', unit_numbers (us r) -> gen r = Ok (z, r') -> unit_numbers (us r') /\ forall d, (d < length mins)%nat -> nth d mins 0 <= z <= nth d maxs 0) ->
  bounder_rng gen mins maxs x r = Ok (y, r') ->
  fit y = fit x /\ in_box mins maxs (geno y) /\ (forall d, inside_at mins maxs (geno x) d -> nth d (geno y) 0 = nth d (geno x) 0).
Proof.
  intros F gen mins maxs x y r r' H L G Hg E. unfold bounder_rng in E. apply rbind_ok in E as ([v r1] & E & E'). injection E' as <- <-.
  destruct (redraw_each (fun _ => gen) mins maxs H) with (2 := L) (3 := G) (4 := E) as (_ & B & _ & K).
  { intros d r0 z r0' G0 Hd Eg. destruct (Hg _ _ _ G0 Eg) as [A B]. split; [exact A|auto]. }
  auto.
Qed.
Print Assumptions C137_rng.
Example C137_rng_ex : bounder_rng (F := nat) (uniform2 1 2) [0; 1] [2; 3] (Ind [5; 2] None) (Rand [1#2] []) = Ok (Ind [1 + (2 - 1) * (1#2); 2] None, Rand [] []).
Proof. reflexivity. Qed.
(** floor and ceil: the greatest integer below, the least integer above; the fitness is invalidated *)
Theorem C137_floor_ceil : forall (F : Type) (x : indiv (list Q) F) r, exists v w,
  repairer_floor x r = Ok (Ind v None, r) /\ repairer_ceil x r = Ok (Ind w None, r) /\
  length v = length (geno x) /\ length w = length (geno x) /\
  forall d, (d < length (geno x))%nat -> let a := nth d (geno x) 0 in
    (integer (nth d v 0) /\ nth d v 0 <= a /\ forall z, integer z -> z <= a -> z <= nth d v 0) /\
    (integer (nth d w 0) /\ a <= nth d w 0 /\ forall z, integer z -> a <= z -> nth d w 0 <= z).
Proof.
  intros F x r. exists (map floor (geno x)), (map ceil (geno x)). split; [reflexivity|]. split; [reflexivity|]. rewrite !map_length. split; [reflexivity|]. split; [reflexivity|].
  intros d Hd. cbn zeta. rewrite (nth_map_in floor _ d 0 0), (nth_map_in ceil _ d 0 0) by exact Hd.
  destruct (floor_spec (nth d (geno x) 0)) as (A & B & _ & C). destruct (ceil_spec (nth d (geno x) 0)) as (A' & B' & _ & C'). auto 10.
Qed.
Print Assumptions C137_floor_ceil.
Example C137_floor_ex : repairer_floor (F := nat) (Ind [5#2; -5#2] (Some 3%nat)) (Rand [] []) = Ok (Ind [2; -3#1] None, Rand [] []).
Proof. reflexivity. Qed.
(** rounding to a multiple of the given step (1 for edoRepairerRound): no multiple is closer *)
Theorem C137_round : forall (F : Type) step (x : indiv (list Q) F) r, 0 < step -> exists v,
  repairer_round_decimals step x r = Ok (Ind v None, r) /\ length v = length (geno x) /\
  forall d, (d < length (geno x))%nat -> let a := nth d (geno x) 0 in
    multiple step (nth d v 0) /\ dist (nth d v 0) a <= step * (1 # 2) /\ forall m, multiple step m -> dist (nth d v 0) a <= dist m a.
Proof.
  intros F step x r H. eexists. split; [reflexivity|]. rewrite map_length. split; [reflexivity|]. intros d Hd. cbn zeta.
  rewrite (nth_map_in (fun v => edo_round v (1 / step)) _ d 0 0) by exact Hd. apply round_spec. exact H.
Qed.
Print Assumptions C137_round.
Example C137_round_ex : match repairer_round_decimals (F := nat) (1#10) (Ind [124#100; -(125#100)] (Some 3%nat)) (Rand [] []) with
  | Ok (Ind [a; b] None, _) => a == 12#10 /\ b == -(13#10) | _ => False end.
Proof. vm_compute. auto. Qed.
(** modulo: what is removed is a multiple of the denominator, what is left is smaller than it and has the sign of the value *)
Theorem C137_modulo : forall (F : Type) m (x : indiv (list Q) F) r, ~ m == 0 -> exists v,
  repairer_modulo m x r = Ok (Ind v None, r) /\ length v = length (geno x) /\
  forall d, (d < length (geno x))%nat -> let a := nth d (geno x) 0 in let b := nth d v 0 in
    multiple m (a - b) /\ Qabs b < Qabs m /\ (0 <= a -> 0 <= b) /\ (a <= 0 -> b <= 0).
Proof.
  intros F m x r H. eexists. split; [reflexivity|]. rewrite map_length. split; [reflexivity|]. intros d Hd. cbn zeta.
  rewrite (nth_map_in (fun v => fmod v m) _ d 0 0) by exact Hd. destruct (fmod_spec (nth d (geno x) 0) m H) as ((z & Z) & A & B).
  split; [|auto]. exists z. set (a := nth d (geno x) 0) in *. assert (a - fmod a m == (fmod a m + inject_Z z * m) - fmod a m) as ->; [|ring]. rewrite <- Z. reflexivity.
Qed.
Print Assumptions C137_modulo.
Example C137_modulo_ex : match repairer_modulo (F := nat) 3 (Ind [7#1; -(7#1)] (Some 3%nat)) (Rand [] []) with
  | Ok (Ind [a; b] None, _) => a == 1 /\ b == -(1) | _ => False end.
Proof. vm_compute. auto. Qed.
(** edoRepairerDispatcher with repairers that work component by component: each component goes through the functions of the
    index sets it belongs to, in the order of the list *)
Theorem C137_dispatch : forall (F : Type) (pairs : list (list nat * (Q -> Q))) (x : indiv (list Q) F) r,
  (forall idx f, In (idx, f) pairs -> forall j, In j idx -> (j < length (geno x))%nat) ->
  exists v, dispatcher (map (fun p => (fst p, apply_unary (snd p))) pairs) x r = Ok (Ind v None, r) /\ length v = length (geno x) /\
    forall i, (i < length (geno x))%nat -> nth i v 0 = applied pairs i (nth i (geno x) 0).
Proof.
  intros F pairs x r H. destruct (dispatch_pointwise (F := F) pairs (geno x) r H) as (v & E & L & N). exists v. unfold dispatcher. rewrite E. auto.
Qed.
Print Assumptions C137_dispatch.
Example C137_dispatch_ex :
  dispatcher (F := nat) [([0; 2]%nat, repairer_floor); ([2; 1]%nat, apply_unary (fun x => x + 1))] (Ind [3#2; 3#2; 3#2] (Some 1%nat)) (Rand [] []) =
  Ok (Ind [1; 5#2; 2] None, Rand [] []).
Proof. reflexivity. Qed.
(** with any repairers: the size is kept, the fitness invalidated, and a component in no index set is not touched; a list of sets is
    handled from left to right *)
Theorem C137_dispatch_local : forall (F : Type) (pairs : list (list nat * repairer F)) (x y : indiv (list Q) F) r r',
  dispatcher pairs x r = Ok (y, r') ->
  fit y = None /\ length (geno y) = length (geno x) /\
  forall i, (forall idx rep, In (idx, rep) pairs -> ~ In i idx) -> nth i (geno y) 0 = nth i (geno x) 0.
Proof.
  intros F pairs x y r r' H. unfold dispatcher in H. apply rbind_ok in H as ([v r1] & H & E). injection E as <- <-. split; [reflexivity|]. eapply dispatch_local; eauto.
Qed.
Print Assumptions C137_dispatch_local.
Theorem C137_dispatch_one : forall (F : Type) idx (rep : repairer F) (x part : indiv (list Q) F) r r',
  (forall j, In j idx -> (j < length (geno x))%nat) -> idx <> [] -> NoDup idx ->
  rep (Ind (map (fun j => nth j (geno x) 0) idx) None) r = Ok (part, r') -> (length idx <= length (geno part))%nat ->
  exists y, dispatcher [(idx, rep)] x r = Ok (y, r') /\ forall k, (k < length idx)%nat -> nth (nth k idx 0%nat) (geno y) 0 = nth k (geno part) 0.
Proof.
  intros F idx rep x part r r' L N ND E Lp. destruct (dispatch_one idx rep (geno x) r part r' L N ND E Lp) as (v & E' & _ & _ & K).
  exists (Ind v None). unfold dispatcher. rewrite E'. auto.
Qed.
Print Assumptions C137_dispatch_one.
Theorem C137_dispatch_in_turn : forall (F : Type) (p1 p2 : list (list nat * repairer F)) (x : indiv (list Q) F) r,
  dispatcher (p1 ++ p2) x r = (let! (y, r) := dispatcher p1 x r in dispatcher p2 y r).
Proof.
  intros. unfold dispatcher. rewrite dispatch_app. destruct (dispatch_loop p1 (geno x) r) as [[v r1]| | |]; reflexivity.
Qed.
Print Assumptions C137_dispatch_in_turn.
(** an index beyond the end of the solution throws *)
Theorem C137_dispatch_out_of_range : forall (F : Type) idx j (rep : repairer F) pairs (x : indiv (list Q) F) r, In j idx -> (length (geno x) <= j)%nat ->
  dispatcher ((idx, rep) :: pairs) x r = Throw.
Proof. intros F idx j rep pairs x r H L. unfold dispatcher. cbn [dispatch_loop]. rewrite (gather_throws _ _ _ H L). reflexivity. Qed.
Print Assumptions C137_dispatch_out_of_range.
Example C137_dispatch_one_ex : dispatcher (F := nat) [([2; 0]%nat, bounder_bound [0; 0] [1; 1])] (Ind [5; 6; 1#2] (Some 1%nat)) (Rand [] []) = Ok (Ind [1; 6; 1#2] None, Rand [] []).
Proof. reflexivity. Qed.
(** a sampler with a bounder only gives solutions of the box *)
Theorem C137_sampler_feasible : forall (F D : Type) (sample : D -> rand -> res (indiv (list Q) F * rand)) mins maxs d r y r', proper_box mins maxs ->
  (forall r x r', sample d r = Ok (x, r') -> length (geno x) = length mins) ->
  sampler sample (bounder_bound mins maxs) d r = Ok (y, r') -> in_box mins maxs (geno y).
Proof.
  intros F D sample mins maxs d r y r' H Ls E. unfold sampler in E. apply rbind_ok in E as ([x r1] & E1 & E).
  destruct (C137_bound F mins maxs x r1 H (Ls _ _ _ E1)) as (v & E' & B & _). rewrite E' in E. injection E as <- <-. exact B.
Qed.
Print Assumptions C137_sampler_feasible.
Example C137_sampler_ex : sampler (sample_normal (F := nat) (fun v => v)) (bounder_bound [0; 0] [1; 1]) (Normals [0; 0] [1; 4]) (Rand [] [-(1#2); 1#8]) =
  Ok (Ind [0; 0 + 4 * (1#8)] None, Rand [] []).
Proof. reflexivity. Qed.

(** ** C138 *)
(** edoEstimatorUniform: the bounds are the least and the greatest value of each component *)
Theorem C138_uniform_estimator : forall (F : Type) n (pop : list (indiv (list Q) F)), pop <> [] -> same_size n (map geno pop) ->
  exists b, estimator_uniform pop = Ok b /\ length (lows b) = n /\ length (highs b) = n /\
    forall d, (d < n)%nat -> least (values 0 (map geno pop) d) (nth d (lows b) 0) /\ greatest (values 0 (map geno pop) d) (nth d (highs b) 0).
Proof. intros. apply estimator_uniform_ok; assumption. Qed.
Print Assumptions C138_uniform_estimator.
Definition ex_pop : list (indiv (list Q) nat) := [Ind [1; 5] None; Ind [3; 2] None; Ind [2; 4] None].
Example C138_uniform_ex : same_size 2 (map geno ex_pop) /\ estimator_uniform ex_pop = Ok (Box [1; 2] [3; 5]).
Proof. split; [repeat constructor|reflexivity]. Qed.
(** edoSamplerUniform: between the bounds, the upper one excluded unless they are equal; one draw for each component *)
Theorem C138_uniform_sampler : forall (F : Type) b r, proper_box (lows b) (highs b) -> unit_numbers (us r) -> (length (lows b) <= length (us r))%nat ->
  exists v r', sample_uniform (F := F) b r = Ok (Ind v None, r') /\ in_box (lows b) (highs b) v /\
    (forall d, nth d (lows b) 0 < nth d (highs b) 0 -> nth d v 0 < nth d (highs b) 0) /\ length (us r) = (length (lows b) + length (us r'))%nat.
Proof.
  intros F b r H G L. destruct (draw_box_total _ _ H r L) as (v & r' & E). destruct (draw_box_ok _ _ H r v r' G E) as (_ & B & S & C).
  exists v, r'. unfold sample_uniform. rewrite E. auto.
Qed.
Print Assumptions C138_uniform_sampler.
Example C138_sampler_ex : sample_uniform (F := nat) (Box [1; 2] [3; 5]) (Rand [1#2; 1#3] []) = Ok (Ind [1 + (3 - 1) * (1#2); 2 + (5 - 2) * (1#3)] None, Rand [] []).
Proof. reflexivity. Qed.
(** edoEstimatorBinomial: the proportion of ones of each component *)
Theorem C138_binomial_estimator : forall (F : Type) n (pop : list (indiv (list bool) F)), pop <> [] -> same_size n (map geno pop) ->
  exists ps, estimator_binomial pop = Ok ps /\ length ps = n /\
    forall d, (d < n)%nat -> nth d ps 0 == proportion (values false (map geno pop) d) /\ 0 <= nth d ps 0 <= 1.
Proof.
  intros F n pop N Sz. destruct (estimator_binomial_ok n pop N Sz) as (ps & E & L & C). exists ps. split; [exact E|]. split; [exact L|].
  intros d Hd. split; [apply C; exact Hd|]. rewrite (C d Hd). apply proportion_bounds. destruct pop; [congruence|discriminate].
Qed.
Print Assumptions C138_binomial_estimator.
Definition ex_bits : list (indiv (list bool) nat) := [Ind [true; false; true] None; Ind [true; false; false] None].
Example C138_binomial_ex : same_size 3 (map geno ex_bits) /\
  match estimator_binomial ex_bits with Ok [a; b; c] => a == 1 /\ b == 0 /\ c == 1#2 | _ => False end.
Proof. split; [repeat constructor|vm_compute; auto]. Qed.
(** a component on which the population agrees is the same in everything drawn from its estimation *)
Theorem C138_binomial_agreement : forall (F : Type) n (pop : list (indiv (list bool) F)) ps r x r' d b, pop <> [] -> same_size n (map geno pop) -> (d < n)%nat ->
  (forall y, In y pop -> nth d (geno y) false = b) -> estimator_binomial pop = Ok ps -> unit_numbers (us r) ->
  sample_binomial (F := F) ps r = Ok (x, r') -> length (geno x) = n /\ nth d (geno x) false = b.
Proof.
  intros F n pop ps r x r' d b N Sz Hd Hb E G H. destruct (C138_binomial_estimator F n pop N Sz) as (ps' & E' & L & C). assert (ps' = ps) by congruence. subst ps'.
  destruct (C d Hd) as [P _]. assert (Nv : values false (map geno pop) d <> []) by (destruct pop; [congruence|discriminate]).
  rewrite (proportion_const _ b Nv) in P.
  2:{ intros y Hy. apply values_in in Hy as (g & Hg & <-). apply in_map_iff in Hg as (z & <- & Hz). auto. }
  unfold sample_binomial in H. apply rbind_ok in H as ([v r1] & H & K). injection K as <- <-. destruct (draw_bits_sure _ _ _ _ G H) as (Lv & _ & S).
  cbn [geno]. split; [lia|]. destruct (S d ltac:(lia)) as [S0 S1]. destruct b; cbn [bit] in P; [apply S1; lra|apply S0; lra].
Qed.
Print Assumptions C138_binomial_agreement.
Example C138_agreement_ex : match estimator_binomial ex_bits with Ok ps => sample_binomial (F := nat) ps (Rand [9#10; 0; 1#3] []) = Ok (Ind [true; false; true] None, Rand [] []) | _ => False end.
Proof. vm_compute. reflexivity. Qed.
(** edoEstimatorNormalMono: the average and the variance of each component *)
Theorem C138_normal_estimator : forall (F : Type) n (pop : list (indiv (list Q) F)), pop <> [] -> same_size n (map geno pop) ->
  exists d, estimator_normal pop = Ok d /\ length (means d) = n /\ length (variances d) = n /\
    forall i, (i < n)%nat -> nth i (means d) 0 == average (values 0 (map geno pop) i) /\ nth i (variances d) 0 == variance (values 0 (map geno pop) i).
Proof. intros. apply estimator_normal_ok; assumption. Qed.
Print Assumptions C138_normal_estimator.
Example C138_normal_ex : match estimator_normal ex_pop with Ok (Normals [a; b] [c; d]) => a == 2 /\ b == 11#3 /\ c == 2#3 /\ d == 14#9 | _ => False end.
Proof. vm_compute. auto. Qed.
(** edoEstimatorNormalMulti: the averages are right; the matrix is that of the products, the covariance plus the product of the averages *)
Theorem C138_multi_estimator : forall pop i j, pop <> [] -> fst (estimator_multi pop) i == average (values 0 pop i) /\
  snd (estimator_multi pop) i j == covariance (values 0 pop i) (values 0 pop j) + average (values 0 pop i) * average (values 0 pop j).
Proof. exact estimator_multi_ok. Qed.
Print Assumptions C138_multi_estimator.
Example C138_multi_ex : fst (estimator_multi [[1; 5]; [3; 1]]) 0%nat == 2 /\ snd (estimator_multi [[1; 5]; [3; 1]]) 0%nat 1%nat == 4.
Proof. vm_compute. auto. Qed.
(** an empty population is read out of bounds *)
Theorem C138_empty_outside : forall F : Type, estimator_uniform (F := F) [] = UB /\ estimator_binomial (F := F) [] = UB /\ estimator_normal (F := F) [] = UB.
Proof. repeat split. Qed.
Print Assumptions C138_empty_outside.

(** ** C140 *)
(** edoAlgoAdaptive: starting from an evaluated population, everything shown to the stopping criterion and the final population is
    evaluated; the final population is the last one shown *)
Theorem C140_evaluated : forall (G F D W : Type) (value : G -> F) pop_eval select estimate estimate_init sample replace pop_cont distrib_cont fuel
    (pop : list (indiv G F)) (w : W) r (d : D) tr w',
  pop_evaluates value pop_eval -> (forall d w x w', sample d w = Ok (x, w') -> right value x) ->
  (forall par off w par' w', replace par off w = Ok (par', w') -> incl par' (par ++ off)) ->
  Forall (evaluated value) pop ->
  eda pop_eval select estimate estimate_init sample replace pop_cont distrib_cont fuel pop w = Ok (r, d, tr, w') ->
  Forall (Forall (evaluated value)) tr /\ Forall (evaluated value) r /\ r = last tr pop.
Proof.
  intros G F D W value pop_eval select estimate estimate_init sample replace pop_cont distrib_cont fuel pop w r d tr w' Hv Hs Hr H0 H. unfold eda in H.
  destruct pop as [|x pop]; [discriminate|]. apply rbind_ok in H as ([d0 w0] & _ & H).
  destruct (loop_inv_pop _ _ _ _ _ _ _ (Forall (evaluated value)) (turn_evaluated _ _ _ _ _ _ _ value Hv Hs Hr) _ _ _ _ _ _ _ H0 H) as [A B].
  destruct (loop_end _ _ _ _ _ _ _ _ _ _ _ _ _ _ H) as [E _]. auto.
Qed.
Print Assumptions C140_evaluated.
(** why it stopped *)
Theorem C140_stop : forall (G F D W : Type) pop_eval select estimate estimate_init sample replace pop_cont distrib_cont fuel
    (pop : list (indiv G F)) (w : W) r (d : D) tr w',
  eda pop_eval select estimate estimate_init sample replace pop_cont distrib_cont fuel pop w = Ok (r, d, tr, w') ->
  stopped (fun p w => match pop_cont p w with Ok a => Some a | _ => None end) (fun d w => match distrib_cont d w with Ok a => Some a | _ => None end) tr d.
Proof.
  intros G F D W pop_eval select estimate estimate_init sample replace pop_cont distrib_cont fuel pop w r d tr w' H. unfold eda in H.
  destruct pop as [|x pop]; [discriminate|]. apply rbind_ok in H as ([d0 w0] & _ & H). exact (proj2 (loop_end _ _ _ _ _ _ _ _ _ _ _ _ _ _ H)).
Qed.
Print Assumptions C140_stop.
(** the population keeps its size when the replacement does *)
Theorem C140_size : forall (G F D W : Type) pop_eval select estimate estimate_init sample replace pop_cont distrib_cont fuel
    (pop : list (indiv G F)) (w : W) r (d : D) tr w',
  (forall par off w par' off' w', pop_eval par off w = Ok (par', off', w') -> length par' = length par /\ length off' = length off) ->
  (forall par off w par' w', length off = length par -> replace par off w = Ok (par', w') -> length par' = length par) ->
  eda pop_eval select estimate estimate_init sample replace pop_cont distrib_cont fuel pop w = Ok (r, d, tr, w') ->
  Forall (fun p => length p = length pop) tr /\ length r = length pop.
Proof.
  intros G F D W pop_eval select estimate estimate_init sample replace pop_cont distrib_cont fuel pop w r d tr w' Hv Hr H. unfold eda in H.
  destruct pop as [|x pop]; [discriminate|]. apply rbind_ok in H as ([d0 w0] & _ & H).
  refine (loop_inv_pop _ _ _ _ _ _ _ (fun p => length p = length (x :: pop)) _ _ _ _ _ _ _ _ eq_refl H).
  intros p wp dp p' go wp' E T. rewrite <- E. eapply turn_size; eauto.
Qed.
Print Assumptions C140_size.
(** it ends when going on makes a count decrease *)
Theorem C140_ends : forall (G F D W : Type) pop_eval select estimate estimate_init sample replace pop_cont distrib_cont fuel
    (pop : list (indiv G F)) (w : W) (mu : W -> nat), pop <> [] ->
  (forall pop w, pop <> [] -> exists sel w', select pop w = Ok (sel, w') /\ sel <> [] /\ (mu w' <= mu w)%nat) ->
  (forall sel w, exists (d : D) w', estimate sel w = Ok (d, w') /\ (mu w' <= mu w)%nat) ->
  (forall sel w, exists d w', estimate_init sel w = Ok (d, w') /\ (mu w' <= mu w)%nat) ->
  (forall d w, exists b w', distrib_cont d w = Ok (b, w') /\ (mu w' <= mu w)%nat) ->
  (forall d w, exists x w', sample d w = Ok (x, w') /\ (mu w' <= mu w)%nat) ->
  (forall par off w, exists par' off' w', pop_eval par off w = Ok (par', off', w') /\ (mu w' <= mu w)%nat) ->
  (forall par off w par' off' w', pop_eval par off w = Ok (par', off', w') -> length par' = length par /\ length off' = length off) ->
  (forall par off w, exists par' w', replace par off w = Ok (par', w') /\ (mu w' <= mu w)%nat) ->
  (forall par off w par' w', length off = length par -> replace par off w = Ok (par', w') -> length par' = length par) ->
  (forall pop w, exists b w', pop_cont pop w = Ok (b, w') /\ (mu w' <= mu w)%nat /\ (b = true -> (mu w' < mu w)%nat)) ->
  (mu w < fuel)%nat ->
  exists r d tr w', eda pop_eval select estimate estimate_init sample replace pop_cont distrib_cont fuel pop w = Ok (r, d, tr, w') /\ (length tr <= S (mu w))%nat.
Proof.
  intros G F D W pop_eval select estimate estimate_init sample replace pop_cont distrib_cont fuel pop w mu N Hs He Hi Hd Hx Hv Lv Hr Lr Hp Hf.
  unfold eda. destruct (Hi pop w) as (d0 & w0 & E0 & L0).
  destruct (loop_total pop_eval select estimate sample replace pop_cont distrib_cont mu (fun p => p <> []) Hs He Hd Hx Hv Hr) with (f := fuel) (pop := pop) (w := w0) as (r & d & tr & w' & E & L); auto; [|lia|].
  - intros p wp dp p' go wp' Np T. apply (turn_size _ _ _ _ _ _ _ Lv Lr) in T. destruct p; [congruence|]. destruct p'; [discriminate|]. discriminate.
  - destruct pop as [|x pop]; [congruence|]. rewrite E0. cbn [rbind]. exists r, d, tr, w'. split; [exact E|]. lia.
Qed.
Print Assumptions C140_ends.
(** with the uniform distribution, estimated from a selection and sampled, nobody ever leaves the bounding box of the first population *)
Theorem C140_uniform_box : forall (F W : Type) n pop_eval select estimate_init sample replace pop_cont distrib_cont fuel (pop : list (indiv (list Q) F)) (w : W) r d tr w' box0,
  same_size n (map geno pop) ->
  (forall pop w sel w', select pop w = Ok (sel, w') -> incl sel pop) ->
  (forall d w x w', sample d w = Ok (x, w') -> exists r r', unit_numbers (us r) /\ sample_uniform d r = Ok (x, r')) ->
  (forall par off w par' off' w', pop_eval par off w = Ok (par', off', w') -> map geno par' = map geno par /\ map geno off' = map geno off) ->
  (forall par off w par' w', replace par off w = Ok (par', w') -> incl par' (par ++ off)) ->
  estimator_uniform pop = Ok box0 ->
  eda pop_eval select (fun p w => let! d := estimator_uniform p in Ok (d, w)) estimate_init sample replace pop_cont distrib_cont fuel pop w = Ok (r, d, tr, w') ->
  Forall (Forall (fun x => in_box (lows box0) (highs box0) (geno x))) tr /\ Forall (fun x => in_box (lows box0) (highs box0) (geno x)) r.
Proof.
  intros F W n pop_eval select estimate_init sample replace pop_cont distrib_cont fuel pop w r d tr w' box0 Sz Hs Hx Hv Hr Eb H.
  assert (N : pop <> []) by (intros ->; discriminate). unfold eda in H. destruct pop as [|x0 pop0]; [congruence|]. apply rbind_ok in H as ([d0 w0] & _ & H).
  destruct (box_contains n _ box0 Sz N Eb) as (Pb & Ln & In0). set (inb := fun x : indiv (list Q) F => in_box (lows box0) (highs box0) (geno x)) in *.
  assert (Zn : forall y : indiv (list Q) F, inb y -> length (geno y) = n).
  { intros y [A _]. apply f2_len in A. congruence. }
  assert (Ln2 : forall u : unit, length (lows box0) = n) by auto. clear Ln.
  refine (loop_inv_pop _ _ _ _ _ _ _ (Forall inb) _ _ _ _ _ _ _ _ In0 H). clear H.
  intros p wp dp p' go wp' Hp T. inversion T as [sel a1 dd a2 a3 cur a4 p1 c1 a5 p2 a6 go0 a7 T1 T2 T3 T4 T5 T6 T7 T8]; subst.
  assert (Isel : Forall inb sel) by (apply Forall_forall; intros y Hy; apply (proj1 (Forall_forall _ _) Hp); eapply Hs; eauto).
  assert (Ssel : same_size n (map geno sel)).
  { apply Forall_forall. intros g Hg. apply in_map_iff in Hg as (y & <- & Hy). apply Zn. exact (proj1 (Forall_forall _ _) Isel y Hy). }
  destruct (box_mono n sel (lows box0) (highs box0) Ssel T2 Isel (Ln2 tt)) as (b & E1 & B1 & B2 & B3).
  rewrite E1 in T3. cbn [rbind] in T3. injection T3 as <- <-.
  assert (Icur : Forall inb cur).
  { apply (draw_pop_all sample inb b) with (2 := T5). intros w1 y w2 Hy. destruct (Hx _ _ _ _ Hy) as (r0 & r1 & G & S).
    unfold sample_uniform in S. apply rbind_ok in S as ([v r2] & S & S'). injection S' as <- <-.
    destruct (draw_box_ok _ _ B1 r0 v r2 G S) as (_ & [V1 V2] & _). split; cbn [geno]; eapply Forall2_le_trans; eauto. }
  destruct (Hv _ _ _ _ _ _ T6) as [M1 M2]. apply Hr in T7. apply Forall_forall. intros y Hy. apply T7 in Hy.
  assert (K : forall l l' : list (indiv (list Q) F), map geno l' = map geno l -> Forall inb l -> In y l' -> inb y).
  { intros l l' M Fl Yl. apply (in_map geno) in Yl. rewrite M in Yl. apply in_map_iff in Yl as (z & Ez & Hz). unfold inb. rewrite <- Ez. exact (proj1 (Forall_forall _ _) Fl z Hz). }
  apply in_app_or in Hy as [Hy|Hy]; [exact (K _ _ M1 Hp Hy)|exact (K _ _ M2 Icur Hy)].
Qed.
Print Assumptions C140_uniform_box.
(** a concrete search: all the population is selected, the samples replace it, three turns at most *)
Definition ex_eval (par off : list (indiv (list Q) Q)) (w : rand * nat) : res (list (indiv (list Q) Q) * list (indiv (list Q) Q) * (rand * nat)) :=
  Ok (par, map (fun x => Ind (geno x) (Some (total (geno x)))) off, w).
Definition ex_run := eda ex_eval (fun p w => Ok (p, w)) (fun p w => let! d := estimator_uniform p in Ok (d, w)) (fun p w => let! d := estimator_uniform p in Ok (d, w))
  (fun d w => let! (x, r) := sample_uniform d (fst w) in Ok (x, (r, snd w))) (fun par off w => Ok (off, w))
  (fun p w => Ok (snd w <? 1, (fst w, S (snd w))))%nat (fun d w => Ok (true, w)).
Definition ex_start : list (indiv (list Q) Q) := [Ind [0; 0] (Some 0); Ind [4; 2] (Some 6)].
Example C140_ex : same_size 2 (map geno ex_start) /\ estimator_uniform ex_start = Ok (Box [0; 0] [4; 2]) /\
  match ex_run 5 ex_start (Rand [0; 1#2; 1#2; 0; 1#2; 1#2; 0; 0; 1#4] [], 0%nat) with
  | Ok (r, d, tr, _) => length tr = 2%nat /\ r = last tr ex_start /\ Forall (fun x => in_box [0; 0] [4; 2] (geno x)) r
  | _ => False
  end.
Proof.
  split; [repeat constructor|]. split; [reflexivity|]. vm_compute. split; [reflexivity|]. split; [reflexivity|].
  repeat constructor; intro; discriminate.
Qed.
(** edoCombinedContinue: it goes on when all the continuators say so; they are asked in order up to the first that does not *)
Theorem C140_combined : forall (D W : Type) (conts : list (D -> W -> res (bool * W))) d w b w', combined conts d w = Ok (b, w') ->
  if b then exists ws, length ws = S (length conts) /\ hd w' ws = w /\ last ws w = w' /\
              forall i c, nth_error conts i = Some c -> c d (nth i ws w) = Ok (true, nth (S i) ws w)
  else exists l1 c l2 ws, conts = l1 ++ c :: l2 /\ length ws = S (length l1) /\ hd w' ws = w /\ c d (last ws w) = Ok (false, w') /\
              forall i c, nth_error l1 i = Some c -> c d (nth i ws w) = Ok (true, nth (S i) ws w).
Proof.
  intros D W conts d. induction conts as [|c conts IH]; intros w b w' H; cbn [combined] in H.
  - injection H as <- <-. exists [w]. split; [reflexivity|]. split; [reflexivity|]. split; [reflexivity|]. intros [|i]; discriminate.
  - apply rbind_ok in H as ([b1 w1] & H1 & H). destruct b1.
    + specialize (IH _ _ _ H). destruct b.
      * destruct IH as (ws & L & Hd & La & C). destruct ws as [|w2 ws]; [discriminate|]. cbn in Hd. subst w2. exists (w :: w1 :: ws).
        split; [cbn in *; lia|]. split; [reflexivity|]. split; [rewrite <- La; apply (last_default ws w1)|].
        intros [|i] c' E; cbn [nth_error] in E; [injection E as <-; exact H1|]. specialize (C i c' E).
        change (nth (S i) (w :: w1 :: ws) w) with (nth i (w1 :: ws) w). change (nth (S (S i)) (w :: w1 :: ws) w) with (nth (S i) (w1 :: ws) w).
        assert (i < length conts)%nat by (apply nth_error_Some; congruence).
        rewrite (nth_indep (w1 :: ws) w w1), (nth_indep (w1 :: ws) w w1 (n := S i)) by (cbn in *; lia). exact C.
      * destruct IH as (l1 & c2 & l2 & ws & -> & L & Hd & Cf & C). destruct ws as [|w2 ws]; [discriminate|]. cbn in Hd. subst w2.
        exists (c :: l1), c2, l2, (w :: w1 :: ws). split; [reflexivity|]. split; [cbn in *; lia|]. split; [reflexivity|].
        split; [change (last (w :: w1 :: ws) w) with (last (w1 :: ws) w); rewrite (last_default ws w1 w w1); exact Cf|].
        intros [|i] c' E; cbn [nth_error] in E; [injection E as <-; exact H1|]. specialize (C i c' E).
        change (nth (S i) (w :: w1 :: ws) w) with (nth i (w1 :: ws) w). change (nth (S (S i)) (w :: w1 :: ws) w) with (nth (S i) (w1 :: ws) w).
        assert (i < length l1)%nat by (apply nth_error_Some; congruence).
        rewrite (nth_indep (w1 :: ws) w w1), (nth_indep (w1 :: ws) w w1 (n := S i)) by (cbn in *; lia). exact C.
    + injection H as <- <-. exists [], c, conts, [w]. split; [reflexivity|]. split; [reflexivity|]. split; [reflexivity|]. split; [exact H1|]. intros [|i]; discriminate.
Qed.
Print Assumptions C140_combined.
Example C140_combined_ex : combined [(fun (d : nat) (w : nat) => Ok (d <? 5, S w)); (fun d w => Ok (d <? 3, S w)); (fun d w => Ok (true, S w))]%nat 4%nat 0%nat = Ok (false, 2)%nat.
Proof. reflexivity. Qed.

(** ** C141 *)
(** edoEDASA accepts every candidate: the probability of acceptance is the exponential of a number that is not negative *)
Theorem C141_edasa_refuted : forall lt exp temperature current cs r, (forall x, 0 <= x -> 1 <= exp x) -> 0 < temperature -> unit_numbers (us r) ->
  (length cs <= length (us r))%nat -> exists r', edasa_inner lt exp temperature current cs r = Ok (cs, r').
Proof. intros. apply edasa_all; assumption. Qed.
Print Assumptions C141_edasa_refuted.
Example C141_edasa_ex : (forall x, 0 <= x -> 1 <= (fun x => 1 + x + x * x / 2) x) /\
  match edasa_inner qltb (fun x => 1 + x + x * x / 2) (1#10) 100 [1; 1000; 2; 3000] (Rand [9#10; 99#100; 1#2; 9#10] []) with Ok (l, _) => l = [1; 1000; 2; 3000] | _ => False end.
Proof. split; [|vm_compute; reflexivity].
  intros x H. assert (X : 0 <= x * x) by (apply Qmult_le_0_compat; exact H). assert (Y : 0 <= x * x / 2) by (apply Qle_shift_div_l; lra). lra. Qed.
(** the bounders move the solution and keep its fitness *)
Theorem C141_bounder_stale_refuted : exists (mins maxs : list Q) (x y : indiv (list Q) nat) r, proper_box mins maxs /\ fit x <> None /\
  bounder_bound mins maxs x r = Ok (y, r) /\ geno y <> geno x /\ fit y = fit x.
Proof.
  exists [0], [1], (Ind [3] (Some 9%nat)), (Ind [1] (Some 9%nat)), (Rand [] []). split; [repeat constructor; lra|].
  split; [discriminate|]. split; [reflexivity|]. split; [discriminate|reflexivity].
Qed.
Print Assumptions C141_bounder_stale_refuted.
(** the variance-covariance matrix of edoEstimatorNormalMulti is not the covariance, unless an average is null *)
Theorem C141_not_centred_refuted : forall pop i j, pop <> [] ->
  (snd (estimator_multi pop) i j == covariance (values 0 pop i) (values 0 pop j) <-> average (values 0 pop i) == 0 \/ average (values 0 pop j) == 0).
Proof.
  intros pop i j N. destruct (estimator_multi_ok pop i j N) as [_ E]. rewrite E. set (a := average (values 0 pop i)). set (b := average (values 0 pop j)).
  set (c := covariance _ _). split; intros H.
  - assert (Z : a * b == 0) by lra. apply Qmult_integral in Z. exact Z.
  - destruct H as [-> | ->]; ring.
Qed.
Print Assumptions C141_not_centred_refuted.
Example C141_not_centred_ex : ~ average (values 0 [[1; 5]; [1; 5]] 0) == 0 /\ covariance (values 0 [[1; 5]; [1; 5]] 0) (values 0 [[1; 5]; [1; 5]] 0) == 0 /\
  snd (estimator_multi [[1; 5]; [1; 5]]) 0%nat 0%nat == 1.
Proof. vm_compute. split; [discriminate|]. auto. Qed.
(** the modifiers that center a distribution leave it as it is, or read destroyed objects *)
Theorem C141_center_refuted : (forall d mass, normal_center d mass = d) /\ (forall d x mass, uniform_center d (x :: mass) = UB).
Proof. split; reflexivity. Qed.
Print Assumptions C141_center_refuted.
