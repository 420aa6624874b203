(** Properties C04-C10, C55, C56-C58: population reduction and replacement.
    Theorems quantify over every type of individuals, every fitness order that is
    a strict weak order, and every std::sort / std::nth_element / shuffle meeting
    its contract. *)
From Coq Require Import List Arith Bool ZArith QArith Permutation.
From Verif Require Import Lib Outcome OrderSpec OrderLemmas PopModel PopSpec PopProofs PopOps.
Import ListNotations.
Close Scope Q_scope.
Open Scope nat_scope.

(** Concrete instances used by the examples: fitness is a nat. *)
Definition ex_shuf (ds : list nat) (l : list nat) : list nat * list nat := (rev l, ds).
Example ex_order_meets_hyps :
  strict_weak_order Nat.ltb /\ std_sort_ok the_sort /\ std_nth_ok the_nth /\
  (forall ds l, Permutation l (fst (ex_shuf ds l))).
Proof.
  repeat split; try apply ltb_nat_swo; try (apply the_sort_ok; auto); try (apply the_nth_ok; auto).
  intros; apply Permutation_rev.
Qed.

(** ** C04 *)
Theorem C04_truncate_keeps_best :
  forall A (ltb : A -> A -> bool) sort, strict_weak_order ltb -> std_sort_ok sort ->
  forall pop n ds,
  (length pop < n -> truncate A ltb sort pop n ds = Throw) /\
  (n <= length pop ->
     exists kept, truncate A ltb sort pop n ds = Ok (kept, ds) /\ best_n ltb pop n kept).
Proof. exact truncate_spec. Qed.
Print Assumptions C04_truncate_keeps_best.
Example C04_truncate_ex :
  truncate nat Nat.ltb the_sort [3;7;7;1;5] 3 [] = Ok ([7;7;5], []).
Proof. reflexivity. Qed.

Theorem C04_linear_truncate_keeps_best :
  forall A (ltb : A -> A -> bool), strict_weak_order ltb ->
  forall pop n ds,
  (length pop < n -> linear_truncate A ltb pop n ds = Throw) /\
  (n <= length pop ->
     exists kept, linear_truncate A ltb pop n ds = Ok (kept, ds) /\ best_n ltb pop n kept).
Proof. exact linear_truncate_spec. Qed.
Print Assumptions C04_linear_truncate_keeps_best.
Example C04_linear_truncate_ex :
  linear_truncate nat Nat.ltb [3;7;7;1;5] 3 [] = Ok ([7;7;5], []).
Proof. reflexivity. Qed.

(** ** C05 *)
Theorem C05_random_reduce :
  forall A (shuf : list nat -> list A -> list A * list nat),
  (forall ds l, Permutation l (fst (shuf ds l))) ->
  reduce_contract (random_reduce A shuf) /\ never_stuck (random_reduce A shuf).
Proof. intros; split; [apply random_reduce_contract; auto | apply random_reduce_stuck]. Qed.
Print Assumptions C05_random_reduce.
Example C05_random_reduce_ex : random_reduce nat ex_shuf [3;7;1] 2 [] = Ok ([1;7], []).
Proof. reflexivity. Qed.

Theorem C05_ep_reduce :
  forall A (ltb : A -> A -> bool) nth_el, strict_weak_order ltb -> std_nth_ok nth_el ->
  forall t, reduce_contract (ep_reduce A ltb nth_el t) /\ never_stuck (ep_reduce A ltb nth_el t).
Proof. intros; split; [apply ep_reduce_contract; auto | apply ep_reduce_stuck; auto]. Qed.
Print Assumptions C05_ep_reduce.
Example C05_ep_reduce_ex :
  ep_reduce nat Nat.ltb the_nth 2 [3;7;1] 2 [1;2; 0;2; 0;1] = Ok ([7;3], []).
Proof. reflexivity. Qed.

Theorem C05_det_tournament_truncate :
  forall A (ltb : A -> A -> bool), strict_weak_order ltb -> forall t,
  reduce_contract (det_tourn_truncate A ltb t) /\ never_stuck (det_tourn_truncate A ltb t) /\
  (forall pop n ds kept ds', 0 < n ->
     det_tourn_truncate A ltb t pop n ds = Ok (kept, ds') -> best_not_worse ltb pop kept).
Proof.
  intros. split; [apply det_truncate_contract|]. split; [apply det_truncate_stuck|].
  intros. eapply det_truncate_best; eauto.
Qed.
Print Assumptions C05_det_tournament_truncate.
Example C05_det_tournament_truncate_ex :
  det_tourn_truncate nat Nat.ltb 2 [3;7;1;5] 2 [1;1;3; 0;2] = Ok ([3;7], []) /\
  det_tourn_truncate nat Nat.ltb 2 [3;7;1;5] 2 [2;0; 0;1] = Ok ([7;5], []).
Proof. split; reflexivity. Qed.

Theorem C05_stoch_tournament_truncate :
  forall A (ltb : A -> A -> bool) certain,
  reduce_contract (stoch_tourn_truncate A ltb certain) /\
  never_stuck (stoch_tourn_truncate A ltb certain).
Proof. intros; split; [apply stoch_truncate_contract | apply stoch_truncate_stuck]. Qed.
Print Assumptions C05_stoch_tournament_truncate.
Example C05_stoch_tournament_truncate_ex :
  stoch_tourn_truncate nat Nat.ltb false [3;7;1;5] 3 [1;2;1] = Ok ([3;7;5], []) /\
  stoch_tourn_truncate nat Nat.ltb false [3;7;1;5] 3 [1;2;0] = Ok ([3;1;5], []).
Proof. split; reflexivity. Qed.

(** ** C06 *)
Theorem C06_truncate_split :
  forall A (ltb : A -> A -> bool) nth_el, strict_weak_order ltb -> std_nth_ok nth_el ->
  forall h pop elim ds k, hm_call h (length pop) = Ok k -> k <= length pop ->
  exists surv elim', truncate_split A ltb nth_el h true pop elim ds = Ok (surv, elim', ds) /\
    splits pop elim k surv elim' /\ best_n ltb pop (length pop - k) surv.
Proof. exact truncate_split_spec. Qed.
Print Assumptions C06_truncate_split.
Example C06_truncate_split_ex :
  hm_call (hm_of_int 2) 4 = Ok 2 /\
  truncate_split nat Nat.ltb the_nth (hm_of_int 2) true [3;7;1;5] [9] [] = Ok ([7;5], [9;3;1], []).
Proof. split; reflexivity. Qed.

Theorem C06_linear_truncate_split :
  forall A (ltb : A -> A -> bool), strict_weak_order ltb ->
  forall h pop elim ds k, hm_call h (length pop) = Ok k ->
  (length pop < k -> linear_truncate_split A ltb h true pop elim ds = Throw) /\
  (k <= length pop ->
  exists surv elim', linear_truncate_split A ltb h true pop elim ds = Ok (surv, elim', ds) /\
    splits pop elim k surv elim' /\ best_n ltb pop (length pop - k) surv).
Proof. exact linear_truncate_split_spec. Qed.
Print Assumptions C06_linear_truncate_split.
Example C06_linear_truncate_split_ex :
  linear_truncate_split nat Nat.ltb (hm_of_int 2) true [3;7;1;5] [9] [] = Ok ([7;5], [9;1;3], []).
Proof. reflexivity. Qed.

Theorem C06_random_split :
  forall A (shuf : list nat -> list A -> list A * list nat),
  (forall ds l, Permutation l (fst (shuf ds l))) ->
  forall h pop elim ds k, hm_call h (length pop) = Ok k -> k <= length pop ->
  exists surv elim' ds', random_split A shuf h true pop elim ds = Ok (surv, elim', ds') /\
    splits pop elim k surv elim'.
Proof. exact random_split_spec. Qed.
Print Assumptions C06_random_split.
Example C06_random_split_ex :
  random_split nat ex_shuf (hm_of_int 1) true [3;7;1] [] [] = Ok ([1;7], [3], []).
Proof. reflexivity. Qed.

Theorem C06_linear_random_split :
  forall A h (pop elim : list A) ds k, hm_call h (length pop) = Ok k -> k <= length pop ->
  match linear_random_split A h true pop elim ds with
  | Ok (surv, elim', _) => splits pop elim k surv elim'
  | NoDraw => True | Throw | UB => False end.
Proof. exact linear_random_split_spec. Qed.
Print Assumptions C06_linear_random_split.
Example C06_linear_random_split_ex :
  linear_random_split nat (hm_of_int 2) true [3;7;1] [] [2;0] = Ok ([7], [1;3], []).
Proof. reflexivity. Qed.

Theorem C06_det_tournament_split :
  forall A (ltb : A -> A -> bool) t h (pop elim : list A) ds k,
  hm_call h (length pop) = Ok k -> k <= length pop ->
  match det_tourn_split A ltb t h true pop elim ds with
  | Ok (surv, elim', _) => splits pop elim k surv elim'
  | NoDraw => True | Throw | UB => False end.
Proof. exact det_tourn_split_spec. Qed.
Print Assumptions C06_det_tournament_split.
Example C06_det_tournament_split_ex :
  det_tourn_split nat Nat.ltb 2 (hm_of_int 2) true [3;7;1] [] [0;1; 1;0] = Ok ([7], [3;1], []).
Proof. reflexivity. Qed.

(** Finding: eliminating everybody by tournament never terminates. *)
Theorem C06_det_tournament_split_all_never_returns :
  forall A (ltb : A -> A -> bool) t h (pop elim : list A) ds,
  pop <> [] -> hm_call h (length pop) = Ok (length pop) ->
  det_tourn_split A ltb t h true pop elim ds = NoDraw.
Proof. exact det_tourn_split_all_stuck. Qed.
Print Assumptions C06_det_tournament_split_all_never_returns.
Example C06_det_tournament_split_all_ex : hm_call (HowMany 1 0) 3 = Ok 3.
Proof. reflexivity. Qed.

(** Finding: asking three of these splits for more than the population holds is
    not reported by the exception in the code (an unsigned is tested for < 0). *)
Theorem C06_oversized_split_outside :
  exists h pop, hm_call h (length pop) = Ok (S (length pop)) /\
    truncate_split nat Nat.ltb the_nth h true pop [] [] = UB /\
    random_split nat ex_shuf h true pop [] [] = UB /\
    linear_random_split nat h true pop [] [0;0;0;0] = UB.
Proof. exists (hm_of_int 3), [5;6]. repeat split. Qed.
Print Assumptions C06_oversized_split_outside.

(** ** C07 *)
Theorem C07_plus_replacement :
  forall A (ltb : A -> A -> bool) sort, strict_weak_order ltb -> std_sort_ok sort ->
  forall par off ds,
  exists par', plus_replacement A ltb sort par off ds = Ok (par', par, ds) /\
    best_n ltb (par ++ off) (length par) par'.
Proof. exact plus_replacement_spec. Qed.
Print Assumptions C07_plus_replacement.
Example C07_plus_replacement_ex :
  plus_replacement nat Nat.ltb the_sort [3;7;1] [5;7;0;2] [] = Ok ([7;7;5], [3;7;1], []).
Proof. reflexivity. Qed.

Theorem C07_comma_replacement :
  forall A (ltb : A -> A -> bool) sort nth_el, strict_weak_order ltb -> std_sort_ok sort ->
  forall par off ds,
  (length off < length par -> comma_replacement A ltb sort nth_el par off ds = Throw) /\
  (length par <= length off ->
   exists par', comma_replacement A ltb sort nth_el par off ds = Ok (par', par, ds) /\
    best_n ltb off (length par) par').
Proof. exact comma_replacement_spec. Qed.
Print Assumptions C07_comma_replacement.
Example C07_comma_replacement_ex :
  comma_replacement nat Nat.ltb the_sort the_nth [9;9] [5;7;0;2] [] = Ok ([7;5], [9;9], []).
Proof. reflexivity. Qed.

Theorem C07_plus_never_loses_best :
  forall A (ltb : A -> A -> bool) sort, strict_weak_order ltb -> std_sort_ok sort ->
  forall par off ds par' off' ds', par <> [] ->
  plus_replacement A ltb sort par off ds = Ok (par', off', ds') ->
  best_not_worse ltb (par ++ off) par'.
Proof.
  intros A ltb sort Hs Hsort par off ds par' off' ds' Hne H.
  destruct (plus_replacement_spec A ltb sort Hs Hsort par off ds) as (p & E & Hb).
  rewrite E in H; injection H as <- _ _.
  intros b Hin. eapply best_n_has_best; eauto. destruct par; [congruence|apply Nat.lt_0_succ].
Qed.
Print Assumptions C07_plus_never_loses_best.

Theorem C07_ep_replacement :
  forall A (ltb : A -> A -> bool) nth_el, strict_weak_order ltb -> std_nth_ok nth_el ->
  forall t par off ds,
  match ep_replacement A ltb nth_el t par off ds with
  | Ok (par', off', _) => length par' = length par /\ sub_population (off ++ par) par' /\ off' = par
  | NoDraw => True
  | Throw | UB => False
  end.
Proof.
  intros. apply merge_reduce_plus_spec. apply ep_reduce_contract; auto.
Qed.
Print Assumptions C07_ep_replacement.
Example C07_ep_replacement_ex :
  ep_replacement nat Nat.ltb the_nth 2 [3;7] [5] [1;2; 0;1; 0;0] = Ok ([7;5], [3;7], []).
Proof. reflexivity. Qed.

(** ** C08 *)
Theorem C08_too_many_offspring :
  forall A (R : reducer A) par off ds, length par < length off ->
  reduce_merge A R (plus A) par off ds = Throw.
Proof. exact reduce_merge_throw. Qed.
Print Assumptions C08_too_many_offspring.

Theorem C08_ssga_worse :
  forall A (ltb : A -> A -> bool), strict_weak_order ltb ->
  forall par off ds, length off <= length par ->
  exists surv, ssga_worse A ltb par off ds = Ok (surv ++ off, off, ds) /\
    best_n ltb par (length par - length off) surv.
Proof. exact ssga_worse_spec. Qed.
Print Assumptions C08_ssga_worse.
Example C08_ssga_worse_ex :
  ssga_worse nat Nat.ltb [3;7;1;5] [0;2] [] = Ok ([7;5;0;2], [0;2], []).
Proof. reflexivity. Qed.

Theorem C08_ssga_tournaments :
  forall A (ltb : A -> A -> bool), strict_weak_order ltb ->
  forall par off ds, length off <= length par ->
  (forall t, match ssga_det A ltb t par off ds with
    | Ok (par', off', _) => length par' = length par /\ off' = off /\
        exists surv, par' = surv ++ off /\ sub_population par surv
    | NoDraw => True | Throw | UB => False end) /\
  (forall c, match ssga_stoch A ltb c par off ds with
    | Ok (par', off', _) => length par' = length par /\ off' = off /\
        exists surv, par' = surv ++ off /\ sub_population par surv
    | NoDraw => True | Throw | UB => False end).
Proof.
  intros A ltb Hs par off ds Hl; split; intros.
  - apply reduce_merge_spec; auto. apply det_truncate_contract.
  - apply reduce_merge_spec; auto. apply stoch_truncate_contract.
Qed.
Print Assumptions C08_ssga_tournaments.
Example C08_ssga_tournaments_ex :
  ssga_det nat Nat.ltb 2 [3;7;1;5] [0] [0;2] = Ok ([3;7;5;0], [0], []) /\
  ssga_stoch nat Nat.ltb true [3;7;1;5] [0] [0;2;0] = Ok ([3;7;5;0], [0], []).
Proof. split; reflexivity. Qed.

(** ** C09 *)
Theorem C09_weak_elitism_one_step :
  forall A (ltb : A -> A -> bool), strict_weak_order ltb ->
  forall (replace : replacement A) par off ds par2 off2 ds2,
  weak_elitist A ltb replace par off ds = Ok (par2, off2, ds2) ->
  exists par1, replace par off ds = Ok (par1, off2, ds2) /\
    best_not_worse ltb par par2 /\ best_not_worse ltb par1 par2 /\ length par2 = length par1 /\
    (par2 = par1 \/
     exists pre post w champ, is_worst ltb par1 w /\ is_best ltb par champ /\
       par1 = pre ++ w :: post /\ par2 = pre ++ champ :: post).
Proof. exact weak_elitist_spec. Qed.
Print Assumptions C09_weak_elitism_one_step.
Example C09_weak_elitism_ex :
  weak_elitist nat Nat.ltb (generational nat) [3;7;1] [5;2;4] [] = Ok ([5;7;4], [3;7;1], []).
Proof. reflexivity. Qed.

Theorem C09_weak_elitism_all_generations :
  forall A (ltb : A -> A -> bool), strict_weak_order ltb ->
  forall (replace : replacement A) par par',
  generations (weak_elitist A ltb replace) par par' -> best_not_worse ltb par par'.
Proof. exact weak_elitist_generations. Qed.
Print Assumptions C09_weak_elitism_all_generations.
Example C09_generations_ex :
  generations (weak_elitist nat Nat.ltb (generational nat)) [3;7;1] [7;2].
Proof.
  eapply gen_more with (off := [5;2;4]) (ds := []); [reflexivity|].
  eapply gen_more with (off := [1;2]) (ds := []); [reflexivity|]. apply gen_none.
Qed.

(** It never fails on its own: with non-empty parents, it returns whenever the
    inner replacement returns a non-empty population. *)
Theorem C09_weak_elitism_total :
  forall A (ltb : A -> A -> bool), strict_weak_order ltb ->
  forall (replace : replacement A) par off ds par1 off1 ds1,
  par <> [] -> par1 <> [] -> replace par off ds = Ok (par1, off1, ds1) ->
  exists par2, weak_elitist A ltb replace par off ds = Ok (par2, off1, ds1).
Proof.
  intros A ltb Hs replace par off ds par1 off1 ds1 H0 H1 Hr. unfold weak_elitist.
  destruct (best_element_spec A ltb Hs par) as [_ (i & v & -> & _)]; auto. cbn [rbind].
  rewrite Hr; cbn [rbind].
  destruct (best_element_spec A ltb Hs par1) as [_ (j & w & -> & _)]; auto. cbn [rbind].
  destruct (ltb w v); [|eauto].
  destruct (it_worse_total A ltb par1 H1) as [k Hk]. rewrite Hk; cbn [rbind of_opt].
  destruct (it_worse_spec A ltb Hs _ _ Hk) as (z & Hz & _). apply nth_error_lt in Hz.
  rewrite upd_set by auto. cbn [rbind of_opt]. eauto.
Qed.
Print Assumptions C09_weak_elitism_total.

(** ** C10 *)
(** eoElitism is documented to copy the [c] best; it copies the whole population
    (in some order), for every elite size between 1 and the population size. *)
Theorem C10_elitism_copies_everything :
  forall A (ltb : A -> A -> bool) nth_el, strict_weak_order ltb -> std_nth_ok nth_el ->
  forall rate c pop off, pop <> [] -> c <> 0 -> c <= length pop ->
  exists copy, elitism A ltb nth_el rate c pop off = Ok (off ++ copy) /\ Permutation pop copy.
Proof. exact elitism_exact. Qed.
Print Assumptions C10_elitism_copies_everything.

Theorem C10_elitism_copies_elite_refuted :
  forall A (ltb : A -> A -> bool) nth_el, strict_weak_order ltb -> std_nth_ok nth_el ->
  forall rate c pop off, 0 < c < length pop ->
  ~ exists elite, elitism A ltb nth_el rate c pop off = Ok (off ++ elite) /\ best_n ltb pop c elite.
Proof.
  intros A ltb nth_el Hs Hn rate c pop off [H0 H1] (elite & E & Hl & _).
  destruct (elitism_exact A ltb nth_el Hs Hn rate c pop off) as (copy & E2 & HP).
  - destruct pop; [apply Nat.nlt_0_r in H1; tauto|discriminate].
  - intros ->. apply Nat.lt_irrefl in H0; auto.
  - apply Nat.lt_le_incl; auto.
  - rewrite E in E2. injection E2 as E2. apply app_inv_head in E2. subst copy.
    rewrite (Permutation_length HP), Hl in H1. apply Nat.lt_irrefl in H1; auto.
Qed.
Print Assumptions C10_elitism_copies_elite_refuted.
Example C10_elitism_ex : elitism nat Nat.ltb the_nth 0 1 [3;7;1] [5] = Ok [5;7;3;1].
Proof. reflexivity. Qed.

(** ** C55 *)
Theorem C55_best_element :
  forall A (ltb : A -> A -> bool), strict_weak_order ltb -> forall pop,
  (pop = [] -> best_element A ltb pop = Throw) /\
  (pop <> [] -> exists i v, best_element A ltb pop = Ok v /\ nth_error pop i = Some v /\
     is_best ltb pop v /\
     forall j y, j < i -> nth_error pop j = Some y -> ltb y v = true).
Proof. exact best_element_spec. Qed.
Print Assumptions C55_best_element.
Theorem C55_worse_element :
  forall A (ltb : A -> A -> bool), strict_weak_order ltb -> forall pop, pop <> [] ->
  exists i v, worse_element A ltb pop = Ok v /\ nth_error pop i = Some v /\
     is_worst ltb pop v /\
     forall j y, j < i -> nth_error pop j = Some y -> ltb v y = true.
Proof. exact worse_element_spec. Qed.
Print Assumptions C55_worse_element.
Theorem C55_nth_element_fitness :
  forall A (ltb : A -> A -> bool) nth_el, strict_weak_order ltb -> std_nth_ok nth_el ->
  forall n pop, n < length pop ->
  exists v, nth_element_fitness A ltb nth_el n pop = Ok v /\ nth_best ltb pop n v.
Proof. exact nth_element_fitness_spec. Qed.
Print Assumptions C55_nth_element_fitness.
Example C55_ex :
  best_element nat Nat.ltb [3;7;1;7] = Ok 7 /\ worse_element nat Nat.ltb [3;7;1;7] = Ok 1 /\
  nth_element_fitness nat Nat.ltb the_nth 2 [3;7;1;7] = Ok 3.
Proof. repeat split. Qed.

(** ** C56: eoReduceMergeReduce *)
Theorem C56_strong_elitism :
  forall A (ltb : A -> A -> bool) sort nth_el, strict_weak_order ltb -> std_nth_ok nth_el ->
  forall he hp ho (Rp Ro Rf : reducer A) par off ds par' off' ds',
  reduce_contract Rp -> reduce_contract Ro -> reduce_contract Rf ->
  reduce_merge_reduce A ltb sort nth_el he true hp ho Rp Ro Rf par off ds = Ok (par', off', ds') ->
  exists elite rest e, hm_call he (length par) = Ok e /\ par' = rest ++ elite /\
    best_n ltb par e elite /\ length par' = length par /\
    sub_population (par ++ off) par'.
Proof. exact rmr_strong. Qed.
Print Assumptions C56_strong_elitism.
Example C56_strong_elitism_ex :
  let T := truncate nat Nat.ltb the_sort in
  reduce_contract T /\
  reduce_merge_reduce nat Nat.ltb the_sort the_nth (hm_of_int 1) true (HowMany 1 0) (HowMany 1 0)
    T T T [3;7;1] [5;2;4;6] [] = Ok ([6;5;7], [5;2;4;6], []).
Proof. split; [apply truncate_contract; [apply ltb_nat_swo | apply the_sort_ok]|reflexivity]. Qed.

Theorem C56_size_preserved :
  forall A (ltb : A -> A -> bool) sort nth_el, strict_weak_order ltb -> std_sort_ok sort ->
  std_nth_ok nth_el ->
  forall he hp ho (Rp Ro Rf : reducer A) strong par off ds par' off' ds',
  reduce_contract Rf -> reduce_contract Rp -> reduce_contract Ro ->
  reduce_merge_reduce A ltb sort nth_el he strong hp ho Rp Ro Rf par off ds = Ok (par', off', ds') ->
  length par' = length par.
Proof. exact rmr_weak_size. Qed.
Print Assumptions C56_size_preserved.

(** Finding: with weak elitism and an elite of one, the best parent is lost even
    when it is strictly better than every member of the new population. *)
Theorem C90_weak_elitism_keeps_best_refuted :
  exists par off par', 
    (let T := truncate nat Nat.ltb the_sort in
     reduce_merge_reduce nat Nat.ltb the_sort the_nth (hm_of_int 1) false (HowMany 0 0) (HowMany 1 0)
       T T T par off [] = Ok (par', off, [])) /\
    ~ best_not_worse Nat.ltb par par'.
Proof.
  exists [3;9;1], [5;2;4], [5;4;2]. split; [reflexivity|].
  intros H. destruct (H 9) as (b & [<-|[<-|[<-|[]]]] & E); simpl; auto; discriminate.
Qed.
Print Assumptions C90_weak_elitism_keeps_best_refuted.

(** ** C57: eoDeterministicSaDReplacement *)
Theorem C57_survive_and_die_replacement :
  forall A (ltb : A -> A -> bool) nth_el, strict_weak_order ltb -> std_nth_ok nth_el ->
  forall (R : reducer A) sp dp so dof par off ds par' off' ds',
  reduce_contract R ->
  sad_replacement A ltb nth_el R sp dp so dof par off ds = Ok (par', off', ds') ->
  length par' = length par /\ sub_population (par ++ off) par' /\
  exists s so' lp lo rest, hm_call sp (length par) = Ok s /\ best_n ltb par s lp /\
    hm_call so (length off) = Ok so' /\ best_n ltb off so' lo /\ par' = rest ++ lp ++ lo.
Proof. exact sad_spec. Qed.
Print Assumptions C57_survive_and_die_replacement.
Example C57_ex :
  sad_replacement nat Nat.ltb the_nth (truncate nat Nat.ltb the_sort)
    (hm_of_int 1) (HowMany 0 0) (hm_of_int 1) (hm_of_int 1) [3;7;1] [5;2;4] []
  = Ok ([4;7;5], [3;1], []).
Proof. reflexivity. Qed.

(** ** C58: eoMGGReplacement and eoG3Replacement *)
Theorem C58_mgg_replacement :
  forall A (ltb : A -> A -> bool), strict_weak_order ltb ->
  forall h t par off ds par' off' ds',
  mgg_replacement A ltb h t par off ds = Ok (par', off', ds') ->
  length par' = length par /\ Permutation (par ++ off) (par' ++ off') /\
  best_not_worse ltb off par'.
Proof. exact mgg_spec. Qed.
Print Assumptions C58_mgg_replacement.
Example C58_mgg_ex :
  mgg_replacement nat Nat.ltb (hm_of_int 2) 2 [3;7;1] [5;2;4] [0;2] = Ok ([7;5;2], [4;1;3], []).
Proof. reflexivity. Qed.

Theorem C58_g3_replacement :
  forall A (ltb : A -> A -> bool) nth_el, strict_weak_order ltb -> std_nth_ok nth_el ->
  forall h par off ds par' off' ds',
  g3_replacement A ltb nth_el h par off ds = Ok (par', off', ds') ->
  exists k par1 gone, hm_call h (length par) = Ok k /\ Permutation par (par1 ++ gone) /\
    length gone = k /\ best_n ltb par (length par - k) par1 /\
    best_n ltb (off ++ gone) k off' /\ par' = par1 ++ off'.
Proof. exact g3_spec. Qed.
Print Assumptions C58_g3_replacement.
Example C58_g3_ex :
  g3_replacement nat Nat.ltb the_nth (hm_of_int 2) [3;7;1] [5;2;4] [] = Ok ([7;5;4], [5;4], []).
Proof. reflexivity. Qed.
