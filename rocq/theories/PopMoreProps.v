(** Properties C05 and C56, continued: what the EP reduction keeps, and exactly what
    weak elitism does. *)
From Coq Require Import List Arith Bool ZArith QArith Permutation Sorted.
From Verif Require Import Lib Outcome OrderSpec OrderLemmas PopModel PopSpec PopProofs PopOps PopMore.
Import ListNotations.
Close Scope Q_scope.
Open Scope nat_scope.

(** every individual plays max(2,t) games against members of the population and the
    highest scores survive, ties being broken by fitness *)
Theorem C05_ep_reduce_keeps_highest_scores :
  forall A (ltb : A -> A -> bool) nth_el, strict_weak_order ltb -> std_nth_ok nth_el ->
  forall t pop n ds kept ds', n < length pop ->
  ep_reduce A ltb nth_el t pop n ds = Ok (kept, ds') ->
  exists scored kept_scored, map snd scored = pop /\ kept = map snd kept_scored /\
    (forall s a, In (s, a) scored ->
       exists opps, length opps = Nat.max 2 t /\ incl opps pop /\ s = list_sum (map (points ltb a) opps)) /\
    best_n (lower_score ltb) scored n kept_scored.
Proof. exact ep_reduce_scores. Qed.
Print Assumptions C05_ep_reduce_keeps_highest_scores.
Example C05_ep_scores_ex : 2 < length [3;7;1] /\
  ep_reduce nat Nat.ltb the_nth 2 [3;7;1] 2 [1;2; 0;2; 0;1] = Ok ([7;3], []).
Proof. split; [apply Nat.ltb_lt; reflexivity|reflexivity]. Qed.

(** weak elitism, exactly: the new population is sorted and its k worst members are
    overwritten by the first k elite parents, the longest prefix (never the whole
    elite) of parents strictly better than the e-th new individual *)
Theorem C56_weak_elitism_exact :
  forall A (ltb : A -> A -> bool) sort nth_el, strict_weak_order ltb -> std_sort_ok sort -> std_nth_ok nth_el ->
  forall he hp ho (Rp Ro Rf : reducer A) par off ds par' off' ds' e,
  reduce_contract Rp -> reduce_contract Ro -> reduce_contract Rf ->
  hm_call he (length par) = Ok e -> 0 < e ->
  reduce_merge_reduce A ltb sort nth_el he false hp ho Rp Ro Rf par off ds = Ok (par', off', ds') ->
  exists elite sorted limit k, best_n ltb par e elite /\
    length sorted = length par /\ StronglySorted (fun a b => ltb a b = false) sorted /\
    sub_population (par ++ off) sorted /\
    nth_error sorted (e - 1) = Some limit /\
    k < e /\ (forall x, In x (firstn k elite) -> ltb limit x = true) /\
    (S k = e \/ exists x, nth_error elite k = Some x /\ ltb limit x = false) /\
    par' = firstn (length par - k) sorted ++ rev (firstn k elite).
Proof. exact rmr_weak_exact. Qed.
Print Assumptions C56_weak_elitism_exact.
Example C56_weak_exact_ex :
  let T := truncate nat Nat.ltb the_sort in
  reduce_merge_reduce nat Nat.ltb the_sort the_nth (hm_of_int 2) false (HowMany 0 0) (HowMany 1 0)
    T T T [3;9;8;1] [5;2;4;6] [] = Ok ([6;5;4;9], [5;2;4;6], []).
Proof. reflexivity. Qed.
