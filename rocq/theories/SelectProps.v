(** Properties C11-C15 and C59: selection. *)
From Coq Require Import List Arith Lia Bool ZArith QArith Permutation Sorted.
From Verif Require Import Lib Outcome OrderSpec OrderLemmas PopModel PopSpec PopProofs SelectModel SelectSpec SelectProofs SelectQ.
Import ListNotations.
Close Scope Q_scope.
Open Scope nat_scope.

(** ** C11 *)
Theorem C11_how_many_count :
  forall (c : Z) (n : nat),
  ((0 < c)%Z -> hm_call (hm_of_int c) n = Ok (Z.to_nat c)) /\
  ((c < 0)%Z -> (Z.of_nat n < - c)%Z -> hm_call (hm_of_int c) n = Throw) /\
  ((c < 0)%Z -> (- c <= Z.of_nat n)%Z -> hm_call (hm_of_int c) n = Ok (n - Z.to_nat (- c))).
Proof. exact hm_count_spec. Qed.
Print Assumptions C11_how_many_count.
Example C11_count_ex : hm_call (hm_of_int (-3)) 10 = Ok 7 /\ hm_call (hm_of_int (-3)) 2 = Throw.
Proof. split; reflexivity. Qed.

(** a rate gives the ceiling of rate * size, never more than the size *)
Theorem C11_how_many_rate :
  forall (r : Q) (n : nat), (0 <= r)%Q ->
  exists h k, hm_of_rate r = Ok h /\ hm_call h n = Ok k /\
    (r * inject_Z (Z.of_nat n) <= inject_Z (Z.of_nat k) < r * inject_Z (Z.of_nat n) + 1)%Q /\
    ((r <= 1)%Q -> k <= n).
Proof. exact hm_rate_spec. Qed.
Print Assumptions C11_how_many_rate.
Example C11_rate_ex : exists h, hm_of_rate (7 # 10) = Ok h /\ hm_call h 9 = Ok 7.
Proof. eexists; split; reflexivity. Qed.

(** a negative rate r stands for the rate 1 + r *)
Theorem C11_how_many_negative_rate :
  forall (r : Q) (n : nat), (-(1) <= r)%Q -> (r < 0)%Q ->
  hm_of_rate r = hm_of_rate (1 + r)%Q /\
  exists h k, hm_of_rate r = Ok h /\ hm_call h n = Ok k /\ k <= n.
Proof. exact hm_neg_rate_spec. Qed.
Print Assumptions C11_how_many_negative_rate.

(** the opposite of an absolute count is the complement *)
Theorem C11_how_many_opposite :
  forall (c : Z) (n : nat), (0 < c <= Z.of_nat n)%Z ->
  exists k k', hm_call (hm_of_int c) n = Ok k /\ hm_call (hm_neg (hm_of_int c)) n = Ok k' /\ k + k' = n.
Proof. exact hm_neg_count_spec. Qed.
Print Assumptions C11_how_many_opposite.

(** the opposite of a rate r is the rate 1 - r *)
Theorem C11_how_many_opposite_rate :
  forall (r : Q) (n : nat), (0 <= r <= 1)%Q ->
  exists h k, hm_of_rate r = Ok h /\ hm_call (hm_neg h) n = Ok k /\
    ((1 - r) * inject_Z (Z.of_nat n) <= inject_Z (Z.of_nat k) < (1 - r) * inject_Z (Z.of_nat n) + 1)%Q /\ k <= n.
Proof. exact hm_neg_rate_opposite. Qed.
Print Assumptions C11_how_many_opposite_rate.

Theorem C11_select_many :
  forall A S (sel : selector A S) ready, selector_contract sel ready ->
  forall h s src ds xs s' ds', src <> [] ->
  select_many sel h s src ds = Ok (xs, s', ds') ->
  exists k, hm_call h (length src) = Ok k /\ length xs = k /\ forall x, In x xs -> In x src.
Proof. exact (fun A S => @select_many_spec A S). Qed.
Print Assumptions C11_select_many.

Theorem C11_select_number :
  forall A S (sel : selector A S) ready, selector_contract sel ready ->
  forall n s src ds xs s' ds', src <> [] ->
  select_number sel n s src ds = Ok (xs, s', ds') ->
  length xs = n /\ forall x, In x xs -> In x src.
Proof. exact (fun A S => @select_number_spec A S). Qed.
Print Assumptions C11_select_number.

Theorem C11_select_perc :
  forall A S (sel : selector A S) ready, selector_contract sel ready ->
  forall rate s src ds xs s' ds', src <> [] -> (0 <= rate)%Q ->
  select_perc sel rate s src ds = Ok (xs, s', ds') ->
  (inject_Z (Z.of_nat (length xs)) <= rate * inject_Z (Z.of_nat (length src))
     < inject_Z (Z.of_nat (length xs)) + 1)%Q
  /\ forall x, In x xs -> In x src.
Proof. exact (fun A S => @select_perc_spec A S). Qed.
Print Assumptions C11_select_perc.

(** the selection fails only if the selector's own setup fails (or draws run out) *)
Theorem C11_selection_never_fails :
  forall A S (sel : selector A S) ready, selector_contract sel ready ->
  forall n s src ds, src <> [] ->
  (setup_select_n sel n s src ds = UB -> sel_setup sel s src ds = UB) /\
  (setup_select_n sel n s src ds = Throw -> sel_setup sel s src ds = Throw).
Proof. exact (fun A S => @setup_select_n_fails A S). Qed.
Print Assumptions C11_selection_never_fails.

(** the selectors of the library meet the contract *)
Theorem C11_selectors_meet_contract :
  forall A (ltb : A -> A -> bool), strict_weak_order ltb ->
  selector_contract (random_select A) (fun _ _ => True) /\
  selector_contract (best_select A ltb) (fun _ _ => True) /\
  selector_contract (no_select A) (fun _ _ => True) /\
  (forall t, selector_contract (det_tournament_select A ltb t) (fun _ _ => True)) /\
  (forall c, selector_contract (stoch_tournament_select A ltb c) (fun _ _ => True)).
Proof.
  exact (fun A ltb H => conj (random_select_contract A) (conj (best_select_contract A ltb H)
    (conj (no_select_contract A) (conj (det_tournament_select_contract A ltb H)
      (stoch_select_contract A ltb H))))).
Qed.
Print Assumptions C11_selectors_meet_contract.
Example C11_many_ex : select_many (det_tournament_select nat Nat.ltb 2) (hm_of_int (-2)) tt [4;9;2;7] [0;1;2;3]
  = Ok ([9;7], tt, []).
Proof. reflexivity. Qed.

(** truncated selection only selects among the [fertile] best *)
Theorem C11_truncated_select_many :
  forall A (ltb : A -> A -> bool) sort shuf, strict_weak_order ltb -> std_sort_ok sort ->
  (forall ds l, Permutation l (fst (shuf ds l))) ->
  forall S (sel : selector A S) ready hg hf s src ds xs s' ds',
  selector_contract sel ready -> src <> [] ->
  truncated_select_many A ltb sort shuf sel hg hf s src ds = Ok (xs, s', ds') ->
  exists target fertile kept, hm_call hg (length src) = Ok target /\ hm_call hf (length src) = Ok fertile /\
    best_n ltb src fertile kept /\ (0 < fertile -> length xs = target /\ forall x, In x xs -> In x kept).
Proof. exact (fun A ltb sort shuf H1 H2 H3 S => @truncated_many_spec A ltb sort shuf H1 H2 H3 S). Qed.
Print Assumptions C11_truncated_select_many.
Example C11_truncated_ex :
  truncated_select_many nat Nat.ltb the_sort (fun ds l => (l, ds)) (no_select nat) (hm_of_int 3) (hm_of_int 2)
    0 [4;9;2;7] [] = Ok ([9;7;9], 1, []).
Proof. reflexivity. Qed.

Theorem C11_truncated_select_one :
  forall A (ltb : A -> A -> bool) nth_el, strict_weak_order ltb -> std_nth_ok nth_el ->
  forall S (sel : selector A S) ready hf st src ds st1 ds1 any st2 ds2 n xs,
  selector_contract sel ready -> src <> [] ->
  sel_setup (truncated_select_one A ltb nth_el sel hf) st src ds = Ok (st1, ds1) ->
  snd st1 <> [] ->
  select_n (truncated_select_one A ltb nth_el sel hf) n st1 any ds1 = Ok (xs, st2, ds2) ->
  exists fertile kept, hm_call hf (length src) = Ok fertile /\ best_n ltb src fertile kept /\
    length xs = n /\ forall y, In y xs -> In y kept.
Proof. exact (fun A ltb nth_el H1 H2 S => @truncated_one_spec A ltb nth_el H1 H2 S). Qed.
Print Assumptions C11_truncated_select_one.

(** eoDetSelect: at least one individual; the source, cyclically *)
Theorem C11_det_select :
  forall A h (src : list A) t, src <> [] -> hm_call h (length src) = Ok t ->
  exists out, det_select h src = Ok out /\ length out = Nat.max 1 t /\
    forall i, i < length out -> nth_error out i = nth_error src (i mod length src).
Proof. exact @det_select_spec. Qed.
Print Assumptions C11_det_select.
Example C11_det_select_ex : det_select (hm_of_int 7) [4;9;2] = Ok [4;9;2;4;9;2;4].
Proof. reflexivity. Qed.
(** ** C60.  Finding: the documentation says best individuals are kept in priority; the
    source is not sorted, so a best individual can be left out *)
Theorem C60_det_select_best_refuted :
  exists h (src out : list nat), det_select h src = Ok out /\
    exists b, is_best Nat.ltb src b /\ ~ In b out.
Proof.
  exists (hm_of_int 1), [4;9;2], [4]. split; [reflexivity|]. exists 9. split.
  - split; [simpl; auto|]. intros y [<-|[<-|[<-|[]]]]; reflexivity.
  - simpl. intros [H|[]]; discriminate.
Qed.
Print Assumptions C60_det_select_best_refuted.

(** ** C12 *)
Theorem C12_deterministic_tournament :
  forall A (ltb : A -> A -> bool), strict_weak_order ltb ->
  forall pop t ds, pop <> [] -> 1 <= t -> t <= length ds ->
  exists i x, det_tournament A ltb pop t ds = Ok (i, skipn t ds) /\
    nth_error pop i = Some x /\ In i (contestants pop t ds) /\
    forall c y, In c (contestants pop t ds) -> nth_error pop c = Some y -> ltb x y = false.
Proof. exact det_tournament_spec. Qed.
Print Assumptions C12_deterministic_tournament.
Example C12_det_ex : det_tournament nat Nat.ltb [4;9;2;7] 3 [2;7;0;5] = Ok (3, [5]).
Proof. reflexivity. Qed.

Theorem C12_inverse_deterministic_tournament :
  forall A (ltb : A -> A -> bool), strict_weak_order ltb ->
  forall pop t ds i ds', pop <> [] ->
  inv_det_tournament A ltb pop t ds = Ok (i, ds') ->
  exists used x, ds = used ++ ds' /\ t <= length used /\ nth_error pop i = Some x /\
    In i (contestants pop (length used) used) /\
    forall c y, In c (contestants pop (length used) used) -> nth_error pop c = Some y -> ltb y x = false.
Proof. exact inv_det_tournament_contestants. Qed.
Print Assumptions C12_inverse_deterministic_tournament.
Example C12_inv_det_ex : inv_det_tournament nat Nat.ltb [4;9;2;7] 3 [1;1;0;2;5] = Ok (2, [5]).
Proof. reflexivity. Qed.

Theorem C12_stochastic_tournament :
  forall A (ltb : A -> A -> bool), strict_weak_order ltb ->
  forall pop certain d1 d2 d3 ds, pop <> [] ->
  exists a1 a2 i x, nth_error pop (d1 mod length pop) = Some a1 /\ nth_error pop (d2 mod length pop) = Some a2 /\
    stoch_tournament A ltb pop certain (d1 :: d2 :: d3 :: ds) = Ok (i, ds) /\ nth_error pop i = Some x /\
    (i = d1 mod length pop \/ i = d2 mod length pop) /\
    (certain = true \/ Nat.odd d3 = true -> ltb x a1 = false /\ ltb x a2 = false) /\
    (certain = false -> Nat.odd d3 = false -> ltb a1 x = false /\ ltb a2 x = false).
Proof. exact stoch_tournament_spec. Qed.
Print Assumptions C12_stochastic_tournament.

Theorem C12_inverse_stochastic_tournament :
  forall A (ltb : A -> A -> bool), strict_weak_order ltb ->
  forall pop certain d1 d2 d3 ds, pop <> [] ->
  exists a1 a2 i x, nth_error pop (d1 mod length pop) = Some a1 /\ nth_error pop (d2 mod length pop) = Some a2 /\
    inv_stoch_tournament A ltb pop certain (d1 :: d2 :: d3 :: ds) = Ok (i, ds) /\ nth_error pop i = Some x /\
    (i = d1 mod length pop \/ i = d2 mod length pop) /\
    (certain = true \/ Nat.odd d3 = true -> ltb a1 x = false /\ ltb a2 x = false) /\
    (certain = false -> Nat.odd d3 = false -> ltb x a1 = false /\ ltb x a2 = false).
Proof. exact inv_stoch_tournament_spec. Qed.
Print Assumptions C12_inverse_stochastic_tournament.
Example C12_stoch_ex : stoch_tournament nat Nat.ltb [4;9;2;7] false [0;1;0] = Ok (0, []) /\
  inv_stoch_tournament nat Nat.ltb [4;9;2;7] true [0;1;0] = Ok (0, []).
Proof. split; reflexivity. Qed.

(** ** C13 *)
Theorem C13_roulette_wheel :
  forall fs u ds, non_negative fs -> (0 < u <= 1)%Q -> (0 < total fs)%Q ->
  (exists i, roulette_wheel fs (total fs) u ds = Ok (i, ds)) /\
  forall i, roulette_wheel fs (total fs) u ds = Ok (i, ds) <->
    (i < length fs /\ (prefix fs i < u * total fs <= prefix fs (S i))%Q).
Proof. exact roulette_full. Qed.
Print Assumptions C13_roulette_wheel.
Example C13_roulette_ex : roulette_wheel [1#1;0#1;3#1]%Q (4#1)%Q (1#2)%Q [] = Ok (2, []).
Proof. reflexivity. Qed.

(** a draw of exactly 0 is replaced by a uniform choice of a valid position *)
Theorem C13_roulette_zero :
  forall fs tot u d ds, (u * tot == 0)%Q -> fs <> [] ->
  exists i, roulette_wheel fs tot u (d :: ds) = Ok (i, ds) /\ i < length fs /\ i = d mod length fs.
Proof. exact roulette_zero. Qed.
Print Assumptions C13_roulette_zero.

Theorem C13_rng_roulette_wheel :
  forall fs tot u, non_negative fs -> (0 <= u < 1)%Q -> (0 < total fs)%Q ->
  (tot == 0)%Q \/ (tot == total fs)%Q ->
  (exists i, rng_roulette fs tot u = Ok i) /\
  forall i, rng_roulette fs tot u = Ok i <->
    (i < length fs /\ (prefix fs i <= u * total fs < prefix fs (S i))%Q).
Proof. exact rng_roulette_full. Qed.
Print Assumptions C13_rng_roulette_wheel.
Example C13_rng_roulette_ex : rng_roulette [1#1;0#1;3#1]%Q 0%Q (1#4)%Q = Ok 2.
Proof. reflexivity. Qed.

Theorem C13_proportional_select :
  forall fs u, non_negative fs -> (0 <= u < 1)%Q -> (0 < total fs)%Q ->
  (exists i, proportional_pick fs u = Ok i) /\
  forall i, proportional_pick fs u = Ok i <->
    (i < length fs /\ (prefix fs i <= u * total fs < prefix fs (S i))%Q).
Proof. exact proportional_full. Qed.
Print Assumptions C13_proportional_select.

Theorem C13_sum_fitness :
  forall fs,
  (non_negative fs -> exists t, sum_fitness fs = Ok t /\ (t == total fs)%Q) /\
  (~ non_negative fs -> sum_fitness fs = Throw).
Proof. exact sum_fitness_spec. Qed.
Print Assumptions C13_sum_fitness.

(** Stochastic universal sampling: n calls after a setup pick individual i its
    expected share of times, rounded down or up.  Missing w.r.t. C13: draws for
    which a sampling point falls exactly on a slot boundary (see the refutation). *)
Theorem C13_universal_sampling :
  forall fs u ds, non_negative fs -> (0 < total fs)%Q -> (0 <= u < 1)%Q ->
  generic_position fs u -> length fs <= S (length ds) ->
  exists indices ds', sus_setup fs u ds = Ok (indices, ds') /\
    let picks := sus_calls (length fs) indices in
    length picks = length fs /\ (forall i, In i picks -> i < length fs) /\
    forall i f, nth_error fs i = Some f ->
      rounded_share f (total fs) (length fs) (count_occ Nat.eq_dec picks i).
Proof. exact sus_share. Qed.
Print Assumptions C13_universal_sampling.
Example C13_sus_ex : generic_position [1#1;2#1]%Q (1#4)%Q /\ sus_setup [1#1;2#1]%Q (1#4)%Q [5] = Ok ([0;1], []).
Proof.
  split; [|reflexivity]. intros k i Hk Hi. cbn [length] in Hk, Hi.
  destruct k as [|[|k]]; [| |lia]; (destruct i as [|[|[|i]]]; [| | |lia]);
    (split; vm_compute; discriminate).
Qed.

(** finding: at a boundary draw an individual with expected share 1 can be picked
    twice while another with share 1 is not picked at all *)
Theorem C90_universal_sampling_refuted :
  exists fs u ds indices ds', non_negative fs /\ (0 < total fs)%Q /\ (0 <= u < 1)%Q /\
    sus_setup fs u ds = Ok (indices, ds') /\
    ~ (forall i f, nth_error fs i = Some f ->
        rounded_share f (total fs) (length fs) (count_occ Nat.eq_dec (sus_calls (length fs) indices) i)).
Proof.
  exists [1#1;1#1]%Q, 0%Q, [1], [0;0], []. split.
  { intros f [<-|[<-|[]]]; vm_compute; discriminate. }
  split; [vm_compute; auto|]. split; [split; vm_compute; auto; discriminate|].
  split; [reflexivity|]. intros H. destruct (H 1 (1#1)%Q eq_refl) as [_ H2]. vm_compute in H2. discriminate.
Qed.
Print Assumptions C90_universal_sampling_refuted.
(** finding: a population whose fitnesses are all zero makes the setup run past the end *)
Theorem C13_universal_sampling_zero_outside :
  forall n u ds, 0 < n -> sus_setup (repeat 0%Q n) u ds = UB.
Proof. exact sus_zero_ub. Qed.
Print Assumptions C13_universal_sampling_zero_outside.

(** ** C14 *)
(** [seq_init] is a new object; [ends_pass] also holds after any whole number of
    passes, and setup() can be called at any time. *)
Theorem C14_sequential_select :
  forall A (ltb : A -> A -> bool) sort shufp, strict_weak_order ltb -> std_sort_ok sort ->
  (forall ds l, Permutation l (fst (shufp ds l))) ->
  forall ordered pop, pop <> [] -> forall k s ds, ends_pass s (length pop) ->
  exists blocks s' ds',
    select_n (sequential_select A ltb sort shufp ordered) (k * length pop) s pop ds = Ok (concat blocks, s', ds') /\
    length blocks = k /\
    Forall (fun b => Permutation pop b /\ (ordered = true -> best_to_worst ltb b)) blocks /\
    ends_pass s' (length pop).
Proof. exact sequential_passes. Qed.
Print Assumptions C14_sequential_select.

Theorem C14_sequential_select_after_setup :
  forall A (ltb : A -> A -> bool) sort shufp, strict_weak_order ltb -> std_sort_ok sort ->
  (forall ds l, Permutation l (fst (shufp ds l))) ->
  forall ordered pop, pop <> [] -> forall k s ds, k <= length pop ->
  exists s1 ds1 xs s' rest,
    sel_setup (sequential_select A ltb sort shufp ordered) s pop ds = Ok (s1, ds1) /\
    select_n (sequential_select A ltb sort shufp ordered) k s1 pop ds1 = Ok (xs, s', ds1) /\
    length xs = k /\ Permutation pop (xs ++ rest) /\ (ordered = true -> best_to_worst ltb (xs ++ rest)).
Proof. exact sequential_after_setup. Qed.
Print Assumptions C14_sequential_select_after_setup.

Theorem C14_elite_sequential_select :
  forall A (ltb : A -> A -> bool) shufp, strict_weak_order ltb ->
  (forall ds l, Permutation l (fst (shufp ds l))) ->
  forall pop, 2 <= length pop -> forall k s ds, ends_pass s (length pop) ->
  exists blocks s' ds',
    select_n (elite_sequential_select A ltb shufp) (k * length pop) s pop ds = Ok (concat blocks, s', ds') /\
    length blocks = k /\
    Forall (fun b => Permutation pop b /\ starts_with_best ltb b) blocks /\
    ends_pass s' (length pop).
Proof. exact elite_sequential_passes. Qed.
Print Assumptions C14_elite_sequential_select.

(** a one-individual population is rejected *)
Theorem C14_elite_sequential_single :
  forall A (ltb : A -> A -> bool) shufp, (forall ds l, Permutation l (fst (shufp ds l))) ->
  forall x ds s, ends_pass s 1 -> sel_call (elite_sequential_select A ltb shufp) s [x] ds = Throw.
Proof. exact elite_sequential_one. Qed.
Print Assumptions C14_elite_sequential_single.
Example C14_ex : ends_pass seq_init 3 /\
  select_n (sequential_select nat Nat.ltb the_sort (fun ds l => (rev l, ds)) true) 6 seq_init [4;9;7] []
    = Ok ([9;7;4;9;7;4], SeqSt (Some 3) [1;2;0], []) /\
  select_n (elite_sequential_select nat Nat.ltb (fun ds l => (rev l, ds))) 3 seq_init [4;9;7] []
    = Ok ([9;7;4], SeqSt (Some 3) [1;2;0], []).
Proof. repeat split. Qed.

(** ** C15 *)
Theorem C15_ranking_by_rank :
  forall A (ltb : A -> A -> bool) sort, strict_weak_order ltb -> std_sort_ok sort ->
  forall p (pop : list A), 2 <= length pop -> (Z.of_nat (length pop) <= 65536)%Z ->
  exists ranks w, ranking A ltb sort p None pop = Ok w /\ ranking_of ltb pop ranks /\
    Forall2 (fun v r => v == linear_weight p (length pop) r)%Q w ranks.
Proof. exact ranking_linear_spec. Qed.
Print Assumptions C15_ranking_by_rank.

Theorem C15_ranking_monotone :
  forall A (ltb : A -> A -> bool) sort p (pop : list A),
  strict_weak_order ltb -> std_sort_ok sort -> (1 < p <= 2)%Q ->
  2 <= length pop -> (Z.of_nat (length pop) <= 65536)%Z ->
  exists w, ranking A ltb sort p None pop = Ok w /\ length w = length pop /\
    (forall v, In v w -> (0 < v)%Q) /\
    (forall i j a b va vb, nth_error pop i = Some a -> nth_error pop j = Some b ->
       nth_error w i = Some va -> nth_error w j = Some vb -> ltb a b = true -> (va < vb)%Q).
Proof. exact @ranking_monotone. Qed.
Print Assumptions C15_ranking_monotone.
Example C15_ex : exists w, ranking nat Nat.ltb the_sort (2#1)%Q None [4;9;7] = Ok w /\
  Forall2 Qeq w [1#3;1#1;2#3]%Q.
Proof. eexists; split; [reflexivity|]. repeat constructor; reflexivity. Qed.

Theorem C15_ranking_nonlinear :
  forall A (ltb : A -> A -> bool) sort, strict_weak_order ltb -> std_sort_ok sort ->
  forall p (pw : Q -> Q) (pop : list A), 2 <= length pop ->
  exists ranks w, ranking A ltb sort p (Some pw) pop = Ok w /\ ranking_of ltb pop ranks /\
    w = map (fun r => (2 * p - 2) / inject_Z (Z.of_nat (length pop))
                        * pw (inject_Z (Z.of_nat (length pop - r)) / inject_Z (Z.of_nat (length pop)))
                      + (2 - p) / inject_Z (Z.of_nat (length pop)))%Q ranks.
Proof. exact ranking_pow_spec. Qed.
Print Assumptions C15_ranking_nonlinear.

(** the exact sum: 1 + 2(p-1)/(n-1), not 1 *)
Theorem C15_ranking_sum :
  forall A (ltb : A -> A -> bool) sort p (pop : list A),
  strict_weak_order ltb -> std_sort_ok sort ->
  2 <= length pop -> (Z.of_nat (length pop) <= 65536)%Z ->
  exists w, ranking A ltb sort p None pop = Ok w /\
    (total w == 1 + 2 * (p - 1) / (inject_Z (Z.of_nat (length pop)) - 1))%Q.
Proof. exact @ranking_sum. Qed.
Print Assumptions C15_ranking_sum.

(** finding: the documented range of worths, up to pressure/popSize, is exceeded by
    the best individual of every population *)
Theorem C90_ranking_range_refuted :
  forall A (ltb : A -> A -> bool) sort p (pop : list A),
  strict_weak_order ltb -> std_sort_ok sort -> (1 < p)%Q ->
  2 <= length pop -> (Z.of_nat (length pop) <= 65536)%Z ->
  exists w v, ranking A ltb sort p None pop = Ok w /\ In v w /\
    (p / inject_Z (Z.of_nat (length pop)) < v)%Q.
Proof. exact @ranking_best_worth. Qed.
Print Assumptions C90_ranking_range_refuted.

(** every history of calls on a cached ranking object gives what uncached ranking gives *)
Theorem C15_cached_ranking_same :
  forall A (ltb : A -> A -> bool) sort p pw (pops : list (list A)) a b c,
  ranking_cached_calls A ltb sort p pw (RankCache 0 a b c) pops = map (ranking A ltb sort p pw) pops.
Proof. exact ranking_cached_fresh. Qed.
Print Assumptions C15_cached_ranking_same.

(** ** C59: eoEliteSelect returns a best individual: refuted, it returns the first *)
Theorem C59_elite_select_first :
  forall A (ltb : A -> A -> bool) sort shufp s x r ds,
  exists s', sel_call (elite_select A ltb sort shufp) s (x :: r) ds = Ok (x, s', ds).
Proof. exact elite_select_first. Qed.
Print Assumptions C59_elite_select_first.
Theorem C59_elite_select_refuted :
  exists (pop : list nat) x s',
    sel_call (elite_select nat Nat.ltb the_sort (fun ds l => (l, ds))) seq_init pop [] = Ok (x, s', []) /\
    ~ is_best Nat.ltb pop x.
Proof.
  exists [4;9], 4, (SeqSt (Some 0) [1;0]). split; [reflexivity|].
  intros [_ H]. specialize (H 9 (or_intror (or_introl eq_refl))). discriminate.
Qed.
Print Assumptions C59_elite_select_refuted.
