(** Properties C19-C21 and C61: permutation operators. *)
From Coq Require Import List Arith NArith ZArith Bool Permutation.
From Verif Require Import Lib Outcome BitModel BitProofs PermModel PermSpec PermProofs.
Import ListNotations.

(** C19 — for every sequence of at least two elements and every draws *)
Theorem C19_swap_mutation :
  forall A k (c : list A) ds c' ch ds', c <> [] ->
  swap_mutation k c ds = Ok (c', ch, ds') -> ch = true /\ swaps k c c' /\ Permutation c' c.
Proof. exact (fun A => @swap_mutation_spec A). Qed.
Print Assumptions C19_swap_mutation.
Example C19_swap_ex : swap_mutation 2 [10;20;30] [0;0;2;1;2] = Ok ([30;10;20], true, []).
Proof. reflexivity. Qed.

Theorem C19_shift_mutation :
  forall A (c : list A) ds c' ch ds', c <> [] ->
  shift_mutation c ds = Ok (c', ch, ds') ->
  ch = true /\ exists from to, from < to /\ to < length c /\ segment_rotated from to c c' /\ Permutation c' c.
Proof. exact (fun A => @shift_mutation_spec A). Qed.
Print Assumptions C19_shift_mutation.
Example C19_shift_ex : shift_mutation [10;20;30;40] [3;1] = Ok ([10;40;20;30], true, []).
Proof. reflexivity. Qed.

Theorem C19_two_opt_mutation :
  forall A (c : list A) ds c' ch ds', c <> [] ->
  two_opt_mutation c ds = Ok (c', ch, ds') ->
  ch = true /\ exists from to, from < to /\ to < length c /\ segment_reversed from to c c' /\ Permutation c' c.
Proof. exact (fun A => @two_opt_mutation_spec A). Qed.
Print Assumptions C19_two_opt_mutation.
Example C19_two_opt_ex : two_opt_mutation [10;20;30;40;50] [4;4;1] = Ok ([10;50;40;30;20], true, []).
Proof. reflexivity. Qed.

(** the segment (or the pair) is the one drawn *)
Theorem C19_drawn_segment :
  forall A (c : list A) i j ds, i < length c -> j < length c -> i <> j ->
  (exists c', swap_mutation 1 c (i :: j :: ds) = Ok (c', true, ds) /\ two_exchanged i j c c') /\
  (exists c', shift_mutation c (i :: j :: ds) = Ok (c', true, ds) /\ segment_rotated (Nat.min i j) (Nat.max i j) c c') /\
  (exists c', two_opt_mutation c (i :: j :: ds) = Ok (c', true, ds) /\ segment_reversed (Nat.min i j) (Nat.max i j) c c').
Proof. exact (fun A => @drawn_segment A). Qed.
Print Assumptions C19_drawn_segment.

(** the mutations are not stuck: some continuation of any draws lets them finish *)
Theorem C19_mutations_never_stuck :
  forall A (c : list A) k ds, 2 <= length c ->
  (exists more c' ds', swap_mutation k c (ds ++ more) = Ok (c', true, ds')) /\
  (exists more c' ds', shift_mutation c (ds ++ more) = Ok (c', true, ds')) /\
  (exists more c' ds', two_opt_mutation c (ds ++ more) = Ok (c', true, ds')).
Proof. exact (fun A => @mutations_unstuck A). Qed.
Print Assumptions C19_mutations_never_stuck.
Example C19_unstuck_ex : 2 <= length [7;8].
Proof. repeat constructor. Qed.

(** finding: on a one-element sequence they wait for a second index for ever *)
Theorem C19_singleton_diverges :
  forall A (x : A) ds k,
  swap_mutation (S k) [x] ds = NoDraw /\ shift_mutation [x] ds = NoDraw /\ two_opt_mutation [x] ds = NoDraw.
Proof. exact (fun A => @mutations_stuck A). Qed.
Print Assumptions C19_singleton_diverges.

(** C20 — order crossover, on platforms where plain char is signed *)
Theorem C20_order_crossover :
  forall s c1 c2 f r2 r1 ds, c1 <> [] ->
  Permutation c1 (seq s (length c1)) -> Permutation c2 (seq s (length c1)) ->
  (Z.of_nat (length c1) < 1073741824)%Z ->
  let cut2 := 1 + r2 mod length c1 in let cut1 := r1 mod cut2 in
  exists x1 x2, order_xover neg_signed c1 c2 (f :: r2 :: r1 :: ds) = Ok (x1, x2, true, ds) /\
    order_child (Nat.odd f) cut1 cut2 c1 c2 x1 /\ order_child (Nat.odd f) cut1 cut2 c2 c1 x2 /\
    Permutation x1 (seq s (length c1)) /\ Permutation x2 (seq s (length c1)).
Proof. exact order_xover_spec. Qed.
Print Assumptions C20_order_crossover.
Example C20_ex :
  order_xover neg_signed [0;1;2;3;4] [4;3;2;1;0] [1;3;1] = Ok ([1;2;3;0;4], [3;2;1;4;0], true, []) /\
  order_xover neg_signed [1;2;3;4;5] [2;4;1;5;3] [0;2;2] = Ok ([3;5;1;4;2], [1;5;4;3;2], true, []).
Proof. split; reflexivity. Qed.

(** finding: where plain char is unsigned the direction -1 becomes 255 and a child of
    two permutations need not be a permutation *)
Theorem C20_unsigned_char_outside :
  ~ (forall c1 c2 ds x1 x2 ds', Permutation c1 (seq 0 (length c1)) -> Permutation c2 (seq 0 (length c1)) ->
     order_xover neg_unsigned c1 c2 ds = Ok (x1, x2, true, ds') -> Permutation x1 (seq 0 (length c1))).
Proof. exact order_xover_unsigned_bad. Qed.
Print Assumptions C20_unsigned_char_outside.

(** C21 — partially mapped crossover: terminates within n steps per gene, exchanges the
    segment verbatim, yields permutations *)
Theorem C21_partially_mapped_crossover :
  forall fuel s1 s2 ds x1 x2 ch ds',
  2 <= length s1 -> Permutation s1 (seq 0 (length s1)) -> Permutation s2 (seq 0 (length s1)) -> length s1 <= fuel ->
  pmx fuel s1 s2 ds = Ok (x1, x2, ch, ds') ->
  ch = true /\ exists i1 i2, i1 < i2 /\ i2 < length s1 /\ pmx_child i1 i2 s1 s2 x1 /\ pmx_child i1 i2 s2 s1 x2 /\
    Permutation x1 (seq 0 (length s1)) /\ Permutation x2 (seq 0 (length s1)).
Proof. exact pmx_spec. Qed.
Print Assumptions C21_partially_mapped_crossover.
Example C21_ex : pmx 5 [0;1;2;3;4] [4;3;0;2;1] [1;3] = Ok ([1;3;0;2;4], [4;1;2;3;0], true, []).
Proof. reflexivity. Qed.

Theorem C21_never_stuck :
  forall fuel s1 s2 ds,
  2 <= length s1 -> Permutation s1 (seq 0 (length s1)) -> Permutation s2 (seq 0 (length s1)) -> length s1 <= fuel ->
  exists more r, pmx fuel s1 s2 (ds ++ more) = Ok r.
Proof. exact pmx_ok. Qed.
Print Assumptions C21_never_stuck.

(** finding: genes must start at 0; permutations of 1..n are indexed out of range *)
Theorem C21_one_based_outside :
  exists s1 s2 ds, Permutation s1 (seq 1 (length s1)) /\ Permutation s2 (seq 1 (length s1)) /\
  forall fuel, length s1 <= fuel -> pmx fuel s1 s2 ds = UB.
Proof. exact pmx_one_based_ub. Qed.
Print Assumptions C21_one_based_outside.

(** C61 — initialisers *)
Theorem C61_permutation_init :
  forall shuf size start ds, (forall d l, Permutation (fst (shuf d l)) l) ->
  Permutation (fst (init_permutation shuf size start ds)) (seq start size).
Proof. exact init_permutation_spec. Qed.
Print Assumptions C61_permutation_init.
Example C61_permutation_ex : fst (init_permutation (fun d l => (rev l, d)) 4 3 []) = [6;5;4;3].
Proof. reflexivity. Qed.

Theorem C61_fixed_length_init :
  forall A F (gen : A -> list nat -> res (A * list nat)) d dim (chrom : list A * option F) ds c ds',
  init_fixed d gen dim chrom ds = Ok (c, ds') ->
  length (fst c) = dim /\ snd c = None /\ generated (fun x ds r => gen x ds = Ok r) fst snd (fst c) ds ds'.
Proof. exact (fun A F => @init_fixed_spec A F). Qed.
Print Assumptions C61_fixed_length_init.

Theorem C61_variable_length_init :
  forall A F (gen : A -> list nat -> res (A * list nat)) d mn mx (chrom : list A * option F) ds c ds',
  init_variable d gen mn mx chrom ds = Ok (c, ds') ->
  mn <= length (fst c) < mx /\ snd c = None /\ generated (fun x ds r => gen x ds = Ok r) fst snd (fst c) (tl ds) ds'.
Proof. exact (fun A F => @init_variable_spec A F). Qed.
Print Assumptions C61_variable_length_init.
Example C61_variable_ex :
  init_variable 0 (fun _ => draw 10) 2 5 ([1], Some 7) [8; 12; 13; 14; 15] = Ok (([2;3;4;5], None), []).
Proof. reflexivity. Qed.

(** every length of the half-open range can come out *)
Theorem C61_variable_length_reached :
  forall A F (gen : A -> list nat -> res (A * list nat)) d mn mx (chrom : list A * option F) n ds, mn <= n < mx ->
  (forall x ds, exists r, gen x ds = Ok r) ->
  exists c ds', init_variable d gen mn mx chrom ((n - mn) :: ds) = Ok (c, ds') /\ length (fst c) = n.
Proof. exact (fun A F => @init_variable_all A F). Qed.
Print Assumptions C61_variable_length_reached.

Theorem C61_population_create :
  forall A (gen : A -> list nat -> res (A * list nat)) d n ds pop ds', pop_create d gen n ds = Ok (pop, ds') ->
  length pop = n /\ generated (fun x ds r => gen x ds = Ok r) fst snd pop ds ds'.
Proof. exact (fun A => @pop_create_spec A). Qed.
Print Assumptions C61_population_create.

(** append never touches the individuals already there, and refuses to shrink *)
Theorem C61_population_append :
  forall A (gen : A -> list nat -> res (A * list nat)) d n pop ds,
  (n < length pop -> pop_append d gen n pop ds = Throw) /\
  (forall pop' ds', pop_append d gen n pop ds = Ok (pop', ds') ->
     exists new, pop' = pop ++ new /\ length pop' = n /\ generated (fun x ds r => gen x ds = Ok r) fst snd new ds ds').
Proof. exact (fun A => @pop_append_spec A). Qed.
Print Assumptions C61_population_append.
Example C61_append_ex :
  pop_append 0 (fun _ => draw 10) 4 [7;8] [1;12] = Ok ([7;8;1;2], []) /\ pop_append 0 (fun _ => draw 10) 1 [7;8] [1] = Throw.
Proof. split; reflexivity. Qed.
