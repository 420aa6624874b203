(** C34, C35: neighborhood iterators, permutation moves and their keys. *)
From Coq Require Import List Arith Bool NArith Permutation Lia.
From Verif Require Import Outcome Lib NeighModel NeighSpec NeighProofs.
Import ListNotations.

(** ** C34 *)
(** in order: the indices 0, 1, ..., n-1, whatever the earlier explorations left behind *)
Theorem C34_order : forall n s ds, 0 < n -> explore (order_nh n) n s ds = Ok (seq 0 n, n - 1, ds).
Proof. exact order_explores. Qed.
Print Assumptions C34_order.
(** with replacement: exactly as many neighbors as asked for, all of them in range *)
Theorem C34_with_replacement : forall n mx s ds, 0 < n -> 0 < mx -> mx <= length ds ->
  exists xs ds', explore (with_repl_nh n mx) mx s ds = Ok (xs, mx, ds') /\ length xs = mx /\ Forall (fun i => i < n) xs.
Proof. exact with_repl_explores. Qed.
Print Assumptions C34_with_replacement.
(** without replacement: each index once, for every draws and after every history of calls,
    interrupted explorations included *)
Theorem C34_without_replacement : forall n s ds, 0 < n -> reachable (without_repl_nh n) (wr_start n) s -> n <= length ds ->
  exists xs s' ds', explore (without_repl_nh n) n s ds = Ok (xs, s', ds') /\ Permutation xs (seq 0 n).
Proof. exact without_repl_explores. Qed.
Print Assumptions C34_without_replacement.
(** and every order of visit is possible *)
Theorem C34_every_order : forall n s xs, 0 < n -> reachable (without_repl_nh n) (wr_start n) s -> Permutation xs (seq 0 n) ->
  exists ds s', explore (without_repl_nh n) n s ds = Ok (xs, s', []).
Proof. exact without_repl_any_order. Qed.
Print Assumptions C34_every_order.
(** position() is the index of the neighbor last produced *)
Theorem C34_position : forall n s ds s' x ds', 0 < n -> reachable (without_repl_nh n) (wr_start n) s ->
  (i_init (without_repl_nh n) s ds = Ok (s', x, ds') \/ (i_cont (without_repl_nh n) s = true /\ i_next (without_repl_nh n) s ds = Ok (s', x, ds'))) ->
  wr_position s' = Ok x.
Proof. exact without_repl_position. Qed.
Print Assumptions C34_position.
(** swap and 2-opt neighborhoods: every pair of positions once *)
Theorem C34_pairs : forall n s ds, 2 <= n -> exists l s', explore (pairs_nh n) (n * n) s ds = Ok (l, s', ds) /\ all_pairs_once n l.
Proof. exact pairs_explores. Qed.
Print Assumptions C34_pairs.
Example C34_ex : explore (pairs_nh 4) 16 (7, 7) [] = Ok ([(0, 1); (0, 2); (0, 3); (1, 2); (1, 3); (2, 3)], (2, 3), []) /\
  explore (order_nh 3) 3 9 [] = Ok ([0; 1; 2], 2, []) /\
  (exists s, reachable (without_repl_nh 4) (wr_start 4) s /\ indexVector s <> seq 0 4 /\
     exists s' ds', explore (without_repl_nh 4) 4 s [5; 2; 3; 0] = Ok ([2; 3; 1; 0], s', ds')).
Proof.
  split; [reflexivity|]. split; [reflexivity|]. eexists. split.
  - eapply (reach_next _ _ _ [1]); [eapply (reach_init _ _ _ [1]); [apply reach_start|reflexivity]|reflexivity|reflexivity].
  - split; [discriminate|]. eexists _, _. reflexivity.
Qed.

(** ** C35 *)
(** the swap move exchanges two elements, and undoes itself *)
Theorem C35_swap : forall A i j (sol : list A), i < length sol -> j < length sol ->
  exists sol', swap_move A (i, j) sol = Ok sol' /\ exchanged i j sol sol' /\ Permutation sol' sol /\ swap_move A (i, j) sol' = Ok sol.
Proof. exact @swap_move_ok. Qed.
Print Assumptions C35_swap.
(** the 2-opt move reverses the elements between two positions, and undoes itself *)
Theorem C35_two_opt : forall A f s (sol : list A), f < s -> s < length sol ->
  exists sol', two_opt_move A (f, s) sol = Ok sol' /\ reversed f s sol sol' /\ Permutation sol' sol /\ two_opt_move A (f, s) sol' = Ok sol.
Proof. exact @two_opt_move_ok. Qed.
Print Assumptions C35_two_opt.
(** the shift move inserts an element before another one (or at the end); moveBack undoes it *)
Theorem C35_shift : forall A f s (sol : list A), f < length sol -> s <= length sol ->
  exists sol', shift_move A (f, s) sol = Ok sol' /\ inserted f s sol sol' /\ Permutation sol' sol /\ shift_move_back A (f, s) sol' = Ok sol.
Proof. exact @shift_move_ok. Qed.
Print Assumptions C35_shift.
(** the bit move flips one bit, and undoes itself *)
Theorem C35_bit : forall k (sol : list bool), k < length sol -> exists sol', bit_move k sol = Ok sol' /\ length sol' = length sol /\
  (forall i, nth_error sol' i = if i =? k then option_map negb (nth_error sol i) else nth_error sol i) /\ bit_move k sol' = Ok sol.
Proof. exact bit_move_ok. Qed.
Print Assumptions C35_bit.
(** keys of the indexed swap: index() and set() are inverse of each other between the keys below
    n(n-1)/2 and the pairs, as long as 8 times this number fits 32 bits (n <= 32768) *)
Theorem C35_swap_keys : forall n : N, (8 * (n * (n - 1) / 2) < 2 ^ 32)%N ->
  (forall k, (k < n * (n - 1) / 2)%N -> (fst (swap_index n k) < snd (swap_index n k) < n)%N /\ swap_key n (fst (swap_index n k)) (snd (swap_index n k)) = k) /\
  (forall f s, (f < s < n)%N -> (swap_key n f s < n * (n - 1) / 2)%N /\ swap_index n (swap_key n f s) = (f, s)).
Proof.
  intros n H. split.
  - intros k Hk. pose proof (swap_index_ok n k Hk H) as G. destruct (swap_index n k). exact G.
  - intros f s Hfs. apply swap_key_ok; auto.
Qed.
Print Assumptions C35_swap_keys.
Theorem C35_swap_keys_32768 : (8 * (32768 * (32768 - 1) / 2) < 2 ^ 32)%N.
Proof. reflexivity. Qed.
(** for 32769 elements, a key below n(n-1)/2 is mapped to a pair that is not one: 8 * key wraps round *)
Theorem C35_swap_overflow_outside : exists n k, (k < n * (n - 1) / 2)%N /\ (n < 32770)%N /\ ~ (snd (swap_index n k) < n)%N.
Proof. exists 32769%N, (2 ^ 29)%N. split; [reflexivity|]. split; [reflexivity|]. intros H. vm_compute in H. discriminate. Qed.
Print Assumptions C35_swap_overflow_outside.
(** keys of the shift: a bijection between the keys below n(n-1) and the insertions that move an
    element *)
Theorem C35_shift_keys : forall n,
  (forall k, k < n * (n - 1) -> true_shift n (fst (shift_index n k)) (snd (shift_index n k)) /\ shift_key n (fst (shift_index n k)) (snd (shift_index n k)) = k) /\
  (forall f s, true_shift n f s -> shift_key n f s < n * (n - 1) /\ shift_index n (shift_key n f s) = (f, s)).
Proof.
  intros n. split.
  - intros k Hk. pose proof (shift_index_ok n k Hk) as G. destruct (shift_index n k). exact G.
  - intros f s. apply shift_key_ok.
Qed.
Print Assumptions C35_shift_keys.
(** two different insertions give the same solution only when both exchange the same two
    adjacent elements *)
Theorem C35_shift_distinct : forall A (sol : list A) f s f' s' sol', NoDup sol -> true_shift (length sol) f s -> true_shift (length sol) f' s' ->
  shift_move A (f, s) sol = Ok sol' -> shift_move A (f', s') sol = Ok sol' ->
  (f, s) = (f', s') \/ (s = f + 2 /\ f' = f + 1 /\ s' = f) \/ (s' = f' + 2 /\ f = f' + 1 /\ s = f').
Proof.
  intros A sol f s f' s' sol' N T T' E E'. destruct (shift_move_ok f s sol) as (s1 & E1 & I1 & _); [apply T|apply T|]. destruct (shift_move_ok f' s' sol) as (s2 & E2 & I2 & _); [apply T'|apply T'|].
  assert (s1 = sol') as -> by congruence. assert (s2 = sol') as -> by congruence. destruct (shift_same sol f s f' s' sol' N T T' I1 I2) as [[-> ->]|H]; auto.
Qed.
Print Assumptions C35_shift_distinct.
(** so that keys are not in bijection with the moves: each exchange of adjacent elements has two keys *)
Theorem C93_shift_twice_refuted : forall A (a c : list A) x y, let sol := a ++ x :: y :: c in let n := length sol in
  exists k k', k < n * (n - 1) /\ k' < n * (n - 1) /\ k <> k' /\
  shift_move A (shift_index n k) sol = Ok (a ++ y :: x :: c) /\ shift_move A (shift_index n k') sol = Ok (a ++ y :: x :: c).
Proof. exact @shift_twice. Qed.
Print Assumptions C93_shift_twice_refuted.
(** and with the (n-1)^2 keys of the tutorials, the exchange of the last two of at least three
    elements is never reached *)
Theorem C93_shift_missed_refuted : forall A (a : list A) x y, a <> [] -> NoDup (a ++ [x; y]) -> let n := length (a ++ [x; y]) in
  forall key sol', key < (n - 1) * (n - 1) -> shift_move A (shift_index n key) (a ++ [x; y]) = Ok sol' -> sol' <> a ++ [y; x].
Proof. intros A a x y Ha N n key sol'. apply shift_missed; auto. Qed.
Print Assumptions C93_shift_missed_refuted.
Example C35_ex : swap_index 4 0 = (0, 3)%N /\ swap_index 4 1 = (0, 2)%N /\ swap_index 4 5 = (2, 3)%N /\ swap_key 4 1 3 = 2%N /\
  two_opt_move nat (1, 4) [10; 11; 12; 13; 14; 15] = Ok [10; 14; 13; 12; 11; 15] /\
  shift_move nat (1, 4) [10; 11; 12; 13; 14] = Ok [10; 12; 13; 11; 14] /\ shift_move nat (3, 1) [10; 11; 12; 13; 14] = Ok [10; 13; 11; 12; 14] /\
  shift_index 4 7 = (3, 1) /\ shift_index 4 5 = (1, 3).
Proof. repeat split. Qed.
Print Assumptions C35_swap_keys_32768.
