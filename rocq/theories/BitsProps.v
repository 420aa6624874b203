(** C41: neighborhoods flipping several bits. *)
From Coq Require Import List Arith Bool NArith Permutation Lia Sorted.
From Verif Require Import Outcome Lib NeighModel BitsModel BitsSpec BitsProofs.
Import ListNotations.

(** the list built by the constructor: every subset of nBits positions (or of 1 to nBits
    positions), each once, in at most as many rounds as there are subsets *)
Theorem C41_subsets : forall n nBits (exact : bool) fuel, 0 < nBits <= n ->
  (if exact then binomial n nBits else binomial_sum n nBits) <= fuel ->
  exists vec, neighbors_vec fuel n nBits exact = Ok vec /\
  length vec = (if exact then binomial n nBits else binomial_sum n nBits) /\
  all_subsets_once n (if exact then nBits else 1) nBits vec.
Proof. exact neighbors_vec_ok. Qed.
Print Assumptions C41_subsets.
(** the announced size is this number, as long as the products fit 32 bits *)
Theorem C41_size : forall n nBits exact, nBits <= n ->
  (forall d, d <= nBits -> (N.of_nat (falling n d) < 2 ^ 32)%N) -> (N.of_nat (binomial_sum n nBits) < 2 ^ 32)%N ->
  neighborhood_size n nBits exact = Ok (N.of_nat (if exact then binomial n nBits else binomial_sum n nBits)).
Proof. exact size_ok. Qed.
Print Assumptions C41_size.
(** n(n-1)...(n-k+1) is C(n,k) k! *)
Theorem C41_binomial : forall n k, falling n k = binomial n k * fact k.
Proof. exact falling_binomial. Qed.
(** 128 bits, 5 of them: C(128,5) fits 32 bits but the product does not *)
Theorem C41_size_overflow_outside : number_of 128 5 <> Ok (N.of_nat (binomial 128 5)).
Proof. exact overflow_128_5. Qed.
Print Assumptions C41_size_overflow_outside.
(** an exploration visits as many different subsets as the sample asks for (all of them when it
    asks for none or too many), for all draws and after any earlier history *)
Theorem C41_explore : forall vec sample s ds, let n := length vec in let m := clamp_sample sample n in let it := bits_without_nh vec n sample in
  0 < n -> NoDup vec -> reachable it (wr_start n) s -> m <= length ds ->
  exists out s' ds', explore it n s ds = Ok (out, s', ds') /\
  length out = (if (n <? sample) || (sample =? 0) then n else sample) /\ NoDup out /\ (forall l, In l out -> In l vec) /\
  (sample = 0 \/ n <= sample -> Permutation out vec).
Proof.
  intros vec sample s ds n m it Hn ND R Hd. destruct (bits_explores vec sample s ds Hn R Hd ND) as (out & s' & ds' & E & L & N1 & I & A).
  exists out, s', ds'. split; auto. split; auto. split; auto. split; auto. intros H. apply A. unfold clamp_sample. destruct (Nat.ltb_spec (length vec) sample), (Nat.eqb_spec sample 0); cbn; auto. unfold n in H. lia.
Qed.
Print Assumptions C41_explore.
(** with replacement at exact distance: nBits different positions, for all draws *)
Theorem C41_random : forall n nBits size nSize index ds, nBits <= n -> nBits <= length ds -> Permutation index (seq 0 n) ->
  exists r index' ds', random_neighbor n nBits size true nSize index ds = Ok (r, index', ds') /\ length r = nBits /\ NoDup r /\
  (forall x, In x r -> x < n) /\ Permutation index' (seq 0 n).
Proof. exact random_exact. Qed.
Print Assumptions C41_random.
(** otherwise the loop choosing the number of bits reads out of bounds whenever a single bit had to
    be chosen, and chooses a single bit in every other case *)
Theorem C93_random_bits_refuted : forall n nBits index d ds, 0 < n -> 0 < nBits -> Permutation index (seq 0 n) ->
  let size := binomial_sum n nBits in let r := random_neighbor n nBits size false (map (binomial_sum n) (seq 1 nBits)) index (d :: ds) in
  (d mod size < n -> r = UB) /\ (forall bits index' ds', r = Ok (bits, index', ds') -> length bits = 1).
Proof. exact random_any. Qed.
Print Assumptions C93_random_bits_refuted.
(** the move flips the bits of the subset and no other; moving back restores the solution *)
Theorem C41_move : forall l (sol : list bool), NoDup l -> (forall x, In x l -> x < length sol) ->
  exists sol', bits_move l sol = Ok sol' /\ flipped l sol sol' /\ bits_move l sol' = Ok sol.
Proof.
  intros l sol ND H. destruct (bits_move_ok l sol ND H) as (sol' & E & F). exists sol'. split; auto. split; auto. eapply bits_move_back; eauto.
Qed.
Print Assumptions C41_move.
Example C41_ex : neighbors_vec 20 4 2 false = Ok [[0]; [1]; [2]; [3]; [0; 1]; [0; 2]; [0; 3]; [1; 2]; [1; 3]; [2; 3]] /\
  neighborhood_size 4 2 false = Ok 10%N /\ neighbors_vec 20 5 4 true = Ok [[0; 1; 2; 3]; [0; 1; 2; 4]; [0; 1; 3; 4]; [0; 2; 3; 4]; [1; 2; 3; 4]] /\
  random_neighbor 4 3 4 true [] (seq 0 4) [7; 1; 0] = Ok ([3; 1; 0], [2; 0; 1; 3], []) /\ bits_move [0; 2] [true; true; true; false] = Ok [false; true; false; false].
Proof. repeat split. Qed.
Print Assumptions C41_binomial.
