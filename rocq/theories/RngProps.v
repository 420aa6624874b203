(** Properties C01-C03: the random generator. *)
From Coq Require Import NArith ZArith QArith List Bool.
From Verif Require Import Lib RngSpec RngModel RngProofs.
Import ListNotations.
Open Scope N_scope.

(** ** C01.  For every seed, every content of the freshly allocated 625-word array
    and every number of draws, construction and drawing never leave the array and
    the i-th value is the tempered word x(624+i) of the (unique) sequence [x]
    satisfying the Mersenne Twister recurrence from the seeded words. *)
Theorem C01_rand_is_mt_stream :
  forall (seed : N) (junk : list N) (x : nat -> N) (n : nat),
  length junk = 625%nat ->
  mt_seeded ((2 * seed) mod w32) x -> mt_recurrence x ->
  exists g g', construct junk seed = Some g /\
    rands n g = Some (map (fun i => mt_temper (x (i + 624)%nat)) (seq 0 n), g').
Proof. exact construct_stream. Qed.
Print Assumptions C01_rand_is_mt_stream.

(** The sequence of the specification exists and is unique. *)
Theorem C01_spec_sequence_exists_unique :
  forall seed, exists x, mt_seeded seed x /\ mt_recurrence x /\
    forall x', mt_seeded seed x' -> mt_recurrence x' -> forall n, x' n = x n.
Proof. exact mt_exists_unique. Qed.
Print Assumptions C01_spec_sequence_exists_unique.

(** Reseeding a generator, whatever it did before, restarts the stream of the new seed. *)
Theorem C01_reseed_is_mt_stream :
  forall (seed : N) (g : gen) (x : nat -> N) (n : nat),
  length (gstate g) = 625%nat ->
  mt_seeded ((2 * seed) mod w32) x -> mt_recurrence x ->
  exists g1 g2, reseed seed g = Some g1 /\
    rands n g1 = Some (map (fun i => mt_temper (x (i + 624)%nat)) (seq 0 n), g2).
Proof. exact reseed_stream. Qed.
Print Assumptions C01_reseed_is_mt_stream.

(** Non-vacuity: 1300 draws (two block boundaries) from seed 42. *)
Example C01_ex :
  match construct (repeat 7 625) 42 with
  | Some g => match rands 1300 g with
              | Some (ys, _) => (nth 0 ys 0, nth 1299 ys 0) = (2338654294, 2535111534)
              | None => False end
  | None => False
  end.
Proof. vm_compute. reflexivity. Qed.

(** ** C02.  For every reachable generator [g] (built, reseeded, drawn from and
    itself possibly restored from another one) and every destination [d], the
    restored generator emits the same values as [g], for ever. *)
Theorem C02_save_restore_same_stream :
  forall lossy g d, reachable lossy g -> length (gstate d) = 625%nat ->
  exists d', read_gen (print_gen lossy g) d = Some d' /\
    forall n, exists ys ga gb,
      rands n g = Some (ys, ga) /\ rands n d' = Some (ys, gb) /\ length ys = n.
Proof. exact save_restore_stream. Qed.
Print Assumptions C02_save_restore_same_stream.
Example C02_ex_reachable : forall lossy, exists g, reachable lossy g /\ gleft g = 620%Z.
Proof. exact reachable_ex. Qed.

(** ** C03.  Bounded draws, for every 32-bit draw. *)
Theorem C03_random_in_range :
  forall m r, 0 < m -> m <= 4294967296 -> r < 4294967296 -> random m r < m.
Proof. exact random_range. Qed.
Print Assumptions C03_random_in_range.
Example C03_random_ex : random 4294967295 4294967295 = 4294967294 /\ random 6 4294967295 = 5.
Proof. split; vm_compute; reflexivity. Qed.

(** every value below a bound of at most 2^31 can be drawn *)
Theorem C03_random_onto :
  forall m v, m <= 2147483648 -> v < m -> exists r, r < 4294967296 /\ random m r = v.
Proof. exact random_onto. Qed.
Print Assumptions C03_random_onto.

(** the values returned by rand() are 32-bit *)
Theorem C03_rand_is_32_bit :
  forall lossy g n, reachable lossy g ->
  exists ys g', rands n g = Some (ys, g') /\ Forall (fun y => y < 4294967296) ys.
Proof. exact rands_32bit. Qed.
Print Assumptions C03_rand_is_32_bit.

Theorem C03_uniform_in_unit_interval :
  forall r, r < 4294967296 -> (0 <= uniform 1 r)%Q /\ (uniform 1 r < 1)%Q.
Proof. exact uniform_range. Qed.
Print Assumptions C03_uniform_in_unit_interval.

Theorem C03_uniform_in_interval :
  forall mn mx r, r < 4294967296 -> (mn < mx)%Q ->
  (mn <= uniform2 mn mx r)%Q /\ (uniform2 mn mx r < mx)%Q.
Proof. exact uniform2_range. Qed.
Print Assumptions C03_uniform_in_interval.
Example C03_uniform_ex : (uniform2 (1#2) 3 4294967295 < 3)%Q /\ ((1#2) <= uniform2 (1#2) 3 0)%Q.
Proof. split; vm_compute; congruence. Qed.

Theorem C03_flip_extremes :
  forall bias r, r < 4294967296 ->
  ((bias <= 0)%Q -> flip bias r = false) /\ ((1 <= bias)%Q -> flip bias r = true).
Proof. exact flip_extreme. Qed.
Print Assumptions C03_flip_extremes.

(** a flip with bias p is true for exactly the draws below p * 2^32 *)
Theorem C03_flip_threshold :
  forall bias r, flip bias r = true <-> (inject_Z (Z.of_N r) < bias * 4294967296)%Q.
Proof. exact flip_threshold. Qed.
Print Assumptions C03_flip_threshold.
Example C03_flip_ex : flip (1#2) 2147483647 = true /\ flip (1#2) 2147483648 = false.
Proof. split; reflexivity. Qed.

Theorem C03_binomial_range :
  forall n p rs k rest, binomial n p rs = Some (k, rest) -> (k <= n)%nat.
Proof. exact binomial_range. Qed.
Print Assumptions C03_binomial_range.

(** it counts the successes among the next n draws, and consumes exactly those *)
Theorem C03_binomial_counts_successes :
  forall n p rs k rest, binomial n p rs = Some (k, rest) ->
  (n <= length rs)%nat /\ k = length (filter (fun r => flip p r) (firstn n rs)) /\ rest = skipn n rs.
Proof. exact binomial_count. Qed.
Print Assumptions C03_binomial_counts_successes.
Example C03_binomial_ex : binomial 4 (1#2) [0; 4294967295; 12; 3000000000] = Some (2%nat, []).
Proof. reflexivity. Qed.
