(** Properties C16-C18: bit-string mutations and crossovers. *)
From Coq Require Import List Arith NArith ZArith Lia Bool.
From Verif Require Import Lib Outcome BitModel BitSpec BitProofs.
Import ListNotations.

(** ** C16 *)
Theorem C16_one_bit_flip :
  forall c d ds, c <> [] ->
  exists c', one_bit_flip c (d :: ds) = Ok (c', true, ds) /\
    flipped_exactly c c' (fun i => i = d mod length c) /\ hamming c c' = 1.
Proof. exact one_bit_flip_spec. Qed.
Print Assumptions C16_one_bit_flip.

Theorem C16_det_single_exactly_k_distinct :
  forall k c ds, k <= length c -> length c <= length ds ->
  exists c' idx, det_single_bit_flip k c ds = Ok (c', 0 <? k, skipn (length c) ds) /\
    NoDup idx /\ length idx = k /\ (forall i, In i idx -> i < length c) /\
    flipped_exactly c c' (fun i => In i idx) /\ hamming c c' = k.
Proof. exact det_single_spec. Qed.
Print Assumptions C16_det_single_exactly_k_distinct.
Example C16_det_single_ex : exists c', det_single_bit_flip 2 [true;false;true] [1;0;2] = Ok (c', true, []) /\
  hamming [true;false;true] c' = 2.
Proof. eexists; split; reflexivity. Qed.

Theorem C16_det_bit_flip_at_most_k :
  forall k c ds, c <> [] -> k <= length ds ->
  exists c', det_bit_flip k c ds = Ok (c', true, skipn k ds) /\ length c' = length c /\
    hamming c c' <= k /\ Nat.even (k + hamming c c') = true.
Proof.
  intros k c ds H1 H2. destruct (det_flip_loop_spec k c ds H1 H2) as (c' & E & H).
  exists c'. unfold det_bit_flip. rewrite E. auto.
Qed.
Print Assumptions C16_det_bit_flip_at_most_k.

(** finding: eoDetBitFlip may draw the same position twice, undoing its own flip, and
    still reports a change *)
Theorem C90_det_bit_flip_exactly_k_refuted :
  exists c ds, det_bit_flip 2 c ds = Ok (c, true, []) /\ 2 <= length c.
Proof. exists [true;false;true], [1;1]. split; [reflexivity|simpl; lia]. Qed.
Print Assumptions C90_det_bit_flip_exactly_k_refuted.

Theorem C16_bit_mutation :
  forall c ds, length c <= length ds ->
  exists c' ch, bit_mutation c ds = Ok (c', ch, skipn (length c) ds) /\
    flipped_exactly c c' (fun i => exists d, nth_error ds i = Some d /\ Nat.odd d = true) /\
    (ch = true <-> c' <> c).
Proof. exact bit_mutation_spec. Qed.
Print Assumptions C16_bit_mutation.
Example C16_bit_mutation_ex : bit_mutation [true;false;true] [0;1;0] = Ok ([true;true;true], true, []).
Proof. reflexivity. Qed.

Theorem C16_inversion_reverses_a_segment :
  forall c ds c' ch ds', bit_inversion c ds = Ok (c', ch, ds') ->
  ch = true /\ length c' = length c /\ exists r1 r2, r1 < r2 /\ r2 <= length c /\
    forall i, nth_error c' i = if (r1 <=? i) && (i <? r2) then nth_error c (r1 + r2 - 1 - i) else nth_error c i.
Proof. exact bit_inversion_positions. Qed.
Print Assumptions C16_inversion_reverses_a_segment.
Theorem C16_inversion_self_inverse :
  forall c ds c' ds', bit_inversion c ds = Ok (c', true, ds') -> bit_inversion c' ds = Ok (c, true, ds').
Proof. exact bit_inversion_invol. Qed.
Print Assumptions C16_inversion_self_inverse.
Theorem C16_inversion_never_stuck :
  forall c ds, c <> [] -> exists more c' ds', bit_inversion c (ds ++ more) = Ok (c', true, ds').
Proof. exact bit_inversion_unstuck. Qed.
Print Assumptions C16_inversion_never_stuck.
Example C16_inversion_ex : bit_inversion [true;true;false;false] [1;1;4] = Ok ([true;false;false;true], true, []).
Proof. reflexivity. Qed.
(** finding: on an empty chromosome the redraw loop of eoBitInversion never ends *)
Theorem C16_inversion_empty_diverges : forall ds, bit_inversion [] ds = NoDraw.
Proof. exact bit_inversion_empty. Qed.
Print Assumptions C16_inversion_empty_diverges.

(** the operators that first draw how many bits to flip *)
Theorem C16_standard_bit_mutation :
  forall c k ds, k <= length c -> length c <= length ds ->
  exists c', standard_bit_mutation c (k :: ds) = Ok (c', 0 <? k, skipn (length c) ds) /\
    length c' = length c /\ hamming c c' = k.
Proof. exact standard_spec. Qed.
Print Assumptions C16_standard_bit_mutation.
Theorem C16_uniform_bit_mutation :
  forall c k ds, k < length c -> length c <= length ds ->
  exists c', uniform_bit_mutation c (k :: ds) = Ok (c', 0 <? k, skipn (length c) ds) /\
    length c' = length c /\ hamming c c' = k.
Proof. exact uniform_spec. Qed.
Print Assumptions C16_uniform_bit_mutation.
(** finding: the documented number of flipped bits is U(0,n), but n is never drawn *)
Theorem C90_uniform_bits_full_range_refuted :
  forall c ds c' ch ds', c <> [] -> uniform_bit_mutation c ds = Ok (c', ch, ds') -> hamming c c' < length c.
Proof. exact uniform_not_all. Qed.
Print Assumptions C90_uniform_bits_full_range_refuted.
Theorem C16_conditional_bit_mutation :
  forall c zeros k ds, (forall z, In z zeros -> z = 0) -> 1 <= k <= length c -> length c <= length ds ->
  exists c', conditional_bit_mutation c (zeros ++ k :: ds) = Ok (c', true, skipn (length c) ds) /\
    length c' = length c /\ hamming c c' = k.
Proof. exact conditional_spec. Qed.
Print Assumptions C16_conditional_bit_mutation.
Theorem C16_shifted_bit_mutation :
  forall c k ds, c <> [] -> k <= length c -> length c <= length ds ->
  exists c', shifted_bit_mutation c (k :: ds) = Ok (c', true, skipn (length c) ds) /\
    length c' = length c /\ hamming c c' = Nat.max 1 k.
Proof. exact shifted_spec. Qed.
Print Assumptions C16_shifted_bit_mutation.

(** ** C17 *)
Theorem C17_next_adds_one :
  forall c, length (bit_next c) = length c /\ value (bit_next c) = (value c + 1) mod 2 ^ length c.
Proof. exact bit_next_spec. Qed.
Print Assumptions C17_next_adds_one.
Theorem C17_prev_subtracts_one :
  forall c, length (bit_prev c) = length c /\ value (bit_prev c) = (value c + (2 ^ length c - 1)) mod 2 ^ length c.
Proof. exact bit_prev_spec. Qed.
Print Assumptions C17_prev_subtracts_one.
Theorem C17_next_prev_inverse : forall c, bit_next (bit_prev c) = c /\ bit_prev (bit_next c) = c.
Proof. exact bit_next_prev. Qed.
Print Assumptions C17_next_prev_inverse.
Theorem C17_value_determines : forall c c', length c = length c' -> value c = value c' -> c = c'.
Proof. exact value_inj. Qed.
Print Assumptions C17_value_determines.
Theorem C17_full_cycle :
  forall c, Nat.iter (2 ^ length c) bit_next c = c /\ Nat.iter (2 ^ length c) bit_prev c = c.
Proof. intros c. split; [apply iter_next_full|apply iter_prev_full]. Qed.
Print Assumptions C17_full_cycle.
Theorem C17_iterated_next :
  forall k c, value (Nat.iter k bit_next c) = (value c + k) mod 2 ^ length c.
Proof. intros k c. apply iter_next. Qed.
Print Assumptions C17_iterated_next.
Example C17_ex : bit_next [false;true;true] = [true;false;false] /\ value [false;true;true] = 3 /\
  bit_next [true;true;true] = [false;false;false] /\ bit_prev [false;false;false] = [true;true;true].
Proof. repeat split. Qed.

(** ** C18 *)
Theorem C18_one_point :
  forall c1 c2 d ds, c1 <> [] -> c2 <> [] ->
  let site := d mod Nat.min (length c1) (length c2) in
  exists x1 x2 ch, one_pt_xover c1 c2 (d :: ds) = Ok (x1, x2, ch, ds) /\
    exchanged (fun i => i <? site) c1 c2 x1 x2 /\ tails_kept c1 c2 x1 x2 /\
    (ch = true <-> (x1, x2) <> (c1, c2)).
Proof. exact one_pt_spec. Qed.
Print Assumptions C18_one_point.
Example C18_one_point_ex : one_pt_xover [true;true;true] [false;false;false] [2]
  = Ok ([false;false;true], [true;true;false], true, []).
Proof. reflexivity. Qed.

Theorem C18_uniform :
  forall c1 c2 ds, length c1 = length c2 -> length c1 <= length ds ->
  exists x1 x2 ch ds' S, u_xover c1 c2 ds = Ok (x1, x2, ch, ds') /\
    exchanged S c1 c2 x1 x2 /\ (ch = true <-> (x1, x2) <> (c1, c2)).
Proof. exact u_spec. Qed.
Print Assumptions C18_uniform.
Example C18_uniform_ex : u_xover [true;true;true] [false;true;false] [1;0]
  = Ok ([false;true;true], [true;true;false], true, []).
Proof. reflexivity. Qed.
(** finding: the size mismatch is not reported (the exception object is built but not
    thrown): a longer first parent reads past the end of the second *)
Theorem C18_uniform_mismatch_undefined :
  forall c1 c2 ds, length c2 < length c1 -> length c2 <= length ds -> u_xover c1 c2 ds = UB.
Proof. exact u_longer_first. Qed.
Print Assumptions C18_uniform_mismatch_undefined.

Theorem C18_n_points :
  forall num c1 c2 ds x1 x2 ch ds', (0 < num)%N -> (num < 4294967296)%N ->
  2 <= length c1 -> 2 <= length c2 ->
  n_pts_xover num c1 c2 ds = Ok (x1, x2, ch, ds') ->
  ch = true /\ exists points,
    length points = Nat.min (length c1) (length c2) /\
    count_occ bool_dec points true = Nat.min (length points - 1) (N.to_nat num) /\
    exchanged (fun i => Nat.odd (cuts_upto (fun j => nth j points false) i)) c1 c2 x1 x2 /\
    tails_kept c1 c2 x1 x2.
Proof. exact n_pts_spec. Qed.
Print Assumptions C18_n_points.
Theorem C18_n_points_never_stuck :
  forall num c1 c2 ds, (0 < num)%N -> 2 <= length c1 -> 2 <= length c2 ->
  exists more x1 x2 ds', n_pts_xover num c1 c2 (ds ++ more) = Ok (x1, x2, true, ds').
Proof. exact n_pts_unstuck. Qed.
Print Assumptions C18_n_points_never_stuck.
Example C18_n_points_ex : n_pts_xover 2 [true;true;true;true] [false;false;false;false] [1;1;3]
  = Ok ([true;false;false;true], [false;true;true;false], true, []).
Proof. reflexivity. Qed.
(** finding: with zero points, or on one-bit chromosomes, the counter wraps and the
    loop that chooses the points never ends *)
Theorem C18_n_points_diverges :
  forall num c1 c2 ds, c1 <> [] -> c2 <> [] -> (Z.of_nat (length c1) < 4294967296)%Z ->
  num = 0%N \/ length c1 = 1 \/ length c2 = 1 -> n_pts_xover num c1 c2 ds = NoDraw.
Proof. exact n_pts_stuck. Qed.
Print Assumptions C18_n_points_diverges.

Theorem C18_genes :
  forall g num c1 c2 ds x1 x2 ch ds', 0 < g -> (0 < num)%N -> (num < 4294967296)%N ->
  g <= length c1 -> g <= length c2 ->
  gene_xover g num c1 c2 ds = Ok (x1, x2, ch, ds') ->
  ch = true /\ exists genes,
    length genes = Nat.min (length c1) (length c2) / g /\
    count_occ bool_dec genes true = Nat.min (length genes) (N.to_nat num) /\
    exchanged (fun i => nth (i / g) genes false) c1 c2 x1 x2 /\ tails_kept c1 c2 x1 x2.
Proof. exact gene_xover_spec. Qed.
Print Assumptions C18_genes.
Theorem C18_genes_never_stuck :
  forall g num c1 c2 ds, 0 < g -> (0 < num)%N -> g <= length c1 -> g <= length c2 ->
  exists more x1 x2 ds', gene_xover g num c1 c2 (ds ++ more) = Ok (x1, x2, true, ds').
Proof. exact gene_xover_unstuck. Qed.
Print Assumptions C18_genes_never_stuck.
Example C18_genes_ex : gene_xover 2 1 [true;true;true;true] [false;false;false;false] [1]
  = Ok ([true;true;false;false], [false;false;true;true], true, []).
Proof. reflexivity. Qed.
