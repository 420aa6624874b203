(** C206-C207: the generators of random atoms. *)
From Coq Require Import NArith ZArith QArith Bool Lia Lqa.
From Verif Require Import Lib Outcome RngModel RngProofs UgenModel UgenProofs.
From Coq Require Import List.
Import ListNotations.
Close Scope Q_scope.
Open Scope Z_scope.

(** ** C206: what a generator makes *)

(** an integer generator with two bounds: every number it makes is in [min, max) *)
Theorem C206_in_interval (asserts : bool) (mn mx : Z) (g : gen) (r : N) :
  - 2 ^ 31 <= mn -> mn < mx -> mx < 2 ^ 31 -> (r < 4294967296)%N ->
  between asserts mn mx = Ok g -> exists v, generate g r = Ok v /\ mn <= v < mx.
Proof.
  intros A L B R E. apply between_ok in E as (-> & _ & I). eexists. apply generate_eq; auto; apply is_int_true; lia.
Qed.
Example C206_in_interval_ex : between true (-3) 4 = Ok (G (-3) 7) /\ generate (G (-3) 7) 0 = Ok (-3) /\ generate (G (-3) 7) 4294967295 = Ok 3.
Proof. repeat split. Qed.
(** it is accepted when min is not above max and the difference is an int, it throws when min is above max *)
Theorem C206_accepted (mn mx : Z) : - 2 ^ 31 <= mx - mn < 2 ^ 31 ->
  (mn <= mx -> between false mn mx = Ok (G mn (mx - mn))) /\ (mx < mn -> between false mn mx = Throw) /\ (mn < mx -> between true mn mx = Ok (G mn (mx - mn))).
Proof.
  intros H. unfold between. rewrite is_int_true by lia. cbn [negb andb]. split; [|split]; intros L.
  - destruct (Z.ltb_spec mx mn); [lia|auto].
  - destruct (Z.ltb_spec mx mn); [auto|lia].
  - destruct (Z.ltb_spec mn mx); [|lia]. cbn [negb]. destruct (Z.ltb_spec mx mn); [lia|auto].
Qed.
(** and so do the other ones *)
Theorem C206_accepted_others (mn mx : Z) :
  (- 2 ^ 31 <= mx - mn < 2 ^ 31 -> (mn <= mx -> random_between mn mx = Ok (G mn (mx - mn))) /\ (mx < mn -> random_between mn mx = Throw)) /\
  (0 <= mn < 2 ^ 32 -> 0 <= mx < 2 ^ 32 -> (mn <= mx -> between_u false mn mx = Ok (G mn (mx - mn))) /\ (mx < mn -> between_u false mn mx = Throw)).
Proof.
  split.
  - intros H. unfold random_between. rewrite is_int_true by lia. cbn [negb]. destruct (Z.ltb_spec mx mn); split; intros; auto; lia.
  - intros A B. unfold between_u, wrap. cbn [andb]. destruct (Z.ltb_spec mx mn); split; intros; auto; try lia. rewrite Z.mod_small by lia. reflexivity.
Qed.
(** with a positive maximum alone, the numbers are in [0, max) *)
Theorem C206_one_bound (mx : Z) (r : N) : 0 < mx < 2 ^ 31 -> (r < 4294967296)%N ->
  exists g v, upto mx = Ok g /\ generate g r = Ok v /\ 0 <= v < mx /\ 0 <= generate_u g r < mx.
Proof.
  intros H R. exists (G 0 mx). pose proof (random_z mx r ltac:(lia) ltac:(lia) R) as K. eexists. split; [reflexivity|].
  unfold generate, generate_u, part_of, wrap. cbn [minim range Z.add]. destruct (Z.ltb_spec mx 0); [lia|]. rewrite is_int_true by lia. split; [reflexivity|]. split; [lia|]. rewrite Z.mod_small; lia.
Qed.
Theorem C206_real_one_bound (mx : Q) (r : N) : (r < 4294967296)%N -> (0 < mx)%Q -> (0 <= real_upto mx r)%Q /\ (real_upto mx r < mx)%Q.
Proof.
  intros R L. destruct (uniform2_range 0 mx r R L) as (A & B). assert (E : (uniform2 0 mx r == real_upto mx r)%Q).
  { unfold uniform2, real_upto, uniform. field. }
  rewrite E in A, B. auto.
Qed.
(** every number of [min, max) can come *)
Theorem C206_onto (asserts : bool) (mn mx v : Z) (g : gen) :
  - 2 ^ 31 <= mn -> mx < 2 ^ 31 -> between asserts mn mx = Ok g -> mn <= v < mx -> exists r, (r < 4294967296)%N /\ generate g r = Ok v.
Proof.
  intros A B E V. apply between_ok in E as (-> & _ & I). pose proof (proj1 (int_iff _) I) as I'.
  destruct (random_onto (Z.to_N (mx - mn)) (Z.to_N (v - mn)) ltac:(lia) ltac:(lia)) as (r & R & K). exists r. split; auto.
  destruct (generate_eq mn mx r) as (-> & _); auto; try lia; try (apply is_int_true; lia). rewrite K. f_equal. lia.
Qed.
(** as often as the others, up to one number of the generator, as long as the interval is not longer than 2^21: the numbers of the generator that give v
    are an interval of 2^32 / (max - min) of them, rounded down or up *)
Theorem C206_fair (asserts : bool) (mn mx v : Z) (g : gen) :
  - 2 ^ 31 <= mn -> mx < 2 ^ 31 -> mx - mn <= 2 ^ 21 -> between asserts mn mx = Ok g -> mn <= v < mx ->
  exists a b, 0 <= a /\ b <= 2 ^ 32 /\ 2 ^ 32 / (mx - mn) <= b - a <= 2 ^ 32 / (mx - mn) + 1 /\
  forall r, (r < 4294967296)%N -> (generate g r = Ok v <-> a <= Z.of_N r < b).
Proof.
  intros A B C E V. apply between_ok in E as (-> & _ & I).
  destruct (fair_size (mx - mn) (v - mn) ltac:(lia) ltac:(lia)) as (F1 & F2 & F3). do 2 eexists. split; [exact F1|]. split; [exact F2|]. split; [exact F3|].
  intros r R. destruct (generate_eq mn mx r) as (-> & _); auto; try lia; try (apply is_int_true; lia). rewrite <- (fair (mx - mn) (v - mn) r) by (auto; lia).
  split; [intros K; injection K as K; lia|intros ->; f_equal; lia].
Qed.
Example C206_fair_ex : forall r, (r < 4294967296)%N -> generate (G 5 2) r = Ok 5 <-> 0 <= Z.of_N r < 2147483648.
Proof. intros r R. destruct (C206_fair true 5 7 5 (G 5 2)) as (a & b & A & B & C & D); try lia; try reflexivity. rewrite (D r R).
  assert (K0 : generate (G 5 2) 0 = Ok 5) by reflexivity. apply D in K0; [|lia]. assert (K1 : generate (G 5 2) 2147483647 = Ok 5) by reflexivity. apply D in K1; [|lia].
  assert (K2 : ~ generate (G 5 2) 2147483648 = Ok 5) by discriminate. rewrite D in K2 by lia. lia. Qed.
(** unsigned *)
Theorem C206_unsigned (asserts : bool) (mn mx : Z) (g : gen) (r : N) : 0 <= mn -> mn < mx -> mx < 2 ^ 32 -> (r < 4294967296)%N ->
  between_u asserts mn mx = Ok g -> mn <= generate_u g r < mx.
Proof.
  intros A L B R E. unfold between_u in E. destruct (asserts && negb (mn <? mx)); [discriminate|]. destruct (mx <? mn); [discriminate|]. injection E as <-.
  unfold generate_u, part_of, wrap. cbn [minim range]. rewrite (Z.mod_small (mx - mn)) by lia. destruct (Z.ltb_spec (mx - mn) 0); [lia|].
  pose proof (random_z (mx - mn) r ltac:(lia) ltac:(lia) R). rewrite Z.mod_small; lia.
Qed.
Example C206_unsigned_ex : between_u true 3 4294967295 = Ok (G 3 4294967292) /\ generate_u (G 3 4294967292) 4294967295 = 4294967294.
Proof. split; reflexivity. Qed.
(** the other family, which draws integers *)
Lemma wrap_wrap a b : wrap (wrap a + b) = wrap (a + b).
Proof. unfold wrap. apply Zplus_mod_idemp_l. Qed.
Lemma to_int_id z : - 2 ^ 31 <= z < 2 ^ 31 -> to_int z = z.
Proof.
  intros H. unfold to_int, int_max, wrap. destruct (Z_lt_le_dec z 0).
  - replace (z mod 2 ^ 32) with (z + 2 ^ 32); [destruct (Z.leb_spec (z + 2 ^ 32) (2 ^ 31 - 1)); lia|]. rewrite <- (Z.mod_add z 1 (2 ^ 32)) by lia. symmetry. apply Z.mod_small. lia.
  - rewrite Z.mod_small by lia. destruct (Z.leb_spec z (2 ^ 31 - 1)); lia.
Qed.
Theorem C206_random (mn mx : Z) (g : gen) (r : N) : - 2 ^ 31 <= mn -> mn < mx -> mx < 2 ^ 31 -> (r < 4294967296)%N ->
  random_between mn mx = Ok g -> mn <= random_int g r < mx /\ generate g r = Ok (random_int g r).
Proof.
  intros A L B R E. unfold random_between in E. destruct (is_int (mx - mn)) eqn:I; cbn [negb] in E; [|discriminate]. destruct (mx <? mn); [discriminate|]. injection E as <-.
  destruct (generate_eq mn mx r L ltac:(apply is_int_true; lia) ltac:(apply is_int_true; lia) I R) as (-> & K). apply int_iff in I.
  assert (T : random_int (G mn (mx - mn)) r = mn + Z.of_N (random (Z.to_N (mx - mn)) r)); [|rewrite T; split; [lia|reflexivity]].
  unfold random_int. cbn [minim range]. replace (wrap (mx - mn)) with (mx - mn) by (unfold wrap; rewrite Z.mod_small; lia).
  set (x := Z.of_N (random (Z.to_N (mx - mn)) r)) in *. assert (W : to_int (wrap mn + x) = to_int (mn + x)) by (unfold to_int; rewrite wrap_wrap; reflexivity).
  rewrite W. apply to_int_id. lia.
Qed.
Example C206_random_ex : random_between (-3) 4 = Ok (G (-3) 7) /\ random_int (G (-3) 7) 4294967295 = 3 /\ random_int (G (-3) 7) 0 = -3.
Proof. repeat split. Qed.
Theorem C206_random_below (m : Z) (r : N) : 0 < m -> m < 2 ^ 32 -> (r < 4294967296)%N ->
  0 <= random_unsigned (G 0 m) r < m /\ uf_min <= uf_draw m r < uf_max m /\ 0 <= uf_draw_below m r < m.
Proof.
  intros A B R. pose proof (random_z m r A ltac:(lia) R) as K. unfold random_unsigned, uf_draw, uf_draw_below, uf_min, uf_max, wrap. cbn [minim range Z.add].
  rewrite Z.mod_small by lia. auto.
Qed.
(** the booleans: exactly half of the numbers of the generator give true, and a bias b gives true to those below b 2^32 *)
Theorem C206_coin (r : N) : coin r = true <-> (r < 2147483648)%N.
Proof.
  unfold coin. rewrite flip_threshold. assert (E : ((1 # 2) * 4294967296 == inject_Z 2147483648)%Q) by reflexivity. rewrite E, <- Zlt_Qlt. lia.
Qed.
Theorem C206_biased (bias : Q) (r : N) : biased bias r = true <-> (inject_Z (Z.of_N r) < bias * 4294967296)%Q.
Proof. unfold biased. apply flip_threshold. Qed.
(** reals *)
Theorem C206_real (mn mx : Q) (r : N) : (r < 4294967296)%N -> (mn < mx)%Q -> (mn <= real_between mn mx r)%Q /\ (real_between mn mx r < mx)%Q.
Proof. intros R L. exact (uniform2_range mn mx r R L). Qed.
(** a vector: as many atoms as asked for, each in the interval, one draw for each, in order *)
Theorem C206_vector (asserts : bool) (mn mx : Z) (g : gen) (n : nat) (rs : list N) :
  - 2 ^ 31 <= mn -> mn < mx -> mx < 2 ^ 31 -> Forall (fun r => r < 4294967296)%N rs -> between asserts mn mx = Ok g -> (n <= length rs)%nat ->
  exists l, fill g n rs = Ok (l, skipn n rs) /\ length l = n /\ Forall (fun v => mn <= v < mx) l /\
    forall i v r, nth_error l i = Some v -> nth_error rs i = Some r -> generate g r = Ok v.
Proof.
  intros A L B F E H. rewrite Forall_forall in F. destruct (fill_total g n rs H) as (l & rs' & K).
  { intros r I. destruct (C206_in_interval asserts mn mx g r A L B (F r I) E) as (v & -> & _). eauto. }
  destruct (fill_ok _ _ _ _ _ K) as (Ll & used & Eq & Lu & N). exists l. split; [|split; [auto|split]].
  - rewrite K. do 2 f_equal. rewrite Eq, <- Lu. clear. induction used; auto.
  - apply Forall_forall. intros v I. apply In_nth_error in I as (i & I). destruct (N i v I) as (r & Ir & G).
    destruct (C206_in_interval asserts mn mx g r A L B (F r ltac:(rewrite Eq; apply in_or_app; left; eapply nth_error_In; eauto)) E) as (v' & G' & K'). rewrite G in G'. injection G' as <-. auto.
  - intros i v r I Ir. destruct (N i v I) as (r' & Ir' & G). rewrite Eq, nth_error_app1 in Ir by (apply nth_error_Some; congruence). congruence.
Qed.
Example C206_vector_ex : fill (G (-3) 7) 2 [0; 4294967295; 5]%N = Ok ([-3; 3], [5%N]).
Proof. reflexivity. Qed.

(** ** C207: what is documented and does not hold *)

(** "in [0, max) if only one value is given": with a negative maximum the numbers are in (max, 0] *)
Theorem C207_negative_maximum_refuted (mx : Z) (r : N) : - 2 ^ 31 <= mx < 0 -> (r < 4294967296)%N ->
  exists g v, upto mx = Ok g /\ generate g r = Ok v /\ mx < v <= 0.
Proof.
  intros H R. exists (G 0 mx), (- Z.of_N (random (Z.to_N (- mx)) r)). pose proof (random_z (- mx) r ltac:(lia) ltac:(lia) R). split; [reflexivity|].
  unfold generate, part_of. cbn [minim range]. destruct (Z.ltb_spec mx 0); [|lia]. rewrite is_int_true by lia. split; [reflexivity|lia].
Qed.
(** "in [min, max)": equal bounds are accepted, and the maximum is what is made *)
Theorem C207_equal_bounds_refuted (m : Z) (r : N) : - 2 ^ 31 <= m < 2 ^ 31 -> exists g, between false m m = Ok g /\ generate g r = Ok m.
Proof.
  intros H. exists (G m (m - m)). unfold between. rewrite Z.sub_diag, Z.ltb_irrefl. split; [reflexivity|]. unfold generate, part_of. cbn [minim range Z.ltb Z.compare Z.to_N].
  rewrite random_0, Z.add_0_r, is_int_true by lia. reflexivity.
Qed.
(** a generator of float numbers in [0, 1) makes 1 for the last 128 numbers of the generator, and only for them *)
Theorem C207_float_one_refuted (r : N) : (r < 4294967296)%N -> (float_unit r == 1 <-> (4294967168 <= r)%N)%Q.
Proof. apply float_top. Qed.
(** an interval longer than half of the ints: the constructor overflows before it compares *)
Theorem C207_wide_interval_refuted (asserts : bool) (mn mx : Z) : mx - mn >= 2 ^ 31 -> between asserts mn mx = UB /\ random_between mn mx = UB.
Proof.
  intros H. assert (I : is_int (mx - mn) = false) by (apply not_true_iff_false; rewrite int_iff; lia). unfold between, random_between. rewrite I. auto.
Qed.
Example C207_wide_interval_ex : between true (-2000000000) 2000000000 = UB.
Proof. reflexivity. Qed.
(** the generator for std::shuffle says that it makes numbers from min() to max(); it never makes max() *)
Theorem C207_uniform_bits_refuted (m : Z) (r : N) : 0 < m < 2 ^ 32 -> (r < 4294967296)%N -> uf_draw m r <> uf_max m.
Proof. intros H R. destruct (C206_random_below m r) as (_ & K & _); try lia. Qed.
Print Assumptions C206_in_interval.
Print Assumptions C206_accepted.
Print Assumptions C206_onto.
Print Assumptions C206_fair.
Print Assumptions C206_unsigned.
Print Assumptions C206_random.
Print Assumptions C206_random_below.
Print Assumptions C206_coin.
Print Assumptions C206_biased.
Print Assumptions C206_real.
Print Assumptions C206_vector.
Print Assumptions C207_negative_maximum_refuted.
Print Assumptions C207_equal_bounds_refuted.
Print Assumptions C207_float_one_refuted.
Print Assumptions C207_wide_interval_refuted.
Print Assumptions C207_uniform_bits_refuted.
Print Assumptions C206_accepted_others.
Print Assumptions C206_one_bound.
Print Assumptions C206_real_one_bound.
