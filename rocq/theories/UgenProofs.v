(** Lemmas for the generators of random atoms. *)
From Coq Require Import NArith ZArith QArith Bool Lia Lqa.
From Verif Require Import Lib Outcome RngModel RngProofs UgenModel.
From Coq Require Import List.
Import ListNotations.
Close Scope Q_scope.
Open Scope Z_scope.

Lemma int_iff z : is_int z = true <-> - 2 ^ 31 <= z <= 2 ^ 31 - 1.
Proof. unfold is_int, int_min, int_max. rewrite andb_true_iff, !Z.leb_le. lia. Qed.
Lemma is_int_true z : - 2 ^ 31 <= z <= 2 ^ 31 - 1 -> is_int z = true.
Proof. apply int_iff. Qed.
Lemma random_z m r : 0 < m -> m <= 2 ^ 32 -> (r < 4294967296)%N -> 0 <= Z.of_N (random (Z.to_N m) r) < m.
Proof. intros A B R. pose proof (random_range (Z.to_N m) r ltac:(lia) ltac:(lia) R). lia. Qed.
Lemma random_0 r : random 0 r = 0%N.
Proof. unfold random. rewrite N.mul_0_r. reflexivity. Qed.
Lemma between_ok asserts mn mx g : between asserts mn mx = Ok g -> g = G mn (mx - mn) /\ mn <= mx /\ is_int (mx - mn) = true.
Proof.
  unfold between. destruct (is_int (mx - mn)); cbn [negb]; [|discriminate]. destruct (asserts && negb (mn <? mx)); [discriminate|].
  destruct (Z.ltb_spec mx mn); [discriminate|]. intros E. injection E as <-. auto.
Qed.
Lemma generate_eq mn mx r : mn < mx -> is_int mn = true -> is_int mx = true -> is_int (mx - mn) = true -> (r < 4294967296)%N ->
  generate (G mn (mx - mn)) r = Ok (mn + Z.of_N (random (Z.to_N (mx - mn)) r)) /\ mn <= mn + Z.of_N (random (Z.to_N (mx - mn)) r) < mx.
Proof.
  intros L A B C R. apply int_iff in A, B, C. pose proof (random_z (mx - mn) r ltac:(lia) ltac:(lia) R) as K.
  unfold generate, part_of. cbn [minim range]. destruct (Z.ltb_spec (mx - mn) 0); [lia|]. rewrite is_int_true by lia. split; [reflexivity|lia].
Qed.
Lemma small_exact m r : (m <= 2097152)%N -> (r < 4294967296)%N -> random m r = (r * m / 4294967296)%N.
Proof. intros M R. unfold random, round53. destruct (N.ltb_spec (r * m) 9007199254740992); [reflexivity|nia]. Qed.
Definition up (x m : Z) : Z := (x + m - 1) / m.
Lemma up_spec x m : 0 < m -> (up x m - 1) * m < x <= up x m * m.
Proof. intros H. unfold up. pose proof (Z.div_mod (x + m - 1) m ltac:(lia)). pose proof (Z.mod_pos_bound (x + m - 1) m H). nia. Qed.
Lemma up_le x m k : 0 < m -> (up x m <= k <-> x <= k * m).
Proof. intros H. pose proof (up_spec x m H). split; nia. Qed.
Lemma fair m v r : 0 < m -> m <= 2 ^ 21 -> 0 <= v < m -> (r < 4294967296)%N ->
  (Z.of_N (random (Z.to_N m) r) = v <-> up (v * 2 ^ 32) m <= Z.of_N r < up ((v + 1) * 2 ^ 32) m).
Proof.
  intros M B V R. rewrite small_exact by lia. rewrite N2Z.inj_div, N2Z.inj_mul, Z2N.id by lia. change (Z.of_N 4294967296) with 4294967296. change (2 ^ 32) with 4294967296.
  assert (K : forall a b, ~ b <= a <-> a < b) by lia.
  pose proof (up_le (v * 4294967296) m (Z.of_N r) M) as U1. pose proof (up_le ((v + 1) * 4294967296) m (Z.of_N r) M) as U2.
  pose proof (Z.div_mod (Z.of_N r * m) 4294967296 ltac:(lia)) as D. pose proof (Z.mod_pos_bound (Z.of_N r * m) 4294967296 ltac:(lia)) as P.
  set (q := Z.of_N r * m / 4294967296) in *. split.
  - intros ->. split; [apply U1; lia|]. apply K. rewrite U2. lia.
  - intros [L1 L2]. apply U1 in L1. apply K in L2. rewrite U2 in L2. lia.
Qed.
Lemma fair_size m v : 0 < m -> 0 <= v < m ->
  let a := up (v * 2 ^ 32) m in let b := up ((v + 1) * 2 ^ 32) m in 0 <= a /\ b <= 2 ^ 32 /\ 2 ^ 32 / m <= b - a <= 2 ^ 32 / m + 1.
Proof.
  intros M V. cbv zeta. change (2 ^ 32) with 4294967296. pose proof (up_spec (v * 4294967296) m M) as A. pose proof (up_spec ((v + 1) * 4294967296) m M) as B.
  pose proof (Z.div_mod 4294967296 m ltac:(lia)) as D. pose proof (Z.mod_pos_bound 4294967296 m M) as P.
  set (q := 4294967296 / m) in *. set (a := up (v * 4294967296) m) in *. set (b := up ((v + 1) * 4294967296) m) in *.
  split; [nia|]. split; [nia|]. split; nia.
Qed.

(** ** floats *)
Lemma log2_top r : (4294967168 <= r < 4294967296)%N -> N.log2 r = 31%N.
Proof. intros H. apply N.log2_unique; lia. Qed.
Lemma round24_top r : (r < 4294967296)%N -> (round24 r = 4294967296 <-> 4294967168 <= r)%N.
Proof.
  intros R. unfold round24. change (2 ^ 24)%N with 16777216%N. destruct (N.ltb_spec r 16777216) as [L|L]; [split; lia|].
  destruct (N.eq_dec (N.log2 r) 31) as [E|E].
  - rewrite E. change (31 - 23)%N with 8%N. cbv zeta. change (2 ^ 8)%N with 256%N. change (2 ^ (8 - 1))%N with 128%N.
    pose proof (N.div_mod r 256 ltac:(lia)) as D. pose proof (N.mod_lt r 256 ltac:(lia)) as P. set (q := (r / 256)%N) in *. set (rem := (r mod 256)%N) in *.
    destruct (N.ltb_spec rem 128); [lia|]. destruct (N.ltb_spec 128 rem); [lia|]. destruct (N.even q) eqn:Ev; [|lia].
    apply N.even_spec in Ev as (h & Eh). lia.
  - assert (Lb : (N.log2 r < 31)%N). { pose proof (N.log2_lt_pow2 r 32 ltac:(lia)) as [K _]. specialize (K ltac:(change (2 ^ 32)%N with 4294967296%N; lia)). lia. }
    assert (Rb : (r < 2147483648)%N). { pose proof (N.log2_spec r ltac:(lia)) as [_ K]. eapply N.lt_le_trans; [exact K|]. change 2147483648%N with (2 ^ 31)%N. apply N.pow_le_mono_r; lia. }
    assert (Lo : (24 <= N.log2 r)%N) by (change 24%N with (N.log2 16777216); apply N.log2_le_mono; lia).
    set (e := (N.log2 r - 23)%N). assert (He : (1 <= e <= 7)%N) by (unfold e; lia). cbv zeta.
    assert (Pe : (2 ^ e <= 128)%N) by (change 128%N with (2 ^ 7)%N; apply N.pow_le_mono_r; lia).
    assert (Pp : (0 < 2 ^ e)%N) by (apply N.neq_0_lt_0, N.pow_nonzero; lia).
    pose proof (N.div_mod r (2 ^ e) ltac:(lia)) as D. set (q := (r / 2 ^ e)%N) in *. set (p := (2 ^ e)%N) in *.
    assert (Q : (q * p <= r)%N) by (rewrite D at 1; pose proof (N.le_0_l (r mod p)); nia).
    assert (T : ((q + 1) * p < 4294967296)%N) by nia.
    split; [|lia]. intros K. exfalso. destruct (r mod p <? _)%N; [nia|]. destruct (_ <? r mod p)%N; [nia|]. destruct (N.even q); nia.
Qed.
Lemma float_top r : (r < 4294967296)%N -> (float_unit r == 1 <-> 4294967168 <= r)%N%Q.
Proof.
  intros R. rewrite <- (round24_top r R). unfold float_unit. change (inject_Z (2 ^ 32)) with (4294967296 # 1)%Q. unfold Qeq, Qdiv, Qmult, Qinv, inject_Z. cbn. lia.
Qed.
Lemma fill_ok g n : forall rs l rs', fill g n rs = Ok (l, rs') -> length l = n /\ exists used, rs = used ++ rs' /\ length used = n /\ forall i x, nth_error l i = Some x -> exists r, nth_error used i = Some r /\ generate g r = Ok x.
Proof.
  induction n as [|n IH]; intros rs l rs' H; cbn [fill] in H.
  - injection H as <- <-. split; auto. exists []. split; auto. split; auto. intros [|i] x K; discriminate.
  - destruct rs as [|r rs]; [discriminate|]. apply rbind_ok in H as (x & E & H). apply rbind_ok in H as ((l1 & rs1) & E1 & H). injection H as <- <-.
    destruct (IH _ _ _ E1) as (L & used & -> & Lu & K). split; [cbn; congruence|]. exists (r :: used). split; auto. split; [cbn; congruence|].
    intros [|i] y Hy; cbn in *; [injection Hy as <-; eauto|auto].
Qed.
Lemma fill_total g n : forall rs, (n <= length rs)%nat -> (forall r, In r rs -> exists x, generate g r = Ok x) -> exists l rs', fill g n rs = Ok (l, rs').
Proof.
  induction n as [|n IH]; intros rs H K; cbn [fill]; eauto. destruct rs as [|r rs]; cbn [length] in H; [lia|].
  destruct (K r (or_introl eq_refl)) as (x & ->). cbn [rbind]. destruct (IH rs ltac:(lia) ltac:(intros; apply K; right; auto)) as (l & rs' & ->). cbn. eauto.
Qed.
