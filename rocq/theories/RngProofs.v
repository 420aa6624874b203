From Coq Require Import NArith ZArith QArith List Bool Lia Qround.
From Verif Require Import Lib RngSpec RngModel.
Import ListNotations.
Open Scope N_scope.

Lemma loBit_odd s : (if loBit s =? 0 then 0 else cK) = (if N.odd s then 2567483615 else 0).
Proof.
  unfold loBit. change 1 with (N.ones 1). rewrite N.land_ones. change (2^1) with 2.
  rewrite <- N.bit0_mod, N.bit0_odd. destruct (N.odd s); reflexivity.
Qed.

Lemma twist_spec m s0 s1 :
  twist m s0 s1 = N.lxor (N.lxor m (N.shiftr (join s0 s1) 1)) (if N.odd s1 then 2567483615 else 0).
Proof. unfold twist. rewrite loBit_odd. reflexivity. Qed.

Lemma land_u32 a b : b < 4294967296 -> N.land (u32 a) b = N.land a b.
Proof.
  intros Hb. unfold u32. change 4294967296 with (2^32). rewrite <- N.land_ones.
  rewrite <- N.land_assoc. f_equal. rewrite N.land_comm, N.land_ones.
  apply N.mod_small. exact Hb.
Qed.

Lemma temper_spec y : temper y = mt_temper y.
Proof. unfold temper, mt_temper. rewrite !land_u32 by reflexivity. reflexivity. Qed.

(** *** initialisation *)
Lemma init_words_spec j : forall i x st,
  (i + j <= length st)%nat ->
  exists st', init_words j i x st = Some st' /\ length st' = length st /\
    (forall k, (k < i)%nat -> nth_error st' k = nth_error st k) /\
    (forall w : nat -> N, (w O = x) -> (forall k, (k < j)%nat -> w (S k) = u32 (w k * 69069)) ->
       forall k, (k < j)%nat -> nth_error st' (i + k)%nat = Some (w (S k))).
Proof.
  induction j as [|j IH]; intros i x st Hl.
  - exists st. repeat split; auto. intros; lia.
  - cbn [init_words]. rewrite upd_set by lia. cbn [obind].
    destruct (IH (S i) (u32 (x * 69069)) (set st i (u32 (x * 69069)))) as (st' & E & Hlen & Hlow & Hw).
    { rewrite set_length. lia. }
    exists st'. split; auto. split; [rewrite Hlen; apply set_length|]. split.
    + intros k Hk. rewrite Hlow by lia. apply nth_error_set_neq. lia.
    + intros w Hw0 Hws k Hk. destruct k as [|k].
      * rewrite Nat.add_0_r, Hlow by lia. rewrite nth_error_set_eq by lia.
        rewrite Hws by lia. rewrite Hw0. auto.
      * replace (i + S k)%nat with (S i + k)%nat by lia.
        apply (Hw (fun n => w (S n))); [rewrite Hws by lia; rewrite Hw0; auto| |lia].
        intros; apply Hws; lia.
Qed.

(** the state words are x(b) .. x(b+623) *)
Definition holds (x : nat -> N) (b : nat) (st : list N) : Prop :=
  length st = 625%nat /\ forall i, (i < 624)%nat -> nth_error st i = Some (x (b + i)%nat).

Lemma initialize_spec seed g x : length (gstate g) = 625%nat -> mt_seeded seed x ->
  exists g', initialize seed g = Some g' /\ gleft g' = 0%Z /\ holds x 0 (gstate g').
Proof.
  intros Hl [H0 Hs]. unfold initialize. rewrite upd_set by lia. cbn [obind].
  destruct (init_words_spec (cN - 1) 1 (N.lor seed 1) (set (gstate g) 0 (N.lor seed 1)))
    as (st & E & Hlen & Hlow & Hw).
  { rewrite set_length. unfold cN. lia. }
  rewrite E. cbn [obind]. eexists; split; [reflexivity|]. split; auto.
  split; cbn [gstate]; [rewrite Hlen, set_length; auto|].
  intros i Hi. destruct i as [|i].
  - rewrite Hlow by lia. rewrite nth_error_set_eq by lia. rewrite Nat.add_0_l, H0; auto.
  - replace (S i) with (1 + i)%nat by lia. rewrite (Hw x); auto.
    + intros k Hk. unfold cN in Hk. rewrite Hs by lia. unfold u32, w32. f_equal. lia.
    + unfold cN; lia.
Qed.

(** *** block regeneration *)
Definition half_done (x : nat -> N) (b k : nat) (st : list N) : Prop :=
  length st = 625%nat /\
  (forall i, (i < k)%nat -> nth_error st i = Some (x (b + 624 + i)%nat)) /\
  (forall i, (k <= i < 624)%nat -> nth_error st i = Some (x (b + i)%nat)).

Lemma half_done_step x b k st :
  mt_recurrence x -> (k < 624)%nat -> half_done x b k st ->
  half_done x b (S k) (set st k (twist (x (b + k + 397)%nat) (x (b + k)%nat) (x (b + k + 1)%nat))).
Proof.
  intros Hx Hk (Hl & H1 & H2). split; [rewrite set_length; auto|]. split.
  - intros i Hi. destruct (Nat.eq_dec i k) as [->|].
    + rewrite nth_error_set_eq by lia. f_equal. rewrite twist_spec.
      replace (b + 624 + k)%nat with ((b + k) + 624)%nat by lia. rewrite Hx. reflexivity.
    + rewrite nth_error_set_neq by lia. apply H1; lia.
  - intros i Hi. rewrite nth_error_set_neq by lia. apply H2; lia.
Qed.

(** first loop: k runs below N-M, the word at M+k is still old *)
Lemma loop1_spec x b j : mt_recurrence x -> forall k st,
  (k + j <= 227)%nat -> half_done x b k st ->
  exists st', twist_loop j k (k + 2) (397 + k) (x (b + k)%nat) (x (b + k + 1)%nat) st =
    Some (k + j, k + j + 2, 397 + (k + j), x (b + (k + j))%nat, x (b + (k + j) + 1)%nat, st')%nat /\
    half_done x b (k + j) st'.
Proof.
  intros Hx. induction j as [|j IH]; intros k st Hk HD.
  - exists st. rewrite Nat.add_0_r. split; auto.
  - pose proof HD as (Hl & H1 & H2). cbn [twist_loop].
    rewrite (H2 (397 + k)%nat) by lia. cbn [obind]. rewrite upd_set by lia. cbn [obind].
    replace (b + (397 + k))%nat with (b + k + 397)%nat by lia.
    pose proof (half_done_step x b k st Hx ltac:(lia) HD) as HD'.
    pose proof HD' as (Hl' & H1' & H2').
    set (st1 := set st k _) in *. rewrite (H2' (k + 2)%nat) by lia. cbn [obind].
    clearbody st1.
    destruct (IH (S k) st1 ltac:(lia) HD') as (st' & E & HE).
    exists st'. split; [|replace (k + S j)%nat with (S k + j)%nat by lia; auto].
    replace (S (k + 2)) with (S k + 2)%nat by lia. replace (S (397 + k)) with (397 + S k)%nat by lia.
    replace (b + k + 1)%nat with (b + S k)%nat by lia.
    replace (b + (k + 2))%nat with (b + S k + 1)%nat by lia. rewrite E.
    replace (k + S j)%nat with (S k + j)%nat by lia. reflexivity.
Qed.

(** second loop: the word at k-(N-M) is already new; the last iteration reads the
    uninitialised word state[N], whose value is not used *)
Lemma loop2_spec x b j : mt_recurrence x -> forall k st s1,
  (227 <= k)%nat -> (k + j = 623)%nat -> half_done x b k st ->
  (j <> 0%nat -> s1 = x (b + k + 1)%nat) ->
  exists st' s1', twist_loop j k (k + 2) (k - 227) (x (b + k)%nat) s1 st =
    Some (623, 625, 396, x (b + 623)%nat, s1', st')%nat /\
    half_done x b 623 st'.
Proof.
  intros Hx. induction j as [|j IH]; intros k st s1 Hk Hj HD Hs1.
  - exists st, s1. replace k with 623%nat in * by lia. split; auto.
  - pose proof HD as (Hl & H1 & H2). cbn [twist_loop].
    rewrite (H1 (k - 227)%nat) by lia. cbn [obind]. rewrite upd_set by lia. cbn [obind].
    rewrite Hs1 by lia.
    replace (b + 624 + (k - 227))%nat with (b + k + 397)%nat by lia.
    pose proof (half_done_step x b k st Hx ltac:(lia) HD) as HD'.
    pose proof HD' as (Hl' & H1' & H2').
    set (st1 := set st k _) in *. clearbody st1.
    destruct (nth_error_in_some st1 (k + 2)) as [s2 Hs2]; [lia|].
    rewrite Hs2. cbn [obind].
    destruct (IH (S k) st1 s2 ltac:(lia) ltac:(lia) HD') as (st' & s1' & E & HE).
    { intros Hj0. rewrite H2' in Hs2 by lia. inversion Hs2. f_equal; lia. }
    exists st', s1'. split; auto.
    replace (S (k + 2)) with (S k + 2)%nat by lia. replace (S (k - 227)) with (S k - 227)%nat by lia.
    replace (b + k + 1)%nat with (b + S k)%nat by lia. auto.
Qed.

Lemma restart_spec x b g : mt_recurrence x -> holds x b (gstate g) ->
  exists g', restart g = Some (mt_temper (x (b + 624)%nat), g') /\
    holds x (b + 624) (gstate g') /\ gnext g' = 1%nat /\ gleft g' = 623%Z /\
    gcached g' = gcached g /\ gcacheval g' = gcacheval g.
Proof.
  intros Hx [Hl Hw]. unfold restart.
  rewrite (Hw 0%nat) by lia. cbn [obind]. rewrite (Hw 1%nat) by lia. cbn [obind].
  assert (HD0 : half_done x b 0 (gstate g)).
  { split; [auto|split; [intros; lia|intros; apply Hw; lia]]. }
  destruct (loop1_spec x b 227 Hx 0 (gstate g) ltac:(lia) HD0) as (st1 & E1 & HD1).
  change (twist_loop (cN - cM + 1 - 1) 0 2 cM) with (twist_loop 227 0 (0 + 2) (397 + 0)).
  replace (x (b + 1)%nat) with (x (b + 0 + 1)%nat) by (f_equal; lia).
  rewrite E1. cbn [obind].
  destruct (loop2_spec x b 396 Hx (0 + 227) st1 (x (b + (0 + 227) + 1)%nat) ltac:(lia) ltac:(lia) HD1
     ltac:(auto)) as (st2 & s1' & E2 & HD2).
  change (twist_loop (cM - 1) (0 + 227) (0 + 227 + 2) 0)
    with (twist_loop 396 (0 + 227) (0 + 227 + 2) (0 + 227 - 227)).
  rewrite E2. cbn [obind].
  pose proof HD2 as (Hl2 & H12 & H22).
  rewrite (H12 0%nat) by lia. cbn [obind]. rewrite (H12 396%nat) by lia. cbn [obind].
  rewrite upd_set by lia. cbn [obind].
  pose proof (half_done_step x b 623 st2 Hx ltac:(lia) HD2) as HD3.
  eexists; split.
  { f_equal. f_equal. rewrite temper_spec. f_equal. f_equal. lia. }
  cbn [gstate gnext gleft gcached gcacheval]. repeat split; auto.
  - rewrite set_length; auto.
  - intros i Hi. destruct HD3 as (_ & H13 & _).
    rewrite <- H13 by lia. f_equal. f_equal. f_equal; f_equal; lia.
Qed.

(** *** the generator after [n] draws *)
Definition good (x : nat -> N) (n : nat) (g : gen) : Prop :=
  exists b p, (p <= 624)%nat /\ (n + 624 = b + p)%nat /\ holds x b (gstate g) /\
    gleft g = (624 - Z.of_nat p)%Z /\ ((p < 624)%nat -> gnext g = p).

Lemma rand_spec x n g : mt_recurrence x -> good x n g ->
  exists g', rand g = Some (mt_temper (x (n + 624)%nat), g') /\ good x (S n) g'.
Proof.
  intros Hx (b & p & Hp & Hn & Hh & Hleft & Hnext). unfold rand.
  destruct (Z.ltb_spec (gleft g - 1) 0) as [Hlt|Hge].
  - assert (p = 624%nat) by lia. subst p.
    destruct (restart_spec x b (Gen (gstate g) (gnext g) (gleft g - 1) (gcached g) (gcacheval g)) Hx Hh)
      as (g' & E & Hh' & Hn' & Hl' & _).
    exists g'. rewrite E. split; [rewrite Hn; reflexivity|].
    exists (b + 624)%nat, 1%nat. repeat split; auto; try lia; apply Hh'.
  - assert (p < 624)%nat by lia. rewrite Hnext by auto.
    destruct Hh as [Hl Hw]. rewrite Hw by auto. cbn [obind].
    eexists; split; [rewrite temper_spec, Hn; reflexivity|].
    exists b, (S p). cbn [gstate gnext gleft]. repeat split; auto; lia.
Qed.

Lemma rands_spec x m : mt_recurrence x -> forall n g, good x n g ->
  exists g', rands m g = Some (map (fun i => mt_temper (x (i + 624)%nat)) (seq n m), g') /\
    good x (n + m) g'.
Proof.
  intros Hx. induction m as [|m IH]; intros n g Hg.
  - exists g. rewrite Nat.add_0_r. auto.
  - cbn [rands]. destruct (rand_spec x n g Hx Hg) as (g1 & -> & Hg1). cbn [obind].
    destruct (IH (S n) g1 Hg1) as (g2 & -> & Hg2). cbn [obind].
    exists g2. split; auto. replace (n + S m)%nat with (S n + m)%nat by lia. auto.
Qed.

Lemma initialize_good seed g x : length (gstate g) = 625%nat -> mt_seeded seed x ->
  exists g', initialize seed g = Some g' /\ good x 0 g'.
Proof.
  intros Hl Hs. destruct (initialize_spec seed g x Hl Hs) as (g' & E & Hleft & Hh).
  exists g'; split; auto. exists 0%nat, 624%nat. repeat split; auto; try lia; apply Hh.
Qed.

(** *** a sequence satisfying the specification exists *)
Fixpoint gen_words (seed : N) (n : nat) : list N :=
  match n with
  | O => []
  | S n' =>
      let l := gen_words seed n' in
      l ++ [ if Nat.eqb n' 0 then N.lor seed 1
             else if Nat.ltb n' 624 then (69069 * nth (n' - 1) l 0) mod w32
             else N.lxor (N.lxor (nth (n' - 227) l 0) (N.shiftr (join (nth (n' - 624) l 0) (nth (n' - 623) l 0)) 1))
                    (if N.odd (nth (n' - 623) l 0) then 2567483615 else 0) ]
  end.
Definition mt_seq (seed : N) (n : nat) : N := nth n (gen_words seed (S n)) 0.

Lemma gen_words_length seed n : length (gen_words seed n) = n.
Proof. induction n; auto. cbn [gen_words]. rewrite app_length, IHn. simpl. lia. Qed.

Lemma gen_words_nth seed n k : (k < n)%nat -> nth k (gen_words seed n) 0 = mt_seq seed k.
Proof.
  unfold mt_seq. induction n as [|n IH]; intros Hk; [lia|].
  destruct (Nat.eq_dec k n) as [->|]; auto.
  transitivity (nth k (gen_words seed n) 0); [|apply IH; lia].
  cbn [gen_words]. apply app_nth1. rewrite gen_words_length. lia.
Qed.

Lemma mt_seq_unfold seed n : mt_seq seed n =
  if Nat.eqb n 0 then N.lor seed 1
  else if Nat.ltb n 624 then (69069 * mt_seq seed (n - 1)) mod w32
  else N.lxor (N.lxor (mt_seq seed (n - 227)) (N.shiftr (join (mt_seq seed (n - 624)) (mt_seq seed (n - 623))) 1))
                    (if N.odd (mt_seq seed (n - 623)) then 2567483615 else 0).
Proof.
  unfold mt_seq at 1. cbn [gen_words]. rewrite app_nth2; rewrite gen_words_length; [|lia].
  rewrite Nat.sub_diag. cbn [nth].
  destruct (Nat.eqb_spec n 0); auto.
  destruct (Nat.ltb_spec n 624).
  - rewrite gen_words_nth by lia. auto.
  - rewrite !gen_words_nth by lia. auto.
Qed.

Lemma mt_seq_seeded seed : mt_seeded seed (mt_seq seed).
Proof.
  split.
  - rewrite mt_seq_unfold. reflexivity.
  - intros k Hk. rewrite mt_seq_unfold.
    destruct (Nat.eqb_spec (S k) 0); [lia|]. destruct (Nat.ltb_spec (S k) 624); [|lia].
    replace (S k - 1)%nat with k by lia. auto.
Qed.

Lemma mt_seq_rec seed : mt_recurrence (mt_seq seed).
Proof.
  intros k. rewrite mt_seq_unfold.
  destruct (Nat.eqb_spec (k + 624) 0); [lia|]. destruct (Nat.ltb_spec (k + 624) 624); [lia|].
  replace (k + 624 - 227)%nat with (k + 397)%nat by lia.
  replace (k + 624 - 624)%nat with k by lia.
  replace (k + 624 - 623)%nat with (k + 1)%nat by lia. auto.
Qed.

(** *** save / restore *)
Lemma read_words_spec ws : forall i rest st,
  (i + length ws <= length st)%nat ->
  exists st', read_words (length ws) i (map Z.of_N ws ++ rest) st = Some (rest, st') /\
    length st' = length st /\
    (forall k, (k < i)%nat -> nth_error st' k = nth_error st k) /\
    (forall k, (k < length ws)%nat -> nth_error st' (i + k)%nat = nth_error ws k).
Proof.
  induction ws as [|w ws IH]; intros i rest st Hl; cbn [length map app read_words].
  - exists st. repeat split; auto. intros; simpl in *; lia.
  - simpl in Hl. rewrite upd_set by lia. cbn [obind]. rewrite N2Z.id.
    destruct (IH (S i) rest (set st i w)) as (st' & E & Hlen & Hlow & Hw).
    { rewrite set_length; lia. }
    exists st'. split; auto. split; [rewrite Hlen; apply set_length|]. split.
    + intros k Hk. rewrite Hlow by lia. apply nth_error_set_neq; lia.
    + intros k Hk. destruct k as [|k].
      * rewrite Nat.add_0_r, Hlow by lia. rewrite nth_error_set_eq by lia. auto.
      * replace (i + S k)%nat with (S i + k)%nat by lia. apply Hw. lia.
Qed.

Lemma save_restore_good x n g d lossy : good x n g -> length (gstate d) = 625%nat ->
  exists d', read_gen (print_gen lossy g) d = Some d' /\ good x n d' /\ gcached d' = gcached g.
Proof.
  intros (b & p & Hp & Hn & Hh & Hleft & Hnext) Hd. unfold read_gen, print_gen.
  destruct Hh as [Hl Hw].
  set (ws := firstn cN (gstate g)).
  assert (Hws : length ws = cN) by (unfold ws, cN; rewrite firstn_length; lia).
  destruct (read_words_spec ws 0
     [Z.of_nat (gnext g); gleft g; (if gcached g then 1 else 0)%Z; lossy (gcacheval g)] (gstate d))
    as (st' & E & Hlen & _ & Hst).
  { rewrite Hws. unfold cN. lia. }
  rewrite Hws in E. rewrite E. cbn [obind].
  eexists; split; [reflexivity|]. split; [|destruct (gcached g); reflexivity].
  exists b, p. cbn [gstate gleft gnext]. repeat split; auto; try lia.
  - intros i Hi. rewrite <- (Nat.add_0_l i). rewrite Hst by (rewrite Hws; unfold cN; lia).
    unfold ws. rewrite firstn_nth_error by (unfold cN; lia). rewrite Hw by auto. auto.
Qed.

(** *** bounded draws *)
Lemma uniform_range r : r < 4294967296 -> (0 <= uniform 1 r)%Q /\ (uniform 1 r < 1)%Q.
Proof.
  intros Hr. unfold uniform, Qle, Qlt, Qdiv, Qmult, Qinv, inject_Z. cbn [Qnum Qden].
  change (1 * 1 * 4294967296)%positive with 4294967296%positive.
  rewrite ?Z.mul_1_r, ?Z.mul_1_l. lia.
Qed.

Lemma uniform_eq m r : (uniform m r == m * uniform 1 r)%Q.
Proof. unfold uniform. unfold Qdiv. ring. Qed.

Lemma uniform2_range mn mx r : r < 4294967296 -> (mn < mx)%Q ->
  (mn <= uniform2 mn mx r)%Q /\ (uniform2 mn mx r < mx)%Q.
Proof.
  intros Hr Hm. destruct (uniform_range r Hr) as [H0 H1]. unfold uniform2. rewrite uniform_eq.
  assert (Hd : (0 < mx - mn)%Q) by (apply Qlt_minus_iff in Hm; auto).
  split.
  - rewrite <- (Qplus_0_r mn) at 1. apply Qplus_le_r. apply Qmult_le_0_compat; auto.
    apply Qlt_le_weak; auto.
  - apply Qlt_le_trans with (mn + (mx - mn) * 1)%Q.
    + apply Qplus_lt_r. apply Qmult_lt_l; auto.
    + apply Qle_lteq. right. ring.
Qed.

Lemma flip_extreme bias r : r < 4294967296 ->
  ((bias <= 0)%Q -> flip bias r = false) /\ ((1 <= bias)%Q -> flip bias r = true).
Proof.
  intros Hr. destruct (uniform_range r Hr) as [H0 H1]. unfold flip. split; intros H.
  - apply negb_false_iff. apply Qle_bool_iff. apply Qle_trans with 0%Q; auto.
  - apply negb_true_iff. apply not_true_iff_false. rewrite Qle_bool_iff. intros F.
    apply (Qlt_not_le _ _ H1). apply Qle_trans with bias; auto.
Qed.

Lemma round53_bound p : round53 p * 9007199254740992 <= p * (9007199254740992 + 1).
Proof.
  unfold round53. destruct (N.ltb_spec p 9007199254740992) as [H|H]; [lia|].
  set (e := N.log2 p - 52).
  assert (Hlog : 53 <= N.log2 p).
  { change 53 with (N.log2 9007199254740992). apply N.log2_le_mono. auto. }
  destruct (N.log2_spec p) as [Hlo _]; [lia|].
  assert (He : N.log2 p = e + 52) by (unfold e; lia).
  assert (He1 : e = N.succ (e - 1)) by (unfold e; lia).
  set (h := 2 ^ (e - 1)).
  assert (H2e : 2 ^ e = 2 * h) by (rewrite He1; rewrite N.pow_succ_r'; reflexivity).
  assert (Hh : 0 < h) by (apply N.neq_0_lt_0; apply N.pow_nonzero; lia).
  assert (Hp : 4503599627370496 * (2 * h) <= p).
  { rewrite He, N.pow_add_r, H2e in Hlo. change (2 ^ 52) with 4503599627370496 in Hlo. lia. }
  rewrite H2e. pose proof (N.div_mod p (2 * h) ltac:(lia)) as Hdm.
  pose proof (N.mod_lt p (2 * h) ltac:(lia)) as Hml.
  set (q := p / (2 * h)) in *. set (rem := p mod (2 * h)) in *.
  fold h. clearbody h q rem.
  destruct (N.ltb_spec rem h); [nia|].
  assert (Hup : (q + 1) * (2 * h) <= p + h) by nia.
  assert (Hmain : (q + 1) * (2 * h) * 9007199254740992 <= p * 9007199254740993) by nia.
  destruct (N.ltb_spec h rem); [lia|]. destruct (N.even q); [nia|lia].
Qed.

Lemma random_range m r : 0 < m -> m <= 4294967296 -> r < 4294967296 -> random m r < m.
Proof.
  intros H0 Hm Hr. unfold random. pose proof (round53_bound (r * m)) as HB.
  apply N.div_lt_upper_bound; [lia|].
  set (R := round53 (r * m)) in *. clearbody R.
  assert (r * m <= 4294967295 * m) by nia. nia.
Qed.

Lemma round53_lower p : p * 9007199254740992 <= round53 p * (9007199254740992 + 2).
Proof.
  unfold round53. destruct (N.ltb_spec p 9007199254740992) as [H|H]; [lia|].
  set (e := N.log2 p - 52).
  assert (Hlog : 53 <= N.log2 p).
  { change 53 with (N.log2 9007199254740992). apply N.log2_le_mono. auto. }
  destruct (N.log2_spec p) as [Hlo _]; [lia|].
  assert (He : N.log2 p = e + 52) by (unfold e; lia).
  assert (He1 : e = N.succ (e - 1)) by (unfold e; lia).
  set (h := 2 ^ (e - 1)).
  assert (H2e : 2 ^ e = 2 * h) by (rewrite He1; rewrite N.pow_succ_r'; reflexivity).
  assert (Hh : 0 < h) by (apply N.neq_0_lt_0; apply N.pow_nonzero; lia).
  assert (Hp : 4503599627370496 * (2 * h) <= p).
  { rewrite He, N.pow_add_r, H2e in Hlo. change (2 ^ 52) with 4503599627370496 in Hlo. lia. }
  rewrite H2e. pose proof (N.div_mod p (2 * h) ltac:(lia)) as Hdm.
  pose proof (N.mod_lt p (2 * h) ltac:(lia)) as Hml.
  set (q := p / (2 * h)) in *. set (rem := p mod (2 * h)) in *.
  fold h. clearbody h q rem.
  assert (Hq : 4503599627370496 <= q).
  { destruct (N.le_gt_cases 4503599627370496 q); auto. exfalso. nia. }
  destruct (N.ltb_spec rem h); [nia|].
  destruct (N.ltb_spec h rem); [nia|]. destruct (N.even q); nia.
Qed.

Lemma binomial_range n p : forall rs k rest, binomial n p rs = Some (k, rest) -> (k <= n)%nat.
Proof.
  induction n as [|n IH]; intros rs k rest H; simpl in H.
  - inversion H; lia.
  - destruct rs as [|r rs]; [discriminate|]. destruct (binomial n p rs) as [[k' rest']|] eqn:E; simpl in H; [|discriminate].
    apply IH in E. inversion H; subst. destruct (flip p r); lia.
Qed.

Lemma binomial_count n p : forall rs k rest, binomial n p rs = Some (k, rest) ->
  (n <= length rs)%nat /\ k = length (filter (fun r => flip p r) (firstn n rs)) /\ rest = skipn n rs.
Proof.
  induction n as [|n IH]; intros rs k rest H; cbn [binomial] in H.
  - inversion H; subst. repeat split; simpl; auto; lia.
  - destruct rs as [|r rs]; [discriminate|]. destruct (binomial n p rs) as [[k' rest']|] eqn:E; simpl in H; [|discriminate].
    apply IH in E as (L & -> & ->). inversion H; subst. cbn [firstn skipn filter length]. split; [lia|]. split; auto.
    destruct (flip p r); auto.
Qed.

(** *** statements used by RngProps *)
Lemma construct_stream :
  forall (seed : N) (junk : list N) (x : nat -> N) (n : nat),
  length junk = 625%nat ->
  mt_seeded ((2 * seed) mod w32) x -> mt_recurrence x ->
  exists g g', construct junk seed = Some g /\
    rands n g = Some (map (fun i => mt_temper (x (i + 624)%nat)) (seq 0 n), g').
Proof.
  intros seed junk x n Hl Hs Hx.
  destruct (initialize_good ((2 * seed) mod w32) (Gen junk 0 (-1) false 0) x Hl Hs) as (g & E & Hg).
  destruct (rands_spec x n Hx 0 g Hg) as (g' & E' & _).
  exists g, g'. split; auto.
Qed.

Lemma reseed_stream :
  forall (seed : N) (g : gen) (x : nat -> N) (n : nat),
  length (gstate g) = 625%nat ->
  mt_seeded ((2 * seed) mod w32) x -> mt_recurrence x ->
  exists g1 g2, reseed seed g = Some g1 /\
    rands n g1 = Some (map (fun i => mt_temper (x (i + 624)%nat)) (seq 0 n), g2).
Proof.
  intros seed g x n Hl Hs Hx.
  destruct (initialize_good ((2 * seed) mod w32) g x Hl Hs) as (g1 & E & Hg).
  destruct (rands_spec x n Hx 0 g1 Hg) as (g' & E' & _).
  exists g1, g'. split; auto.
Qed.

Lemma mt_exists_unique :
  forall seed, exists x, mt_seeded seed x /\ mt_recurrence x /\
    forall x', mt_seeded seed x' -> mt_recurrence x' -> forall n, x' n = x n.
Proof.
  intros seed. exists (mt_seq seed).
  pose proof (mt_seq_seeded seed) as Hs. pose proof (mt_seq_rec seed) as Hr.
  split; auto. split; auto. intros x' [Hs0' Hs'] Hr' n.
  induction n as [n IH] using (well_founded_induction Wf_nat.lt_wf).
  destruct Hs as [Hs0 Hs].
  destruct n as [|n]; [congruence|].
  destruct (Nat.lt_ge_cases n 623).
  - rewrite Hs, Hs' by auto. rewrite IH by lia. auto.
  - replace (S n) with ((n - 623) + 624)%nat by lia. rewrite Hr, Hr'.
    rewrite !IH by lia. auto.
Qed.

Definition sound (g : gen) : Prop :=
  exists seed x n, seed < w32 /\ mt_seeded seed x /\ mt_recurrence x /\ good x n g.

Lemma good_length x n g : good x n g -> length (gstate g) = 625%nat.
Proof. intros (b & p & _ & _ & [Hl _] & _). auto. Qed.

Lemma u32_lt a : u32 a < w32.
Proof. apply N.mod_lt. discriminate. Qed.

Lemma reachable_sound lossy g : reachable lossy g -> sound g.
Proof.
  induction 1 as [junk s g Hl E|s g g' _ (seed & x & n & _ & _ & _ & Hg) E
                 |y g g' _ (seed & x & n & Hlt & Hs & Hr & Hg) E
                 |g d d' _ (seed & x & n & Hlt & Hs & Hr & Hg) _ (seed' & x' & n' & _ & _ & _ & Hd) E].
  - destruct (initialize_good (u32 (2 * s)) (Gen junk 0 (-1) false 0) _ Hl (mt_seq_seeded _)) as (g1 & E1 & Hg).
    unfold construct in E. rewrite E1 in E. inversion E; subst.
    exists (u32 (2 * s)), (mt_seq (u32 (2 * s))), 0%nat.
    repeat split; auto using u32_lt; try apply mt_seq_seeded; apply mt_seq_rec.
  - destruct (initialize_good (u32 (2 * s)) g _ (good_length _ _ _ Hg) (mt_seq_seeded _)) as (g1 & E1 & Hg1).
    unfold reseed in E. rewrite E1 in E. inversion E; subst.
    exists (u32 (2 * s)), (mt_seq (u32 (2 * s))), 0%nat.
    repeat split; auto using u32_lt; try apply mt_seq_seeded; apply mt_seq_rec.
  - destruct (rand_spec x n g Hr Hg) as (g1 & E1 & Hg1). rewrite E1 in E. inversion E; subst.
    exists seed, x, (S n). auto.
  - destruct (save_restore_good x n g d lossy Hg (good_length _ _ _ Hd)) as (d1 & E1 & Hd1 & _).
    rewrite E1 in E. inversion E; subst. exists seed, x, n. auto.
Qed.

Lemma save_restore_stream :
  forall lossy g d, reachable lossy g -> length (gstate d) = 625%nat ->
  exists d', read_gen (print_gen lossy g) d = Some d' /\
    forall n, exists ys ga gb,
      rands n g = Some (ys, ga) /\ rands n d' = Some (ys, gb) /\ length ys = n.
Proof.
  intros lossy g d Hreach Hl. apply reachable_sound in Hreach as (seed & x & n0 & Hlt & Hs & Hr & Hg).
  destruct (save_restore_good x n0 g d lossy Hg Hl) as (d' & E & Hd & _).
  exists d'. split; auto. intros n.
  destruct (rands_spec x n Hr n0 g Hg) as (ga & Ea & _).
  destruct (rands_spec x n Hr n0 d' Hd) as (gb & Eb & _).
  exists (map (fun i => mt_temper (x (i + 624)%nat)) (seq n0 n)), ga, gb.
  rewrite map_length, seq_length. auto.
Qed.

Lemma reachable_ex : forall lossy, exists g, reachable lossy g /\ gleft g = 620%Z.
Proof.
  intros lossy.
  assert (H0 : exists g0, construct (repeat 7 625) 42 = Some g0) by (vm_compute; eauto).
  destruct H0 as [g0 E0].
  assert (R0 : reachable lossy g0) by (eapply reach_construct; [|exact E0]; apply repeat_length).
  assert (Hstep : forall k g, reachable lossy g -> forall ys g', rands k g = Some (ys, g') -> reachable lossy g').
  { induction k as [|k IH]; intros g Hg ys g' E; simpl in E.
    - inversion E; subst; auto.
    - destruct (rand g) as [[y g1]|] eqn:E1; simpl in E; [|discriminate].
      destruct (rands k g1) as [[ys' g2]|] eqn:E2; simpl in E; [|discriminate].
      inversion E; subst. eapply IH; [|exact E2]. eapply reach_rand; eauto. }
  assert (H4 : option_map (fun p => gleft (snd p)) (do g <- construct (repeat 7 625) 42; rands 4 g) = Some 620%Z)
    by (vm_compute; reflexivity).
  rewrite E0 in H4. cbn [obind] in H4.
  destruct (rands 4 g0) as [[ys g4]|] eqn:E4; simpl in H4; [|discriminate].
  exists g4. split; [eapply Hstep; eauto|]. congruence.
Qed.

(** 32-bit closure *)
Lemma lt32_bits a : a < w32 <-> forall i, 32 <= i -> N.testbit a i = false.
Proof.
  split.
  - intros H i Hi. destruct (N.eq_dec a 0) as [->|Ha]; [apply N.bits_0|].
    apply N.bits_above_log2. apply N.lt_le_trans with 32; auto.
    apply N.log2_lt_pow2; [lia|exact H].
  - intros H. assert (E : a = a mod 2 ^ 32).
    { apply N.bits_inj. intros i. destruct (N.lt_ge_cases i 32).
      - rewrite N.mod_pow2_bits_low; auto.
      - rewrite N.mod_pow2_bits_high by auto. apply H; auto. }
    rewrite E. apply N.mod_lt. discriminate.
Qed.
Lemma lxor32 a b : a < w32 -> b < w32 -> N.lxor a b < w32.
Proof. rewrite !lt32_bits. intros Ha Hb i Hi. rewrite N.lxor_spec, Ha, Hb; auto. Qed.
Lemma lor32 a b : a < w32 -> b < w32 -> N.lor a b < w32.
Proof. rewrite !lt32_bits. intros Ha Hb i Hi. rewrite N.lor_spec, Ha, Hb; auto. Qed.
Lemma land32r a b : b < w32 -> N.land a b < w32.
Proof. rewrite !lt32_bits. intros Hb i Hi. rewrite N.land_spec, Hb, andb_false_r; auto. Qed.
Lemma shiftr32 a k : a < w32 -> N.shiftr a k < w32.
Proof. rewrite !lt32_bits. intros Ha i Hi. rewrite N.shiftr_spec' . apply Ha. lia. Qed.

Lemma temper32 y : y < w32 -> mt_temper y < w32.
Proof.
  intros H. unfold mt_temper. cbv zeta.
  assert (H1 : N.lxor y (N.shiftr y 11) < w32) by auto using lxor32, shiftr32.
  set (y1 := N.lxor y (N.shiftr y 11)) in *. clearbody y1.
  assert (H2 : N.lxor y1 (N.land (N.shiftl y1 7) 2636928640) < w32)
    by (apply lxor32; auto; apply land32r; reflexivity).
  set (y2 := N.lxor y1 _) in *. clearbody y2.
  assert (H3 : N.lxor y2 (N.land (N.shiftl y2 15) 4022730752) < w32)
    by (apply lxor32; auto; apply land32r; reflexivity).
  auto using lxor32, shiftr32.
Qed.

Lemma mt_words32 seed x : seed < w32 -> mt_seeded seed x -> mt_recurrence x -> forall n, x n < w32.
Proof.
  intros Hlt [H0 Hs] Hr n.
  induction n as [n IH] using (well_founded_induction Wf_nat.lt_wf).
  destruct n as [|n]; [rewrite H0; apply lor32; auto; reflexivity|].
  destruct (Nat.lt_ge_cases n 623).
  - rewrite Hs by auto. apply N.mod_lt. discriminate.
  - replace (S n) with ((n - 623) + 624)%nat by lia. rewrite Hr.
    apply lxor32; [apply lxor32; [apply IH; lia|]|].
    + apply shiftr32. unfold join. apply lor32; apply land32r; reflexivity.
    + destruct (N.odd _); reflexivity.
Qed.

Lemma rands_32bit :
  forall lossy g n, reachable lossy g ->
  exists ys g', rands n g = Some (ys, g') /\ Forall (fun y => y < 4294967296) ys.
Proof.
  intros lossy g n H. apply reachable_sound in H as (seed & x & n0 & Hlt & Hs & Hr & Hg).
  destruct (rands_spec x n Hr n0 g Hg) as (ga & Ea & _).
  eexists _, ga. split; [exact Ea|]. apply Forall_forall. intros y Hy.
  apply in_map_iff in Hy as (i & <- & _). apply temper32. eapply mt_words32; eauto.
Qed.

Lemma flip_threshold :
  forall bias r, flip bias r = true <-> (inject_Z (Z.of_N r) < bias * 4294967296)%Q.
Proof.
  intros bias r. unfold flip. rewrite negb_true_iff, <- not_true_iff_false, Qle_bool_iff.
  assert (E : (uniform 1 r == inject_Z (Z.of_N r) / 4294967296)%Q) by (unfold uniform; field; discriminate).
  rewrite E. split; intros H.
  - apply Qnot_le_lt in H. apply Qmult_lt_r with (z := 4294967296%Q) in H; [|reflexivity].
    eapply Qle_lt_trans; [|exact H]. apply Qle_lteq; right. field; discriminate.
  - intros F. apply Qlt_not_le in H. apply H.
    apply Qmult_le_r with (z := 4294967296%Q) in F; [|reflexivity].
    eapply Qle_trans; [exact F|]. apply Qle_lteq; right. field; discriminate.
Qed.

Lemma round53_ge p c : p < 18446744073709551616 -> c * 4294967296 <= p -> c * 4294967296 <= round53 p.
Proof.
  intros Hp Hc. unfold round53. destruct (N.ltb_spec p 9007199254740992) as [H|H]; auto.
  set (e := N.log2 p - 52).
  assert (Hlog : N.log2 p < 64) by (apply N.log2_lt_pow2; [lia|exact Hp]).
  assert (He : e <= 32) by (unfold e; lia).
  assert (Hq : c * 2 ^ (32 - e) <= p / 2 ^ e).
  { apply N.div_le_lower_bound; [apply N.pow_nonzero; lia|].
    rewrite (N.mul_comm (2 ^ e)), <- N.mul_assoc, <- N.pow_add_r.
    replace (32 - e + e) with 32 by lia. exact Hc. }
  assert (E : c * 4294967296 = c * 2 ^ (32 - e) * 2 ^ e).
  { rewrite <- N.mul_assoc, <- N.pow_add_r. replace (32 - e + e) with 32 by lia. reflexivity. }
  rewrite E. apply N.mul_le_mono_r.
  repeat match goal with |- context [if ?b then _ else _] => destruct b end; lia.
Qed.

Lemma random_onto :
  forall m v, m <= 2147483648 -> v < m -> exists r, r < 4294967296 /\ random m r = v.
Proof.
  intros m v Hm Hv.
  exists ((v * 4294967296 + (m - 1)) / m).
  set (r := (v * 4294967296 + (m - 1)) / m).
  pose proof (N.div_mod (v * 4294967296 + (m - 1)) m ltac:(lia)) as Hd.
  pose proof (N.mod_lt (v * 4294967296 + (m - 1)) m ltac:(lia)) as Hml.
  fold r in Hd. set (k := _ mod m) in *. clearbody k r.
  assert (Hlo : v * 4294967296 <= r * m) by nia.
  assert (Hhi : r * m <= v * 4294967296 + (m - 1)) by nia.
  assert (Hr : r < 4294967296).
  { destruct (N.lt_ge_cases r 4294967296); auto. exfalso. nia. }
  split; auto. unfold random.
  pose proof (round53_ge (r * m) v ltac:(nia) Hlo) as HL.
  pose proof (round53_bound (r * m)) as HU.
  set (R := round53 (r * m)) in *. clearbody R.
  symmetry. apply (N.div_unique _ _ _ (R - v * 4294967296)); [|lia].
  assert (R <= r * m + 2048) by nia. lia.
Qed.
