(** Royal Road, UBQP and QAP. *)
From Coq Require Import List Arith Bool ZArith Lia.
From Verif Require Import Outcome Lib NeighModel NeighSpec NeighProofs BitsModel LsModel EvalModel EvalSpec EvalProofs.
From Coq Require Import List.
Import ListNotations.
Open Scope nat_scope.

(** ** Royal Road *)
Lemma run_spec : forall n x pos, pos + n <= length x -> exists j, run_of_ones n x pos = Ok j /\ j <= n /\
  (forall t, t < j -> nth (pos + t) x false = true) /\ (j < n -> nth (pos + j) x false = false).
Proof.
  induction n as [|n IH]; intros x pos H; cbn [run_of_ones]; [exists 0; repeat split; auto; lia|].
  rewrite (gene_ok x pos false) by lia. cbn [rbind]. destruct (nth pos x false) eqn:E.
  - destruct (IH x (S pos)) as (j & Ej & Hj & Ht & Hf); [lia|]. rewrite Ej. cbn [rbind]. exists (S j). split; auto. split; [lia|]. split.
    + intros t Hlt. destruct t as [|t]; [rewrite Nat.add_0_r; auto|]. rewrite <- Nat.add_succ_comm. apply Ht. lia.
    + intros Hn. rewrite <- Nat.add_succ_comm. apply Hf. lia.
  - exists 0. repeat split; try lia. intros _. rewrite Nat.add_0_r. auto.
Qed.
Lemma block_true k x b : block_complete k x b = true <-> forall t, t < k -> nth (b * k + t) x false = true.
Proof.
  unfold block_complete. rewrite forallb_forall. split.
  - intros H t Ht. apply H. apply in_seq. lia.
  - intros H t Ht. apply in_seq in Ht. apply H. lia.
Qed.
Lemma run_block k x b : b * k + k <= length x -> exists j, run_of_ones k x (b * k) = Ok j /\ (j =? k) = block_complete k x b /\ j <= k /\
  (forall t, t < j -> nth (b * k + t) x false = true) /\ (j < k -> nth (b * k + j) x false = false).
Proof.
  intros H. destruct (run_spec k x (b * k) H) as (j & E & Hj & Ht & Hf). exists j. split; auto. split; [|auto].
  destruct (Nat.eqb_spec j k) as [->|Hjk]; symmetry.
  - apply block_true. auto.
  - destruct (block_complete k x b) eqn:C; auto. rewrite block_true in C. rewrite C in Hf by lia. specialize (Hf ltac:(lia)). discriminate.
Qed.
Lemma block_room k (x : list bool) b : k <> 0 -> b < length x / k -> b * k + k <= length x.
Proof. intros Hk Hb. assert (Hd := Nat.mul_div_le (length x) k Hk). nia. Qed.
Lemma royal_eval_ok k x : k <> 0 -> royal_eval k x = Ok (complete_blocks k x).
Proof.
  intros Hk. unfold royal_eval, complete_blocks. destruct (Nat.eqb_spec k 0); [lia|].
  rewrite (for_in_sum _ (fun b => Z.b2z (block_complete k x b))); [reflexivity|]. intros b acc Hb. apply in_seq in Hb.
  destruct (run_block k x b) as (j & E & Ej & _); [apply block_room; auto; lia|]. rewrite E. cbn [rbind]. rewrite Ej. destruct (block_complete k x b); cbn [Z.b2z]; f_equal; lia.
Qed.
(** the flipped bit belongs to a whole block *)
Theorem royal_incr_ok k s i : k <> 0 -> i / k < length (geno s) / k -> fit s = Some (complete_blocks k (geno s)) ->
  exists x', bit_move i (geno s) = Ok x' /\ royal_incr k s i = royal_eval k x'.
Proof.
  intros Hk Hb Hf. set (x := geno s) in *. set (b := i / k) in *.
  assert (Hroom : b * k + k <= length x) by (apply block_room; auto).
  assert (Hi : i = b * k + i mod k) by (subst b; rewrite (Nat.div_mod i k Hk) at 1; lia). assert (Hm : i mod k < k) by (apply Nat.mod_upper_bound; auto).
  destruct (flip_ok x i ltac:(lia)) as (x' & E & L & Hx & _). exists x'. split; auto. rewrite royal_eval_ok by auto.
  assert (Hother : forall c, c <> b -> block_complete k x' c = block_complete k x c).
  { intros c Hc. unfold block_complete. assert (Hext : forall l, (forall j, In j l -> j < k) -> forallb (fun j => nth (c * k + j) x' false) l = forallb (fun j => nth (c * k + j) x false) l).
    { induction l as [|j l IH]; intros Hl; cbn; auto. rewrite IH by (intros; apply Hl; right; auto). f_equal. rewrite Hx. destruct (Nat.eqb_spec (c * k + j) i); auto.
      assert (j < k) by (apply Hl; left; auto). exfalso. apply Hc. subst b. apply (Nat.div_unique i k c j); lia. }
    apply Hext. intros j Hj. apply in_seq in Hj. lia. }
  assert (N : NoDup (seq 0 (length x / k))) by apply seq_NoDup. assert (Hin : In b (seq 0 (length x / k))) by (apply in_seq; lia).
  assert (Hs : complete_blocks k x' = (complete_blocks k x - Z.b2z (block_complete k x b) + Z.b2z (block_complete k x' b))%Z).
  { unfold complete_blocks. rewrite L, (zsum_without b _ (fun b => Z.b2z (block_complete k x' b))), (zsum_without b _ (fun b => Z.b2z (block_complete k x b))) by auto.
    rewrite (zsum_ext (without b _) (fun c => Z.b2z (block_complete k x' c)) (fun c => Z.b2z (block_complete k x c))); [lia|].
    intros c Hc. apply without_In in Hc. rewrite Hother; auto. apply Hc. }
  unfold royal_incr. destruct (Nat.eqb_spec k 0); [lia|]. fold x. fold b.
  destruct (run_block k x b Hroom) as (j & Ej & Cj & Hj & Ht & Hfalse). rewrite Ej. cbn [rbind]. rewrite Cj. unfold fitness. rewrite Hf. cbn [rbind].
  destruct (block_complete k x b) eqn:Cb.
  - (* the block was complete *)
    assert (C' : block_complete k x' b = false).
    { destruct (block_complete k x' b) eqn:C'; auto. rewrite block_true in C', Cb. specialize (C' _ Hm). specialize (Cb _ Hm). rewrite <- Hi in C', Cb. rewrite Hx, Nat.eqb_refl, Cb in C'. discriminate. }
    rewrite Hs, C'. cbn [Z.b2z]. f_equal. lia.
  - assert (Hjk : j < k). { apply Nat.eqb_neq in Cj. lia. }
    specialize (Hfalse Hjk). rewrite (gene_ok x i false) by lia. cbn [rbind].
    destruct (negb (nth i x false) && (b * k + j =? i)) eqn:Cd.
    + apply andb_true_iff in Cd as [C1 C2]. apply negb_true_iff in C1. apply Nat.eqb_eq in C2.
      destruct (run_spec (k - S j) x (b * k + S j)) as (c & Ec & Hc & Htc & Hfc); [lia|]. rewrite Ec. cbn [rbind].
      assert (C' : block_complete k x' b = (S j + c =? k)).
      { destruct (Nat.eqb_spec (S j + c) k) as [Ek|Ek].
        - apply block_true. intros t Hlt. rewrite Hx. destruct (Nat.eqb_spec (b * k + t) i) as [Eq|Ne].
          + rewrite Eq, C1. reflexivity.
          + destruct (Nat.lt_ge_cases t j); auto. replace (b * k + t) with (b * k + S j + (t - S j)) by lia. apply Htc. lia.
        - destruct (block_complete k x' b) eqn:C'; auto. rewrite block_true in C'. specialize (C' (S j + c) ltac:(lia)). rewrite Hx in C'.
          destruct (Nat.eqb_spec (b * k + (S j + c)) i); [lia|]. specialize (Hfc ltac:(lia)). rewrite <- Nat.add_assoc in Hfc. congruence. }
      rewrite Hs, C'. cbn [Z.b2z]. destruct (S j + c =? k); cbn [Z.b2z]; f_equal; lia.
    + assert (C' : block_complete k x' b = false).
      { destruct (block_complete k x' b) eqn:C'; auto. rewrite block_true in C'. assert (C2 := C' j Hjk). rewrite Hx in C2. destruct (Nat.eqb_spec (b * k + j) i) as [Eq|Ne]; [|congruence].
        rewrite <- Eq, Hfalse in Cd. discriminate. }
      rewrite Hs, C'. cbn [Z.b2z]. f_equal. lia.
Qed.

(** ** UBQP *)
Section Ubqp.
Variables (n : nat) (q : list (list Z)).
Hypothesis SQ : square_matrix n q.
(** the lower part of the matrix only *)
Definition lower_part (i j : nat) : Z := if j <=? i then mat q i j else 0%Z.
Definition uval (x : list bool) : Z := zsum (seq 0 n) (fun i => zsum (seq 0 n) (fun j => val x i * lower_part i j * val x j)%Z).
Lemma zsum_seq_split a m (f : nat -> Z) : a <= m -> zsum (seq 0 m) f = (zsum (seq 0 a) f + zsum (seq a (m - a)) f)%Z.
Proof. intros H. rewrite <- zsum_app. f_equal. rewrite <- seq_app. f_equal. lia. Qed.
Lemma ubqp_eval_uval x : length x = n -> ubqp_eval n q x = Ok (uval x).
Proof.
  intros L. unfold ubqp_eval, uval. rewrite (for_in_sum _ (fun i => zsum (seq 0 n) (fun j => val x i * lower_part i j * val x j)%Z)); [reflexivity|].
  intros i acc Hi. apply in_seq in Hi. rewrite (gene_ok x i false) by lia. cbn [rbind]. unfold val at 1. destruct (nth i x false) eqn:Ei; cbn [Z.b2z].
  - rewrite (for_in_sum _ (fun j => mat q i j * val x j)%Z).
    + f_equal. f_equal. rewrite (zsum_seq_split (S i) n) by lia. rewrite (zsum_ext (seq (S i) _) _ (fun _ => 0%Z)).
      * rewrite zsum_0, Z.add_0_r. apply zsum_ext. intros j Hj. apply in_seq in Hj. unfold lower_part. destruct (Nat.leb_spec j i); lia.
      * intros j Hj. apply in_seq in Hj. unfold lower_part. destruct (Nat.leb_spec j i); lia.
    + intros j acc' Hj. apply in_seq in Hj. rewrite (gene_ok x j false) by lia. cbn [rbind]. unfold val. destruct (nth j x false); cbn [Z.b2z].
      * rewrite (entry_ok n) by (auto; lia). cbn [rbind]. f_equal. lia.
      * f_equal. lia.
  - f_equal. rewrite (zsum_ext _ _ (fun _ => 0%Z)) by (intros; lia). rewrite zsum_0. lia.
Qed.
(** the gain of setting bit [m] *)
Definition coupling (i j : nat) : Z := if j <? i then mat q i j else mat q j i.
Definition gain (x : list bool) (m : nat) : Z := (mat q m m + zsum (without m (seq 0 n)) (fun k => val x k * coupling m k))%Z.
Lemma ubqp_gain_ok x m : length x = n -> m < n -> ubqp_gain n q x m = Ok (gain x m).
Proof.
  intros L Hm. unfold ubqp_gain. rewrite (entry_ok n) by auto. cbn [rbind].
  rewrite (for_in_sum _ (fun k => val x k * coupling m k)%Z).
  - cbn [rbind]. rewrite (for_in_sum _ (fun k => val x k * coupling m k)%Z).
    + f_equal. unfold gain. rewrite <- Z.add_assoc. f_equal. rewrite <- zsum_app. 
      replace (seq 0 m ++ seq (S m) (n - S m)) with (without m (seq 0 n)); auto.
      replace n with (m + S (n - S m)) at 1 by lia. rewrite seq_app. unfold without. rewrite filter_app. cbn [seq filter]. rewrite Nat.add_0_l, Nat.eqb_refl. cbn [negb].
      f_equal; apply without_same; rewrite in_seq; lia.
    + intros k acc Hk. apply in_seq in Hk. rewrite (gene_ok x k false) by lia. cbn [rbind]. unfold val, coupling. destruct (nth k x false); cbn [Z.b2z]; [|f_equal; lia].
      rewrite (entry_ok n) by (auto; lia). cbn [rbind]. destruct (Nat.ltb_spec k m); [lia|]. f_equal. lia.
  - intros k acc Hk. apply in_seq in Hk. rewrite (gene_ok x k false) by lia. cbn [rbind]. unfold val, coupling. destruct (nth k x false); cbn [Z.b2z]; [|f_equal; lia].
    rewrite (entry_ok n) by (auto; lia). cbn [rbind]. destruct (Nat.ltb_spec k m); [|lia]. f_equal. lia.
Qed.
Lemma uval_gain x m : m < n -> uval x = (val x m * gain x m + zsum (without m (seq 0 n)) (fun i => zsum (without m (seq 0 n)) (fun j => val x i * lower_part i j * val x j)))%Z.
Proof.
  intros Hm. unfold uval. rewrite (zsum2_without m) by (try apply seq_NoDup; apply in_seq; lia). f_equal. unfold gain. rewrite Z.mul_add_distr_l, <- zsum_mul. f_equal.
  - unfold lower_part. rewrite Nat.leb_refl. destruct (val_01 x m) as [-> | ->]; lia.
  - apply zsum_ext. intros k Hk. apply without_In in Hk as [_ Hk]. unfold lower_part, coupling. destruct (Nat.leb_spec k m), (Nat.leb_spec m k), (Nat.ltb_spec k m); try lia.
Qed.
Lemma gain_flip x x' m : (forall k, k <> m -> val x' k = val x k) -> gain x' m = gain x m.
Proof. intros H. unfold gain. f_equal. apply zsum_ext. intros k Hk. apply without_In in Hk. rewrite H; auto. apply Hk. Qed.
(** flipping bit [m] *)
Lemma uval_flip x x' m : m < n -> (forall k, nth k x' false = if k =? m then negb (nth k x false) else nth k x false) ->
  uval x' = (uval x + (1 - 2 * val x m) * gain x m)%Z.
Proof.
  intros Hm Hx. destruct (val_flip _ _ _ Hx) as [V1 V2]. rewrite !(uval_gain _ m Hm), (gain_flip x x' m V2), V1.
  rewrite (zsum_ext (without m _) (fun i => zsum _ (fun j => val x' i * lower_part i j * val x' j)%Z) (fun i => zsum (without m (seq 0 n)) (fun j => val x i * lower_part i j * val x j)%Z)); [lia|].
  intros i Hi. apply without_In in Hi. apply zsum_ext. intros j Hj. apply without_In in Hj. rewrite !V2; auto; [apply Hj|apply Hi].
Qed.
Theorem ubqp_incr_ok s i : length (geno s) = n -> i < n -> fit s = Some (uval (geno s)) ->
  exists x', bit_move i (geno s) = Ok x' /\ ubqp_incr n q s i = ubqp_eval n q x'.
Proof.
  intros L Hi Hf. destruct (flip_ok (geno s) i ltac:(lia)) as (x' & E & L' & Hx & _). exists x'. split; auto. rewrite ubqp_eval_uval by congruence.
  unfold ubqp_incr. rewrite ubqp_gain_ok by auto. cbn [rbind]. rewrite (gene_ok _ i false) by lia. cbn [rbind]. unfold fitness. rewrite Hf. cbn [rbind].
  rewrite (uval_flip _ _ _ Hi Hx). unfold val. destruct (nth i (geno s) false); cbn [Z.b2z]; f_equal; lia.
Qed.
Lemma bits_move_total : forall bits x, (forall b, In b bits -> b < length x) -> exists x', bits_move bits x = Ok x' /\ length x' = length x.
Proof.
  induction bits as [|b bits IH]; intros x H; cbn [bits_move]; [eauto|]. destruct (flip_ok x b) as (x1 & E & L & _); [apply H; left; auto|]. rewrite E. cbn [rbind].
  destruct (IH x1) as (x' & E' & L'); [intros c Hc; rewrite L; apply H; right; auto|]. exists x'. split; auto. congruence.
Qed.
Lemma bits_move_vals : forall bits x, (forall b, In b bits -> b < length x) -> exists x', bits_move bits x = Ok x' /\ length x' = length x /\
  forall k, nth k x' false = xorb (Nat.odd (count_occ Nat.eq_dec bits k)) (nth k x false).
Proof.
  induction bits as [|b bits IH]; intros x H; cbn [bits_move].
  - exists x. split; auto. split; auto. intros k. cbn. destruct (nth k x false); reflexivity.
  - destruct (flip_ok x b) as (x1 & E & L & Hx & _); [apply H; left; auto|]. rewrite E. cbn [rbind].
    destruct (IH x1) as (x' & E' & L' & H'); [intros c Hc; rewrite L; apply H; right; auto|]. exists x'. split; auto. split; [congruence|]. intros k. rewrite H', Hx. cbn [count_occ].
    destruct (Nat.eq_dec b k) as [->|Hk].
    + rewrite Nat.eqb_refl, Nat.odd_succ, <- Nat.negb_odd. destruct (Nat.odd _), (nth k x false); reflexivity.
    + destruct (Nat.eqb_spec k b); [congruence|]. reflexivity.
Qed.
(** moving along the same bits twice comes back *)
Lemma bits_move_back bits x : (forall b, In b bits -> b < length x) -> forall x', bits_move bits x = Ok x' -> bits_move bits x' = Ok x.
Proof.
  intros H x' E. destruct (bits_move_vals bits x H) as (x1 & E1 & L1 & H1). rewrite E1 in E. injection E as ->.
  destruct (bits_move_vals bits x') as (x2 & E2 & L2 & H2); [intros b Hb; rewrite L1; auto|]. rewrite E2. f_equal.
  apply (nth_ext _ _ false false); [congruence|]. intros k _. rewrite H2, H1. destruct (Nat.odd _), (nth k x false); reflexivity.
Qed.
Theorem ubqp_bits_ok s bits : length (geno s) = n -> (forall b, In b bits -> b < n) -> fit s = Some (uval (geno s)) ->
  exists x' v, bits_move bits (geno s) = Ok x' /\ ubqp_eval n q x' = Ok v /\ ubqp_bits_incr n q s bits = Ok (v, geno s).
Proof.
  intros L Hb Hf.
  assert (Hgo : forall bits x delta, length x = n -> (forall b, In b bits -> b < n) ->
    exists x', bits_move bits x = Ok x' /\ length x' = n /\
      for_in bits (fun b '(delta, x) => let! d := ubqp_gain n q x b in let! v := gene x b in let! x' := bit_move b x in Ok ((if v then delta - d else delta + d)%Z, x')) (delta, x)
        = Ok ((delta + uval x' - uval x)%Z, x')).
  { clear - SQ. induction bits as [|b bits IH]; intros x delta L H; cbn [bits_move for_in].
    - exists x. split; auto. split; auto. f_equal. f_equal. lia.
    - assert (Hb : b < n) by (apply H; left; auto). destruct (flip_ok x b ltac:(lia)) as (x1 & E & L1 & Hx & _). rewrite E, ubqp_gain_ok, (gene_ok x b false) by (auto; lia). cbn [rbind]. 
      destruct (IH x1 (if nth b x false then delta - gain x b else delta + gain x b)%Z) as (x' & E' & L' & F'); [congruence|intros; apply H; right; auto|].
      exists x'. split; auto. split; auto. rewrite F'. f_equal. f_equal. rewrite (uval_flip x x1 b Hb Hx). unfold val. destruct (nth b x false); cbn [Z.b2z]; lia. }
  destruct (Hgo bits (geno s) 0%Z L Hb) as (x' & E & L' & F). exists x', (uval x'). split; auto. split; [apply ubqp_eval_uval; auto|].
  unfold ubqp_bits_incr. rewrite F. cbn [rbind]. rewrite (bits_move_back bits (geno s)) with (x' := x') by (auto; intros b Hbb; specialize (Hb b Hbb); lia). cbn [rbind].
  unfold fitness. rewrite Hf. cbn [rbind]. f_equal. f_equal. lia.
Qed.

(** ** doubly incremental *)
(** the table holds the exact changes of fitness *)
Definition exact_table (x : list bool) (t : list Z) : Prop :=
  length t = n /\ forall i, i < n -> nth i t 0%Z = ((1 - 2 * val x i) * gain x i)%Z.
Lemma table_loop (f : nat -> Z) (body : nat -> list Z -> res (list Z)) t0 : length t0 = n ->
  (forall i t, i < n -> length t = n -> nth i t 0%Z = nth i t0 0%Z -> exists t', body i t = Ok t' /\ t' = set t i (f i)) ->
  exists t, for_in (seq 0 n) body t0 = Ok t /\ length t = n /\ forall i, i < n -> nth i t 0%Z = f i.
Proof.
  intros L0 Hb. destruct (for_in_seq (fun k t => length t = n /\ forall i, i < n -> nth i t 0%Z = if i <? k then f i else nth i t0 0%Z) body n 0 t0) as (t & E & Lt & Ht).
  - split; auto.
  - intros k t Hk [Lt Ht]. destruct (Hb k t) as (t' & Et & ->); [lia|auto| |].
    + rewrite Ht by lia. destruct (Nat.ltb_spec k k); [lia|auto].
    + exists (set t k (f k)). split; auto. split; [rewrite set_length; auto|]. intros i Hi. rewrite nth_set by lia. destruct (Nat.eq_dec k i) as [->|Hne].
      * rewrite ?Nat.eqb_refl. destruct (Nat.ltb_spec i (S i)); [|lia]. destruct (Nat.ltb_spec i (length t)); [auto|lia].
      * rewrite Ht by auto. destruct (Nat.eqb_spec k i); [lia|]. destruct (Nat.eqb_spec i k); [lia|]. cbn [andb]. destruct (Nat.ltb_spec i k), (Nat.ltb_spec i (S k)); auto; lia.
  - exists t. split; auto. split; auto. intros i Hi. rewrite Ht by auto. destruct (Nat.ltb_spec i (0 + n)); [auto|lia].
Qed.
Lemma explore_first x moved d : length x = n -> length (deltaFitness d) = n -> firstEval d = true ->
  exists d', dincr_explore n q x moved d = Ok d' /\ firstEval d' = false /\ exact_table x (deltaFitness d').
Proof.
  intros L Ld F. unfold dincr_explore. rewrite F.
  destruct (table_loop (fun i => (1 - 2 * val x i) * gain x i)%Z (fun i t => let! g := ubqp_gain n q x i in let! b := gene x i in of_opt (upd t i (if b then - g else g)%Z)) (deltaFitness d) Ld) as (t & E & Lt & Ht).
  - intros i t Hi Lt _. rewrite ubqp_gain_ok, (gene_ok x i false) by (auto; lia). cbn [rbind]. rewrite upd_set by lia. eexists. split; [reflexivity|]. f_equal.
    unfold val. destruct (nth i x false); cbn [Z.b2z]; lia.
  - rewrite E. cbn [rbind]. eexists. split; [reflexivity|]. split; auto. split; auto.
Qed.
Lemma explore_move x x' m d : length x = n -> m < n -> bit_move m x = Ok x' -> firstEval d = false -> exact_table x (deltaFitness d) ->
  exists d', dincr_explore n q x' (Some m) d = Ok d' /\ firstEval d' = false /\ exact_table x' (deltaFitness d').
Proof.
  intros L Hm Em F [Lt Ht]. destruct (flip_ok x m ltac:(lia)) as (x1 & E1 & L1 & Hx & _). rewrite E1 in Em. injection Em as ->. destruct (val_flip _ _ _ Hx) as [V1 V2].
  unfold dincr_explore. rewrite F.
  destruct (table_loop (fun i => (1 - 2 * val x' i) * gain x' i)%Z (fun i t =>
        let! old := gene t i in
        if i =? m then of_opt (upd t i (- old)%Z)
        else
          let! bi := gene x' i in
          let! bm := gene x' m in
          let! v := if i <? m then entry q m i else entry q i m in
          of_opt (upd t i (if Bool.eqb bi bm then old - v else old + v)%Z)) (deltaFitness d) Lt) as (t & E & Lt' & Ht').
  - intros i t Hi Ltt Hn. rewrite (gene_ok t i 0%Z) by lia. cbn [rbind]. rewrite Hn, Ht by auto. destruct (Nat.eqb_spec i m) as [->|Him].
    + rewrite upd_set by lia. eexists. split; [reflexivity|]. f_equal. rewrite (gain_flip x x' m V2), V1. lia.
    + rewrite (gene_ok x' i false), (gene_ok x' m false) by lia. cbn [rbind].
      assert (Ev : (if i <? m then entry q m i else entry q i m) = Ok (coupling i m)).
      { unfold coupling. destruct (Nat.ltb_spec i m), (Nat.ltb_spec m i); try lia; apply (entry_ok n); auto. }
      rewrite Ev. cbn [rbind]. rewrite upd_set by lia. eexists. split; [reflexivity|]. f_equal.
      assert (Hg : gain x' i = (gain x i + (2 * val x' m - 1) * coupling i m)%Z).
      { unfold gain. assert (Hin : In m (without i (seq 0 n))) by (apply without_In; split; [apply in_seq; lia|auto]). assert (Nd : NoDup (without i (seq 0 n))) by (apply without_NoDup, seq_NoDup).
        rewrite (zsum_without m _ (fun k => val x' k * coupling i k)%Z), (zsum_without m _ (fun k => val x k * coupling i k)%Z) by auto.
        rewrite (zsum_ext (without m _) (fun k => val x' k * coupling i k)%Z (fun k => val x k * coupling i k)%Z); [|intros k Hk; apply without_In in Hk; rewrite V2; [auto|apply Hk]].
        rewrite V1. destruct (val_01 x m) as [-> | ->]; lia. }
      rewrite Hg, (V2 i Him). assert (Ei : val x i = Z.b2z (nth i x' false)) by (rewrite <- (V2 i Him); reflexivity). rewrite Ei.
      assert (Emm : val x' m = Z.b2z (nth m x' false)) by reflexivity. rewrite Emm.
      destruct (nth i x' false), (nth m x' false); cbn [Bool.eqb Z.b2z]; lia.
  - rewrite E. cbn [rbind]. eexists. split; [reflexivity|]. split; auto. split; auto.
Qed.
Lemma search_exact : forall turns x0 x moved d, length x = n -> length (deltaFitness d) = n -> (forall i, In (Some i) turns -> i < n) ->
  (firstEval d = true \/ (firstEval d = false /\ length x0 = n /\ exact_table x0 (deltaFitness d) /\
     match moved with Some m => m < n /\ bit_move m x0 = Ok x | None => x0 = x end)) ->
  exists x' d', dincr_search n q turns x moved d = Ok (x', d') /\ length x' = n /\ exact_table x' (deltaFitness d') /\
    bits_move (flat_map (fun t => match t with Some i => [i] | None => [] end) turns) x = Ok x'.
Proof.
  induction turns as [|t turns IH]; intros x0 x moved d L Ld Ht H; cbn [dincr_search flat_map].
  - assert (Hd : exists d', dincr_explore n q x moved d = Ok d' /\ firstEval d' = false /\ exact_table x (deltaFitness d')).
    { destruct H as [H|(H1 & H2 & H3 & H4)]; [apply explore_first; auto|]. destruct moved as [m|].
      - destruct H4. apply (explore_move x0); auto.
      - subst x0. unfold dincr_explore. rewrite H1. eauto. }
    destruct Hd as (d' & -> & _ & Ed). cbn [rbind]. exists x, d'. auto.
  - assert (Hd : exists d', dincr_explore n q x moved d = Ok d' /\ firstEval d' = false /\ exact_table x (deltaFitness d')).
    { destruct H as [H|(H1 & H2 & H3 & H4)]; [apply explore_first; auto|]. destruct moved as [m|].
      - destruct H4. apply (explore_move x0); auto.
      - subst x0. unfold dincr_explore. rewrite H1. eauto. }
    destruct Hd as (d' & -> & Fd & Ed). cbn [rbind]. destruct t as [i|].
    + assert (Hi : i < n) by (apply Ht; left; auto). destruct (flip_ok x i ltac:(lia)) as (x1 & E1 & L1 & _). rewrite E1. cbn [rbind app bits_move]. rewrite E1. cbn [rbind].
      apply (IH x); [congruence|apply Ed|intros k Hk; apply Ht; right; auto|]. right. auto.
    + cbn [rbind app]. apply (IH x); auto; [apply Ed|intros k Hk; apply Ht; right; auto].
Qed.
End Ubqp.
