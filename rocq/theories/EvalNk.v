(** NK landscapes. *)
From Coq Require Import List Arith Bool ZArith NArith QArith Lia Permutation Lqa.
From Verif Require Import Outcome Lib NeighModel NeighSpec NeighProofs BitsModel LsModel EvalModel EvalSpec EvalProofs EvalRoyal EvalQap EvalSat.
From Coq Require Import List.
Import ListNotations.
Open Scope nat_scope.

(** ** rational sums *)
Lemma qsum_cons {A} (k : A) l f : qsum (k :: l) f = (f k + qsum l f)%Q.
Proof. reflexivity. Qed.
Lemma qsum_ext {A} (f g : A -> Q) : forall l, (forall k, In k l -> f k == g k)%Q -> (qsum l f == qsum l g)%Q.
Proof. induction l as [|k l IH]; intros H; [reflexivity|]. rewrite !qsum_cons, H by (left; auto). rewrite IH by (intros; apply H; right; auto). reflexivity. Qed.
Lemma qsum_app {A} (f : A -> Q) : forall l l', (qsum (l ++ l') f == qsum l f + qsum l' f)%Q.
Proof. induction l as [|k l IH]; intros l'; cbn [app]; [unfold qsum at 2; cbn; lra|]. rewrite !qsum_cons, IH. lra. Qed.
Lemma qsum_map {A B} (h : A -> B) (f : B -> Q) : forall l, qsum (map h l) f = qsum l (fun k => f (h k)).
Proof. induction l as [|k l IH]; auto. cbn [map]. rewrite !qsum_cons, IH. auto. Qed.
Lemma qsum_sub {A} (f g : A -> Q) : forall l, (qsum l (fun k => f k - g k) == qsum l f - qsum l g)%Q.
Proof. induction l as [|k l IH]; [unfold qsum; cbn; lra|]. rewrite !qsum_cons, IH. lra. Qed.
Lemma qsum_0 {A} (l : list A) : (qsum l (fun _ => 0) == 0)%Q.
Proof. induction l as [|k l IH]; [reflexivity|]. rewrite qsum_cons, IH. lra. Qed.
Lemma qsum_flat_map {A B} (g : A -> list B) (f : B -> Q) : forall l, (qsum (flat_map g l) f == qsum l (fun a => qsum (g a) f))%Q.
Proof. induction l as [|a l IH]; [reflexivity|]. cbn [flat_map]. rewrite qsum_app, qsum_cons, IH. reflexivity. Qed.
Lemma qsum_filter {A} (p : A -> bool) (f : A -> Q) : forall l, (qsum (filter p l) f == qsum l (fun a => if p a then f a else 0))%Q.
Proof. induction l as [|a l IH]; [reflexivity|]. cbn [filter]. rewrite qsum_cons. destruct (p a); [rewrite qsum_cons|]; rewrite IH; lra. Qed.
Lemma for_in_qsum {A} (body : A -> Q -> res Q) (f : A -> Q) : forall l acc, (forall k acc, In k l -> body k acc = Ok (acc + f k)%Q) ->
  exists v, for_in l body acc = Ok v /\ (v == acc + qsum l f)%Q.
Proof.
  induction l as [|k l IH]; intros acc H; cbn [for_in]; [exists acc; split; auto; unfold qsum; cbn; lra|]. rewrite H by (left; auto). cbn [rbind].
  destruct (IH (acc + f k)%Q) as (v & E & Ev); [intros; apply H; right; auto|]. exists v. split; auto. rewrite Ev, qsum_cons. lra.
Qed.
(** ** masks *)
Lemma mask_bit x : forall ls k, N.testbit (mask ls x) (N.of_nat k) = (k <? length ls) && nth (nth k ls 0) x false.
Proof.
  induction ls as [|l ls IH]; intros k; cbn [mask fold_right length]; [rewrite N.bits_0; destruct k; auto|].
  change (fold_right _ 0%N ls) with (mask ls x). destruct k as [|k]; cbn [nth].
  - destruct (nth l x false); [change (N.of_nat 0) with 0%N; rewrite N.testbit_odd_0; auto|rewrite N.add_0_r; change (N.of_nat 0) with 0%N; rewrite N.testbit_even_0; auto].
  - rewrite Nat2N.inj_succ. transitivity (N.testbit (mask ls x) (N.of_nat k)).
    + destruct (nth l x false); [apply N.testbit_odd_succ; lia|rewrite N.add_0_r; apply N.testbit_even_succ; lia].
    + rewrite IH. reflexivity.
Qed.
Lemma mask_lt x : forall ls, N.to_nat (mask ls x) < 2 ^ length ls.
Proof.
  induction ls as [|l ls IH]; cbn [mask fold_right length]; [cbn; lia|]. change (fold_right _ 0%N ls) with (mask ls x). cbn [Nat.pow]. destruct (nth l x false); lia.
Qed.
Lemma mask_unique x ls m : (forall k, N.testbit m (N.of_nat k) = (k <? length ls) && nth (nth k ls 0) x false) -> m = mask ls x.
Proof. intros H. apply N.bits_inj. intros k. rewrite <- (N2Nat.id k). rewrite H, mask_bit. auto. Qed.
Lemma pow_bit a k : N.testbit (2 ^ N.of_nat a)%N (N.of_nat k) = (k =? a).
Proof. rewrite N.pow2_bits_eqb. destruct (Nat.eqb_spec k a) as [->|H]; [apply N.eqb_refl|apply N.eqb_neq; lia]. Qed.
Lemma shift_pow a : N.shiftl (2 ^ N.of_nat a)%N 1%N = (2 ^ N.of_nat (S a))%N.
Proof. rewrite N.shiftl_mul_pow2, Nat2N.inj_succ, N.pow_succ_r'. lia. Qed.
Lemma nth_snoc_at (l : list nat) a d : nth (length l) (l ++ [a]) d = a.
Proof. rewrite app_nth2 by lia. rewrite Nat.sub_diag. auto. Qed.

Section NK.
Variables (n k : nat) (ls : list (list nat)) (ts : list (list Q)).
Hypothesis LK : links_ok n k ls.
Hypothesis TB : tables_ok n k ts.
Notation p := (Nk n k ls ts).
Lemma link_row i : i < n -> length (nth i ls []) = S k /\ NoDup (nth i ls []) /\ forall j, In j (nth i ls []) -> j < n.
Proof. intros H. apply LK. apply nth_In. destruct LK. lia. Qed.
Lemma link_entry i j : i < n -> j < S k -> entry ls i j = Ok (nth j (nth i ls []) 0).
Proof.
  intros Hi Hj. destruct (link_row i Hi) as (L & _). unfold entry. rewrite (nth_error_nth' ls []) by (destruct LK; lia). cbn [obind]. rewrite (nth_error_nth' _ 0) by lia. auto.
Qed.
Lemma link_bound i j : i < n -> j < S k -> nth j (nth i ls []) 0 < n.
Proof. intros Hi Hj. destruct (link_row i Hi) as (L & _ & H). apply H, nth_In. lia. Qed.
Lemma table_entry i m : i < n -> m < 2 ^ S k -> entry ts i m = Ok (nth m (nth i ts []) 0%Q).
Proof.
  intros Hi Hm. assert (Hl : length (nth i ts []) = 2 ^ S k) by (apply TB, nth_In; destruct TB; lia). unfold entry. rewrite (nth_error_nth' ts []) by (destruct TB; lia). cbn [obind]. rewrite (nth_error_nth' _ 0%Q) by lia. auto.
Qed.
Lemma nk_sigma_ok x i : length x = n -> i < n -> nk_sigma p x i = Ok (mask (nth i ls []) x).
Proof.
  intros Lx Hi. unfold nk_sigma. cbn [nkK links].
  destruct (for_in_seq (fun j (s : N * N) => snd s = (2 ^ N.of_nat j)%N /\ forall b, N.testbit (fst s) (N.of_nat b) = (b <? j) && nth (nth b (nth i ls []) 0) x false)
     (fun j '(acc, m) => let! l := entry ls i j in let! b := gene x l in Ok (if b then N.lor acc m else acc, N.shiftl m 1)) (S k) 0 (0%N, 1%N)) as ([acc m] & E & _ & H).
  - split; [auto|]. intros b. reflexivity.
  - intros j [acc m] Hj [Em Hb]. cbn [fst snd] in *. rewrite link_entry by lia. cbn [rbind]. rewrite (gene_ok x _ false) by (rewrite Lx; apply link_bound; lia). cbn [rbind]. eexists. split; [reflexivity|]. split; cbn [fst snd].
    + rewrite Em. apply shift_pow.
    + intros b. destruct (Nat.eq_dec b j) as [->|Hn].
      * destruct (Nat.ltb_spec j (S j)); [|lia]. cbn [andb]. destruct (nth (nth j (nth i ls []) 0) x false).
        -- rewrite N.lor_spec, Em, pow_bit, Nat.eqb_refl. apply orb_true_r.
        -- rewrite Hb, Nat.ltb_irrefl. auto.
      * replace (b <? S j) with (b <? j) by (destruct (Nat.ltb_spec b j), (Nat.ltb_spec b (S j)); auto; lia).
        destruct (nth (nth j (nth i ls []) 0) x false); [|apply Hb]. rewrite N.lor_spec, Em, pow_bit, Hb. destruct (Nat.eqb_spec b j); [lia|]. apply orb_false_r.
  - rewrite E. cbn [rbind]. f_equal. apply mask_unique. cbn [fst] in H. destruct (link_row i Hi) as (L & _). rewrite L. exact H.
Qed.
Definition contribution (x : list bool) (i : nat) : Q := nth (N.to_nat (mask (nth i ls []) x)) (nth i ts []) 0%Q.
Lemma contribution_ok x i : i < n -> entry ts i (N.to_nat (mask (nth i ls []) x)) = Ok (contribution x i).
Proof. intros Hi. apply table_entry; auto. destruct (link_row i Hi) as (L & _). rewrite <- L. apply mask_lt. Qed.
Lemma nk_eval_ok x : length x = n -> exists v, nk_eval p x = Ok v /\ (v == nk_value n ls ts x)%Q.
Proof.
  intros Lx. unfold nk_eval. cbn [nkN tables].
  destruct (for_in_qsum (fun i accu => let! m := nk_sigma p x i in let! v := entry ts i (N.to_nat m) in Ok (accu + v)%Q) (contribution x) (seq 0 n) 0%Q) as (v & E & Ev).
  - intros i acc Hi. apply in_seq in Hi. rewrite nk_sigma_ok by (auto; lia). cbn [rbind]. rewrite contribution_ok by lia. reflexivity.
  - rewrite E. cbn [rbind]. eexists. split; [reflexivity|]. rewrite Ev. unfold nk_value. apply Qmult_comp; [|reflexivity]. rewrite Qplus_0_l. reflexivity.
Qed.
(** ** the inverse links *)
Definition link_pairs : list (nat * nat) := flat_map (fun i => map (pair i) (nth i ls [])) (seq 0 n).
Lemma for_in_row {B} (body : nat -> B -> res B) row : forall pre acc, for_in (seq (length pre) (length row)) (fun j acc => let! l := of_opt (nth_error (pre ++ row) j) in body l acc) acc = for_in row body acc.
Proof.
  induction row as [|a row IH]; intros pre acc; auto. cbn [length seq for_in]. rewrite nth_error_app2, Nat.sub_diag by lia. cbn [nth_error of_opt rbind]. destruct (body a acc) as [acc'| | |]; cbn [rbind]; auto.
  rewrite <- (IH (pre ++ [a]) acc'). rewrite app_length. cbn [length]. rewrite Nat.add_1_r, <- app_assoc. reflexivity.
Qed.
Lemma inverse_ok : exists inv, inverse_links p = Ok inv /\ length inv = n /\ forall b, b < n -> nth b inv [] = map fst (filter (fun q => snd q =? b) link_pairs).
Proof.
  unfold inverse_links. cbn [nkN nkK links].
  rewrite (for_in_ext _ (fun i inv => for_in (nth i ls []) (fun l inv => of_opt (obind (nth_error inv l) (fun r => upd inv l (r ++ [i])))) inv)).
  2:{ intros i inv Hi. apply in_seq in Hi. rewrite <- (for_in_row _ (nth i ls []) []). cbn [length app]. destruct (link_row i) as (L & _); [lia|]. rewrite L. apply for_in_ext. intros j inv' Hj. unfold entry. rewrite (nth_error_nth' ls []) by (destruct LK; lia). reflexivity. }
  rewrite (for_in_nested (fun i => nth i ls []) (fun i l inv => of_opt (obind (nth_error inv l) (fun r => upd inv l (r ++ [i]))))). fold link_pairs.
  destruct (for_in_inv (fun pre inv => length inv = n /\ forall b, b < n -> nth b inv [] = map fst (filter (fun q => snd q =? b) pre))
     (fun q inv => of_opt (obind (nth_error inv (snd q)) (fun r => upd inv (snd q) (r ++ [fst q])))) link_pairs [] (repeat [] n)) as (inv & E & L & H).
  - split; [apply repeat_length|]. intros. apply nth_repeat.
  - intros pre [i l] r inv Eq [L H]. cbn [app] in Eq. cbn [fst snd]. assert (Hin : In (i, l) link_pairs) by (rewrite Eq; apply in_or_app; right; left; auto). unfold link_pairs in Hin. apply in_flat_map in Hin as (i' & Hi & Hin). apply in_map_iff in Hin as (l' & El & Hin). injection El as -> ->. apply in_seq in Hi. assert (Hl : l < n) by (destruct (link_row i) as (_ & _ & Hb); [lia|auto]).
    rewrite (nth_error_nth' inv []) by lia. cbn [obind]. rewrite upd_set by lia. eexists. split; [reflexivity|]. split; [rewrite set_length; auto|]. intros b Hb. rewrite nth_set, filter_app, map_app by lia. cbn [filter snd]. rewrite (Nat.eqb_sym l b).
    destruct (Nat.eqb_spec b l) as [->|]; cbn [andb].
    + destruct (Nat.ltb_spec l (length inv)); [|lia]. rewrite H by auto. reflexivity.
    + cbn [map]. rewrite app_nil_r. auto.
  - exists inv. auto.
Qed.
(** ** the two masks *)
Lemma nk_sigma2_ok x x' i b : length x = n -> i < n -> (forall j, nth j x' false = if j =? b then negb (nth j x false) else nth j x false) ->
  nk_sigma2 p x i b = Ok (mask (nth i ls []) x, mask (nth i ls []) x').
Proof.
  intros Lx Hi Hx. unfold nk_sigma2. cbn [nkK links]. set (row := nth i ls []) in *. destruct (link_row i Hi) as (L & Nd & Hr). fold row in L, Nd, Hr.
  destruct (for_in_seq (fun j (s : N * N * N) => snd s = (2 ^ N.of_nat j)%N /\ (forall c, N.testbit (fst (fst s)) (N.of_nat c) = (c <? j) && nth (nth c row 0) x false) /\
       forall c, N.testbit (snd (fst s)) (N.of_nat c) = (c <? j) && (nth c row 0 =? b))
     (fun j '(sig, nonSig, m) => let! l := entry ls i j in let! v := gene x l in Ok (if v then N.lor sig m else sig, if l =? b then m else nonSig, N.shiftl m 1)) (S k) 0 (0%N, 0%N, 1%N)) as ([[sig non] m] & E & _ & H1 & H2).
  - split; [auto|]. split; intros c; reflexivity.
  - intros j [[sig non] m] Hj (Em & Hs & Hn). cbn [fst snd] in *. rewrite link_entry by lia. fold row. cbn [rbind]. rewrite (gene_ok x _ false) by (rewrite Lx; apply link_bound; lia). cbn [rbind]. eexists. split; [reflexivity|]. split; [|split]; cbn [fst snd].
    + rewrite Em. apply shift_pow.
    + intros c. destruct (Nat.eq_dec c j) as [->|Hc].
      * destruct (Nat.ltb_spec j (S j)); [|lia]. cbn [andb]. destruct (nth (nth j row 0) x false).
        -- rewrite N.lor_spec, Em, pow_bit, Nat.eqb_refl. apply orb_true_r.
        -- rewrite Hs, Nat.ltb_irrefl. auto.
      * replace (c <? S j) with (c <? j) by (destruct (Nat.ltb_spec c j), (Nat.ltb_spec c (S j)); auto; lia).
        destruct (nth (nth j row 0) x false); [|apply Hs]. rewrite N.lor_spec, Em, pow_bit, Hs. destruct (Nat.eqb_spec c j); [lia|]. apply orb_false_r.
    + intros c. destruct (Nat.eqb_spec (nth j row 0) b) as [Eb|Nb].
      * rewrite Em, pow_bit. destruct (Nat.eqb_spec c j) as [->|Hc]; [rewrite Eb, Nat.eqb_refl; destruct (Nat.ltb_spec j (S j)); auto; lia|].
        destruct (Nat.ltb_spec c (S j)); auto. cbn [andb]. symmetry. apply Nat.eqb_neq. intros Ec. apply Hc. apply (NoDup_nth row 0); auto; try lia.
      * rewrite Hn. destruct (Nat.eq_dec c j) as [->|Hc]; [rewrite Nat.ltb_irrefl; destruct (Nat.eqb_spec (nth j row 0) b); [lia|symmetry; apply andb_false_r]|].
        destruct (Nat.ltb_spec c j), (Nat.ltb_spec c (S j)); auto; lia.
  - rewrite E. cbn [rbind]. cbn [fst snd] in *. rewrite Nat.add_0_l in *. f_equal. f_equal.
    + apply mask_unique. rewrite L. exact H1.
    + apply mask_unique. intros c. rewrite L, N.lxor_spec, H1, H2, Hx. destruct (c <? S k), (nth c row 0 =? b), (nth (nth c row 0) x false); reflexivity.
Qed.
Lemma nk_delta_ok inv x x' b acc : inverse_links p = Ok inv -> length x = n -> b < n -> bit_move b x = Ok x' ->
  exists d, nk_delta p inv x b acc = Ok d /\ (d == acc + (qsum (seq 0 n) (contribution x') - qsum (seq 0 n) (contribution x)))%Q.
Proof.
  intros Einv Lx Hb Em. destruct (flip_ok x b ltac:(lia)) as (x1 & E1 & L1 & Hx & _). rewrite E1 in Em. injection Em as ->.
  destruct inverse_ok as (inv' & E' & Li & Hi). rewrite Einv in E'. injection E' as <-. unfold nk_delta. rewrite (gene_ok inv b []) by lia. cbn [rbind tables]. rewrite Hi by auto.
  destruct (for_in_qsum (fun i delta => let! (sig, nonSig) := nk_sigma2 p x i b in let! a := entry ts i (N.to_nat nonSig) in let! c := entry ts i (N.to_nat sig) in Ok (delta + (a - c))%Q)
    (fun i => contribution x' i - contribution x i)%Q (map fst (filter (fun q => snd q =? b) link_pairs)) acc) as (d & E & Ed).
  - intros i acc' Hin. apply in_map_iff in Hin as ([i' l] & <- & Hin). apply filter_In in Hin as [Hin _]. unfold link_pairs in Hin. apply in_flat_map in Hin as (j & Hj & Hin). apply in_map_iff in Hin as (l' & El & Hin). injection El as -> ->. apply in_seq in Hj. cbn [fst].
    rewrite (nk_sigma2_ok x x') by (auto; lia). cbn [rbind]. rewrite !contribution_ok by lia. reflexivity.
  - exists d. split; [exact E|]. rewrite Ed. apply Qplus_comp; [reflexivity|]. rewrite qsum_map, qsum_filter. unfold link_pairs. rewrite qsum_flat_map, <- qsum_sub. apply qsum_ext. intros i Hin. apply in_seq in Hin. rewrite qsum_map. cbn [fst snd].
    destruct (link_row i) as (L & Nd & Hr); [lia|].
    assert (Hone : forall c g, NoDup c -> (qsum c (fun l => if l =? b then g else 0) == if existsb (fun l => l =? b) c then g else 0)%Q).
    { clear. induction c as [|l c IH]; intros g Nd; [reflexivity|]. inversion Nd as [|? ? N1 N2]; subst. rewrite qsum_cons. cbn [existsb]. destruct (Nat.eqb_spec l b) as [El|Nl]; cbn [orb].
      - rewrite (qsum_ext _ (fun _ => 0%Q)); [rewrite qsum_0; lra|]. intros j Hj. destruct (Nat.eqb_spec j b); [subst; contradiction|reflexivity].
      - rewrite IH by auto. lra. }
    rewrite Hone by auto. destruct (existsb (fun l => l =? b) (nth i ls [])) eqn:Ex; [reflexivity|].
    assert (Es : mask (nth i ls []) x' = mask (nth i ls []) x).
    { apply mask_unique. intros c. rewrite mask_bit, Hx. destruct (Nat.ltb_spec c (length (nth i ls []))); auto. cbn [andb]. destruct (Nat.eqb_spec (nth c (nth i ls []) 0) b) as [Eb|]; auto. exfalso.
      assert (existsb (fun l => l =? b) (nth i ls []) = true); [|congruence]. apply existsb_exists. exists b. split; [rewrite <- Eb; apply nth_In; auto|apply Nat.eqb_refl]. }
    unfold contribution. rewrite Es. lra.
Qed.
Lemma nk_value_contribution x : nk_value n ls ts x = (qsum (seq 0 n) (contribution x) / inject_Z (Z.of_nat n))%Q.
Proof. reflexivity. Qed.
Lemma nk_incr_ok inv s b f : inverse_links p = Ok inv -> length (geno s) = n -> b < n -> fit s = Some f -> (f == nk_value n ls ts (geno s))%Q ->
  exists x' v v', bit_move b (geno s) = Ok x' /\ nk_incr p inv s b = Ok v /\ nk_eval p x' = Ok v' /\ (v == v')%Q.
Proof.
  intros Einv Lx Hb Ef Hf. destruct (flip_ok (geno s) b ltac:(lia)) as (x' & E1 & L1 & Hx & _). destruct (nk_eval_ok x') as (v' & Ev & Hv); [lia|].
  destruct (nk_delta_ok inv (geno s) x' b 0%Q Einv Lx Hb E1) as (d & Ed & Hd). unfold nk_incr. rewrite Ed. unfold fitness. rewrite Ef. cbn [rbind nkN]. eexists x', _, v'. repeat (split; [eauto|]).
  rewrite Hv, Hf, Hd. rewrite !nk_value_contribution. unfold Qdiv. ring.
Qed.
Lemma nk_bits_ok inv s bits f : inverse_links p = Ok inv -> length (geno s) = n -> (forall b, In b bits -> b < n) -> fit s = Some f -> (f == nk_value n ls ts (geno s))%Q ->
  exists x' v v', bits_move bits (geno s) = Ok x' /\ nk_bits_incr p inv s bits = Ok (v, geno s) /\ nk_eval p x' = Ok v' /\ (v == v')%Q.
Proof.
  intros Einv Lx Hb Ef Hf.
  assert (Hloop : forall bits x acc, length x = n -> (forall b, In b bits -> b < n) -> exists x' d, bits_move bits x = Ok x' /\ length x' = n /\
     for_in bits (fun b '(delta, x) => let! d := nk_delta p inv x b delta in let! x' := bit_move b x in Ok (d, x')) (acc, x) = Ok (d, x') /\
     (d == acc + (qsum (seq 0 n) (contribution x') - qsum (seq 0 n) (contribution x)))%Q).
  { clear - Einv LK TB. induction bits as [|b bits IH]; intros x acc Lx Hb; cbn [bits_move for_in].
    - exists x, acc. repeat (split; [auto|]). lra.
    - destruct (flip_ok x b) as (x1 & E1 & L1 & Hx & _); [rewrite Lx; apply Hb; left; auto|]. destruct (nk_delta_ok inv x x1 b acc Einv Lx) as (d & Ed & Hd); [apply Hb; left; auto|auto|].
      rewrite Ed, E1. cbn [rbind]. destruct (IH x1 d) as (x' & d' & E & L & F & G); [lia|intros; apply Hb; right; auto|]. exists x', d'. repeat (split; [auto|]). rewrite G, Hd. lra. }
  destruct (Hloop bits (geno s) 0%Q Lx Hb) as (x' & d & E & L & F & G). destruct (nk_eval_ok x' L) as (v' & Ev & Hv).
  unfold nk_bits_incr. rewrite F. cbn [rbind]. rewrite (bits_move_back bits (geno s) ltac:(intros b H; rewrite Lx; auto) x' E). unfold fitness. rewrite Ef. cbn [rbind nkN]. eexists x', _, v'. repeat (split; [eauto|]).
  rewrite Hv, Hf, G. rewrite !nk_value_contribution. unfold Qdiv. ring.
Qed.
End NK.

(** ** the links *)
Lemma swap_at_back {A} (l : list A) i j l' : swap_at l i j = Some l' -> swap_at l' i j = Some l.
Proof.
  intros H. assert (L := swap_at_length _ _ _ _ H). destruct (swap_at_spec _ _ _ _ H) as (a & b & Ha & Hb & _). apply nth_error_lt in Ha. apply nth_error_lt in Hb.
  destruct (swap_at_total l' i j) as (l2 & E); [lia|lia|]. rewrite E. f_equal. apply nth_error_ext. intros k.
  rewrite (swap_at_nth_error _ _ _ _ E), !(swap_at_nth_error _ _ _ _ H). destruct (Nat.eqb_spec k j) as [->|].
  - destruct (Nat.eqb_spec i j) as [->|]; auto. rewrite Nat.eqb_refl. auto.
  - destruct (Nat.eqb_spec k i) as [->|]; auto. rewrite Nat.eqb_refl. auto.
Qed.
Lemma choose_loop_ok n i : forall todo j tab ds ls ts tab' ds', length tab = n -> NoDup tab -> (j = 0 -> i < n) ->
  choose_loop n i j todo tab ds = Ok (ls, ts, tab', ds') ->
  length ls = todo /\ NoDup ls /\ (forall l, In l ls -> In l (firstn (n - j) tab)) /\ put_back n j ts tab' = Ok tab /\ length tab' = n /\ (j = 0 -> todo <> 0 -> hd_error ls = nth_error tab i).
Proof.
  induction todo as [|m IH]; intros j tab ds ls ts tab' ds' L Nd Hi H; cbn [choose_loop] in H.
  - injection H as <- <- <- <-. split; auto. split; [constructor|]. split; [intros l []|]. split; auto. split; auto. congruence.
  - destruct (Nat.leb_spec n j) as [|Hj]; [discriminate|]. apply rbind_ok in H as ([t ds1] & Ht & H). apply rbind_ok in H as (l & Hl & H). apply rbind_ok in H as (tab1 & Hs & H). apply of_opt_ok in Hs. apply rbind_ok in H as ([[[ls1 ts1] tab2] ds2] & Hr & H). injection H as <- <- <- <-.
    assert (Ht' : t < n - j). { destruct (Nat.eqb_spec j 0) as [->|]; [injection Ht as <- <-; specialize (Hi eq_refl); lia|apply draw_lt in Ht; lia]. }
    unfold gene in Hl. apply of_opt_ok in Hl. assert (P1 := swap_at_perm _ _ _ _ Hs).
    destruct (IH (S j) tab1 ds1 ls1 ts1 tab2 ds2) as (H1 & H2 & H3 & H4 & H5 & _); [ | | |exact Hr| ].
    { rewrite <- L. apply Permutation_length. auto. } { eapply Permutation_NoDup; [symmetry; eauto|auto]. } { lia. }
    assert (Hrest : forall v, In v (firstn (n - S j) tab1) -> In v (firstn (n - j) tab) /\ v <> l).
    { intros v Hv. apply In_nth_error in Hv as (c & Hc). assert (Hc' : c < n - S j). { apply nth_error_lt in Hc. rewrite firstn_length in Hc. lia. }
      rewrite firstn_nth_error in Hc by lia. rewrite (swap_at_nth_error _ _ _ _ Hs c) in Hc. destruct (Nat.eqb_spec c (n - 1 - j)); [lia|]. destruct (Nat.eqb_spec c t) as [Hct|Hct].
      - split; [apply nth_error_In with (n := n - 1 - j); rewrite firstn_nth_error by lia; auto|]. intros ->. assert (n - 1 - j = t) by exact (NoDup_nth_error_inj _ _ _ _ Nd Hc Hl). lia.
      - split; [apply nth_error_In with (n := c); rewrite firstn_nth_error by lia; auto|]. intros ->. assert (c = t) by exact (NoDup_nth_error_inj _ _ _ _ Nd Hc Hl). lia. }
    split; [cbn; lia|]. split; [constructor; auto; intros Hin; apply H3 in Hin; apply Hrest in Hin as [_ Hin]; congruence|]. split; [|split; [|split; [auto|]]].
    + intros v [<-|Hv]; [apply nth_error_In with (n := t); rewrite firstn_nth_error by lia; auto|]. apply Hrest. auto.
    + cbn [put_back]. rewrite H4. cbn [rbind]. rewrite (swap_at_back _ _ _ _ Hs). reflexivity.
    + intros -> _. cbn [Nat.eqb] in Ht. injection Ht as <- <-. cbn [hd_error]. auto.
Qed.
Lemma choose_ok n k i tab ds l tab' ds' : length tab = n -> NoDup tab -> i < n -> choose n k i tab ds = Ok (l, tab', ds') ->
  tab' = tab /\ length l = S k /\ NoDup l /\ (forall v, In v l -> In v tab) /\ hd_error l = nth_error tab i.
Proof.
  intros L Nd Hi H. unfold choose in H. apply rbind_ok in H as ([[[ls ts] tab1] ds1] & Hc & H). apply rbind_ok in H as (tab2 & Hp & H). injection H as <- <- <-.
  destruct (choose_loop_ok _ _ _ _ _ _ _ _ _ _ L Nd (fun _ => Hi) Hc) as (H1 & H2 & H3 & H4 & H5 & H6). rewrite H4 in Hp. injection Hp as <-. split; auto. split; auto. split; auto. split; [|apply H6; auto].
  intros v Hv. apply H3 in Hv. rewrite <- (firstn_skipn (n - 0) tab). apply in_or_app. auto.
Qed.
Lemma random_links_ok n k : forall todo i ds ls ds', i + todo = n -> random_links n k i todo (seq 0 n) ds = Ok (ls, ds') ->
  length ls = todo /\ (forall l, In l ls -> length l = S k /\ NoDup l /\ forall v, In v l -> v < n) /\ forall c, c < todo -> hd_error (nth c ls []) = Some (i + c).
Proof.
  induction todo as [|m IH]; intros i ds ls ds' Hi H; cbn [random_links] in H.
  - injection H as <- <-. split; auto. split; [intros l []|lia].
  - apply rbind_ok in H as ([[l tab1] ds1] & Hc & H). apply rbind_ok in H as ([ls1 ds2] & Hr & H). injection H as <- <-.
    destruct (choose_ok n k i (seq 0 n) ds l tab1 ds1) as (-> & H1 & H2 & H3 & H4); [apply seq_length|apply seq_NoDup|lia|auto|].
    destruct (IH (S i) ds1 ls1 ds2) as (I1 & I2 & I3); [lia|auto|]. split; [cbn; lia|]. split.
    + intros l' [<-|Hl']; [|apply I2; auto]. split; auto. split; auto. intros v Hv. apply H3 in Hv. apply in_seq in Hv. lia.
    + intros [|c] Hc'; cbn [nth]; [rewrite H4, nth_error_seq' by lia; f_equal; lia|]. rewrite I3 by lia. f_equal. lia.
Qed.
Lemma random_tables_ok n k ds ls ds' : random_tables n k ds = Ok (ls, ds') -> links_ok n k ls /\ forall i, i < n -> hd_error (nth i ls []) = Some i.
Proof. intros H. destruct (random_links_ok n k n 0 ds ls ds' eq_refl H) as (H1 & H2 & H3). split; [split; auto|exact H3]. Qed.
(** each bit costs k draws *)
Lemma choose_loop_total n i : forall todo j tab ds, length tab = n -> i < n -> j + todo <= n -> todo <= length ds -> exists ls ts tab' ds', choose_loop n i j todo tab ds = Ok (ls, ts, tab', ds') /\ length ds <= todo + length ds'.
Proof.
  induction todo as [|m IH]; intros j tab ds L Hi Hj Hd; cbn [choose_loop]; [exists [], [], tab, ds; split; auto; lia|].
  destruct (Nat.leb_spec n j); [lia|]. destruct ds as [|d ds]; [cbn in Hd; lia|].
  assert (exists t ds1, (if j =? 0 then Ok (i, d :: ds) else draw (n - j) (d :: ds)) = Ok (t, ds1) /\ t < n - j /\ length (d :: ds) <= 1 + length ds1 /\ m <= length ds1) as (t & ds1 & Et & Ht & Hd1 & Hd2).
  { destruct (Nat.eqb_spec j 0) as [->|Hj0]; [exists i, (d :: ds); cbn in *; repeat split; lia|]. cbn [draw]. exists (d mod (n - j)), ds. split; auto. split; [apply Nat.mod_upper_bound; lia|]. cbn in *. lia. }
  rewrite Et. cbn [rbind]. unfold gene. destruct (nth_error tab t) as [l|] eqn:El; [|apply nth_error_None in El; lia]. cbn [of_opt rbind]. destruct (swap_at_total tab t (n - 1 - j)) as (tab1 & Es); [lia|lia|]. rewrite Es. cbn [of_opt rbind].
  destruct (IH (S j) tab1 ds1) as (ls & ts & tab' & ds' & E & Hd'); [erewrite swap_at_length by eauto; auto|auto|lia|lia|]. rewrite E. cbn [rbind]. eexists _, _, _, _. split; [reflexivity|]. lia.
Qed.
Lemma random_tables_total n k ds : k < n -> n * S k <= length ds -> exists ls ds', random_tables n k ds = Ok (ls, ds').
Proof.
  intros Hk. unfold random_tables. assert (G : forall todo i ds, i + todo = n -> todo * S k <= length ds -> exists ls ds', random_links n k i todo (seq 0 n) ds = Ok (ls, ds')); [|intros; apply (G n 0 ds); auto].
  induction todo as [|m IH]; intros i ds0 Hi Hd; cbn [random_links]; [eauto|].
  destruct (choose_loop_total n i (S k) 0 (seq 0 n) ds0) as (l & ts & tab & ds1 & E & Hd1); [apply seq_length|lia|lia|cbn in Hd |- *; lia|].
  destruct (choose_loop_ok n i (S k) 0 (seq 0 n) ds0 l ts tab ds1) as (_ & _ & _ & Hp & _); [apply seq_length|apply seq_NoDup|lia|auto|].
  unfold choose. rewrite E. cbn [rbind]. rewrite Hp. cbn [rbind]. destruct (IH (S i) ds1) as (ls & ds2 & E2); [lia|cbn in Hd; lia|]. rewrite E2. cbn [rbind]. eauto.
Qed.
Lemma consecutive_tables_ok n k : k < n -> links_ok n k (consecutive_tables n k) /\ forall i, i < n -> hd_error (nth i (consecutive_tables n k) []) = Some i.
Proof.
  intros Hk. unfold consecutive_tables. split; [split|].
  - rewrite map_length, seq_length. auto.
  - intros l Hl. apply in_map_iff in Hl as (i & <- & Hi). apply in_seq in Hi. split; [rewrite map_length, seq_length; auto|]. split.
    + apply NoDup_nth with (d := 0). rewrite map_length, seq_length. intros a b Ha Hb. 
      rewrite !(nth_indep _ 0 ((i + 0) mod n)) by (rewrite map_length, seq_length; auto). rewrite !(map_nth (fun j => (i + j) mod n)), !seq_nth by auto. cbn [Nat.add]. intros E.
      assert (Da := Nat.div_mod (i + a) n ltac:(lia)). assert (Db := Nat.div_mod (i + b) n ltac:(lia)). rewrite E in Da. 
      destruct (Nat.lt_trichotomy ((i + a) / n) ((i + b) / n)) as [H|[H|H]]; [|rewrite H in Da; lia|]; nia.
    + intros v Hv. apply in_map_iff in Hv as (j & <- & Hj). apply Nat.mod_upper_bound. lia.
  - intros i Hi. rewrite (nth_indep _ [] (map (fun j => (0 + j) mod n) (seq 0 (S k)))) by (rewrite map_length, seq_length; auto). rewrite (map_nth (fun i => map (fun j => (i + j) mod n) (seq 0 (S k)))), seq_nth by auto. cbn [seq map hd_error]. f_equal. rewrite Nat.add_0_r, Nat.add_0_l. apply Nat.mod_small. auto.
Qed.
