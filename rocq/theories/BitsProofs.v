(** Proofs about the neighborhoods flipping several bits. *)
From Coq Require Import List Arith Bool NArith Permutation Lia Sorted.
From Verif Require Import Outcome Lib ArchProofs DomProofs HvProofs NeighModel NeighSpec NeighProofs BitsModel BitsSpec.
Import ListNotations.
Open Scope nat_scope.

(** ** a reference enumeration, in lexicographic order *)
Fixpoint combs (n : nat) (lo k : nat) : list (list nat) :=
  match k with
  | 0 => [[]]
  | S j => flat_map (fun y => map (cons y) (combs n (S y) j)) (seq lo (n - lo))
  end.
(** those after [l] *)
Fixpoint after (n : nat) (l : list nat) : list (list nat) :=
  match l with
  | [] => []
  | x :: r => map (cons x) (after n r) ++ flat_map (fun y => map (cons y) (combs n (S y) (length r))) (seq (S x) (n - S x))
  end.
Lemma combs_first n : forall k lo, lo + k <= n -> combs n lo k = seq lo k :: after n (seq lo k).
Proof.
  induction k as [|k IH]; intros lo H; [reflexivity|]. cbn [combs seq after]. replace (n - lo) with (S (n - S lo)) by lia. cbn [seq flat_map]. rewrite IH by lia. cbn [map app].
  rewrite seq_length. auto.
Qed.
Lemma combs_none n : forall k lo, n < lo + k -> 0 < k -> combs n lo k = [].
Proof.
  induction k as [|k IH]; intros lo H Hk; [lia|]. cbn [combs].
  assert (G : forall m lo', lo <= lo' -> lo' + m = lo + (n - lo) -> flat_map (fun y => map (cons y) (combs n (S y) k)) (seq lo' m) = []).
  { induction m as [|m IHm]; intros lo' L1 L2; [reflexivity|]. cbn [seq flat_map]. rewrite IHm by lia. rewrite app_nil_r. destruct k as [|k]; [lia|]. rewrite IH by lia. auto. }
  apply G; lia.
Qed.
Lemma after_sat n : forall k, k <= n -> after n (seq (n - k) k) = [].
Proof.
  induction k as [|k IH]; intros H; [reflexivity|]. cbn [seq after]. replace (S (n - S k)) with (n - k) by lia. rewrite IH by lia. cbn [map app]. rewrite seq_length.
  assert (G : forall m lo', n - k <= lo' -> lo' + m <= n -> flat_map (fun y => map (cons y) (combs n (S y) k)) (seq lo' m) = []).
  { induction m as [|m IHm]; intros lo' L1 L2; [reflexivity|]. cbn [seq flat_map]. rewrite IHm by lia. rewrite combs_none by lia. auto. }
  apply G; lia.
Qed.
Lemma after_step n : forall a x k, x + 1 + k < n -> after n (a ++ x :: seq (n - k) k) = (a ++ seq (S x) (S k)) :: after n (a ++ seq (S x) (S k)).
Proof.
  induction a as [|y a IH]; intros x k H; cbn [app].
  - cbn [after seq]. rewrite after_sat by lia. cbn [map app]. rewrite !seq_length. replace (n - S x) with (S (n - S (S x))) by lia. cbn [seq flat_map].
    rewrite combs_first by lia. cbn [map app]. auto.
  - cbn [after]. rewrite IH by auto. cbn [map app]. f_equal. rewrite !app_length. cbn [length]. rewrite !seq_length. auto.
Qed.
Lemma combs_In n : forall k lo l, In l (combs n lo k) <-> length l = k /\ StronglySorted lt l /\ forall x, In x l -> lo <= x < n.
Proof.
  induction k as [|k IH]; intros lo l; cbn [combs].
  - split; [intros [<-|[]]; split; [auto|split; [constructor|intros x []]]|]. intros (H & _). destruct l; [left; auto|discriminate].
  - rewrite in_flat_map. split.
    + intros (y & Hy & Hl). apply in_seq in Hy. apply in_map_iff in Hl as (r & <- & Hr). apply IH in Hr as (L & St & B). split; [cbn; lia|]. split.
      * constructor; auto. apply Forall_forall. intros z Hz. apply B in Hz. lia.
      * intros x [<-|Hx]; [lia|]. apply B in Hx. lia.
    + intros (L & St & B). destruct l as [|y r]; [discriminate|]. inversion St as [|? ? St' F]; subst. exists y. split; [apply in_seq; specialize (B y (or_introl eq_refl)); lia|].
      apply in_map. apply IH. split; [cbn in L; lia|]. split; auto. intros x Hx. rewrite Forall_forall in F. specialize (F x Hx). specialize (B x (or_intror Hx)). lia.
Qed.
Lemma combs_NoDup n : forall k lo, NoDup (combs n lo k).
Proof.
  induction k as [|k IH]; intros lo; cbn [combs]; [constructor; [intros []|constructor]|]. apply flat_map_NoDup; [apply seq_NoDup| |].
  - intros y _. apply FinFun.Injective_map_NoDup; [intros u v E; inversion E; auto|apply IH].
  - intros u v l _ _ Hu Hv. apply in_map_iff in Hu as (r & <- & _). apply in_map_iff in Hv as (q & E & _). inversion E; auto.
Qed.
Lemma combs_subset n d l : In l (combs n 0 d) <-> subset n d l.
Proof.
  rewrite combs_In. unfold subset. split; intros (A & B & C); split; auto; split; auto; intros x Hx; specialize (C x Hx); lia.
Qed.
Lemma binomial_0 n : binomial n 0 = 1. Proof. destruct n; auto. Qed.
Lemma combs_length n : forall m lo, lo + m = n -> forall k, length (combs n lo k) = binomial m k.
Proof.
  induction m as [|m IH]; intros lo H k; destruct k as [|k]; auto.
  - cbn [combs]. replace (n - lo) with 0 by lia. auto.
  - cbn [combs binomial]. replace (n - lo) with (S m) by lia. cbn [seq flat_map]. rewrite app_length, map_length, (IH (S lo)) by lia. f_equal.
    rewrite <- (IH (S lo)) by lia. cbn [combs]. replace (n - S lo) with m by lia. auto.
Qed.

(** ** the loop *)
Definition shape (n d : nat) (bits : list nat) := length bits = d /\ StronglySorted lt bits /\ forall x, In x bits -> x < n.
Lemma sorted_lt_nth (l : list nat) i x y : StronglySorted lt l -> nth_error l i = Some x -> nth_error l (S i) = Some y -> x < y.
Proof.
  intros H. revert i. induction H as [|a l H IH F]; intros i Hx Hy; [destruct i; discriminate|]. destruct i as [|i]; cbn [nth_error] in Hx, Hy.
  - inversion Hx; subst. rewrite Forall_forall in F. apply F. apply (nth_error_In l 0). auto.
  - apply (IH i); auto.
Qed.
Lemma skipn_seq_end (l : list nat) n j : (forall i, j <= i -> i < length l -> nth_error l i = Some (n - (length l - i))) -> skipn j l = seq (n - (length l - j)) (length l - j) \/ n < length l.
Proof.
  intros H. destruct (Nat.lt_ge_cases n (length l)) as [|C]; auto. left. apply nth_error_ext. intros i. rewrite skipn_nth_error.
  destruct (Nat.lt_ge_cases (j + i) (length l)) as [D|D].
  - rewrite H by lia. rewrite nth_error_seq' by lia. f_equal. lia.
  - rewrite (proj2 (nth_error_None l (j + i)) D). symmetry. apply nth_error_None. rewrite seq_length. lia.
Qed.
Lemma scan_ok n bits : shape n (length bits) bits -> length bits <= n -> forall j1, j1 < length bits ->
  (forall i, j1 <= i -> i < length bits -> nth_error bits i = Some (n - (length bits - i))) ->
  (scan bits j1 = Ok None /\ bits = seq (n - length bits) (length bits)) \/
  (exists a x k, scan bits j1 = Ok (Some (length a)) /\ bits = a ++ x :: seq (n - k) k /\ x + 1 + k < n).
Proof.
  intros (_ & St & B) Hn. induction j1 as [|j IH]; intros Hj Sat; cbn [scan].
  - left. split; auto. destruct (skipn_seq_end bits n 0 Sat) as [E|]; [|lia]. cbn [skipn] in E. rewrite Nat.sub_0_r in E. auto.
  - destruct (nth_error_in_some bits j) as [x Hx]; [lia|]. rewrite Hx. cbn [of_opt rbind]. rewrite (Sat (S j)) by lia. cbn [of_opt rbind].
    pose proof (sorted_lt_nth bits j _ _ St Hx (Sat (S j) (le_n _) Hj)) as Lt.
    destruct (Nat.eqb_spec (x + 1) (n - (length bits - S j))) as [E|E].
    + apply IH; [lia|]. intros i Hi Hl. destruct (Nat.eq_dec i j) as [->|]; [|apply Sat; lia]. rewrite Hx. f_equal. lia.
    + right. exists (firstn j bits), x, (length bits - S j). rewrite firstn_length_le by lia. split; auto.
      destruct (skipn_seq_end bits n (S j) Sat) as [E2|]; [|lia]. rewrite <- E2. split; [|lia].
      rewrite <- (firstn_skipn j bits) at 1. f_equal. destruct (skipn j bits) as [|y r] eqn:Es.
      * assert (length (skipn j bits) = 0) by (rewrite Es; auto). rewrite skipn_length in H. lia.
      * assert (Hy : nth_error (skipn j bits) 0 = Some y) by (rewrite Es; auto). rewrite skipn_nth_error, Nat.add_0_r in Hy. assert (y = x) as -> by congruence. f_equal.
        change r with (skipn 1 (x :: r)). rewrite <- Es. rewrite PermProofs.skipn_skipn'. f_equal; lia.
Qed.
Lemma fill_ok : forall r a x, fill (a ++ x :: r) (S (length a)) (length r) = Ok (a ++ seq x (S (length r))).
Proof.
  induction r as [|y r IH]; intros a x; cbn [length fill]; [auto|]. replace (S (length a) - 1) with (length a) by lia. rewrite nth_mid. cbn [of_opt rbind].
  replace (a ++ x :: y :: r) with ((a ++ [x]) ++ y :: r) by (rewrite <- app_assoc; auto). replace (S (length a)) with (length (a ++ [x])) by (rewrite app_length; cbn; lia).
  rewrite upd_mid. cbn [of_opt rbind]. rewrite IH. rewrite <- app_assoc. cbn [app seq]. rewrite Nat.add_1_r. auto.
Qed.
Lemma last_split {A} (l : list A) d : length l = S d -> exists a x, l = a ++ [x] /\ length a = d.
Proof. intros H. destruct l as [|y l] using rev_ind; [discriminate|]. exists l, y. split; auto. rewrite app_length in H. cbn in H. lia. Qed.
Lemma next_ok n d bits : 0 < d -> d <= n -> shape n d bits ->
  (next_subset n d bits = Ok None /\ after n bits = []) \/ (exists b', next_subset n d bits = Ok (Some b') /\ shape n d b' /\ after n bits = b' :: after n b').
Proof.
  intros Hd Hn W. pose proof W as (L & St & B). unfold next_subset. destruct (Nat.eqb_spec d 0); [lia|]. destruct d as [|d]; [lia|]. destruct (last_split bits d L) as (a & x & E & La).
  replace (S d - 1) with d by lia. assert (Hx : nth_error bits d = Some x) by (subst bits d; apply nth_mid). rewrite Hx. cbn [of_opt rbind].
  assert (Bx : x < n) by (apply B; subst bits; apply in_or_app; right; left; auto).
  assert (Good : forall a x k, bits = a ++ x :: seq (n - k) k -> x + 1 + k < n -> shape n (S d) (a ++ seq (S x) (S k))).
  { clear - L St B. intros a x k -> H. rewrite app_length in L. cbn [length] in L. rewrite seq_length in L. split; [rewrite app_length, seq_length; lia|]. split.
    - assert (Sp : forall (p q : list nat), StronglySorted lt p -> StronglySorted lt q -> (forall u v, In u p -> In v q -> u < v) -> StronglySorted lt (p ++ q)).
      { induction p as [|u p IH]; intros q Hp Hq Hpq; cbn; auto. inversion Hp; subst. constructor; [apply IH; auto; intros; apply Hpq; cbn; auto|]. apply Forall_app. split; auto. apply Forall_forall. intros; apply Hpq; cbn; auto. }
      assert (Sq : forall m lo, StronglySorted lt (seq lo m)). { induction m as [|m IHm]; intros lo; cbn; constructor; auto. apply Forall_forall. intros v Hv. apply in_seq in Hv. lia. }
      assert (Sa : StronglySorted lt a /\ forall u, In u a -> u < x).
      { clear - St. induction a as [|u a IH]; cbn in *; [split; [constructor|intros u []]|]. inversion St as [|? ? S1 F]; subst. destruct (IH S1) as [Ha Hb]. rewrite Forall_forall in F. split.
        - constructor; auto. apply Forall_forall. intros v Hv. apply F. apply in_or_app; auto.
        - intros v [<-|Hv]; auto. apply F. apply in_or_app. right. left. auto. }
      destruct Sa as [Sa Ha]. apply Sp; auto. intros u v Hu Hv. apply in_seq in Hv. apply Ha in Hu. lia.
    - intros v Hv. apply in_app_or in Hv as [Hv|Hv]; [apply B; apply in_or_app; auto|apply in_seq in Hv; lia]. }
  destruct (Nat.ltb_spec x (n - 1)) as [C|C].
  - right. exists (a ++ [x + 1]). subst bits d. rewrite upd_mid. cbn [of_opt rbind]. split; auto. replace (x + 1) with (S x) by lia. split.
    + apply (Good a x 0); [auto|lia].
    + apply (after_step n a x 0). lia.
  - destruct (scan_ok n bits) with (j1 := d) as [[Es Eb]|(a' & x' & k & Es & Eb & Hk)]; try (rewrite L; auto); try lia.
    + intros i Hi Hl. assert (i = d) by lia. subst i. rewrite Hx. f_equal. lia.
    + left. rewrite Es. cbn [rbind]. split; auto. rewrite Eb, L. apply after_sat. auto.
    + right. rewrite Es. cbn [rbind]. exists (a' ++ seq (S x') (S k)). rewrite Eb. rewrite nth_mid. cbn [of_opt rbind]. rewrite upd_mid. cbn [of_opt rbind]. split.
      * replace (d - length a') with (length (seq (n - k) k)); [rewrite fill_ok, seq_length, Nat.add_1_r; auto|]. rewrite seq_length. rewrite Eb, app_length in L. cbn [length] in L. rewrite seq_length in L. lia.
      * split; [apply (Good a' x' k); auto|]. apply after_step. auto.
Qed.
Lemma loop_ok n d : 0 < d -> d <= n -> forall fuel bits, shape n d bits -> length (after n bits) < fuel -> subsets_loop fuel n d bits = Ok (after n bits).
Proof.
  intros Hd Hn. induction fuel as [|f IH]; intros bits W Hf; [lia|]. cbn [subsets_loop]. destruct (next_ok n d bits Hd Hn W) as [[E A]|(b' & E & W' & A)]; rewrite E; cbn [rbind]; rewrite A; auto.
  rewrite A in Hf. cbn in Hf. rewrite IH by (auto; lia). auto.
Qed.
Lemma subsets_of_ok n d fuel : 0 < d -> d <= n -> binomial n d <= fuel -> subsets_of fuel n d = Ok (combs n 0 d).
Proof.
  intros Hd Hn Hf. unfold subsets_of. assert (E : combs n 0 d = seq 0 d :: after n (seq 0 d)) by (apply combs_first; lia).
  rewrite loop_ok; auto; [cbn [rbind]; rewrite E; auto| |].
  - assert (I : In (seq 0 d) (combs n 0 d)) by (rewrite E; left; auto). apply combs_subset in I. exact I.
  - pose proof (combs_length n n 0 eq_refl d) as L. rewrite E in L. cbn in L. lia.
Qed.
Lemma subsets_from_ok n fuel : forall cnt d, 0 < d -> d + cnt <= S n -> (forall k, d <= k < d + cnt -> binomial n k <= fuel) ->
  subsets_from fuel n d cnt = Ok (flat_map (combs n 0) (seq d cnt)).
Proof.
  induction cnt as [|c IH]; intros d Hd Hn Hf; cbn [subsets_from seq flat_map]; auto. rewrite subsets_of_ok; try lia; [|apply Hf; lia]. cbn [rbind]. rewrite IH; auto; try lia.
  intros k Hk. apply Hf. lia.
Qed.
Lemma all_once n lo cnt : all_subsets_once n lo (lo + cnt - 1) (flat_map (combs n 0) (seq lo cnt)) \/ cnt = 0.
Proof.
  destruct cnt as [|c]; auto. left. split.
  - apply flat_map_NoDup; [apply seq_NoDup|intros; apply combs_NoDup|]. intros a b l _ _ Ha Hb. apply combs_subset in Ha as (<- & _). apply combs_subset in Hb as (<- & _). auto.
  - intros l. rewrite in_flat_map. split.
    + intros (d & Hd & Hl). apply in_seq in Hd. apply combs_subset in Hl. exists d. split; auto. lia.
    + intros (d & Hd & Hl). exists d. split; [apply in_seq; lia|]. apply combs_subset. auto.
Qed.
Definition total_subsets (n k : nat) (exact : bool) : nat := if exact then binomial n k else binomial_sum n k.
Lemma binomial_sum_length n k : length (flat_map (combs n 0) (seq 1 k)) = binomial_sum n k.
Proof.
  induction k as [|k IH]; auto. rewrite seq_S, flat_map_app, app_length, IH. cbn [flat_map binomial_sum]. rewrite app_nil_r. f_equal. apply combs_length. auto.
Qed.
Lemma binomial_sum_le n k j : 1 <= j <= k -> binomial n j <= binomial_sum n k.
Proof. induction k as [|k IH]; intros H; [lia|]. cbn [binomial_sum]. destruct (Nat.eq_dec j (S k)) as [->|]; [lia|]. specialize (IH ltac:(lia)). lia. Qed.
Theorem neighbors_vec_ok n nBits exact fuel : 0 < nBits <= n -> total_subsets n nBits exact <= fuel ->
  exists vec, neighbors_vec fuel n nBits exact = Ok vec /\ length vec = total_subsets n nBits exact /\ all_subsets_once n (if exact then nBits else 1) nBits vec.
Proof.
  intros H Hf. unfold neighbors_vec, total_subsets in *. destruct exact.
  - rewrite subsets_from_ok; try lia; [|intros k Hk; assert (k = nBits) by lia; subst; auto]. eexists. split; [reflexivity|].
    split; [cbn [seq flat_map]; rewrite app_nil_r; apply combs_length; auto|]. destruct (all_once n nBits 1) as [G|]; [|lia]. replace (nBits + 1 - 1) with nBits in G by lia. auto.
  - rewrite subsets_from_ok; try lia; [|intros k Hk; pose proof (binomial_sum_le n nBits k ltac:(lia)); lia]. eexists. split; [reflexivity|]. split; [apply binomial_sum_length|].
    destruct (all_once n 1 nBits) as [G|]; [|lia]. replace (1 + nBits - 1) with nBits in G by lia. auto.
Qed.

(** ** numberOfNeighbors *)
Lemma falling32_ok : forall cnt acc k, (acc * N.of_nat (falling k cnt) < two32)%N -> falling32 acc k cnt = (acc * N.of_nat (falling k cnt))%N \/ falling k cnt = 0.
Proof.
  induction cnt as [|c IH]; intros acc k H; cbn [falling32 falling] in *; [left; cbn; lia|]. destruct (Nat.eq_dec (k * falling (k - 1) c) 0) as [|Hz]; auto. left.
  assert (Hf : falling (k - 1) c <> 0) by (intros E; rewrite E in Hz; lia).
  assert (E : ((acc * N.of_nat k) mod two32 = acc * N.of_nat k)%N).
  { apply N.mod_small. rewrite Nat2N.inj_mul in H. assert (1 <= N.of_nat (falling (k - 1) c))%N by lia. nia. }
  rewrite E. destruct (IH (acc * N.of_nat k)%N (k - 1)) as [G|]; [|rewrite G|lia]; rewrite Nat2N.inj_mul in *; lia.
Qed.
Lemma falling_pos : forall k n, k <= n -> 0 < falling n k.
Proof. induction k as [|k IH]; intros n H; cbn [falling]; [lia|]. specialize (IH (n - 1) ltac:(lia)). nia. Qed.
(** n (n-1) ... (n-k+1) = C(n,k) k! *)
Lemma falling_S n k : falling (S n) (S k) = falling n (S k) + S k * falling n k.
Proof.
  revert n. induction k as [|k IH]; intros n; [cbn [falling]; lia|]. cbn [falling]. cbn [falling] in IH. replace (S n - 1) with n by lia.
  destruct n as [|n]; [cbn [falling]; lia|]. specialize (IH n). replace (S n - 1) with n in * by lia. cbn [falling] in *.
  replace (S n * (n * falling (n - 1) k)) with (S n * (n * falling (n - 1) k)) by auto. nia.
Qed.
Lemma falling_binomial : forall n k, falling n k = binomial n k * fact k.
Proof.
  induction n as [|n IH]; intros [|k]; cbn [binomial]; auto.
  rewrite falling_S, (IH (S k)), (IH k). change (fact (S k)) with (S k * fact k). nia.
Qed.
Lemma fact32_ok d : (N.of_nat (fact d) < two32)%N -> fact32 d = N.of_nat (fact d).
Proof.
  induction d as [|d IH]; intros H; [reflexivity|]. cbn [fact32]. change (fact (S d)) with (S d * fact d) in *. pose proof (lt_O_fact d). rewrite Nat2N.inj_mul in H.
  rewrite IH by nia. rewrite N.mod_small by nia. lia.
Qed.
Theorem number_of_ok n d : d <= n -> (N.of_nat (falling n d) < two32)%N -> number_of n d = Ok (N.of_nat (binomial n d)).
Proof.
  intros Hd H. unfold number_of. pose proof (falling_pos d n Hd) as P. pose proof (falling_binomial n d) as E. pose proof (lt_O_fact d) as F.
  assert (B : 0 < binomial n d) by (destruct (binomial n d); [rewrite E in P; cbn in P; lia|lia]).
  assert (Hf : (N.of_nat (fact d) < two32)%N) by (assert (fact d <= falling n d) by (rewrite E; nia); lia).
  rewrite fact32_ok by auto. destruct (N.eqb_spec (N.of_nat (fact d)) 0) as [|Hne]; [lia|]. destruct (Nat.leb_spec d n); [|lia].
  destruct (falling32_ok d 1 n) as [G|G]; [lia| |lia]. rewrite G, E, Nat2N.inj_mul. f_equal. rewrite N.mul_1_l. apply N.div_mul. auto.
Qed.
Lemma number_upto_ok n : forall k, k <= n -> (forall d, d <= k -> (N.of_nat (falling n d) < two32)%N) -> (N.of_nat (binomial_sum n k) < two32)%N -> number_upto n k = Ok (N.of_nat (binomial_sum n k)).
Proof.
  induction k as [|k IH]; intros Hk Hf Hs; [reflexivity|]. cbn [number_upto binomial_sum] in *. rewrite IH; try lia; [|intros; apply Hf; lia]. cbn [rbind]. rewrite number_of_ok by (auto; apply Hf; lia). cbn [rbind].
  f_equal. rewrite N.mod_small; lia.
Qed.
Theorem size_ok n nBits exact : nBits <= n -> (forall d, d <= nBits -> (N.of_nat (falling n d) < two32)%N) -> (N.of_nat (binomial_sum n nBits) < two32)%N ->
  neighborhood_size n nBits exact = Ok (N.of_nat (total_subsets n nBits exact)).
Proof. intros H Hf Hs. unfold neighborhood_size, total_subsets. destruct exact; [apply number_of_ok; auto|apply number_upto_ok; auto]. Qed.

(** ** exploration *)
Section Explore.
Variable vec : list (list nat).
Variable sample : nat.
Let n := length vec.
Let m := clamp_sample sample n.
Notation it := (bits_without_nh vec n sample).
Lemma clamp_le : 0 < n -> 0 < m <= n.
Proof. unfold m, clamp_sample. intros H. destruct (Nat.ltb_spec n sample), (Nat.eqb_spec sample 0); cbn; lia. Qed.
Lemma bits_continue : 0 < n -> forall fuel s ds, wr_ok n s -> n - maxIndex s <= m -> m - (n - maxIndex s) <= fuel -> m - (n - maxIndex s) <= length ds ->
  exists keys s' ds', continue it fuel s ds = Ok (map (fun k => nth k vec []) keys, s', ds') /\ length keys = m - (n - maxIndex s) /\ wr_ok n s' /\
    exists more, Permutation (keys ++ more) (firstn (maxIndex s) (indexVector s)).
Proof.
  intros Hn. pose proof (clamp_le Hn) as Hm. induction fuel as [|f IH]; intros s ds W H1 Hf Hd; cbn [continue]; cbn [bits_without_nh i_cont i_next]; fold m; destruct (Nat.ltb_spec (n - maxIndex s) m) as [C|C]; try lia.
  - exists [], s, ds. split; auto. split; [cbn; lia|]. split; auto. exists (firstn (maxIndex s) (indexVector s)). auto.
  - destruct ds as [|d ds]; [cbn in Hd; lia|]. cbn in Hd. assert (W2 : maxIndex s <= n) by apply W. destruct (wr_draw_ok n s d ds W) as (s' & key & E & W' & M' & Hk & _ & P'); try lia. rewrite E. cbn [rbind].
    assert (Hkey : key < n).
    { assert (In key (seq 0 n)); [|apply in_seq in H; lia]. apply (Permutation_in (l := indexVector s)); [apply W|]. eapply nth_error_In; eauto. }
    unfold n in Hkey. destruct (nth_error vec key) as [b|] eqn:Eb; [|apply nth_error_None in Eb; lia]. cbn [of_opt rbind].
    destruct (IH s' ds) as (keys & s'' & ds' & E' & L' & W'' & more & Pm); auto; try lia. cbn [bits_without_nh] in E'. rewrite E'. cbn [rbind].
    exists (key :: keys), s'', ds'. split; [cbn [map]; rewrite (nth_error_nth _ _ _ Eb); auto|]. split; [cbn; lia|]. split; auto. exists more. cbn [app]. eapply Permutation_trans; [|apply Permutation_sym, P']. auto.
  - exists [], s, ds. split; auto. split; [cbn; lia|]. split; auto. exists (firstn (maxIndex s) (indexVector s)). auto.
Qed.
Lemma bits_reachable s : 0 < n -> reachable it (wr_start n) s -> wr_ok n s.
Proof.
  intros Hn R. pose proof (clamp_le Hn) as Hm. induction R as [|s ds s' x ds' R IH E|s ds s' x ds' R IH C E].
  - apply wr_start_ok.
  - cbn [bits_without_nh i_init] in E. assert (W : wr_ok n {| maxIndex := n; indexVector := indexVector s |}) by (split; cbn; [apply IH|lia]).
    destruct ds as [|d ds]; [unfold wr_draw in E; cbn in E; destruct n; discriminate|]. destruct (wr_draw_ok n _ d ds W Hn) as (s1 & k & E1 & W1 & _). rewrite E1 in E. cbn [rbind] in E.
    destruct (nth_error vec k); [|discriminate]. inversion E; subst; auto.
  - cbn [bits_without_nh i_next i_cont] in E, C. fold m in C. apply Nat.ltb_lt in C. destruct IH as [P M]. assert (C' : 0 < maxIndex s) by lia.
    destruct ds as [|d ds]; [unfold wr_draw in E; cbn in E; destruct (maxIndex s); discriminate|]. destruct (wr_draw_ok n _ d ds (conj P M) C') as (s1 & k & E1 & W1 & _). rewrite E1 in E. cbn [rbind] in E.
    destruct (nth_error vec k); [|discriminate]. inversion E; subst; auto.
Qed.
Theorem bits_explores s ds : 0 < n -> reachable it (wr_start n) s -> m <= length ds -> NoDup vec ->
  exists out s' ds', explore it n s ds = Ok (out, s', ds') /\ length out = m /\ NoDup out /\ (forall l, In l out -> In l vec) /\ (m = n -> Permutation out vec).
Proof.
  intros Hn R Hd ND. apply bits_reachable in R; auto. pose proof (clamp_le Hn) as Hm. unfold explore. cbn [bits_without_nh i_init].
  assert (W : wr_ok n {| maxIndex := n; indexVector := indexVector s |}) by (split; cbn; [apply R|lia]).
  destruct ds as [|d ds]; [cbn in Hd; lia|]. cbn in Hd. destruct (wr_draw_ok n _ d ds W Hn) as (s1 & k & E1 & W1 & M1 & _ & _ & P1). rewrite E1. cbn [rbind]. cbn [maxIndex indexVector] in M1, P1.
  assert (A : Permutation (firstn n (indexVector s)) (seq 0 n)). { rewrite firstn_all2; [apply R|]. rewrite (Permutation_length (proj1 R)), seq_length. lia. }
  assert (Hk : k < n). { assert (In k (seq 0 n)) by (eapply Permutation_in; [apply A|]; eapply Permutation_in; [apply Permutation_sym, P1|left; auto]). apply in_seq in H. lia. }
  destruct (nth_error vec k) as [b|] eqn:Eb; [|apply nth_error_None in Eb; unfold n in Hk; lia]. cbn [of_opt rbind].
  destruct (bits_continue Hn n s1 ds) as (keys & s2 & ds' & E2 & L & _ & more & P2); auto; try lia. cbn [bits_without_nh] in E2. rewrite E2. cbn [rbind].
  exists (map (fun k => nth k vec []) (k :: keys)), s2, ds'. split; [cbn [map]; rewrite (nth_error_nth _ _ _ Eb); auto|].
  assert (P : Permutation ((k :: keys) ++ more) (seq 0 n)). { cbn [app]. eapply Permutation_trans; [|apply A]. eapply Permutation_trans; [apply perm_skip, P2|apply Permutation_sym, P1]. }
  assert (NDk : NoDup (k :: keys)). { eapply BitProofs.NoDup_app_l. eapply Permutation_NoDup; [apply Permutation_sym, P|apply seq_NoDup]. }
  assert (In_k : forall i, In i (k :: keys) -> i < length vec). { intros i Hi. assert (In i (seq 0 n)) by (eapply Permutation_in; [apply P|]; apply in_or_app; auto). apply in_seq in H. unfold n in H. lia. }
  split; [rewrite map_length; cbn; lia|]. split; [|split].
  - clear - NDk In_k ND. induction NDk as [|i r Hi _ IH]; cbn [map]; constructor; [|apply IH; intros; apply In_k; right; auto].
    intros H. apply in_map_iff in H as (j & E & Hj). apply Hi. assert (i = j); [|subst; auto]. symmetry. apply (proj1 (NoDup_nth vec []) ND); auto; apply In_k; [right; auto|left; auto].
  - intros l Hl. apply in_map_iff in Hl as (i & <- & Hi). apply nth_In. auto.
  - intros Em. assert (length more = 0). { apply Permutation_length in P. rewrite app_length, seq_length in P. cbn [length] in P. lia. }
    destruct more; [|discriminate]. rewrite app_nil_r in P. eapply Permutation_trans; [apply Permutation_map, P|]. unfold n.
    assert (Em' : map (fun k => nth k vec []) (seq 0 (length vec)) = vec); [|rewrite Em'; auto].
    apply nth_error_ext. intros i. destruct (Nat.lt_ge_cases i (length vec)) as [C|C].
    + rewrite nth_error_map', nth_error_seq' by auto. cbn. destruct (nth_error vec i) eqn:Ei; [|apply nth_error_None in Ei; lia]. f_equal. apply nth_error_nth. auto.
    + rewrite (proj2 (nth_error_None vec i) C). apply nth_error_None. rewrite map_length, seq_length. auto.
Qed.
End Explore.

(** ** with replacement *)
Lemma random_bits_ok n : forall cnt k index ds, k + cnt <= n -> cnt <= length ds -> Permutation index (seq 0 n) ->
  exists r index' ds', random_bits n k cnt index ds = Ok (r, index', ds') /\ length r = cnt /\ Permutation index' (seq 0 n) /\ exists more, Permutation (r ++ more) (firstn (n - k) index).
Proof.
  induction cnt as [|c IH]; intros k index ds Hk Hd P; cbn [random_bits].
  - exists [], index, ds. split; auto. split; auto. split; auto. exists (firstn (n - k) index). auto.
  - destruct (Nat.eqb_spec (n - k) 0); [lia|]. destruct ds as [|d ds]; [cbn in Hd; lia|]. cbn [draw rbind]. cbn in Hd.
    assert (L : length index = n) by (rewrite (Permutation_length P), seq_length; auto).
    assert (Hdm : d mod (n - k) < n - k) by (apply Nat.mod_upper_bound; lia).
    destruct (swap_out index (d mod (n - k)) (n - k)) as (l & b & E & K & L' & P' & _); try lia. rewrite K. cbn [of_opt rbind].
    pose proof E as E0. unfold swap_at in E. rewrite K in E. cbn [obind] in E. destruct (nth_error index (n - k - 1)) as [e|]; [|discriminate]. cbn [obind of_opt rbind] in *.
    destruct (upd index (d mod (n - k)) e) as [i1|]; [|discriminate]. cbn [obind of_opt rbind] in *. rewrite E. cbn [of_opt rbind].
    destruct (IH (S k) l ds) as (r & index' & ds' & E' & Lr & Pi & more & Pm); try lia; [eapply Permutation_trans; [eapply swap_at_perm; eauto|auto]|].
    rewrite E'. cbn [rbind]. exists (b :: r), index', ds'. split; auto. split; [cbn; lia|]. split; auto. exists more. cbn [app]. eapply Permutation_trans; [|apply Permutation_sym, P'].
    apply perm_skip. replace (n - k - 1) with (n - S k) by lia. auto.
Qed.
Theorem random_exact n nBits size nSize index ds : nBits <= n -> nBits <= length ds -> Permutation index (seq 0 n) ->
  exists r index' ds', random_neighbor n nBits size true nSize index ds = Ok (r, index', ds') /\ length r = nBits /\ NoDup r /\ (forall x, In x r -> x < n) /\ Permutation index' (seq 0 n).
Proof.
  intros H Hd P. unfold random_neighbor. destruct (random_bits_ok n nBits 0 index ds) as (r & i' & ds' & E & L & Pi & more & Pm); auto. exists r, i', ds'. split; auto. split; auto.
  rewrite Nat.sub_0_r, firstn_all2 in Pm by (rewrite (Permutation_length P), seq_length; auto).
  assert (Pm' : Permutation (r ++ more) (seq 0 n)) by (eapply Permutation_trans; eauto).
  split; [eapply BitProofs.NoDup_app_l; eapply Permutation_NoDup; [apply Permutation_sym, Pm'|apply seq_NoDup]|]. split; auto.
  intros x Hx. assert (In x (seq 0 n)) by (eapply Permutation_in; [apply Pm'|apply in_or_app; auto]). apply in_seq in H0. lia.
Qed.
(** without the exact distance: out of bounds, or a single bit *)
Lemma distance_oob nSize n : (forall i s, nth_error nSize i = Some s -> n < s) -> forall fuel d1, distance_loop nSize n d1 fuel = UB.
Proof.
  intros H. induction fuel as [|f IH]; intros d1; cbn [distance_loop]; destruct (nth_error nSize d1) as [s|] eqn:E; auto. apply H in E. destruct (Nat.ltb_spec n s); [auto|lia].
Qed.

(** ** moves *)
Lemma bits_move_ok : forall l (sol : list bool), NoDup l -> (forall x, In x l -> x < length sol) -> exists sol', bits_move l sol = Ok sol' /\ flipped l sol sol'.
Proof.
  induction l as [|b l IH]; intros sol ND H; cbn [bits_move].
  - exists sol. split; auto. split; auto. intros i. split; [intros []|auto].
  - inversion ND as [|? ? N1 N2]; subst. destruct (bit_move_ok b sol) as (s1 & E & L & F & _); [apply H; left; auto|]. rewrite E. cbn [rbind].
    destruct (IH s1 N2) as (s2 & E2 & L2 & F2); [intros x Hx; rewrite L; apply H; right; auto|]. exists s2. split; auto. split; [lia|]. intros i. destruct (F2 i) as [Fa Fb]. split.
    + intros [<-|Hi]; [rewrite Fb by auto; rewrite F, Nat.eqb_refl; auto|]. rewrite Fa by auto. rewrite F. destruct (Nat.eqb_spec i b); [subst; contradiction|auto].
    + intros Hi. rewrite Fb by (intros C; apply Hi; right; auto). rewrite F. destruct (Nat.eqb_spec i b); [subst; exfalso; apply Hi; left; auto|auto].
Qed.
Lemma bits_move_back l (sol sol' : list bool) : NoDup l -> (forall x, In x l -> x < length sol) -> bits_move l sol = Ok sol' -> bits_move l sol' = Ok sol.
Proof.
  intros ND H E. destruct (bits_move_ok l sol ND H) as (s1 & E1 & L1 & F1). assert (s1 = sol') as -> by congruence.
  destruct (bits_move_ok l sol' ND) as (s2 & E2 & L2 & F2); [intros x Hx; rewrite L1; auto|]. rewrite E2. f_equal. apply nth_error_ext. intros i. destruct (F1 i) as [A B], (F2 i) as [A2 B2].
  destruct (in_dec Nat.eq_dec i l) as [Hi|Hi]; [|rewrite B2, B; auto]. rewrite A2, A by auto. destruct (nth_error sol i); cbn; auto. rewrite negb_involutive. auto.
Qed.
Lemma binomial_1 n : binomial n 1 = n.
Proof. induction n as [|n IH]; auto. cbn [binomial]. rewrite IH, binomial_0. lia. Qed.
Lemma binomial_sum_mono n k j : j <= k -> binomial_sum n j <= binomial_sum n k.
Proof. induction 1; auto. cbn [binomial_sum]. lia. Qed.
Lemma random_any n nBits index d ds : 0 < n -> 0 < nBits -> Permutation index (seq 0 n) ->
  let size := binomial_sum n nBits in let r := random_neighbor n nBits size false (map (binomial_sum n) (seq 1 nBits)) index (d :: ds) in
  (d mod size < n -> r = UB) /\ (forall bits index' ds', r = Ok (bits, index', ds') -> length bits = 1).
Proof.
  intros Hn Hb P size r. unfold random_neighbor in r. cbn [draw rbind] in r.
  assert (G : forall i s, nth_error (map (binomial_sum n) (seq 1 nBits)) i = Some s -> n <= s).
  { intros i s H. pose proof (nth_error_lt _ _ _ H) as Hi. rewrite map_length, seq_length in Hi. rewrite nth_error_map', nth_error_seq' in H by auto. inversion H. rewrite <- (binomial_1 n) at 1.
    change (binomial n 1) with (binomial_sum n 1). apply (binomial_sum_mono n (S i) 1). lia. }
  split.
  - intros H. unfold r. cbn [random_neighbor draw rbind]. rewrite distance_oob; auto. intros i s Hs. apply G in Hs. fold size. lia.
  - intros bits index' ds' E. unfold r in E. cbn [random_neighbor draw rbind] in E. destruct nBits as [|k]; [lia|]. destruct (Nat.lt_ge_cases (d mod size) n) as [C|C].
    + rewrite distance_oob in E; [discriminate|]. intros i s Hs. apply G in Hs. fold size. lia.
    + fold size in E. assert (D : distance_loop (map (binomial_sum n) (seq 1 (S k))) (d mod size) 0 (S (S k)) = Ok 1).
      { cbn [distance_loop seq map nth_error]. change (binomial_sum n 1) with (binomial n 1). rewrite binomial_1. destruct (Nat.ltb_spec (d mod size) n); [lia|auto]. }
      rewrite D in E. cbn [rbind random_bits] in E. destruct (Nat.eqb_spec (n - 0) 0); [discriminate|]. destruct (draw (n - 0) ds) as [[i ds1]| | |]; try discriminate. cbn [rbind] in E.
      repeat match type of E with (let! _ := of_opt ?o in _) = _ => destruct o; try discriminate; cbn [of_opt rbind] in E end. inversion E. auto.
Qed.
Lemma overflow_128_5 : number_of 128 5 <> Ok (N.of_nat (binomial 128 5)).
Proof.
  intros H. assert (F : (N.of_nat (binomial 128 5) * 120 = 128 * (127 * (126 * (125 * 124))))%N).
  { change 120%N with (N.of_nat (fact 5)). rewrite <- Nat2N.inj_mul, <- falling_binomial. cbn [falling]. rewrite !Nat2N.inj_mul. reflexivity. }
  revert H F. generalize (N.of_nat (binomial 128 5)). intros b H F. assert (E : number_of 128 5 = Ok 14125141%N \/ True) by auto.
  destruct (number_of 128 5) as [v| | |] eqn:V; try discriminate. inversion H; subst v. clear H E. vm_compute in V. inversion V; subst b. vm_compute in F. discriminate.
Qed.
