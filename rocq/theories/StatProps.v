(** C131-C133: the statistics of mo. *)
From Coq Require Import Bool QArith Arith Lia Lqa Permutation Sorted.
From Verif Require Import Lib Outcome OrderSpec OrderLemmas BoundsModel BoundsProofs EvalModel EvalProofs DivProofs NeighModel NeighProofs LsModel StatModel StatSpec StatProofs StatCorr StatNh.
From Coq Require Import List.
Import ListNotations.
Close Scope Q_scope.
Open Scope nat_scope.

(** C131: the statistics are those of the neighbors the neighborhood visits: best, worst, mean,
    standard deviation, quartiles, size and the numbers of better, equal and worse neighbors *)
Theorem C131_neighborhood (G F S I : Type) (lt eq : F -> F -> bool) has (nh : G -> iterator S I) neval val as_fit sqrt sort fuel
    (s : sol G F) f0 st n ds visited n' ds' (fs : list F) :
  strict_weak_order lt -> std_sort_ok sort -> (forall x y, (x == y -> sqrt x == sqrt y)%Q) ->
  has (geno s) = true -> fit s = Some f0 ->
  explore (nh (geno s)) fuel n ds = Ok (visited, n', ds') -> Forall2 (fun i f => neval s i = Ok f) visited fs ->
  exists r, neighborhood_stat G F S I lt eq has nh neval val as_fit sqrt sort fuel s st n ds = Ok (true, Some r, n', ds') /\
  is_best lt fs (n_max F r) /\ is_worst lt fs (n_min F r) /\ (n_mean F r == average (map val fs))%Q /\ n_nb F r = length fs /\
  n_equal F r = how_many (eq f0) fs /\ n_sup F r = how_many (fun f => negb (eq f0 f) && lt f0 f) fs /\
  n_inf F r + n_equal F r + n_sup F r = length fs /\
  (2 <= length fs -> (n_sd F r == sqrt (scatter (map val fs) / (inject_Z (Z.of_nat (length fs)) - 1)))%Q /\
     exists v1 v2 v3, ranked (map val fs) (length fs / 4) v1 /\ ranked (map val fs) (length fs / 2) v2 /\ ranked (map val fs) (3 * length fs / 4) v3 /\
       n_q1 F r = as_fit v1 /\ n_q2 F r = as_fit v2 /\ n_q3 F r = as_fit v3) /\
  (length fs = 1 -> n_sd F r = 0%Q /\ n_q1 F r = n_max F r /\ n_q2 F r = n_max F r /\ n_q3 F r = n_max F r).
Proof.
  intros Hl Hs Hq Hh E Ex Hf.
  destruct (neighborhood_stat_ok G F S I lt eq has nh neval val as_fit sqrt sort Hl Hs Hq fuel s f0 st n ds visited n' ds' fs Hh E Ex Hf) as (r & Er & H1 & H2 & H3 & H4 & H5 & H6 & H7 & H8 & H9).
  exists r. split; [exact Er|]. do 6 (split; [auto|]). split; [|auto]. rewrite H5, H6, H7. unfold how_many, worse_or_same.
  clear. induction fs as [|f fs IH]; cbn [filter length]; auto. destruct (eq f0 f), (lt f0 f); cbn [andb negb length]; lia.
Qed.
Print Assumptions C131_neighborhood.

(** for instance with the neighborhoods that visit the neighbors in order: all of them count *)
Theorem C131_all_neighbors (G F : Type) (lt eq : F -> F -> bool) size (full : G -> nat -> F) val as_fit sqrt sort (s : sol G F) f0 st n ds :
  strict_weak_order lt -> std_sort_ok sort -> (forall x y, (x == y -> sqrt x == sqrt y)%Q) -> fit s = Some f0 -> 0 < size ->
  let fs := map (full (geno s)) (seq 0 size) in
  exists r, neighborhood_stat G F nat nat lt eq (fun _ => 0 <? size) (fun _ => order_nh size) (fun s i => Ok (full (geno s) i)) val as_fit sqrt sort size s st n ds =
    Ok (true, Some r, size - 1, ds) /\ n_nb F r = size /\ is_best lt fs (n_max F r) /\ is_worst lt fs (n_min F r) /\ (n_mean F r == average (map val fs))%Q /\
  n_sup F r = how_many (fun f => negb (eq f0 f) && lt f0 f) fs.
Proof.
  intros Hl Hs Hq E Hn fs.
  destruct (C131_neighborhood G F nat nat lt eq (fun _ => 0 <? size) (fun _ => order_nh size) (fun s i => Ok (full (geno s) i)) val as_fit sqrt sort size s f0 st n ds (seq 0 size) (size - 1) ds fs)
    as (r & Er & H1 & H2 & H3 & H4 & H5 & H6 & _); auto.
  - apply Nat.ltb_lt. auto.
  - apply order_explores. auto.
  - unfold fs. generalize (seq 0 size). intros l. induction l; cbn; constructor; auto.
  - exists r. split; [exact Er|]. unfold fs in H4 at 1. rewrite map_length, seq_length in H4. auto.
Qed.
Print Assumptions C131_all_neighbors.

Example C131_eg : match neighborhood_stat (list Q) Q nat nat qltb Qeq_bool (fun g => 0 <? length g) (fun g => order_nh (length g)) (fun s i => of_opt (nth_error (geno s) i))
    (fun x => x) (fun x => x) (fun x => x) the_sort 10 (Sol [5; 1; 3; 7; 3]%Q (Some 3%Q)) (true, None) 0 [] with
  | Ok (v, Some r, _, _) => v = true /\ n_max Q r = 7%Q /\ n_min Q r = 1%Q /\ (n_mean Q r == 19 # 5)%Q /\ n_nb Q r = 5 /\ n_inf Q r = 1 /\ n_equal Q r = 2 /\ n_sup Q r = 2 /\
      n_q1 Q r = 3%Q /\ n_q2 Q r = 3%Q /\ n_q3 Q r = 5%Q /\ (n_sd Q r == 26 # 5)%Q
  | _ => False end.
Proof. vm_compute. auto 20. Qed.

(** C132: min, max, average, standard deviation *)
Theorem C132_basic sqrt (data : list Q) : (forall x y, (x == y -> sqrt x == sqrt y)%Q) -> data <> [] ->
  exists mn mx avg sd, basic sqrt data = (mn, mx, avg, sd) /\ In mn data /\ In mx data /\ (forall x, In x data -> mn <= x /\ x <= mx)%Q /\
  (avg == average data)%Q /\ (0 < variance data -> sd == sqrt (variance data))%Q /\ (variance data == 0 -> sd == 0)%Q.
Proof.
  intros Hq H. destruct (basic_ok sqrt data Hq H) as (mn & mx & avg & sd & E & H1 & H2 & H3 & H4 & H5). exists mn, mx, avg, sd. split; [auto|]. do 4 (split; [auto|]).
  split; intros V; rewrite H5.
  - apply qltb_lt in V. rewrite V. reflexivity.
  - replace (qltb 0 (variance data)) with false by (symmetry; apply qltb_ge; lra). reflexivity.
Qed.
Print Assumptions C132_basic.

(** C132: the matrix of distances *)
Lemma distances_loop {T} (dist : T -> T -> Q) (data : list T) (x0 : T) : (forall x y, dist x y = dist y x) -> (forall x, dist x x = 0%Q) ->
  distance_matrix dist data = Ok (mat (length data) (fun i j => dist (nth i data x0) (nth j data x0))).
Proof.
  intros Sy Z. unfold distance_matrix. rewrite repeat_mat. set (n := length data). set (D := fun i j => dist (nth i data x0) (nth j data x0)).
  match goal with |- for_in _ ?b _ = _ => destruct (for_in_seq (fun i mt => exists f, mt = mat n f /\ forall a c, a < i -> c < i -> f a c = D a c) b n 0 (mat n (fun _ _ => 0%Q))) as (m & E & f & -> & H) end.
  - eexists. split; [reflexivity|]. intros; lia.
  - intros i m Hi (f & -> & H). rewrite mat_put by lia. cbn [rbind]. set (f1 := fun a b => if (a =? i) && (b =? i) then 0%Q else f a b).
    match goal with |- exists m', for_in _ ?b _ = _ /\ _ => destruct (for_in_seq (fun j mt => exists g, mt = mat n g /\ (forall a c, a < i -> c < i -> g a c = D a c) /\ g i i = D i i /\
      forall c, c < j -> g i c = D i c /\ g c i = D c i) b i 0 (mat n f1)) as (m & E & g & -> & G1 & G2 & G3) end.
    + exists f1. split; [auto|]. split; [|split; [|intros; lia]].
      * intros a c Ha Hc. unfold f1. destruct (Nat.eqb_spec a i); [lia|]. cbn. auto.
      * unfold f1, D. rewrite Nat.eqb_refl. cbn. rewrite Z. auto.
    + intros j m Hj (g & -> & G1 & G2 & G3). rewrite (nth_error_nth' data x0) by (fold n; lia). cbn [of_opt rbind]. rewrite (nth_error_nth' data x0) by (fold n; lia). cbn [of_opt rbind].
      rewrite mat_put by lia. cbn [rbind]. rewrite mat_at by lia. cbn [rbind]. rewrite mat_put by lia. eexists. split; [reflexivity|]. eexists. split; [reflexivity|]. cbv beta.
      rewrite !Nat.eqb_refl. cbn [andb]. fold (D i j). split; [|split].
      * intros a c Ha Hc. destruct (Nat.eqb_spec c i), (Nat.eqb_spec a i); try lia. rewrite andb_false_r. cbn. auto.
      * destruct (Nat.eqb_spec i j); [lia|]. cbn. auto.
      * intros c Hc. destruct (Nat.eqb_spec c i), (Nat.eqb_spec i j); try lia. cbn [andb]. rewrite ?andb_true_r, ?andb_false_r. destruct (Nat.eqb_spec c j) as [->|Hn].
        -- split; [auto|]. unfold D. apply Sy.
        -- apply G3. lia.
    + exists (mat n g). split; [exact E|]. exists g. split; [auto|]. intros a c Ha Hc.
      destruct (Nat.eq_dec a i) as [->|Hna], (Nat.eq_dec c i) as [->|Hnc]; auto; try (apply G3; lia). apply G1; lia.
  - rewrite E. f_equal. apply mat_ext. intros i j Hi Hj. apply H; lia.
Qed.
Theorem C132_distances (T : Type) (dist : T -> T -> Q) (data : list T) : (forall x y, dist x y = dist y x) -> (forall x, dist x x = 0%Q) ->
  exists mt, distance_matrix dist data = Ok mt /\ length mt = length data /\
  forall i j x y, nth_error data i = Some x -> nth_error data j = Some y -> exists row, nth_error mt i = Some row /\ length row = length data /\ nth_error row j = Some (dist x y).
Proof.
  intros Sy Z. destruct data as [|x0 l].
  - exists []. split; [reflexivity|]. split; [auto|]. intros [|i] j x y; discriminate.
  - rewrite (distances_loop dist (x0 :: l) x0 Sy Z). eexists. split; [reflexivity|]. split; [unfold mat; rewrite map_length, seq_length; auto|].
    intros i j x y Ei Ej. assert (Hi : i < length (x0 :: l)) by (apply nth_error_Some; congruence). assert (Hj : j < length (x0 :: l)) by (apply nth_error_Some; congruence).
    unfold mat. rewrite nth_error_map', nth_error_seq' by auto. cbn [option_map Nat.add]. eexists. split; [reflexivity|]. split; [unfold vec; rewrite map_length, seq_length; auto|].
    rewrite vec_nth by auto. f_equal. rewrite (nth_error_nth _ _ x0 Ei), (nth_error_nth _ _ x0 Ej). auto.
Qed.
Print Assumptions C132_distances.

(** C132: the coefficient of lag [s] is the correlation of the data without its last [s] values and
    the data without its first [s] ones; those of the partial autocorrelation solve the equations
    of Yule and Walker *)
Theorem C132_autocorrelation sqrt (data : list Q) (nbS : nat) : (forall x y, (x == y -> sqrt x == sqrt y)%Q) -> 1 <= nbS < length data ->
  exists rho phi, autocorrelation sqrt data nbS = Ok (map rho (seq 0 (nbS + 1)), map phi (seq 0 (nbS + 1))) /\
  rho 0%nat = 1%Q /\ phi 0%nat = 1%Q /\
  (forall s, 1 <= s <= nbS -> let early := firstn (length data - s) data in let late := skipn s data in
     (0 < variance early -> 0 < variance late -> rho s == covariance early late / (sqrt (variance late) * sqrt (variance early)))%Q) /\
  (forall k, 1 <= k <= nbS -> (forall j a, j < k -> yule_walker rho j a -> ~ (unexplained rho a j == 0)%Q) ->
     exists a, yule_walker rho k a /\ phi k = a k).
Proof.
  intros Hq Hn. unfold autocorrelation. assert (Hd : data <> []) by (destruct data; [cbn in Hn; lia|discriminate]).
  destruct (correlations_ok data sqrt Hq nbS) as (rho & Er & R0 & Rs); [lia|].
  destruct (partials_ok nbS rho) as (f & Ef & Hf); [rewrite R0; reflexivity|lia|].
  assert (R : forall X Y : res (list Q * list Q), match data with [] => X | _ :: _ => Y end = Y) by (intros; destruct data; [congruence|auto]). rewrite R. clear R.
  rewrite Er. cbn [rbind]. rewrite Ef. cbn [rbind]. rewrite repeat_vec, vec_upd by lia. cbn [of_opt rbind].
  match goal with |- context [for_in (seq 1 nbS) ?b ?x] => destruct (for_in_seq (fun j ph => exists phi, ph = vec (S nbS) phi /\ phi 0 = 1%Q /\ forall i, 1 <= i < j -> phi i = f i i) b nbS 1 x) as (ph & E & phi & -> & P0 & Ps) end.
  - eexists. split; [reflexivity|]. split; [auto|]. intros; lia.
  - intros j ph Hj (phi & -> & P0 & Ps). rewrite mat_at by lia. cbn [rbind]. rewrite vec_upd by lia. eexists. split; [reflexivity|]. eexists. split; [reflexivity|]. cbv beta.
    split; [destruct j; [lia|auto]|]. intros i Hi. destruct (Nat.eqb_spec i j) as [->|]; auto. apply Ps. lia.
  - rewrite E. cbn [rbind]. exists rho, phi. replace (nbS + 1) with (S nbS) by lia. split; [reflexivity|]. split; [auto|]. split; [auto|]. split.
    + intros s Hs. exact (Rs s Hs).
    + intros k Hk U. exists (f k). split; [apply Hf; auto|]. apply Ps. lia.
Qed.
Print Assumptions C132_autocorrelation.
(** non-vacuity: the prediction errors are not zero for the autocorrelations 1, 1/2, 1/8 *)
Definition eg_rho (k : nat) : Q := match k with 0 => 1%Q | 1 => (1#2)%Q | 2 => (1#8)%Q | _ => 0%Q end.
Example C132_eg_levinson : (forall j a, j < 2 -> yule_walker eg_rho j a -> ~ (unexplained eg_rho a j == 0)%Q) /\
  yule_walker eg_rho 2 (fun j => match j with 1 => (7#12)%Q | _ => (-1#6)%Q end).
Proof.
  split.
  - intros [|[|j]] a Hj Y; [unfold unexplained; cbn; lra| |lia]. specialize (Y 1 ltac:(lia)). unfold unexplained. cbn [sum1 gap Nat.sub Nat.add eg_rho] in *. lra.
  - intros i Hi. assert (i = 1 \/ i = 2) as [->| ->] by lia; vm_compute; reflexivity.
Qed.
Example C132_eg : match autocorrelation (fun x => x) [1; 3; 2; 5; 4]%Q 2 with Ok ([a; b; c], [e; f; g]) => (a == 1 /\ e == 1 /\ ~ b == 0 /\ f == b /\ ~ c == 0 /\ ~ g == 0)%Q | _ => False end /\
  distance_matrix (fun a b => Qred ((a - b) * (a - b))) [1; 3; 7]%Q = Ok [[0; 4; 36]; [4; 0; 16]; [36; 16; 0]]%Q /\
  match basic (fun x => x) [2; 1; 6]%Q with (mn, mx, avg, sd) => (mn = 1 /\ mx = 6 /\ avg == 3 /\ sd == 14 # 3)%Q end.
Proof. vm_compute. repeat split; auto; discriminate. Qed.

(** C133: with no lag at all the coefficients of order 1 are read outside the vectors *)
Theorem C133_no_lag_refuted sqrt (data : list Q) : data <> [] -> autocorrelation sqrt data 0 = UB.
Proof. intros H. unfold autocorrelation. destruct data as [|x l]; [congruence|]. reflexivity. Qed.
Print Assumptions C133_no_lag_refuted.
(** C133: a solution without neighbors leaves the statistics of the previous one, if any *)
Theorem C133_stale_statistics (G F S I : Type) (lt eq : F -> F -> bool) has (nh : G -> iterator S I) neval val as_fit sqrt sort fuel (s : sol G F) st n ds :
  has (geno s) = false -> neighborhood_stat G F S I lt eq has nh neval val as_fit sqrt sort fuel s st n ds = Ok (false, snd st, n, ds).
Proof. intros H. unfold neighborhood_stat. rewrite H. auto. Qed.
Print Assumptions C133_stale_statistics.
Example C133_eg : autocorrelation (fun x => x) [1; 2; 3]%Q 0 = UB.
Proof. reflexivity. Qed.
