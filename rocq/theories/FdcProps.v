(** C179, C180: distances and statistics on a population. *)
From Coq Require Import List Arith Bool Lia Reals Lra.
From Verif Require Import Lib Outcome OrderSpec PopModel PopProofs FitModel FdcModel FdcSpec FdcProofs.
From Coq Require Import List.
Import ListNotations.
Open Scope nat_scope.

(** ** C179 *)
Theorem C179_hamming {T} (eqb : T -> T -> bool) n : (forall a b, eqb a b = true <-> a = b) ->
  (forall a b, length a = n -> length b = n -> hamming_distance eqb a b = Ok (INR (differences eqb a b))) /\
  metric (fun v : list T => length v = n) (fun a b => INR (differences eqb a b)).
Proof.
  intros H. split.
  - intros a b Ha Hb. unfold hamming_distance. rewrite dist_loop_ok by lia. rewrite hamming_count. f_equal. ring.
  - destruct (dsum_metric T _ n (eqb_metric eqb H)) as (M1 & M2 & M3 & M4). split; [|split; [|split]]; intros; rewrite <- !hamming_count; auto.
Qed.
Theorem C179_manhattan n : exists d, (forall a b, length a = n -> length b = n -> l1_distance a b = Ok (d a b) /\ d a b = total (map (fun p => Rabs (fst p - snd p)) (combine a b))) /\ metric (fun v : list R => length v = n) d.
Proof. exists (dsum R (fun a b => Rabs (a - b))). split; [|apply dsum_metric, abs_metric]. intros a b Ha Hb. split; [|reflexivity]. unfold l1_distance. rewrite dist_loop_ok by lia. f_equal. ring. Qed.
Theorem C179_euclidean n : exists d, (forall a b, length a = n -> length b = n -> quad_distance a b = Ok (d a b) /\ d a b = sqrt (total (map (fun p => (fst p - snd p) * (fst p - snd p))%R (combine a b)))) /\ metric (fun v : list R => length v = n) d.
Proof. exists euclid. split; [|apply euclid_metric]. intros a b Ha Hb. split; [|reflexivity]. unfold quad_distance. rewrite dist_loop_ok by lia. cbn [rbind]. unfold euclid. do 2 f_equal. ring. Qed.
(** on bit strings the first two agree, and the square of the third *)
Theorem C179_bits eqb (a b : list bool) : (forall a b, eqb a b = true <-> a = b) -> length a = length b ->
  let r := fun x : bool => if x then 1%R else 0%R in
  l1_distance (map r a) (map r b) = hamming_distance eqb a b /\ (forall d, quad_distance (map r a) (map r b) = Ok d -> hamming_distance eqb a b = Ok (d * d)%R).
Proof.
  intros H L r. unfold l1_distance, quad_distance, hamming_distance. rewrite !dist_loop_ok by (rewrite ?map_length; lia). cbn [rbind].
  assert (E : forall x y, (if eqb x y then 0%R else 1%R) = Rabs (r x - r y) /\ (if eqb x y then 0%R else 1%R) = ((r x - r y) * (r x - r y))%R).
  { intros x y. destruct (eqb x y) eqn:Q; [apply H in Q as ->; rewrite Rminus_diag_eq by auto; rewrite Rabs_R0; split; [auto|ring]|].
    destruct x, y; try (rewrite (proj2 (H _ _) eq_refl) in Q; discriminate); cbn [r]; split; try ring; [rewrite Rabs_right; lra|rewrite Rabs_left; lra]. }
  assert (D : forall f, dsum R f (map r a) (map r b) = dsum bool (fun x y => f (r x) (r y)) a b). { intros f. clear. unfold dsum. revert b. induction a as [|x a IH]; intros [|y b]; cbn [map combine total fold_right]; auto. unfold total in IH. cbn [fst snd]. rewrite IH. reflexivity. }
  rewrite !D. split.
  - do 2 f_equal. apply total_ext. intros p _. symmetry. apply E.
  - intros d Hd. injection Hd as <-. rewrite sqrt_sqrt.
    + do 2 f_equal. apply total_ext. intros p _. apply E.
    + rewrite Rplus_0_l. apply total_nonneg. intros. apply Rle_0_sqr.
Qed.
Theorem C179_fitness_distance f g : fitness_distance f g = Rabs (f - g).
Proof. unfold fitness_distance. apply sqrt_Rsqr_abs. Qed.
Example C179_distances_ex : l1_distance [1; 2]%R [4; 6]%R = Ok 7%R /\ quad_distance [1; 2]%R [4; 6]%R = Ok 5%R /\ hamming_distance Bool.eqb [true; false] [true; true] = Ok 1%R.
Proof.
  unfold l1_distance, quad_distance, hamming_distance. rewrite !dist_loop_ok by (cbn; lia). unfold dsum, total. cbn [combine map fold_right fst snd rbind Bool.eqb]. split; [f_equal; rewrite !Rabs_left by lra; ring|]. split; [|f_equal; ring].
  f_equal. replace (0 + ((1 - 4) * (1 - 4) + ((2 - 6) * (2 - 6) + 0)))%R with (Rsqr 5) by (unfold Rsqr; ring). rewrite sqrt_Rsqr; [reflexivity|lra].
Qed.
(** the correlation is Pearson's coefficient of the stored lists, a number unless one of them is constant *)
Theorem C179_correlation {X} (fitness : X -> R) ltb dist optimum pop best (d : X -> R) :
  (optimum = Some best \/ (optimum = None /\ best_element X ltb pop = Ok best)) -> (forall x, In x pop -> dist x best = Ok (d x)) ->
  exists v, fdc X fitness ltb dist optimum pop = Ok (FdcStat v (map d pop) (map fitness pop)) /\
  (v = None <-> constant (map d pop) \/ constant (map fitness pop)) /\
  (forall r, v = Some r -> r = pearson (map d pop) (map fitness pop) /\ (-1 <= r <= 1)%R).
Proof.
  intros Hb Hd. unfold fdc. assert (E : match optimum with Some b => Ok b | None => best_element X ltb pop end = Ok best) by (destruct Hb as [->|[-> H]]; auto). rewrite E. cbn [rbind]. rewrite (first_loop_ok X fitness dist best d) by auto. cbn [rbind app].
  rewrite !Rplus_0_l. set (a := map d pop). set (b := map fitness pop). assert (La : length pop = length a) by (unfold a; rewrite map_length; auto). assert (Lb : length pop = length b) by (unfold b; rewrite map_length; auto).
  replace (total a / INR (length pop))%R with (mean a) by (unfold mean; rewrite <- La; reflexivity). replace (total b / INR (length pop))%R with (mean b) by (unfold mean; rewrite <- Lb; reflexivity). rewrite second_loop_ok, combine_centred, !Rplus_0_l. eexists. split; [reflexivity|].
  destruct (scalar_pairs (centred a) (centred b)) as (E1 & E2 & E3); [rewrite !centred_length; lia|]. rewrite <- E1, <- E2, <- E3. unfold divide.
  assert (K : (sqrt (scalar (centred a) (centred a)) * sqrt (scalar (centred b) (centred b)) = 0)%R <-> constant a \/ constant b).
  { rewrite <- !spread_positive. split.
    - intros Z. apply Rmult_integral in Z as [Z|Z]; apply sqrt_eq_0 in Z; auto using spread_nonneg.
    - intros [-> | ->]; rewrite sqrt_0; ring. }
  destruct (Req_EM_T _ 0) as [Z|Z].
  - split; [rewrite <- K; split; auto|discriminate].
  - split; [rewrite <- K; split; [discriminate|intros; contradiction]|]. intros r Hr. injection Hr as <-. split; [reflexivity|]. rewrite K in Z. apply (pearson_range a b); [lia|tauto|tauto].
Qed.
Lemma pearson_scaling a b k c : ~ constant a -> ~ constant b -> k <> 0%R ->
  pearson a (map (fun y => k * y + c)%R b) = (if Rlt_dec 0 k then pearson a b else - pearson a b)%R.
Proof. intros Na Nb Hk. rewrite pearson_affine by auto. destruct (Rlt_dec 0 k); [rewrite Rabs_right by lra|rewrite Rabs_left by lra]; field; lra. Qed.
Lemma pearson_perfect a b : length a = length b -> ~ constant a -> ~ constant b ->
  (pearson a b = 1%R <-> exists k c, (0 < k)%R /\ b = map (fun x => k * x + c)%R a) /\ (pearson a b = (-1)%R <-> exists k c, (k < 0)%R /\ b = map (fun x => k * x + c)%R a).
Proof.
  intros L Na Nb. split; [apply pearson_one; auto|]. assert (E : pearson a (map (fun y => -1 * y + 0)%R b) = (- pearson a b)%R) by (rewrite pearson_scaling by (auto; lra); destruct (Rlt_dec 0 (-1)); lra).
  assert (Nb' : ~ constant (map (fun y => -1 * y + 0)%R b)). { intros C. apply Nb. intros x y Hx Hy. specialize (C (-1 * x + 0)%R (-1 * y + 0)%R (in_map (fun y => -1 * y + 0)%R _ _ Hx) (in_map (fun y => -1 * y + 0)%R _ _ Hy)). lra. }
  assert (L' : length a = length (map (fun y => -1 * y + 0)%R b)) by (rewrite map_length; auto). pose proof (pearson_one a _ L' Na Nb') as P. rewrite E in P. split.
  - intros Q. assert (Q1 : (- pearson a b = 1)%R) by lra. apply P in Q1 as (k & c & Hk & Eb). exists (- k)%R, (- c)%R. split; [lra|]. assert (b = map (fun y => -1 * y + 0)%R (map (fun y => -1 * y + 0)%R b)) as -> by (rewrite map_map; rewrite <- (map_id b) at 1; apply map_ext; intros; ring). rewrite Eb, map_map. apply map_ext. intros. ring.
  - intros (k & c & Hk & ->). assert (Q1 : (- pearson a (map (fun x => k * x + c) a) = 1)%R); [|lra]. apply P. exists (- k)%R, (- c)%R. split; [lra|]. rewrite map_map. apply map_ext. intros. ring.
Qed.
(** rescaling the fitness keeps the coefficient, reversing it changes its sign *)
Theorem C179_rescaled {X} (fitness : X -> R) ltb dist pop best (d : X -> R) k c s r : (forall x, In x pop -> dist x best = Ok (d x)) -> k <> 0%R ->
  fdc X fitness ltb dist (Some best) pop = Ok s -> fdc_value s = Some r ->
  exists s', fdc X (fun x => k * fitness x + c)%R ltb dist (Some best) pop = Ok s' /\ fdc_value s' = Some (if Rlt_dec 0 k then r else - r)%R.
Proof.
  intros Hd Hk E Hr. destruct (C179_correlation fitness ltb dist (Some best) pop best d) as (v & E1 & N1 & R1); auto. rewrite E in E1. injection E1 as ->. cbn in Hr. subst v. destruct (R1 r eq_refl) as [-> _].
  destruct (C179_correlation (fun x => k * fitness x + c)%R ltb dist (Some best) pop best d) as (v & E2 & N2 & R2); auto. eexists. split; [exact E2|]. cbn [fdc_value].
  assert (Na : ~ constant (map d pop)) by (intros C; assert (Some (pearson (map d pop) (map fitness pop)) = None) by (apply N1; auto); discriminate). assert (Nb : ~ constant (map fitness pop)) by (intros C; assert (Some (pearson (map d pop) (map fitness pop)) = None) by (apply N1; auto); discriminate).
  assert (M : map (fun x => k * fitness x + c)%R pop = map (fun y => k * y + c)%R (map fitness pop)) by (rewrite map_map; auto). destruct v as [r'|].
  - destruct (R2 r' eq_refl) as [-> _]. rewrite M, pearson_scaling by auto. reflexivity.
  - exfalso. destruct (proj1 N2 eq_refl) as [C|C]; [auto|]. apply Nb. rewrite M in C. intros x y Hx Hy. specialize (C (k * x + c)%R (k * y + c)%R (in_map (fun y => k * y + c)%R _ _ Hx) (in_map (fun y => k * y + c)%R _ _ Hy)). apply Rmult_eq_reg_l with (r := k); auto. lra.
Qed.
(** 1 and -1 are exactly the affine relations between fitness and distance *)
Theorem C179_perfect {X} (fitness : X -> R) ltb dist pop best (d : X -> R) s r : (forall x, In x pop -> dist x best = Ok (d x)) ->
  fdc X fitness ltb dist (Some best) pop = Ok s -> fdc_value s = Some r ->
  (r = 1%R <-> exists k c, (0 < k)%R /\ forall x, In x pop -> fitness x = (k * d x + c)%R) /\ (r = (-1)%R <-> exists k c, (k < 0)%R /\ forall x, In x pop -> fitness x = (k * d x + c)%R).
Proof.
  intros Hd E Hr. destruct (C179_correlation fitness ltb dist (Some best) pop best d) as (v & E1 & N1 & R1); auto. rewrite E in E1. injection E1 as ->. cbn in Hr. subst v. destruct (R1 r eq_refl) as [-> _].
  assert (Na : ~ constant (map d pop)) by (intros C; assert (Some (pearson (map d pop) (map fitness pop)) = None) by (apply N1; auto); discriminate). assert (Nb : ~ constant (map fitness pop)) by (intros C; assert (Some (pearson (map d pop) (map fitness pop)) = None) by (apply N1; auto); discriminate).
  assert (M : forall k c, map fitness pop = map (fun x => k * x + c)%R (map d pop) <-> forall x, In x pop -> fitness x = (k * d x + c)%R).
  { intros k c. rewrite map_map. split; [|intros; apply map_ext_in; auto]. intros Em x Hx. clear -Em Hx. induction pop as [|y pop IH]; [destruct Hx|]. injection Em as E1 E2. destruct Hx as [<-|Hx]; auto. }
  destruct (pearson_perfect (map d pop) (map fitness pop)) as [P1 P2]; auto; [rewrite !map_length; auto|]. rewrite P1, P2. split; (split; intros (k & c & Hk & H); exists k, c; split; auto; apply M; auto).
Qed.
Example C179_correlation_ex : ~ constant [0; 1; 2]%R /\ ~ constant [5; 3; 1]%R /\ pearson [0; 1; 2]%R [5; 3; 1]%R = (-1)%R.
Proof.
  assert (N1 : ~ constant [0; 1; 2]%R) by (intros C; specialize (C 0%R 1%R ltac:(cbn; auto) ltac:(cbn; auto)); lra). assert (N2 : ~ constant [5; 3; 1]%R) by (intros C; specialize (C 5%R 3%R ltac:(cbn; auto) ltac:(cbn; auto)); lra).
  split; auto. split; auto. apply pearson_perfect; auto. exists (-2)%R, 5%R. split; [lra|]. cbn [map]. repeat (f_equal; try lra).
Qed.
(** feasible individuals *)
Theorem C179_feasible_ratio {V} (pop : list (dual V)) : pop <> [] -> (forall x, In x pop -> initialised x = true) ->
  exists r, feasible_ratio pop = Ok (Some r) /\ (r * INR (length pop) = INR (length (filter feasible pop)))%R /\ (0 <= r <= 1)%R.
Proof.
  intros Hp Hi. unfold feasible_ratio. assert (C : count_feasible pop = Ok (length (filter feasible pop))).
  { clear Hp. induction pop as [|x pop IH]; auto. cbn [count_feasible filter]. unfold is_feasible. rewrite Hi by (cbn; auto). cbn [rbind]. rewrite IH by (intros; apply Hi; cbn; auto). cbn [rbind]. destruct (feasible x); auto. }
  rewrite C. cbn [rbind]. unfold divide. assert (P : (0 < INR (length pop))%R) by (apply lt_0_INR; destruct pop; [congruence|cbn; lia]). destruct (Req_EM_T _ 0) as [Z|_]; [lra|]. eexists. split; [reflexivity|]. split; [field; lra|].
  assert (LE : (INR (length (filter feasible pop)) <= INR (length pop))%R) by (apply le_INR; clear; induction pop as [|x pop IH]; cbn; [lia|]; destruct (feasible x); cbn; lia). pose proof (pos_INR (length (filter feasible pop))). split; [apply Rmult_le_pos; [lra|apply Rlt_le, Rinv_0_lt_compat; auto]|]. apply Rmult_le_reg_r with (r := INR (length pop)); auto. unfold Rdiv. rewrite Rmult_assoc, Rinv_l by lra. lra.
Qed.
Example C179_feasible_ex : exists r, feasible_ratio [Dual 3 true true; Dual 4 false true] = Ok (Some r) /\ (r * 2 = 1)%R.
Proof. destruct (C179_feasible_ratio [Dual 3 true true; Dual 4 false true]) as (r & E & H & _); [discriminate|intros x [<-|[<-|[]]]; reflexivity|]. exists r. split; [exact E|]. cbn in H. lra. Qed.
(** the terms of assembled fitnesses: the average of those that have not failed, the term of a best individual; a term out of range throws *)
Theorem C179_assembled which n pop : pop <> [] -> (forall x, In x pop -> length (terms x) = n) ->
  (n <= which -> assembled_average which pop = Throw /\ assembled_best which pop = Throw) /\
  (which < n -> (exists ok, In ok pop /\ failed ok = false) ->
    exists r, assembled_average which pop = Ok (Some r) /\ r = mean (map (fun x => nth which (terms x) 0%R) (filter (fun x => negb (failed x)) pop))).
Proof.
  intros Hp Hn. unfold assembled_average, assembled_best, check_term. destruct pop as [|x0 pop0] eqn:Ep; [congruence|]. rewrite <- Ep in *. assert (E0 : nth_error pop 0 = Some x0) by (rewrite Ep; auto). rewrite E0. cbn [of_opt rbind]. rewrite (Hn x0) by (rewrite Ep; cbn; auto). split.
  - intros H. rewrite (proj2 (Nat.leb_le _ _) H). auto.
  - intros H (ok & Ho & Hf). destruct (Nat.leb_spec n which); [lia|]. cbn [rbind].
    assert (L : forall l acc c, (forall x, In x l -> length (terms x) = n) -> average_loop which l acc c = Ok ((acc + total (map (fun x => nth which (terms x) 0%R) (filter (fun x => negb (failed x)) l)))%R, c + length (filter (fun x => negb (failed x)) l))).
    { induction l as [|x l IH]; intros acc c Hl; cbn [average_loop filter map length total fold_right]; [rewrite Rplus_0_r, Nat.add_0_r; auto|]. destruct (failed x); cbn [negb map length total fold_right]; [apply IH; intros; apply Hl; cbn; auto|].
      assert (Lx : length (terms x) = n) by (apply Hl; cbn; auto). rewrite (nth_error_nth' (terms x) 0%R) by lia. cbn [of_opt rbind]. rewrite IH by (intros; apply Hl; cbn; auto). f_equal. f_equal; [unfold total; ring|lia]. }
    rewrite L by auto. cbn [rbind]. rewrite Nat.add_0_l, Rplus_0_l. unfold divide. destruct (Req_EM_T _ 0) as [Z|_].
    + exfalso. apply (not_0_INR (length (filter (fun x => negb (failed x)) pop))); auto. intros Z'. apply length_zero_iff_nil in Z'. assert (In ok (filter (fun x => negb (failed x)) pop)) by (apply filter_In; rewrite Hf; auto). rewrite Z' in H1. destruct H1.
    + eexists. split; [reflexivity|]. unfold mean. rewrite map_length. reflexivity.
Qed.
Theorem C179_assembled_best which n pop r : (forall x, In x pop -> length (terms x) = n) -> assembled_best which pop = Ok r ->
  exists b, best_element assembled_fitness assembled_lt pop = Ok b /\ nth_error (terms b) which = Some r /\ which < n.
Proof.
  intros Hn H. unfold assembled_best in H. apply rbind_ok in H as ([] & E & H). apply rbind_ok in H as (b & Eb & H). apply of_opt_ok in H. exists b. split; auto. split; auto. unfold check_term in E. apply rbind_ok in E as (x & Ex & E). apply of_opt_ok in Ex. apply nth_error_In in Ex. rewrite (Hn x Ex) in E. destruct (Nat.leb_spec n which); [discriminate|lia].
Qed.
(** and that individual has the greatest first term *)
Theorem C179_assembled_greatest which n pop r : (forall x, In x pop -> length (terms x) = S n) -> assembled_best which pop = Ok r ->
  exists b, In b pop /\ nth_error (terms b) which = Some r /\ forall x, In x pop -> (nth 0 (terms x) 0 <= nth 0 (terms b) 0)%R.
Proof.
  intros Hn H. destruct (C179_assembled_best which (S n) pop r Hn H) as (b & E & Et & _).
  set (lt := fun a b : assembled_fitness => if Rlt_dec (nth 0 (terms a) 0%R) (nth 0 (terms b) 0%R) then true else false).
  assert (Sw : strict_weak_order lt).
  { unfold lt. split; [|split].
    - intros x. destruct (Rlt_dec _ _); auto. lra.
    - intros x y z. repeat destruct (Rlt_dec _ _); auto; try discriminate; lra.
    - intros x y z. repeat destruct (Rlt_dec _ _); auto; try discriminate; lra. }
  assert (Ag : forall x y, In x pop -> In y pop -> assembled_lt x y = lt x y).
  { intros x y Hx Hy. apply Hn in Hx, Hy. unfold assembled_lt, lt. destruct (terms x), (terms y); try discriminate. reflexivity. }
  assert (C : forall l i v k, In v pop -> (forall x, In x l -> In x pop) -> max_from assembled_fitness assembled_lt i v k l = max_from assembled_fitness lt i v k l).
  { induction l as [|x l IH]; intros i v k Hv Hl; cbn [max_from]; auto. rewrite Ag by (auto; apply Hl; left; auto).
    destruct (lt v x); apply IH; auto; intros; apply Hl; cbn; auto. }
  assert (E' : best_element assembled_fitness lt pop = Ok b).
  { rewrite <- E. unfold best_element, it_best_element. destruct pop as [|x t]; auto. rewrite C; cbn; auto. }
  apply (best_element_ok assembled_fitness lt Sw) in E' as (I & B). exists b. split; auto. split; auto. intros x Hx. specialize (B x Hx). unfold lt in B. destruct (Rlt_dec _ _); [discriminate|lra].
Qed.
(** the scalar fitnesses are those of the population, in order, brought within the bounds *)
Theorem C179_scalar (truncate : R -> R) (pop : list R) :
  length (scalar_fitnesses truncate pop) = length pop /\ forall i x, nth_error pop i = Some x -> nth_error (scalar_fitnesses truncate pop) i = Some (truncate x).
Proof. split; [apply map_length|]. intros i x H. unfold scalar_fitnesses. rewrite nth_error_map, H. reflexivity. Qed.
Example C179_scalar_ex : scalar_fitnesses (fun x => Rmin x 1) [2; 2]%R = [Rmin 2 1; Rmin 2 1]%R.
Proof. reflexivity. Qed.
Example C179_assembled_ex : exists r, assembled_average 1 [Assembled [1; 4]%R false; Assembled [2; 9]%R true; Assembled [3; 6]%R false] = Ok (Some r) /\ r = 5%R.
Proof.
  destruct (C179_assembled 1 2 [Assembled [1; 4]%R false; Assembled [2; 9]%R true; Assembled [3; 6]%R false]) as [_ H]; [discriminate|intros x [<-|[<-|[<-|[]]]]; reflexivity|]. destruct (H ltac:(lia)) as (r & E & Er); [eexists; split; [left; reflexivity|reflexivity]|]. exists r. split; auto. rewrite Er. unfold mean, total. cbn. field.
Qed.
(** the dump: the first individuals, as many as asked for, all of them for zero *)
Theorem C179_dump {X Y} (show : X -> Y) combien pop : combien <= length pop ->
  dump show combien pop = Ok (map show (if combien =? 0 then pop else firstn combien pop)).
Proof.
  intros H. unfold dump. assert (L : forall n, n <= length pop -> dump_loop show pop (seq 0 n) = Ok (map show (firstn n pop))).
  { assert (G : forall n s, s + n <= length pop -> dump_loop show pop (seq s n) = Ok (map show (firstn n (skipn s pop)))).
    { induction n as [|n IH]; intros s Hs; [reflexivity|]. cbn [seq dump_loop]. destruct (nth_error_in_some pop s) as [x Ex]; [lia|]. rewrite Ex. cbn [of_opt rbind]. rewrite IH by lia. cbn [rbind]. assert (K : skipn s pop = x :: skipn (S s) pop) by (clear -Ex; revert s Ex; induction pop as [|y l IHl]; intros [|s] Ex; try discriminate; [injection Ex as ->; reflexivity|apply IHl; auto]). rewrite K. reflexivity. }
    intros n Hn. apply (G n 0). lia. }
  destruct (combien =? 0) eqn:E; rewrite L by lia; [rewrite firstn_all|]; auto.
Qed.
Theorem C179_objective {V} objective (pop : list (list V)) (dv : V) : (forall x, In x pop -> objective < length x) -> objective_loop objective pop = Ok (map (fun x => nth objective x dv) pop).
Proof.
  induction pop as [|x pop IH]; intros H; [reflexivity|]. cbn [objective_loop map]. rewrite (nth_error_nth' x dv) by (apply H; cbn; auto). cbn [of_opt rbind]. rewrite IH by (intros; apply H; cbn; auto). reflexivity.
Qed.
Example C179_dump_ex : dump (fun x : nat => x) 2 [7; 8; 9] = Ok [7; 8] /\ dump (fun x : nat => x) 0 [7; 8; 9] = Ok [7; 8; 9] /\ objective_loop 1 [[1; 2]; [3; 4]] = Ok [2; 4].
Proof. vm_compute. auto. Qed.

(** ** C180 *)
(** a longer second vector is compared on the length of the first one only: different vectors at distance zero; a shorter one is read out of bounds *)
Theorem C180_lengths_refuted : ~ (forall a b : list R, quad_distance a b = Ok 0%R -> a = b).
Proof. intros H. specialize (H [1]%R [1; 2]%R). assert (E : quad_distance [1]%R [1; 2]%R = Ok 0%R). { unfold quad_distance. rewrite dist_loop_ok by (cbn; lia). cbn [rbind]. f_equal. unfold dsum, total. cbn. replace (0 + ((1 - 1) * (1 - 1) + 0))%R with 0%R by ring. apply sqrt_0. } specialize (H E). discriminate. Qed.
Theorem C180_shorter_outside {T} (eqb : T -> T -> bool) (a b : list T) (v w : list R) : length b < length a -> length w < length v ->
  hamming_distance eqb a b = UB /\ l1_distance v w = UB /\ quad_distance v w = UB.
Proof. intros H1 H2. unfold hamming_distance, l1_distance, quad_distance. rewrite !dist_loop_short by auto. auto. Qed.
(** a population whose individuals all have the same fitness has no correlation (0/0) *)
Theorem C180_converged_refuted : ~ (forall (pop : list R) (best : R), pop <> [] -> exists v, fdc R (fun x => x) (fun _ _ => false) (fun a b => Ok (Rabs (a - b))) (Some best) pop = Ok v /\ fdc_value v <> None).
Proof.
  intros H. destruct (H [3; 3]%R 0%R) as (v & E & N); [discriminate|]. destruct (C179_correlation (fun x => x) (fun _ _ => false) (fun a b => Ok (Rabs (a - b))) (Some 0%R) [3; 3]%R 0%R (fun x => Rabs (x - 0))) as (w & E' & K & _); auto.
  rewrite E in E'. injection E' as ->. apply N. cbn. apply K. right. intros x y [<-|[<-|[]]] [<-|[<-|[]]]; reflexivity.
Qed.
(** asking for more individuals than there are reads beyond the population *)
Theorem C180_dump_too_many {X Y} (show : X -> Y) combien (pop : list X) : length pop < combien -> dump show combien pop = UB.
Proof.
  intros H. unfold dump. destruct (Nat.eqb_spec combien 0) as [?|_]; [lia|].
  assert (G : forall n s, s <= length pop < s + n -> dump_loop show pop (seq s n) = UB).
  { induction n as [|k IH]; intros s Hs; [lia|]. cbn [seq dump_loop]. destruct (Nat.eq_dec s (length pop)) as [->|Ne]; [rewrite (proj2 (nth_error_None pop (length pop))) by lia; reflexivity|]. destruct (nth_error_in_some pop s) as [x Ex]; [lia|]. rewrite Ex. cbn [of_opt rbind]. rewrite IH by lia. reflexivity. }
  apply G. lia.
Qed.
(** all the individuals have failed: no average; an empty population is read out of bounds *)
Theorem C180_all_failed which n pop : pop <> [] -> which < n -> (forall x, In x pop -> length (terms x) = n /\ failed x = true) -> assembled_average which pop = Ok None.
Proof.
  intros Hp Hw H. unfold assembled_average, check_term. destruct pop as [|x0 pop0] eqn:Ep; [congruence|]. rewrite <- Ep in *. assert (E0 : nth_error pop 0 = Some x0) by (rewrite Ep; auto). rewrite E0. cbn [of_opt rbind]. destruct (H x0) as [L0 _]; [rewrite Ep; cbn; auto|]. rewrite L0. destruct (Nat.leb_spec n which); [lia|]. cbn [rbind].
  assert (L : forall l acc c, (forall x, In x l -> failed x = true) -> average_loop which l acc c = Ok (acc, c)) by (induction l as [|x l IH]; intros acc c Hl; cbn [average_loop]; auto; rewrite Hl by (cbn; auto); apply IH; intros; apply Hl; cbn; auto).
  rewrite L by (intros; apply H; auto). cbn [rbind]. unfold divide. cbn. destruct (Req_EM_T 0 0); [auto|congruence].
Qed.
Theorem C180_empty_refuted : ~ (forall which pop, assembled_average which pop <> UB).
Proof. intros H. apply (H 0 []). reflexivity. Qed.
Example C180_ex : dump (fun x : nat => x) 5 [1; 2] = UB /\ assembled_average 0 [Assembled [1]%R true] = Ok None.
Proof. split; [reflexivity|]. apply (C180_all_failed 0 1); [discriminate|lia|]. intros x [<-|[]]. auto. Qed.
Print Assumptions C179_hamming.
Print Assumptions C179_manhattan.
Print Assumptions C179_euclidean.
Print Assumptions C179_bits.
Print Assumptions C179_fitness_distance.
Print Assumptions C179_correlation.
Print Assumptions C179_rescaled.
Print Assumptions C179_perfect.
Print Assumptions C179_feasible_ratio.
Print Assumptions C179_assembled.
Print Assumptions C179_assembled_best.
Print Assumptions C179_dump.
Print Assumptions C179_objective.
Print Assumptions C180_lengths_refuted.
Print Assumptions C180_shorter_outside.
Print Assumptions C180_converged_refuted.
Print Assumptions C180_dump_too_many.
Print Assumptions C180_all_failed.
Print Assumptions C180_empty_refuted.
Print Assumptions C179_assembled_greatest.
Print Assumptions C179_scalar.
