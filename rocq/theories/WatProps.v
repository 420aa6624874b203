(** C171 to C174: the continuators on the hypervolume, the statistics on objective vectors and the fitness with constraints. *)
From Coq Require Import List Arith Lia Bool ZArith QArith Lqa.
From Verif Require Import Lib Outcome ReplModel HvModel HvSpec WgtModel EvalSpec WatModel WatSpec WatProofs WatMore.
From Coq Require Import List.
Import ListNotations.
Close Scope Q_scope.
Open Scope nat_scope.

(** C171: the flat vector given to the constructor is cut into as many vectors of [n] values as it holds *)
Theorem C171_target_is_cut : forall n vec, 0 < n -> exists t, targets n vec = Ok t /\ length t = length vec / n /\
  forall i, i < length vec / n -> exists p, nth_error t i = Some p /\ length p = n /\ forall j, j < n -> nth_error p j = nth_error vec (i * n + j).
Proof. apply targets_ok. Qed.
Example C171_target_case : targets 2 [1; 2; 3; 4; 5; 6]%Q = Ok [[1; 2]; [3; 4]; [5; 6]]%Q.
Proof. reflexivity. Qed.
(** while nothing in the archive is outside what the target reaches, the run stops exactly when the archive reaches every
    vector of the target: by default (normalised, with a coefficient above 1) *)
Theorem C171_stops_at_the_target : forall (dirs : list bool) rho ref (archive target : list point), 2 <= length dirs -> (1 < rho)%Q -> archive <> [] -> target <> [] ->
  (forall p, In p (archive ++ target) -> length dirs <= length p) ->
  exists go, hyp_continue dirs true rho ref target archive = Ok go /\ (reaches dirs target archive -> (go = false <-> reaches dirs archive target)).
Proof. apply hyp_continue_normalised. Qed.
Example C171_stops_case : hyp_continue [true; true] true (11 # 10) [] [[1; 3]; [3; 1]]%Q [[2; 3]; [3; 1]]%Q = Ok true /\
  hyp_continue [true; true] true (11 # 10) [] [[1; 3]; [3; 1]]%Q [[1; 3]; [3; 1]; [2; 3]]%Q = Ok false /\
  hyp_continue [true; false] true (11 # 10) [] [[1; 3]]%Q [[1; 3]]%Q = Ok false.
Proof. repeat split; vm_compute; reflexivity. Qed.
(** and with a reference point that every vector is ahead of *)
Theorem C171_stops_with_reference : forall (dirs : list bool) rho ref (archive target : list point), 2 <= length dirs -> (rho < 1)%Q -> length ref = length dirs ->
  (forall p, In p (archive ++ target) -> length dirs <= length p /\ ahead_of dirs ref p) ->
  exists go, hyp_continue dirs false rho ref target archive = Ok go /\ (reaches dirs target archive -> (go = false <-> reaches dirs archive target)).
Proof. apply hyp_continue_reference. Qed.
Example C171_reference_case : (forall p, In p ([[2; 2]] ++ [[1; 2]; [2; 1]])%Q -> length [true; true] <= length p /\ ahead_of [true; true] [4; 4]%Q p) /\
  hyp_continue [true; true] false 0 [4; 4]%Q [[1; 2]; [2; 1]]%Q [[2; 2]]%Q = Ok true.
Proof.
  split; [|vm_compute; reflexivity]. intros p Hp. cbn in Hp. destruct Hp as [<-|[<-|[<-|[]]]]; (split; [cbn; lia|]);
    intros [|[|i]] d r x H1 H2 H3; cbn in *; try discriminate; try (destruct i; discriminate); injection H1 as <-; injection H2 as <-; injection H3 as <-; lra.
Qed.
(** an archive or a target that is empty raises the error of the metric *)
Theorem C171_nothing_to_compare : forall d dirs rho ref (archive target : list point), (1 <= rho)%Q -> archive = [] \/ target = [] -> hyp_continue (d :: dirs) true rho ref target archive = Throw.
Proof.
  intros d dirs rho ref archive target Hrho H. unfold hyp_continue, hv_between. rewrite (proj2 (Qle_bool_iff 1 rho) Hrho). cbn [length seq for_all_objectives].
  assert (setup2 archive target 0 = Throw) as -> by (destruct H as [-> | ->]; [reflexivity|destruct archive; reflexivity]). reflexivity.
Qed.

(** C172 refuted: the run stops on a front of which no vector reaches any of the target, because the volumes are equal *)
Theorem C172_stops_elsewhere_refuted : exists dirs rho ref archive target, 2 <= length dirs /\ (1 < rho)%Q /\ (forall p, In p (archive ++ target) -> length p = length dirs) /\
  hyp_continue dirs true rho ref target archive = Ok false /\ target <> [] /\ archive <> [] /\ forall t a, In t target -> In a archive -> ~ at_least dirs a t.
Proof.
  exists [true; true], (11 # 10)%Q, []%list, [[1; 3]]%Q, [[3; 1]]%Q. split; [cbn; lia|]. split; [lra|]. split; [intros p [<-|[<-|[]]]; reflexivity|]. split; [vm_compute; reflexivity|].
  split; [discriminate|]. split; [discriminate|]. intros t a [<-|[]] [<-|[]] H. specialize (H 1 true 3%Q 1%Q eq_refl eq_refl eq_refl). cbn in H. lra.
Qed.
(** and goes on with an archive that reaches the target and more *)
Theorem C172_goes_on_past_the_target_refuted : exists dirs rho ref archive target, 2 <= length dirs /\ (1 < rho)%Q /\ (forall p, In p (archive ++ target) -> length p = length dirs) /\
  target <> [] /\ reaches dirs archive target /\ hyp_continue dirs true rho ref target archive = Ok true.
Proof.
  exists [true; true], (11 # 10)%Q, []%list, [[1; 1]]%Q, [[3; 1]; [1; 3]]%Q. split; [cbn; lia|]. split; [lra|]. split; [intros p [<-|[<-|[<-|[]]]]; reflexivity|]. split; [discriminate|]. split; [|vm_compute; reflexivity].
  intros t Ht. exists [1; 1]%Q. split; [cbn; auto|]. destruct Ht as [<-|[<-|[]]]; intros [|[|i]] d x y H1 H2 H3; cbn in *; try discriminate; try (destruct i; discriminate); injection H1 as <-; injection H2 as <-; injection H3 as <-; lra.
Qed.
(** the dual continuator, whatever its metric, reads the feasibility of the first vector of the target that nothing has set *)
Theorem C172_dual_flag_unset_refuted : forall metric n vec target archive, dual_targets n vec = Ok target -> dual_continue metric target archive = UB.
Proof.
  intros metric n vec target archive H. unfold dual_targets in H. apply rbind_ok in H as (t & _ & H). injection H as <-. unfold dual_continue.
  destruct archive as [|[fa a] r]; [reflexivity|]. cbn [nth_error of_opt rbind fst]. destruct fa; [|reflexivity]. destruct t; reflexivity.
Qed.
Example C172_dual_case : dual_targets 2 [1; 2; 3; 4]%Q = Ok [(None, [1; 2]); (None, [3; 4])]%Q.
Proof. reflexivity. Qed.
(** if it is set, the run stops when the archive has not the feasibility of the target, whatever its values *)
Theorem C172_dual_stops_on_feasibility_refuted : forall metric f p target a archive,
  dual_continue metric ((Some f, p) :: target) ((Some (negb f), a) :: archive) = Ok false.
Proof. intros metric f p target a archive. unfold dual_continue. cbn. destruct f; reflexivity. Qed.

(** C173: the average statistic is the mean of each objective *)
Theorem C173_average : forall n pop, pop <> [] -> (forall p, In p pop -> n <= length p) ->
  exists l, average_stat n pop = Ok l /\ length l = n /\ forall o x, nth_error l o = Some x -> (x * natQ (length pop) == qsum pop (fun p => nth o p 0))%Q.
Proof. apply average_ok. Qed.
Example C173_average_case : exists l, average_stat 2 [[1; 2]; [3; 4]; [5; 9]]%Q = Ok l /\ map Qred l = [3; 5]%Q.
Proof. eexists. split; [reflexivity|]. vm_compute. reflexivity. Qed.
(** the best statistic holds, after any number of calls, the best value of each objective in the last population; after the
    first call its individuals are those of that call *)
Theorem C173_best_values : forall dirs pops pop st, (forall q, In q (pops ++ [pop]) -> q <> [] /\ forall p, In p q -> length dirs <= length p) ->
  exists st', best_calls dirs 0 st (pops ++ [pop]) = Ok st' /\ length (bs_value st') = length dirs /\
    forall o d, nth_error dirs o = Some d -> exists i x, nth_error (bs_value st') o = Some x /\ best_value d o pop i x.
Proof.
  intros dirs pops pop st H. destruct (best_calls_ok dirs (pops ++ [pop]) 0 st H) as (st' & more & E & _ & _ & _ & _ & Hl). exists st'. split; auto. apply Hl. rewrite map_app. cbn [map]. apply last_last.
Qed.
Theorem C173_best_individuals_of_the_first_call : forall dirs pop, pop <> [] -> (forall p, In p pop -> length dirs <= length p) ->
  exists st', best_calls dirs 0 (BestStat [] []) [pop] = Ok st' /\
    forall o d, nth_error dirs o = Some d -> exists i x, bestindividuals (length dirs) st' o = Ok (0, i) /\ best_value d o pop i x.
Proof.
  intros dirs pop Hne Hl. destruct (best_calls_ok dirs [pop] 0 (BestStat [] [])) as (st' & more & E & Hm & _ & _ & Hf & _); [intros q [<-|[]]; auto|]. exists st'. split; auto.
  intros o d Hd. destruct (Hf pop eq_refl o d Hd) as (i & x & Hi & Hb). exists i, x. split; auto. unfold bestindividuals. assert (o < length dirs) by (apply nth_error_lt in Hd; auto).
  rewrite (proj2 (Nat.ltb_ge _ _)) by lia. rewrite Hm. cbn [bs_found app]. rewrite Hi. reflexivity.
Qed.
Example C173_best_case : best_calls [true; false] 0 (BestStat [] []) [[[1; 5]; [2; 6]]; [[4; 4]; [3; 4]]]%Q = Ok (BestStat [3; 4]%Q [(0, 0); (0, 1); (1, 1); (1, 0)]).
Proof. vm_compute. reflexivity. Qed.
(** the binary statistic compares the last two populations that are not empty, the later one first; before there are two it
    keeps its initial value *)
Theorem C173_binary_metric : forall T (metric : list point -> list point -> T) v pops l a b,
  filter (fun q => match q with [] => false | _ => true end) pops = l ++ [a; b] -> fst (metric_calls T metric v pops) = metric b a.
Proof.
  intros T metric v pops l a b H. unfold metric_calls. rewrite metric_calls_from. change (filter filled pops = l ++ [a; b]) in H. rewrite H. apply metric_two. intros p Hp. rewrite <- H in Hp. apply filter_In in Hp. tauto.
Qed.
Theorem C173_binary_metric_first : forall T (metric : list point -> list point -> T) v pops,
  length (filter (fun q => match q with [] => false | _ => true end) pops) <= 1 -> fst (metric_calls T metric v pops) = v.
Proof.
  intros T metric v pops H. unfold metric_calls. rewrite metric_calls_from. change (length (filter filled pops) <= 1) in H. destruct (filter filled pops) as [|[|x p] [|b l]]; cbn in H; try lia; reflexivity.
Qed.
Example C173_binary_case : fst (metric_calls nat (fun s t => 10 * length s + length t) 7 [[[1]]; []; [[1]; [2]]; [[3]; [4]; [5]]; []]%Q) = 32.
Proof. reflexivity. Qed.
(** the fitness with constraints: the weighted objective to optimise, minus the weighted violations of the others *)
Theorem C173_constraint_fitness : forall sc dirs w c t v, length dirs <= length w -> length v = length dirs -> length c = length dirs -> length dirs <= length sc ->
  exists f, constraint_fitness sc dirs w c t v = Ok f /\
    (f == qsum (seq 0 (length dirs)) (fun i => part (Z.of_nat i =? t)%Z (nth i dirs true) (nth i w 0%Q) ((nth i v 0 - snd (nth i sc (0, 0))) * fst (nth i sc (0, 0))) ((nth i c 0 - snd (nth i sc (0, 0))) * fst (nth i sc (0, 0)))))%Q.
Proof. apply constraint_fitness_ok. Qed.
(** a vector at least as good on every objective gets at least the same fitness *)
Theorem C173_constraint_monotone : forall sc dirs w c t u v fu fv, length dirs <= length w -> length u = length dirs -> length v = length dirs -> length c = length dirs -> length dirs <= length sc ->
  (forall x, In x w -> (0 <= x)%Q) -> (forall x, In x sc -> (0 <= fst x)%Q) -> at_least dirs u v ->
  constraint_fitness sc dirs w c t u = Ok fu -> constraint_fitness sc dirs w c t v = Ok fv -> (fv <= fu)%Q.
Proof. apply constraint_mono. Qed.
(** fewer weights than objectives: 0 *)
Theorem C173_constraint_few_weights : forall sc dirs w c t v, length w < length dirs -> constraint_fitness sc dirs w c t v = Ok 0%Q.
Proof. intros sc dirs w c t v H. unfold constraint_fitness. rewrite (proj2 (Nat.ltb_lt _ _) H). reflexivity. Qed.
Example C173_constraint_case : exists f g, constraint_fitness [(1, 0); (1, 0); (1, 0)]%Q [true; true; false] [1; 2; 3]%Q [5; 5; 5]%Q 0%Z [4; 7; 3]%Q = Ok f /\ (f == - 14)%Q /\
  constraint_fitness [(1, 0); (1, 0); (1, 0)]%Q [true; true; false] [1; 2; 3]%Q [5; 5; 5]%Q 0%Z [4; 5; 6]%Q = Ok g /\ (g == - 4)%Q.
Proof. eexists. eexists. repeat split. Qed.

(** C174 refuted: after a second call the best individuals given are still those of the first one *)
Theorem C174_individuals_of_the_first_call_refuted : forall dirs pop pops, (forall q, In q (pop :: pops) -> q <> [] /\ forall p, In p q -> length dirs <= length p) ->
  exists st', best_calls dirs 0 (BestStat [] []) (pop :: pops) = Ok st' /\
    forall o d, nth_error dirs o = Some d -> exists i x, bestindividuals (length dirs) st' o = Ok (0, i) /\ best_value d o pop i x.
Proof.
  intros dirs pop pops H. destruct (best_calls_ok dirs (pop :: pops) 0 (BestStat [] [])) as (st' & more & E & Hm & _ & _ & Hf & _); auto. exists st'. split; auto.
  intros o d Hd. destruct (Hf pop eq_refl o d Hd) as (i & x & Hi & Hb). exists i, x. split; auto. unfold bestindividuals. assert (o < length dirs) by (apply nth_error_lt in Hd; auto).
  rewrite (proj2 (Nat.ltb_ge _ _)) by lia. rewrite Hm. cbn [bs_found app]. rewrite Hi. reflexivity.
Qed.
Example C174_individuals_case : exists st, best_calls [true] 0 (BestStat [] []) [[[1]; [2]]; [[4]; [3]]]%Q = Ok st /\ bestindividuals 1 st 0 = Ok (0, 0) /\ bs_value st = [3]%Q.
Proof. eexists. split; [vm_compute; reflexivity|]. split; reflexivity. Qed.
(** the number of objectives passes the check of the argument: the read is past the end after one call, an individual of the
    first objective after two *)
Theorem C174_out_of_range_accepted_refuted : forall dirs pop, pop <> [] -> (forall p, In p pop -> length dirs <= length p) ->
  exists st', best_calls dirs 0 (BestStat [] []) [pop] = Ok st' /\ bestindividuals (length dirs) st' (length dirs) = UB /\ bestindividuals (length dirs) st' (S (length dirs)) = Throw.
Proof.
  intros dirs pop Hne Hl. destruct (best_calls_ok dirs [pop] 0 (BestStat [] [])) as (st' & more & E & Hm & Lm & _); [intros q [<-|[]]; auto|]. exists st'. split; auto. unfold bestindividuals.
  rewrite Nat.ltb_irrefl. rewrite (proj2 (Nat.ltb_lt _ _)) by lia. split; auto. rewrite Hm. cbn [bs_found app]. rewrite (proj2 (nth_error_None more (length dirs))) by (rewrite Lm; cbn; lia). reflexivity.
Qed.
Example C174_wrong_objective_case : exists st, best_calls [true; false] 0 (BestStat [] []) [[[1; 5]; [2; 6]]; [[4; 4]; [3; 4]]]%Q = Ok st /\ bestindividuals 2 st 2 = Ok (1, 1).
Proof. eexists. split; [vm_compute; reflexivity|]. reflexivity. Qed.
Print Assumptions C171_target_is_cut.
Print Assumptions C171_stops_at_the_target.
Print Assumptions C171_stops_with_reference.
Print Assumptions C171_nothing_to_compare.
Print Assumptions C172_stops_elsewhere_refuted.
Print Assumptions C172_goes_on_past_the_target_refuted.
Print Assumptions C172_dual_flag_unset_refuted.
Print Assumptions C172_dual_stops_on_feasibility_refuted.
Print Assumptions C173_average.
Print Assumptions C173_best_values.
Print Assumptions C173_best_individuals_of_the_first_call.
Print Assumptions C173_binary_metric.
Print Assumptions C173_binary_metric_first.
Print Assumptions C173_constraint_fitness.
Print Assumptions C173_constraint_monotone.
Print Assumptions C173_constraint_few_weights.
Print Assumptions C174_individuals_of_the_first_call_refuted.
Print Assumptions C174_out_of_range_accepted_refuted.
