(** Theorems C119-C123: the worths of EO. *)
From Coq Require Import List Arith Lia Bool ZArith QArith Qabs Lqa Qminmax Permutation Sorted.
From Verif Require Import Outcome Lib OrderSpec OrderLemmas BoundsModel BoundsProofs EvalSpec ParetoSpec ParetoModel ParetoProofs SelectModel SelectSpec SelectQ DivProofs RankSpec RankProofs WorthModel WorthSpec WorthNd WorthTwo WorthProofs WorthQ.
From Coq Require Import List.
Import ListNotations.
Close Scope Q_scope.
Local Notation qsum := EvalSpec.qsum.

(** ** C119: worths stay with their individuals *)
(** sorting by worth: the same individuals with the same worths, best first *)
Theorem C119_sort : forall A T (none : A) (zero : T) (ltw : T -> T -> bool) sort, std_sort_ok sort -> strict_weak_order ltw ->
  forall pop ws, length ws = length pop ->
  exists pop' ws', sort_pop none zero ltw sort pop ws = Ok (pop', ws') /\ length pop' = length pop /\ length ws' = length ws /\
  Permutation (combine pop' ws') (combine pop ws) /\ best_first ltw ws'.
Proof. intros A T none zero ltw sort Hs SWO pop ws. apply sort_pop_ok; auto. Qed.
(** sorting, then resizing, keeps the individuals of best worths *)
Theorem C119_truncate : forall A T (none : A) (zero : T) (ltw : T -> T -> bool) sort, std_sort_ok sort -> strict_weak_order ltw ->
  forall pop ws sz, length ws = length pop -> sz <= length pop ->
  exists pop' ws' kp kw dropped, sort_pop none zero ltw sort pop ws = Ok (pop', ws') /\ resize_pop none zero sz pop' ws' = (kp, kw) /\ length kp = sz /\ length kw = sz /\
  Permutation (combine kp kw ++ dropped) (combine pop ws) /\ best_first ltw kw /\ forall w x w', In w kw -> In (x, w') dropped -> ltw w w' = false.
Proof. intros A T none zero ltw sort Hs SWO pop ws sz. apply truncate_ok; auto. Qed.
Example C119_sort_example : sort_pop 0 0 Nat.ltb the_sort [10; 20; 30] [1; 3; 2] = Ok ([20; 30; 10], [3; 2; 1]).
Proof. reflexivity. Qed.
(** the cache: whatever the sequence of calls and sorts, the worths are those that were computed
    for individuals of these fitnesses *)
Theorem C119_cache : forall A F T (none : A) (zero : T) (nofit : F) (ltw : T -> T -> bool) (eqf : F -> F -> bool) (fit : A -> F) sort,
  std_sort_ok sort -> strict_weak_order ltw -> (forall a b, eqf a b = true <-> a = b) ->
  forall calculate, (forall pop old ws, calculate pop old = Ok ws -> length ws = length pop) ->
  forall ops st' pop', session none zero nofit ltw eqf fit sort calculate ops (Cached [] []) [] = Ok (st', pop') ->
  up_to_date fit calculate pop' (worths st').
Proof. intros A F T none zero nofit ltw eqf fit sort Hs SWO He calculate Hl ops st' pop' H. eapply session_from_new; eauto. Qed.
(** a call on a population never seen computes its worths *)
Theorem C119_call : forall A F T (eqf : F -> F -> bool) (fit : A -> F), (forall a b, eqf a b = true <-> a = b) ->
  forall (calculate : list A -> list T -> res (list T)) st pop, cache st <> map fit pop -> forall ws, calculate pop (worths st) = Ok ws ->
  cached_call eqf fit calculate st pop = (Cached (map fit pop) ws, Ok tt).
Proof.
  intros A F T eqf fit He calculate st pop N ws E. unfold cached_call. destruct (_ && _) eqn:B; [|rewrite E; reflexivity]. apply andb_true_iff in B as [_ B]. apply (same_iff _ He) in B. contradiction.
Qed.
Definition ex_calc (pop : list nat) (old : list nat) : res (list nat) := Ok (map (fun x => 2 * x) pop).
Example C119_cache_example : session 0 0 0 Nat.ltb Nat.eqb (fun x => x) the_sort ex_calc [Call [1; 5; 3]; SortIt; Call [5; 3; 1]; Call [2; 4]] (Cached [] []) [] = Ok (Cached [2; 4] [4; 8], [2; 4]).
Proof. reflexivity. Qed.
(** the selectors work on the worths; both in debug and in release builds *)
Theorem C119_deterministic_tournament : forall A F T (ltw : T -> T -> bool) (eqf : F -> F -> bool) (fit : A -> F), strict_weak_order ltw -> (forall a b, eqf a b = true <-> a = b) ->
  forall perf2worth debug pop ws t ds, perf2worth pop = Ok ws -> length ws = length pop -> pop <> [] -> 1 <= t -> t <= length ds ->
  exists st i x w, choose_setup fit perf2worth pop = Ok st /\ det_worth_select ltw eqf fit debug t st pop ds = Ok (x, skipn t ds) /\
  nth_error pop i = Some x /\ nth_error ws i = Some w /\ In i (contestants pop t ds) /\ forall c w', In c (contestants pop t ds) -> nth_error ws c = Some w' -> ltw w w' = false.
Proof. intros A F T ltw eqf fit SWO He perf2worth debug pop ws t ds. apply det_worth_ok; auto. Qed.
Theorem C119_stochastic_tournament : forall A F T (ltw : T -> T -> bool) (eqf : F -> F -> bool) (fit : A -> F), strict_weak_order ltw -> (forall a b, eqf a b = true <-> a = b) ->
  forall perf2worth debug certain pop ws d1 d2 d3 ds, perf2worth pop = Ok ws -> length ws = length pop -> pop <> [] ->
  exists st i x w w1 w2, choose_setup fit perf2worth pop = Ok st /\ stoch_worth_select ltw eqf fit debug certain st pop (d1 :: d2 :: d3 :: ds) = Ok (x, ds) /\
  nth_error pop i = Some x /\ nth_error ws i = Some w /\ nth_error ws (d1 mod length pop) = Some w1 /\ nth_error ws (d2 mod length pop) = Some w2 /\
  (i = d1 mod length pop \/ i = d2 mod length pop) /\
  (certain = true \/ Nat.odd d3 = true -> ltw w w1 = false /\ ltw w w2 = false) /\
  (certain = false -> Nat.odd d3 = false -> ltw w1 w = false /\ ltw w2 w = false).
Proof. intros A F T ltw eqf fit SWO He perf2worth debug certain pop ws d1 d2 d3 ds. apply stoch_worth_ok; auto. Qed.
(** the roulette: an individual is selected for the draws in an interval as long as its worth *)
Theorem C119_roulette : forall A F (eqf : F -> F -> bool) (fit : A -> F), (forall a b, eqf a b = true <-> a = b) ->
  forall perf2worth debug (pop : list A) ws u ds, perf2worth pop = Ok ws -> length ws = length pop -> NoDup pop -> non_negative ws -> (0 < u <= 1)%Q -> (0 < total ws)%Q ->
  exists st, choose_setup fit perf2worth pop = Ok st /\ (exists x, roulette_worth_select eqf fit debug st u pop ds = Ok (x, ds)) /\
  forall i x, nth_error pop i = Some x -> (roulette_worth_select eqf fit debug st u pop ds = Ok (x, ds) <-> (prefix ws i < u * total ws <= prefix ws (S i))%Q).
Proof.
  intros A F eqf fit He perf2worth debug pop ws u ds E L ND Nn Hu Ht. exists (Chooser ws (map fit pop)). assert (S : choose_setup fit perf2worth pop = Ok (Chooser ws (map fit pop))) by (unfold choose_setup; rewrite E; reflexivity). split; [exact S|].
  assert (Tot : (fold_left Qplus ws 0 == total ws)%Q) by (rewrite fold_qsum; unfold total; clear; assert (X : (qsum ws (fun f => f) == prefix ws (length ws))%Q); [induction ws as [|w ws IH]; cbn [length prefix]; [reflexivity|rewrite EvalNk.qsum_cons, IH; reflexivity]|rewrite X; lra]).
  assert (Ext : roulette_wheel ws (fold_left Qplus ws 0%Q) u ds = roulette_wheel ws (total ws) u ds).
  { unfold roulette_wheel. assert (X : (u * fold_left Qplus ws 0 == u * total ws)%Q) by (rewrite Tot; reflexivity).
    assert (Z : forall a b, (a == b)%Q -> Qeq_bool a 0 = Qeq_bool b 0) by (intros a b H; apply eq_true_iff_eq; rewrite !Qeq_bool_iff, H; reflexivity). rewrite (Z _ _ X).
    assert (R : forall l i a b, (a == b)%Q -> roulette_loop l i a = roulette_loop l i b).
    { induction l as [|f l IH]; intros i a b H; cbn [roulette_loop]; (assert (Y : Qle_bool a 0 = Qle_bool b 0) by (apply eq_true_iff_eq; rewrite !Qle_bool_iff, H; reflexivity)); rewrite Y; [reflexivity|]. destruct (Qle_bool b 0); [reflexivity|]. apply IH. rewrite H. reflexivity. }
    rewrite (R _ _ _ _ X). reflexivity. }
  destruct (roulette_full ws u ds Nn Hu Ht) as [(k & Hk) Iff].
  assert (Sel : forall i x, nth_error pop i = Some x -> roulette_wheel ws (total ws) u ds = Ok (i, ds) -> roulette_worth_select eqf fit debug (Chooser ws (map fit pop)) u pop ds = Ok (x, ds)).
  { intros i x Hx Hr. unfold roulette_worth_select. cbn [w_of]. rewrite Ext, Hr. cbn [rbind]. rewrite (proj2 (chosen_ok eqf fit He perf2worth debug pop _ ws i x E S Hx)). reflexivity. }
  split.
  - assert (Lk := proj1 (proj1 (Iff k) Hk)). destruct (nth_error pop k) as [x|] eqn:Hx; [|apply nth_error_None in Hx; lia]. exists x. eauto.
  - intros i x Hx. assert (Hi := nth_error_lt _ _ _ Hx). split.
    + intros H. assert (Lk := proj1 (proj1 (Iff k) Hk)). destruct (nth_error pop k) as [y|] eqn:Hy; [|apply nth_error_None in Hy; lia]. rewrite (Sel k y Hy Hk) in H. injection H as ->.
      rewrite (NoDup_nth_error_inj pop i k x ND Hx Hy). apply (proj1 (Iff k) Hk).
    + intros H. apply (Sel i x Hx). apply Iff. split; [lia|exact H].
Qed.
(** a debug build returns an individual only if its fitness is the one it had at setup *)
Theorem C119_debug : forall A F T (eqf : F -> F -> bool) (fit : A -> F), (forall a b, eqf a b = true <-> a = b) ->
  forall (st : chooser (F:=F) (T:=T)) pop i x, chosen eqf fit true st pop i = Ok x -> nth_error pop i = Some x /\ nth_error (f_of st) i = Some (fit x).
Proof. intros A F T eqf fit He st pop i x. apply debug_ok; auto. Qed.
Example C119_select_example : det_worth_select (A:=nat) Nat.ltb Nat.eqb (fun x => x) true 2 (Chooser [7; 1; 9] [1; 2; 3]) [1; 2; 3] [0; 2; 5] = Ok (3, [5]).
Proof. reflexivity. Qed.

(** ** C120: linear scaling *)
Theorem C120_line : forall pressure fs best, In best fs -> (forall f, In f fs -> f <= best)%Q -> (exists f, In f fs /\ f < best)%Q ->
  exists ws, linear_scaling qltb pressure fs = Ok (map Some ws) /\ Forall2 (fun f w => w == Qmax 0 (on_the_line pressure (length fs) (mean fs) best f))%Q fs ws.
Proof. exact scaling_ok. Qed.
(** the line: 1/n for the average, pressure/n for the best, and the shares add up to 1 *)
Theorem C120_shares : forall pressure fs best, In best fs -> (forall f, In f fs -> f <= best)%Q -> (exists f, In f fs /\ f < best)%Q ->
  let n := inject_Z (Z.of_nat (length fs)) in let line := on_the_line pressure (length fs) (mean fs) best in
  (line (mean fs) == 1 / n /\ line best == pressure / n /\ qsum fs line == 1)%Q.
Proof.
  intros pressure fs best Hi Hb Hl n line. assert (M := mean_below fs best Hb Hl). assert (P : 0 < length fs) by (destruct fs; [destruct Hi|cbn; lia]). assert (Pn := qn_pos _ P). fold n in Pn.
  split; [|split]; [| |apply line_sum; auto].
  - unfold line, on_the_line. fold n. field. split; lra.
  - unfold line, on_the_line. fold n. field. split; lra.
Qed.
(** the fitter has the larger worth *)
Theorem C120_order : forall pressure n avg best f f', (1 <= pressure)%Q -> 0 < n -> (avg < best)%Q -> (f <= f')%Q ->
  (Qmax 0 (on_the_line pressure n avg best f) <= Qmax 0 (on_the_line pressure n avg best f'))%Q.
Proof.
  intros pressure n avg best f f' Hp Hn Ha Hf. apply Q.max_le_compat_l. unfold on_the_line. assert (Pn := qn_pos _ Hn). apply Qmult_le_compat_r; [|apply Qlt_le_weak, Qinv_lt_0_compat; exact Pn].
  assert (X : ((pressure - 1) * (f - avg) / (best - avg) <= (pressure - 1) * (f' - avg) / (best - avg))%Q).
  { apply Qmult_le_compat_r; [nra|]. apply Qlt_le_weak, Qinv_lt_0_compat. lra. }
  lra.
Qed.
Example C120_example : exists a b c, linear_scaling qltb 2 [1; 2; 3]%Q = Ok [Some a; Some b; Some c] /\ (a == 0 /\ b == 1 # 3 /\ c == 2 # 3)%Q.
Proof. eexists _, _, _. split; [vm_compute; reflexivity|]. vm_compute. auto. Qed.

(** ** C121: sharing *)
Theorem C121_sharing : forall A (fit : A -> Q) (dist : A -> A -> Q) niche, (forall x y, dist x y == dist y x)%Q -> (0 < niche)%Q ->
  forall pop, 1 < length pop -> exists ws, sharing fit dist niche pop = Ok ws /\ length ws = length pop /\
  forall i x, nth_error pop i = Some x -> exists w, nth_error ws i = Some w /\ (w == fit x / niche_count dist niche pop i x)%Q.
Proof. intros A fit dist niche Hs Hp pop. apply sharing_ok; auto. Qed.
(** an individual without neighbours keeps its fitness; no one gets more *)
Theorem C121_alone : forall A (dist : A -> A -> Q) niche pop i x, nth_error pop i = Some x -> (forall j y, j <> i -> nth_error pop j = Some y -> niche < dist x y)%Q -> (niche_count dist niche pop i x == 1)%Q.
Proof. intros A dist niche pop i x Hx. apply niche_count_alone. eapply nth_error_lt; eauto. Qed.
Theorem C121_at_least_one : forall A (dist : A -> A -> Q) niche pop i x, (0 < niche)%Q -> nth_error pop i = Some x -> (forall y, 0 <= dist x y)%Q -> (1 <= niche_count dist niche pop i x)%Q.
Proof. intros A dist niche pop i x Hp Hx. apply niche_count_more; auto. eapply nth_error_lt; eauto. Qed.
(** one individual cannot share *)
Theorem C121_too_small : forall A (fit : A -> Q) dist niche pop, length pop <= 1 -> sharing fit dist niche pop = Throw.
Proof. intros A fit dist niche pop H. unfold sharing. rewrite (proj2 (Nat.leb_le _ _) H). reflexivity. Qed.
Example C121_example : exists a b c, sharing (fun x => x) (fun x y => Qabs (x - y)) 2 [4; 4; 10]%Q = Ok [a; b; c] /\ (a == 2 /\ b == 2 /\ c == 10)%Q.
Proof. eexists _, _, _. split; [vm_compute; reflexivity|]. vm_compute. auto. Qed.

(** ** C122: non-dominated sorting *)
(** any dominance, any number of objectives *)
Theorem C122_many_objectives : forall V (dominated : V -> V -> bool) vs niche value, vs <> [] ->
  (forall a, In a vs -> dominated a a = false) ->
  (forall a b c, In a vs -> In b vs -> In c vs -> dominated a b = true -> dominated b c = true -> dominated a c = true) ->
  penalises (fun a b => dominated a b = true) vs niche ->
  exists fronts ws, nd_many niche dominated vs value = Ok ws /\ length ws = length vs /\
  the_fronts (fun a b => dominated a b = true) vs fronts /\ worths_by_front niche fronts ws.
Proof. intros. apply many_worths; auto. Qed.
(** two objectives, each minimised or maximised *)
Theorem C122_two_objectives : forall sort, std_sort_ok sort -> forall max0 max1 tol same vs, (0 < tol)%Q ->
  (forall v, In v vs -> length v = 2) ->
  (forall a b o x y, In a vs -> In b vs -> nth_error a o = Some x -> nth_error b o = Some y -> (Qabs (x - y) < tol)%Q -> (x == y)%Q) ->
  (forall a b, In a vs -> In b vs -> (same a b = true <-> equal_vectors a b)) ->
  let D := fun a b => dominates [negb max0; negb max1] b a in
  forall niche value, vs <> [] -> penalises D vs niche ->
  exists fronts ws, nd_two niche sort max0 max1 tol same false vs value = Ok ws /\ length ws = length vs /\ the_fronts D vs fronts /\ worths_by_front niche fronts ws.
Proof. intros sort Hs max0 max1 tol same vs Ht Hl Hp He D niche value Ne Pn. apply two_worths; auto. Qed.
Theorem C122_two_objectives_without_copies : forall sort, std_sort_ok sort -> forall max0 max1 tol same vs, (0 < tol)%Q ->
  (forall v, In v vs -> length v = 2) ->
  (forall a b o x y, In a vs -> In b vs -> nth_error a o = Some x -> nth_error b o = Some y -> (Qabs (x - y) < tol)%Q -> (x == y)%Q) ->
  (forall a b, In a vs -> In b vs -> (same a b = true <-> equal_vectors a b)) ->
  let D := fun a b => dominates [negb max0; negb max1] b a in
  forall niche value, vs <> [] -> good_niche (length vs) niche ->
  exists fronts ws, nd_two niche sort max0 max1 tol same true vs value = Ok ws /\ length ws = length vs /\ fronts_without_copies D equal_vectors vs fronts /\ worths_by_front niche fronts ws.
Proof. intros sort Hs max0 max1 tol same vs Ht Hl Hp He D niche value Ne Pn. apply two_worths_declone; auto. Qed.
(** hence the dominated one always has the smaller worth *)
Theorem C122_dominated_is_worse : forall V (D : V -> V -> Prop) vs niche fronts ws, the_fronts D vs fronts -> worths_by_front niche fronts ws ->
  forall i j a b, nth_error vs i = Some a -> nth_error vs j = Some b -> D a b ->
  exists wi wj, nth_error ws i = Some wi /\ nth_error ws j = Some wj /\ (wi < wj)%Q.
Proof.
  intros V D vs niche fronts ws (TF & _ & All) (top & W) i j a b Ha Hb H. destruct (All i (nth_error_lt _ _ _ Ha)) as (fi & Fi & Ii). destruct (All j (nth_error_lt _ _ _ Hb)) as (fj & Fj & Ij).
  apply In_nth_error in Fi as (k & Hk), Fj as (l & Hl).
  destruct (W k fi Hk) as (ci & _ & _ & Wi & _); [intros ->; destruct Ii|]. destruct (W l fj Hl) as (cj & _ & _ & Wj & _); [intros ->; destruct Ij|].
  destruct (Wi i Ii) as (wi & Ei & _ & Hi). destruct (Wj j Ij) as (wj & Ej & _ & Hj). exists wi, wj. split; [exact Ei|]. split; [exact Ej|].
  assert (N1 := proj1 (TF k i) (ex_intro _ fi (conj Hk Ii))). assert (N2 := proj1 (TF l j) (ex_intro _ fj (conj Hl Ij))).
  assert (L : S l < S k) by (eapply (front_dom D vs i j); eauto; exists a, b; auto).
  assert (X : (inject_Z (top - Z.of_nat k) <= inject_Z (top - Z.of_nat l - 1))%Q) by (rewrite <- Zle_Qle; lia). lra.
Qed.
(** one objective: the worths are n for the best, n-1 for the next one, and so on *)
Theorem C122_one_objective : forall sort, std_sort_ok sort -> forall F (ltf : F -> F -> bool), strict_weak_order ltf -> forall fs nofit value,
  exists ranks, ranking_of ltf fs ranks /\ nd_one sort ltf fs nofit value = Ok (map (fun r => inject_Z (Z.of_nat (length fs - r))) ranks).
Proof. intros sort Hs F ltf SWO fs nofit value. apply one_ok; auto. Qed.
(** the penalties of NSGA: the closeness of the others on the front *)
Theorem C122_nsga_penalty : forall vs size, (0 < size)%Q ->
  (forall n, good_niche n (niche_I vs size)) /\
  forall fr, NoDup fr -> exists nc, niche_I vs size fr = Ok nc /\ length nc = length fr /\
  forall a i, nth_error fr a = Some i -> exists c, nth_error nc a = Some c /\ (c == crowd size vs fr i)%Q.
Proof. intros vs size Hs. split; [intros n; apply nicheI_good; auto|intros fr; apply nicheI_ok; auto]. Qed.
(** the penalties of NSGA-II on a front of two or more: none for who is extreme in all the
    objectives, at least 1 for who is between others in one *)
Theorem C122_nsga2_penalty : forall vs sort, std_sort_ok sort -> forall m fr, NoDup fr -> 2 <= length fr ->
  exists nc, niche_II vs sort m fr = Ok nc /\ length nc = length fr /\ Forall (fun c => 0 <= c)%Q nc /\
  forall a i, nth_error fr a = Some i -> exists c, nth_error nc a = Some c /\
  ((forall o, o < m -> extreme vs fr o i) -> (c == 0)%Q) /\ ((exists o, o < m /\ inside vs fr o i) -> (1 <= c)%Q).
Proof. intros vs sort Hs m fr ND L. apply nicheII_ok; auto. Qed.
(** put together: NSGA and, when no front has a single member, NSGA-II *)
Theorem C122_nsga : forall dirs vs size value, vs <> [] -> (forall v, In v vs -> length v = length dirs) -> (0 < size)%Q ->
  let D := fun a b => dominates dirs b a in
  exists fronts ws, nd_many (niche_I vs size) (pareto 0 dirs) vs value = Ok ws /\ length ws = length vs /\ the_fronts D vs fronts /\ worths_by_front (niche_I vs size) fronts ws.
Proof.
  intros dirs vs size value Ne Hl Hs D. destruct (many_worths (pareto 0 dirs) vs (niche_I vs size) value Ne) as (fronts & ws & E & L & (T1 & T2 & T3) & W).
  - apply good_penalises. apply nicheI_good. exact Hs.
  - intros a Ha. apply pareto_irrefl; [lra|auto].
  - intros a b c Ha Hb Hc. apply pareto_trans; auto.
  - exists fronts, ws. split; [exact E|]. split; [exact L|]. split; [|exact W]. split; [|auto]. intros k i. rewrite T1. apply front_number_iff. intros a b Ha Hb. apply pareto_exact; auto.
Qed.
Theorem C122_nsga2 : forall sort, std_sort_ok sort -> forall dirs vs value, vs <> [] -> (forall v, In v vs -> length v = length dirs) ->
  let D := fun a b => dominates dirs b a in
  (forall i r, in_front_number D vs i r -> exists j, j <> i /\ in_front_number D vs j r) ->
  let niche := niche_II vs sort (length dirs) in
  exists fronts ws, nd_many niche (pareto 0 dirs) vs value = Ok ws /\ length ws = length vs /\ the_fronts D vs fronts /\ worths_by_front niche fronts ws.
Proof.
  intros sort Hs dirs vs value Ne Hl D Two niche.
  assert (FI : forall i r, in_front_number (fun a b => pareto 0 dirs a b = true) vs i r <-> in_front_number D vs i r) by (apply front_number_iff; intros a b Ha Hb; apply pareto_exact; auto).
  destruct (many_worths (pareto 0 dirs) vs niche value Ne) as (fronts & ws & E & L & (T1 & T2 & T3) & W).
  - intros k fr Nf ND Hf. destruct fr as [|i fr'] eqn:Ef; [congruence|]. rewrite <- Ef in *. destruct (Two i (S k)) as (j & Nij & Hj); [apply FI, Hf; rewrite Ef; left; reflexivity|]. apply FI, Hf in Hj.
    destruct (nicheII_ok vs sort Hs fr) with (m := length dirs) as (nc & E & L & F & _); [rewrite Ef in *; destruct Hj as [Hj|Hj]; [congruence|destruct fr'; [destruct Hj|cbn; lia]]|exact ND|]. eauto.
  - intros a Ha. apply pareto_irrefl; [lra|auto].
  - intros a b c Ha Hb Hc. apply pareto_trans; auto.
  - exists fronts, ws. split; [exact E|]. split; [exact L|]. split; [|exact W]. split; [|auto]. intros k i. rewrite T1. apply FI.
Qed.
Definition ex_vs : list (list Q) := [[0; 3]; [3; 0]; [4; 4]; [1; 1]; [5; 3]; [3; 5]]%Q.
Definition ex_same (a b : list Q) : bool := (length a =? length b) && forallb (fun p => Qeq_bool (fst p) (snd p)) (combine a b).
Definition qlist (r : res (list Q)) : res (list Q) := match r with Ok l => Ok (map Qred l) | o => o end.
Example C122_example : qlist (nd_many (niche_II ex_vs the_sort 2) (pareto 0 [true; true]) ex_vs []) = Ok [2; 2; 1 # 3; 4 # 3; 1; 1]%Q /\
  qlist (nd_two (niche_II ex_vs the_sort 2) the_sort false false (1 # 100) ex_same false ex_vs []) = Ok [2; 2; 1 # 3; 4 # 3; 1; 1]%Q /\
  qlist (nd_two (niche_I ([1; 1] :: ex_vs)%Q 2) the_sort false false (1 # 100) ex_same true ([1; 1] :: ex_vs)%Q []) = Ok [6; 6; 6; 5; 0; 5; 5]%Q /\
  nd_one the_sort Nat.ltb [4; 9; 7] 0 [] = Ok [1; 3; 2]%Q.
Proof. vm_compute. auto. Qed.
Example C122_hypotheses : (forall i r, in_front_number (fun a b => dominates [true; true] b a) ex_vs i r -> exists j, j <> i /\ in_front_number (fun a b => dominates [true; true] b a) ex_vs j r) /\ forall n, good_niche n (niche_I ex_vs 2).
Proof.
  split; [|intros n; apply nicheI_good; lra].
  assert (FI : forall i r, in_front_number (fun a b => pareto 0 [true; true] a b = true) ex_vs i r <-> in_front_number (fun a b => dominates [true; true] b a) ex_vs i r) by (apply front_number_iff; intros a b Ha Hb; apply pareto_exact; cbn in *; intuition (subst; reflexivity)).
  assert (F : forall i, i < 6 -> in_front_number (fun a b => pareto 0 [true; true] a b = true) ex_vs i (nth i [1; 1; 2; 1; 2; 2] 0)).
  { apply (layering _ ex_vs (fun i => nth i [1; 1; 2; 1; 2; 2] 0)).
    - intros i Hi. do 6 (destruct i as [|i]; [cbn; lia|]). cbn in Hi. lia.
    - intros i Hi H. exists 3. do 6 (destruct i as [|i]; [first [cbn in H; lia|split; [eexists _, _; split; [reflexivity|]; split; [reflexivity|]; vm_compute; reflexivity|cbn; lia]]|]). cbn in Hi. lia.
    - intros i j (a & b & Ha & Hb & H). do 6 (destruct i as [|i]; [do 6 (destruct j as [|j]; [injection Ha as <-; injection Hb as <-; vm_compute in H; first [discriminate|cbn; lia]|]); destruct j; discriminate|]). destruct i; discriminate. }
  intros i r H. assert (Hi : i < 6) by (destruct H as (_ & X & _); apply surv_lt in X; exact X). apply FI in H. assert (E := front_unique _ _ _ _ _ H (F i Hi)). subst r.
  exists (nth i [1; 0; 4; 0; 2; 2] 0). do 6 (destruct i as [|i]; [split; [cbn; lia|]; apply FI; cbn [nth]; match goal with |- in_front_number _ _ ?j _ => exact (F j ltac:(lia)) end|]). lia.
Qed.

(** ** C123: what the documentation promises and the code does not do *)
(** a front with a single member: NSGA-II gives a dominating individual the smallest worth *)
Theorem C123_single_member_front_refuted : exists vs a b ws wa wb,
  nth_error vs 0 = Some a /\ nth_error vs 1 = Some b /\ dominates [true; true] a b /\
  nd_many (niche_II vs the_sort 2) (pareto 0 [true; true]) vs [] = Ok ws /\
  qlist (nd_two (niche_II vs the_sort 2) the_sort false false (1 # 100) ex_same false vs []) = Ok (map Qred ws) /\
  nth_error ws 0 = Some wa /\ nth_error ws 1 = Some wb /\ (wa < wb)%Q.
Proof.
  exists [[0; 0]; [1; 2]; [2; 1]]%Q. eexists _, _, _, _, _. split; [reflexivity|]. split; [reflexivity|]. split; [apply pareto_exact; vm_compute; reflexivity|].
  split; [vm_compute; reflexivity|]. split; [vm_compute; reflexivity|]. split; [reflexivity|]. split; [reflexivity|]. vm_compute. reflexivity.
Qed.
(** sort, then resize: the next call on what is left does not compute the worths again *)
Definition ex_one (pop : list nat) (old : list Q) : res (list Q) := nd_one the_sort Nat.ltb pop 0 old.
Definition ex_session (pop : list nat) (sz : nat) : res (list Q) :=
  let '(st, o) := cached_call Nat.eqb (fun x => x) ex_one (Cached [] []) pop in
  let! _ := o in
  let! (st, pop) := cached_sort 0 0%Q 0 qltb the_sort st pop in
  let '(st, pop) := cached_resize 0 0%Q 0 sz st pop in
  let '(st, o) := cached_call Nat.eqb (fun x => x) ex_one st pop in
  let! _ := o in Ok (worths st).
Theorem C123_resize_keeps_old_worths_refuted : exists pop sz kept fresh, ex_session pop sz = Ok kept /\ ex_one [8; 7] [] = Ok fresh /\ firstn 2 [8; 7; 2] = [8; 7] /\ pop = [2; 7; 8] /\ sz = 2 /\ kept <> fresh.
Proof. exists [2; 7; 8], 2. eexists _, _. split; [vm_compute; reflexivity|]. split; [vm_compute; reflexivity|]. repeat split. discriminate. Qed.
(** after a computation that threw, the cache already has the new fitnesses *)
Theorem C123_throwing_computation_refuted : forall A F T (eqf : F -> F -> bool) (fit : A -> F), (forall a b, eqf a b = true <-> a = b) ->
  forall (calculate : list A -> list T -> res (list T)) st pop, cache st <> map fit pop -> calculate pop (worths st) = Throw ->
  exists st', cached_call eqf fit calculate st pop = (st', Throw) /\ cached_call eqf fit calculate st' pop = (st', Ok tt) /\ worths st' = worths st.
Proof.
  intros A F T eqf fit He calculate st pop N E. exists (Cached (map fit pop) (worths st)). split; [|split; [|reflexivity]].
  - unfold cached_call. destruct (_ && _) eqn:B; [|rewrite E; reflexivity]. apply andb_true_iff in B as [_ B]. apply (same_iff _ He) in B. contradiction.
  - unfold cached_call. cbn [cache]. rewrite map_length, Nat.eqb_refl, (proj2 (same_iff _ He _ _) eq_refl). reflexivity.
Qed.
(** "Pselect(Best) == pressure/sizePop" once a worth was truncated *)
Theorem C123_truncated_shares_refuted : exists fs ws w, linear_scaling qltb 2 fs = Ok (map Some ws) /\ nth_error fs 0 = Some 10%Q /\ (forall f, In f fs -> f <= 10)%Q /\ nth_error ws 0 = Some w /\
  ~ (w / qsum ws (fun w => w) == 2 / inject_Z (Z.of_nat (length fs)))%Q.
Proof.
  exists [10; 9; 9; 0]%Q. eexists [_; _; _; _]%Q, _. split; [vm_compute; reflexivity|]. split; [reflexivity|]. split; [intros f [<-|[<-|[<-|[<-|[]]]]]; lra|]. split; [reflexivity|]. vm_compute. discriminate.
Qed.
(** equal fitnesses: all the worths are NaN *)
Theorem C123_equal_fitnesses_are_nan : forall pressure fs f0, fs <> [] -> (forall f, In f fs -> f == f0)%Q -> linear_scaling qltb pressure fs = Ok (repeat None (length fs)).
Proof. exact scaling_equal. Qed.
Print Assumptions C119_sort.
Print Assumptions C119_truncate.
Print Assumptions C119_cache.
Print Assumptions C119_call.
Print Assumptions C119_deterministic_tournament.
Print Assumptions C119_stochastic_tournament.
Print Assumptions C119_roulette.
Print Assumptions C119_debug.
Print Assumptions C120_line.
Print Assumptions C120_shares.
Print Assumptions C120_order.
Print Assumptions C121_sharing.
Print Assumptions C121_alone.
Print Assumptions C121_at_least_one.
Print Assumptions C121_too_small.
Print Assumptions C122_many_objectives.
Print Assumptions C122_two_objectives.
Print Assumptions C122_two_objectives_without_copies.
Print Assumptions C122_dominated_is_worse.
Print Assumptions C122_one_objective.
Print Assumptions C122_nsga_penalty.
Print Assumptions C122_nsga2_penalty.
Print Assumptions C122_nsga.
Print Assumptions C122_nsga2.
Print Assumptions C123_single_member_front_refuted.
Print Assumptions C123_resize_keeps_old_worths_refuted.
Print Assumptions C123_throwing_computation_refuted.
Print Assumptions C123_truncated_shares_refuted.
Print Assumptions C123_equal_fitnesses_are_nan.
