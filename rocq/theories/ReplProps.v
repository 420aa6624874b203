(** C46: multi-objective replacements; C68: multi-objective selectors. *)
From Coq Require Import List Arith Lia Bool ZArith QArith Lqa Permutation.
From Verif Require Import Outcome Lib OrderSpec OrderLemmas SelectSpec ReplModel ReplSpec ReplProofs.
Import ListNotations.
Close Scope Q_scope.
Open Scope nat_scope.

(** elitist replacement: as many as the parents, all from the parents and the offspring,
    and nobody dropped is better than somebody kept (for the assigned values) *)
Theorem C46_elitist : forall A B (comp : A -> A -> bool), strict_weak_order comp -> forall sort, std_sort_ok sort ->
  forall (solution : A -> B) fit div, keeps_solutions solution fit -> keeps_solutions solution div ->
  forall parents offspring, exists kept dropped,
  elitist A comp sort fit div parents offspring = (kept, []) /\
  best_n comp (div (fit (parents ++ offspring))) (length parents) kept /\
  Permutation (map solution (parents ++ offspring)) (map solution kept ++ dropped).
Proof. intros A B comp H sort Hs solution fit div Hf Hd. exact (elitist_ok A B comp H sort Hs solution fit div Hf Hd). Qed.
Print Assumptions C46_elitist.
(** environmental replacement: a worst of those left is removed, one by one *)
Theorem C46_environmental : forall A B (comp : A -> A -> bool), strict_weak_order comp ->
  forall (solution : A -> B) fit div, keeps_solutions solution fit -> keeps_solutions solution div ->
  forall fit_del div_del, (forall w, keeps_solutions solution (fun l => fit_del l w)) -> (forall w, keeps_solutions solution (fun l => div_del l w)) ->
  forall parents offspring, exists kept dropped,
  environmental A comp fit div fit_del div_del parents offspring = Ok (kept, []) /\ length kept = length parents /\
  shrinks comp (fun rest w => div_del (fit_del rest w) w) (length parents) (div (fit (parents ++ offspring))) kept /\
  Permutation (map solution (parents ++ offspring)) (map solution kept ++ dropped).
Proof. intros A B comp H solution fit div Hf Hd fd dd H1 H2. exact (environmental_ok A B comp H solution fit div Hf Hd fd dd H1 H2). Qed.
Print Assumptions C46_environmental.
(** so when nothing is updated on removal it keeps the best ones too *)
Theorem C46_environmental_best : forall A (comp : A -> A -> bool) sz pop out, shrinks comp (fun l _ => l) sz pop out ->
  sz <= length pop -> best_n comp pop sz out.
Proof. intros A. exact (@shrinks_best A). Qed.
Print Assumptions C46_environmental_best.
(** the comparators of individuals are strict weak orders *)
Theorem C46_comparators : forall B wf wd, strict_weak_order (@fit_then_div B) /\ strict_weak_order (@div_then_fit B) /\ strict_weak_order (@aggregative B wf wd).
Proof. intros B wf wd. exact (conj (fit_then_div_swo B) (conj (div_then_fit_swo B) (aggregative_swo B wf wd))). Qed.
Print Assumptions C46_comparators.
Theorem C46_fit_then_div : forall B (a b : moeo B), fit_then_div a b = true <-> (mfit a < mfit b \/ (mfit a == mfit b /\ mdiv a < mdiv b))%Q.
Proof.
  intros B a b. unfold fit_then_div. destruct (Qeq_bool (mfit a) (mfit b)) eqn:E.
  - apply Qeq_bool_iff in E. rewrite qlt_lt. split; [intros; right; auto|intros [|[]]; auto; lra].
  - rewrite qlt_lt. split; [auto|intros [|[E' _]]; auto]. apply Qeq_bool_iff in E'. congruence.
Qed.
Print Assumptions C46_fit_then_div.
Example C46_ex : let m s f d := Moeo s f d in
  elitist (moeo Q) fit_then_div the_sort (fun l => l) (fun l => l) [m 1 0 0; m 2 1 5]%Q [m 3 1 2; m 4 1 7; m 5 0 9]%Q = ([m 4 1 7; m 2 1 5]%Q, []) /\
  environmental (moeo Q) fit_then_div (fun l => l) (fun l => l) (fun l _ => l) (fun l _ => l) [m 1 0 0; m 2 1 5]%Q [m 3 1 2; m 4 1 7; m 5 0 9]%Q = Ok ([m 4 1 7; m 2 1 5]%Q, []).
Proof. split; reflexivity. Qed.

(** C68. deterministic tournament: the winner is a best of the individuals drawn *)
Theorem C68_det_tournament : forall A (comp : A -> A -> bool), strict_weak_order comp -> forall t pop ds, pop <> [] ->
  Nat.max 2 t <= length ds -> exists x, moeo_det_select A comp t pop ds = Ok (x, skipn (Nat.max 2 t) ds) /\
  wins_among comp pop (contestants pop (Nat.max 2 t) ds) x.
Proof.
  intros A comp H t pop ds Hn Hl. unfold moeo_det_select. replace (if t <? 2 then 2 else t) with (Nat.max 2 t) by (destruct (Nat.ltb_spec t 2); lia).
  apply mo_det_ok; auto; lia.
Qed.
Print Assumptions C68_det_tournament.
(** stochastic tournament: with certainty, or when the flip succeeds, the better of two drawn;
    otherwise the other one *)
Theorem C68_stoch_tournament : forall A (comp : A -> A -> bool), strict_weak_order comp -> forall pop certain d1 d2 d3 ds, pop <> [] ->
  exists a b x, nth_error pop (d1 mod length pop) = Some a /\ nth_error pop (d2 mod length pop) = Some b /\
  mo_stoch_tournament A comp pop certain (d1 :: d2 :: d3 :: ds) = Ok (x, ds) /\
  (certain || Nat.odd d3 = true -> (x = a /\ comp a b = false) \/ (x = b /\ comp b a = false)) /\
  (certain || Nat.odd d3 = false -> (x = a /\ comp b a = false) \/ (x = b /\ comp a b = false)).
Proof.
  intros A comp H pop certain d1 d2 d3 ds Hn. destruct (mo_stoch_ok A comp H pop certain d1 d2 d3 ds Hn) as (a & b & Ha & Hb & x & E & H1 & H2).
  exists a, b, x. repeat split; auto. intros Hc. destruct H1 as [|[|[H1 _]]]; auto. congruence.
Qed.
Print Assumptions C68_stoch_tournament.
(** selection from the population and the archive: the population alone while the archive is
    empty or when the rate is 1; otherwise the flip decides, success meaning the population *)
Theorem C68_pop_and_arch : forall A from_pop from_arch certain (pop arch : list A) d ds,
  pop_and_arch A [] from_pop from_arch certain pop ds = from_pop pop ds /\
  (arch <> [] -> pop_and_arch A arch from_pop from_arch true pop (d :: ds) = from_pop pop ds) /\
  (arch <> [] -> Nat.odd d = true -> pop_and_arch A arch from_pop from_arch certain pop (d :: ds) = from_pop pop ds) /\
  (arch <> [] -> Nat.odd d = false -> pop_and_arch A arch from_pop from_arch false pop (d :: ds) = from_arch arch ds).
Proof.
  intros A from_pop from_arch certain pop arch d ds. unfold pop_and_arch, the_flip, draw_flip. split; [reflexivity|]. split; [|split]; intros Ha; (destruct arch; [congruence|]); cbn [length Nat.ltb Nat.leb rbind orb]; [reflexivity| |]; intros ->; auto.
  rewrite orb_true_r. auto.
Qed.
Print Assumptions C68_pop_and_arch.
(** selection from the archive *)
Theorem C68_archive : forall A shuf (arch : list A) mx mn dest, (forall l, Permutation l (shuf l)) -> mn <= mx -> (arch <> [] \/ mn = 0) ->
  exists out, det_archive_select A shuf arch mx mn dest = Ok out /\
  (mn <= length out <= mx) /\ (forall x, In x out -> In x arch) /\
  (mn <= length arch <= mx -> out = arch) /\
  (mx < length arch -> length out = mx /\ sub_population arch out) /\
  (length arch < mn -> forall j, j < length out -> nth_error out j = nth_error arch (j mod length arch)).
Proof. exact det_archive_ok. Qed.
Print Assumptions C68_archive.
Theorem C68_archive_empty_outside : exists mx mn, mn <= mx /\ det_archive_select nat (fun l => l) [] mx mn [] = UB.
Proof. exists 5, 2. split; [lia|reflexivity]. Qed.
Print Assumptions C68_archive_empty_outside.
(** unvisited selection: exactly the positions of unvisited individuals, or [number] of them *)
Theorem C68_unvisited : forall A (visited : A -> bool) pop,
  NoDup (unvisited A visited pop) /\ forall i, In i (unvisited A visited pop) <-> exists x, nth_error pop i = Some x /\ visited x = false.
Proof.
  intros A visited pop. unfold unvisited. split; [apply NoDup_filter, seq_NoDup|]. intros i. rewrite filter_In, in_seq. split.
  - intros [_ H]. destruct (nth_error pop i) as [x|]; [|discriminate]. exists x. split; auto. apply negb_true_iff. auto.
  - intros (x & Hx & Hv). rewrite Hx, Hv. split; auto. apply nth_error_lt in Hx. lia.
Qed.
Print Assumptions C68_unvisited.
Theorem C68_number_unvisited : forall A shuf (visited : A -> bool) number pop, (forall l, Permutation l (shuf l)) ->
  length (number_unvisited A shuf visited number pop) = Nat.min number (length (unvisited A visited pop)) /\
  sub_population (unvisited A visited pop) (number_unvisited A shuf visited number pop).
Proof.
  intros A shuf visited number pop Hs. unfold number_unvisited. set (r := unvisited A visited pop). destruct (Nat.ltb_spec number (length r)).
  - rewrite firstn_length, <- (Permutation_length (Hs r)). split; [lia|]. exists (skipn number (shuf r)). rewrite firstn_skipn. auto.
  - split; [lia|]. exists []. rewrite app_nil_r. auto.
Qed.
Print Assumptions C68_number_unvisited.
(** roulette: a wheel spun over the true total picks the slot of the number drawn *)
Theorem C68_wheel : forall fs u, non_negative fs -> (0 < u <= total fs)%Q ->
  exists i, wheel fs 0 u = Ok i /\ i < length fs /\ (prefix fs i < u <= prefix fs (S i))%Q.
Proof.
  assert (G : forall fs k u, non_negative fs -> (0 < u <= total fs)%Q -> exists i, wheel fs k u = Ok (k + i) /\ i < length fs /\ (prefix fs i < u <= prefix fs (S i))%Q).
  { induction fs as [|f fs IH]; intros k u Hn Hu; [cbn in Hu; lra|]. cbn [wheel]. replace (qlt 0 u) with true by (symmetry; apply qlt_lt; lra).
    destruct (Qlt_le_dec f u) as [Lt|Ge].
    - destruct (IH (S k) (u - f)%Q) as (i & E & Hi & Hp); [intros x Hx; apply Hn; right; auto|unfold total in *; cbn [length prefix] in Hu; lra|].
      exists (S i). rewrite E. split; [f_equal; lia|]. split; [cbn; lia|]. cbn [prefix]. cbn [prefix] in Hp. lra.
    - exists 0. split; [|split; [cbn; lia|cbn [prefix]; split; [lra|destruct fs; cbn; lra]]]. destruct fs as [|g fs]; cbn [wheel]; replace (qlt 0 (u - f)) with false by (symmetry; apply qlt_ge; lra); f_equal; lia. }
  intros fs u Hn Hu. destruct (G fs 0 u Hn Hu) as (i & E & H). exists i. auto.
Qed.
Print Assumptions C68_wheel.
(** but the selector spins it over the tournament size instead of the total fitness: it runs
    past the end when the fitnesses sum to less *)
Theorem C95_roulette_refuted : exists fs frac, non_negative fs /\ fs <> [] /\ (0 < frac < 1)%Q /\ forall ds, moeo_roulette 2 frac fs ds = UB.
Proof. exists [1 # 2; 1 # 2]%Q, (9 # 10)%Q. split; [intros f [<-|[<-|[]]]; lra|]. split; [discriminate|]. split; [lra|]. intros ds. reflexivity. Qed.
Print Assumptions C95_roulette_refuted.
(** and never selects anyone after the first when the first has a fitness of at least 2 *)
Theorem C95_roulette_biased_refuted : forall f fs frac ds i ds', (2 <= f)%Q -> (0 < frac < 1)%Q ->
  moeo_roulette 2 frac (f :: fs) ds = Ok (i, ds') -> i = 0.
Proof.
  intros f fs frac ds i ds' Hf Hu. unfold moeo_roulette. change (if 2 <? 2 then 2 else 2) with 2. change (inject_Z (Z.of_nat 2)) with 2%Q.
  destruct (Qeq_bool (frac * 2) 0) eqn:E; [apply Qeq_bool_iff in E; lra|]. cbn [wheel]. replace (qlt 0 (frac * 2)) with true by (symmetry; apply qlt_lt; lra).
  destruct fs as [|g fs]; cbn [wheel]; replace (qlt 0 (frac * 2 - f)) with false by (symmetry; apply qlt_ge; lra); cbn [rbind]; intros H; inversion H; auto.
Qed.
Print Assumptions C95_roulette_biased_refuted.
Example C68_ex : moeo_det_select nat Nat.ltb 3 [4; 9; 2; 7] [0; 3; 2; 8] = Ok (7, [8]) /\
  mo_stoch_tournament nat Nat.ltb [4; 9; 2; 7] false [0; 3; 2] = Ok (4, []) /\
  det_archive_select nat (@rev nat) [4; 9; 2] 2 1 [] = Ok [2; 9] /\ wheel [1; 2; 3]%Q 0 (5 # 2) = Ok 1.
Proof. repeat split. Qed.
