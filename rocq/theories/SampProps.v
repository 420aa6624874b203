(** C156 - C158: the samplings of fitness landscapes. *)
From Coq Require Import Bool Arith QArith Lia.
From Verif Require Import Outcome Lib OrderSpec OrderLemmas NeighModel NeighSpec NeighProofs LsModel LsSpec LsProofs LsClimb LsNeutral LsInst StopModel StopSpec StopProofs PertModel PertSpec PertProofs
  MetaModel MetaSpec MetaProofs MetaAnneal StatModel StatSpec StatProofs StatNh SampModel SampSpec SampProofs SampRuns SampRest.
From Coq Require Import List.
Import ListNotations.
Close Scope Q_scope.
Open Scope nat_scope.

(** ** C156 *)
(** any search, continuator, statistics and monitors: the sampling runs when and as the search alone does, from the
    solution the initialisation makes *)
Theorem C156_same_search {G F X V A C} (full : G -> F) init blank (e : explorer (sol G F) X) (c : continuator (sol G F) C) stats (ms : list (monitor V A)) fuel x v cs ds :
  (forall r, sampling full init blank e c stats ms fuel x v cs ds = Ok r ->
     exists s ds1, init blank ds = Ok (s, ds1) /\ local_search full e c fuel s x cs ds1 = Ok (plain r)) /\
  (forall s ds1 r, init blank ds = Ok (s, ds1) -> local_search full e c fuel s x cs ds1 = Ok r ->
     exists r', sampling full init blank e c stats ms fuel x v cs ds = Ok r' /\ plain r' = r).
Proof.
  split.
  - intros r H. apply sampling_run in H as (s & ds1 & H1 & H2 & _). eauto.
  - intros s ds1 r H1 H2. eapply sampling_back; eauto.
Qed.
(** each column holds, for each solution visited in turn, the value its statistic has after all the statistics saw it;
    what the monitors held before is forgotten *)
Theorem C156_added {T V A} (l : list (stat T V * option (V -> A))) :
  fst (added l) = map fst l /\ map m_read (snd (added l)) = flat_map (fun q => match snd q with Some read => [read] | None => [] end) l /\ forall m, In m (snd (added l)) -> m_values m = [].
Proof.
  unfold added. set (g := fun (p : list (stat T V) * list (monitor V A)) (q : stat T V * option (V -> A)) => _).
  assert (K : forall l p, fst (fold_left g l p) = fst p ++ map fst l /\
    snd (fold_left g l p) = snd p ++ flat_map (fun q => match snd q with Some read => [Monitor read []] | None => [] end) l).
  { induction l0 as [|q l0 IH]; intros p; cbn [fold_left map flat_map]; [rewrite !app_nil_r; auto|]. destruct (IH (g p q)) as [-> ->].
    unfold g at 1 2. cbn [fst snd]. rewrite <- app_assoc. split; auto. destruct (snd q); cbn [app]; auto. rewrite <- app_assoc. auto. }
  destruct (K l ([], [])) as [-> ->]. cbn [fst snd app]. split; auto. split.
  - clear. induction l as [|q l IH]; auto. cbn [flat_map]. rewrite map_app, IH. destruct (snd q); auto.
  - intros m Hm. apply in_flat_map in Hm as (q & _ & Hm). destruct (snd q); [destruct Hm as [<-|[]]; auto|destruct Hm].
Qed.
Theorem C156_columns {G F X V A C} (full : G -> F) init blank (e : explorer (sol G F) X) (c : continuator (sol G F) C) stats (ms : list (monitor V A)) fuel x v cs ds r :
  sampling full init blank e c stats ms fuel x v cs ds = Ok r ->
  exists vs, observed stats v (r_visited r) vs /\ columns r = map (fun m => map (m_read m) vs) ms /\
    (forall col, In col (columns r) -> length col = length (r_visited r)).
Proof.
  intros H. apply sampling_run in H as (s & ds1 & _ & _ & vs & H1 & H2 & H3 & _). exists vs. split; auto. split; auto.
  rewrite H2. intros col Hc. apply in_map_iff in Hc as (m & <- & _). rewrite map_length. auto.
Qed.
(** the counters: 0 at the first solution; one more at each of the next ones, from 0 on for moMinusOneCounterStat *)
Theorem C156_counter {G F X C} (full : G -> F) init blank (e : explorer (sol G F) X) (c : continuator (sol G F) C) fuel x v cs ds r :
  sampling full init blank e c [counter_stat (fun n => n) (fun n _ => n)] [Monitor (fun n : nat => n) []] fuel x v cs ds = Ok r ->
  columns r = [seq 0 (length (r_visited r))].
Proof.
  intros H. apply sampling_run in H as (s & ds1 & _ & _ & vs & H1 & H2 & H3 & _). rewrite H2. cbn [map m_read]. f_equal. rewrite map_id. rewrite <- H3. apply nth_error_ext. intros k.
  destruct (nth_error vs k) as [w|] eqn:E.
  - assert (Hk := nth_error_lt _ _ _ E). destruct (nth_error (r_visited r) k) as [t|] eqn:Et; [|apply nth_error_None in Et; lia].
    rewrite nth_error_seq' by lia. f_equal. cbn. refine (observed_inv _ (fun k _ w => w = k) _ _ _ _ _ H1 k t w Et E); [intros a b K; turns K; reflexivity|intros k' a b w' w'' -> K; turns K; lia].
  - symmetry. apply nth_error_None. rewrite seq_length. apply nth_error_None. auto.
Qed.
Theorem C156_minus_one_counter {G F X C} (full : G -> F) init blank (e : explorer (sol G F) X) (c : continuator (sol G F) C) fuel x v cs ds r :
  sampling full init blank e c [minus_one_stat (fun n => n) (fun n _ => n)] [Monitor (fun n : nat * nat => snd n) []] fuel x v cs ds = Ok r ->
  columns r = [0 :: seq 0 (length (r_visited r) - 1)].
Proof.
  intros H. apply sampling_run in H as (s & ds1 & _ & Hl & vs & H1 & H2 & H3 & _). rewrite H2. cbn [map m_read]. f_equal.
  assert (Hn : r_visited r <> []). { unfold local_search, ls_run in Hl. apply rbind_ok in Hl as ([x' ds'] & _ & Hl). apply rbind_ok in Hl as (r1 & _ & Hl). apply (f_equal (fun o => match o with Ok y => r_visited y | _ => [] end)) in Hl. cbn in Hl. rewrite <- Hl. discriminate. }
  assert (K : forall k w, nth_error vs k = Some w -> snd w = k - 1).
  { intros k w E. assert (Hk := nth_error_lt _ _ _ E). destruct (nth_error (r_visited r) k) as [t|] eqn:Et; [|apply nth_error_None in Et; lia].
    assert (Ew : w = (k, k - 1)); [|rewrite Ew; reflexivity]. refine (observed_inv _ (fun k _ w => w = (k, k - 1)) _ _ _ _ _ H1 k t w Et E); [intros a b K; turns K; reflexivity|intros k' a b w' w'' -> K; turns K; cbn; f_equal; try lia]. }
  apply nth_error_ext. intros k. rewrite nth_error_map'. destruct (nth_error vs k) as [w|] eqn:E; cbn [option_map].
  - rewrite (K _ _ E). destruct k as [|k]; [reflexivity|]. cbn [nth_error]. apply nth_error_lt in E. rewrite nth_error_seq' by lia. f_equal. lia.
  - apply nth_error_None in E. symmetry. apply nth_error_None. cbn [length]. rewrite seq_length. destruct (r_visited r); [congruence|]. cbn [length] in *. lia.
Qed.
(** moStatFromStat: the column of a copy of a statistic that comes before it is that of the statistic *)
Theorem C156_copied_stat {G F X B C} (full : G -> F) init blank (e : explorer (sol G F) X) (c : continuator (sol G F) C) (f : sol G F -> B) fuel x v cs ds r :
  sampling full init blank e c [value_stat (fun b v => (b, snd v)) f; from_stat fst (fun b v => (fst v, b))] [Monitor fst []; Monitor (fun v : B * B => snd v) []] fuel x v cs ds = Ok r ->
  columns r = [map f (r_visited r); map f (r_visited r)].
Proof.
  intros H. apply sampling_run in H as (s & ds1 & _ & _ & vs & Ov & H2 & H3 & _). rewrite H2. cbn [map m_read].
  f_equal; [|f_equal]; (eapply observed_pure; [| |exact Ov]; intros a b b' K; turns K; reflexivity).
Qed.
(** the file holds the names, if asked for, then a line for each place in the columns; nothing of it is lost when no
    text holds the delimiter or an end of line *)
Theorem C156_export names cols d openFile header old n :
  cols <> [] -> length names = length cols -> (forall c, In c cols -> length c = n) -> d <> 10 ->
  (forall c t, In c (names :: cols) -> In t c -> free_of d t /\ free_of 10 t) ->
  (openFile = true -> old = [] \/ exists w, old = w ++ [10]) ->
  exists t, file_export names cols [d] openFile header old = Ok t /\
    table_of d t = (if openFile then table_of d old else if header then [names] else []) ++ map (fun k => map (fun c => nth k c []) cols) (seq 0 n).
Proof.
  intros Hc Hl Hn Hd Hf Ho. unfold file_export, text in *.
  set (body := concat (map (fun i => line_text d (map (fun c => nth i c []) cols)) (seq 0 n))).
  assert (Eb : lines cols [d] (seq 0 n) = Ok body). { apply lines_ok with (n := n); auto. intros i Hi. apply in_seq in Hi. lia. }
  assert (E0 : nth_error cols 0 = Some (nth 0 cols []) /\ length (nth 0 cols []) = n). { destruct cols as [|c0 cols]; [congruence|]. cbn. split; auto. apply Hn. left; auto. }
  destruct E0 as [E0 E0'].
  assert (Tb : table_of d body = map (fun k => map (fun c => nth k c []) cols) (seq 0 n)).
  { unfold body. rewrite <- map_map. apply table_read; auto. apply Forall_forall. intros cells Hcell. apply in_map_iff in Hcell as (k & <- & Hk). apply in_seq in Hk.
    split; [destruct cols; [congruence|discriminate]|]. split; apply Forall_forall; intros t Ht; apply in_map_iff in Ht as (c & <- & Hin); (apply (Hf c); [right; auto|]; apply nth_In; rewrite (Hn c Hin); lia). }
  assert (Eh : exists head, line [d] names = Ok head /\ head = line_text d names). { destruct names as [|c0 nm]; [destruct cols; [congruence|discriminate]|]. eexists. split; [reflexivity|]. cbn [line_text]. rewrite <- ?app_assoc. reflexivity. }
  destruct Eh as (head & Eh & Eh').
  assert (Th : table_of d (head ++ body) = names :: map (fun k => map (fun c => nth k c []) cols) (seq 0 n)).
  { rewrite <- Tb. subst head. assert (Hnm : names <> []) by (destruct names; [destruct cols; [congruence|discriminate]|discriminate]).
    unfold table_of. rewrite lines_of_app; [rewrite map_app|].
    - change (map (pieces d) (lines_of body)) with (table_of d body). replace (map (pieces d) (lines_of (line_text d names))) with (table_of d (concat (map (line_text d) [names]))) by (cbn [map concat]; rewrite app_nil_r; reflexivity).
      rewrite table_read; auto. repeat constructor; auto; apply Forall_forall; intros t Ht; apply (Hf names); auto; left; auto.
    - left. destruct names as [|c0 nm]; [congruence|]. cbn [line_text]. unfold endl. eauto. }
  unfold text in *. destruct openFile; cbn [negb andb].
  - cbn [rbind]. rewrite E0. cbn [of_opt rbind]. rewrite E0', Eb. cbn [rbind]. eexists. split; [reflexivity|]. cbn [app]. unfold table_of. rewrite lines_of_app by (destruct (Ho eq_refl) as [->|[w ->]]; eauto).
    rewrite map_app. f_equal. exact Tb.
  - destruct header; [rewrite Eh|]; cbn [rbind]; rewrite E0; cbn [of_opt rbind]; rewrite E0', Eb; cbn [rbind]; (eexists; split; [reflexivity|]); cbn [app]; auto.
Qed.
(** one column: its texts, a line each; a column that does not exist is refused *)
Theorem C156_export_column cols k (old : text) :
  (forall c, nth_error cols k = Some c -> Forall (free_of 10) c -> exists t, export_column cols k false old = Ok t /\ lines_of t = c) /\
  (length cols <= k -> forall openFile, export_column cols k openFile old = Throw).
Proof.
  split.
  - intros c Hk Hf. unfold export_column, text in *. rewrite Hk. eexists. split; [reflexivity|]. cbn [app]. clear Hk. induction c as [|t c IH]; [reflexivity|]. inversion Hf; subst.
    cbn [map concat]. unfold endl. rewrite <- app_assoc. cbn [app]. rewrite lines_of_cons by auto. f_equal. apply IH. auto.
  - intros Hk openFile. unfold export_column, text in *. destruct (nth_error cols k) eqn:E; auto. apply nth_error_lt in E. lia.
Qed.

(** ** C157 *)
Section Search.
Variables (G F S I : Type) (lt eq : F -> F -> bool) (Sp : G -> Prop) (nbrs : G -> list I) (has : G -> bool) (nh : G -> iterator S I).
Variables (Inv : S -> Prop) (Prog : G -> S -> Prop) (xfuel cost : nat).
Variables (full : G -> F) (neval : sol G F -> I -> res F) (move : I -> G -> res G).
Variables (init : sol G F -> list nat -> res (sol G F * list nat)) (blank : sol G F).
Hypothesis INIT : initialises Sp full init.

(** density of states: max 2 nbSol solutions, drawn one after the other, and their fitnesses *)
Theorem C157_density nbSol fuel v ds r : density_sampling G F full init blank nbSol fuel v ds = Ok r ->
  columns r = [map (fun t => Some (full (geno t))) (r_visited r)] /\ length (r_visited r) = Nat.max 2 nbSol /\
  exists s ds1 l, init blank ds = Ok (s, ds1) /\ r_visited r = started full s :: l /\ draws_from init (started full) (started full s) ds1 l (r_draws r).
Proof.
  intros H. unfold density_sampling in H. cbn [added fold_left fst snd app] in H. apply sampling_run in H as (s & ds1 & Hi & Hl & vs & Ov & Hc & Lv & _).
  destruct (INIT _ _ _ _ Hi) as [S1 S2]. destruct (search_good G F full Sp init INIT nbSol fuel s ds1 (plain r) S1 S2 Hl) as ((l & A & B) & L & Hg). cbn [plain r_visited r_draws] in *.
  split; [|split; auto; exists s, ds1, l; auto]. rewrite Hc. cbn [map m_read]. f_equal.
  transitivity (map (fun t => fit t) (r_visited r)).
  - eapply observed_pure; [| |exact Ov]; intros a b b' K; turns K; reflexivity.
  - apply map_ext_in. intros t Ht. rewrite Forall_forall in Hg. apply (Hg t Ht).
Qed.
(** fitness distance correlation: the fitnesses and the distances to the reference *)
Theorem C157_fdc dist ref nbSol fuel v ds r : fdc_sampling G F full init blank dist ref nbSol fuel v ds = Ok r ->
  columns r = [map (fun t => inl (Some (full (geno t)))) (r_visited r); map (fun t => inr (dist t ref)) (r_visited r)] /\ length (r_visited r) = Nat.max 2 nbSol /\
  exists s ds1 l, init blank ds = Ok (s, ds1) /\ r_visited r = started full s :: l /\ draws_from init (started full) (started full s) ds1 l (r_draws r).
Proof.
  intros H. unfold fdc_sampling in H. cbn [added fold_left fst snd app] in H. apply sampling_run in H as (s & ds1 & Hi & Hl & vs & Ov & Hc & Lv & _).
  destruct (INIT _ _ _ _ Hi) as [S1 S2]. destruct (search_good G F full Sp init INIT nbSol fuel s ds1 (plain r) S1 S2 Hl) as ((l & A & B) & L & Hg). cbn [plain r_visited r_draws] in *.
  split; [|split; auto; exists s, ds1, l; auto]. rewrite Hc. cbn [map m_read]. f_equal; [|f_equal].
  - transitivity (map (fun t => @inl (option F) Q (fit t)) (r_visited r)).
    + eapply observed_pure; [| |exact Ov]; intros a b b' K; turns K; reflexivity.
    + apply map_ext_in. intros t Ht. rewrite Forall_forall in Hg. f_equal. apply (Hg t Ht).
  - eapply observed_pure; [| |exact Ov]; intros a b b' K; turns K; reflexivity.
Qed.

Hypothesis NH : neighborhood_ok Sp nbrs has nh Inv Prog xfuel cost.
Hypothesis MV : moves_ok Sp nbrs full neval move.
(** autocorrelation: the fitnesses along a random walk of max 1 nbStep steps, shorter only if it meets a solution
    without neighbors *)
Theorem C157_autocorrelation nbStep fuel x v cs ds r : Inv (h_nh F S I x) ->
  autocorrelation_sampling G F S I full init blank has nh neval move nbStep fuel x v cs ds = Ok r ->
  columns r = [map (fun t => Some (full (geno t))) (r_visited r)] /\
  climbs (fun a b => neighbor nbrs move (geno a) (geno b)) (r_visited r) /\
  (exists s ds1, init blank ds = Ok (s, ds1) /\ nth_error (r_visited r) 0 = Some (started full s)) /\
  length (r_visited r) <= 1 + Nat.max 1 nbStep /\
  (length (r_visited r) = 1 + Nat.max 1 nbStep \/ nbrs (geno (r_final r)) = []).
Proof.
  intros HI H. unfold autocorrelation_sampling in H. cbn [added fold_left fst snd app] in H. apply sampling_run in H as (s & ds1 & Hi & Hl & vs & Ov & Hc & Lv & _).
  destruct (INIT _ _ _ _ Hi) as [S1 S2].
  destruct (walk_run G F S I nat Sp nbrs has nh Inv Prog xfuel cost full neval move (iter_cont (sol G F) nbStep) NH MV fuel s x cs ds1 (plain r) S1 S2 HI Hl) as (W1 & W2 & W3 & W4 & W5 & W6).
  cbn [plain r_visited r_final r_by_itself] in *. split.
  - rewrite Hc. cbn [map m_read]. f_equal. transitivity (map (fun t => fit t) (r_visited r)).
    + eapply observed_pure; [| |exact Ov]; intros a b b' K; turns K; reflexivity.
    + apply map_ext_in. intros t Ht. rewrite Forall_forall in W3. apply (W3 t Ht).
  - split; auto. split; [exists s, ds1; auto|]. unfold local_search in Hl. destruct (run_iterations _ _ _ _ _ _ _ _ Hl) as [I1 I2]. cbn [plain r_visited r_by_itself] in I1, I2.
    destruct (r_visited r) as [|v0 l]; [discriminate|]. cbn [tl length] in *. split; [lia|]. destruct (r_by_itself r); [right; auto|]. left. rewrite I2; auto.
Qed.

Hypothesis LT : strict_weak_order lt.
(** hill climbers: the number of moves and the end of each of max 2 nbWalk climbs, each from an initial solution, by
    best neighbors that are strictly better, to a local optimum *)
Theorem C157_hill_climbers nbWalk cfuel fuel x v ds r : Inv (h_nh F S I x) ->
  climb_sampling G F (hc F S I) full init (simple_hc G F S I lt has nh neval move xfuel) blank nbWalk cfuel fuel x v ds = Ok r ->
  exists lengths ends, columns r = [map inl lengths; map inr ends] /\ length lengths = Nat.max 2 nbWalk /\ Forall (evaluated full) ends /\
  Forall2 (fun n t => exists s0 ds0 s ds1, init s0 ds0 = Ok (s, ds1) /\
     climb (fun a b => improves lt nbrs full move a b /\ steepest lt nbrs full move a b) (local_optimum lt nbrs full move) n (geno s) (geno t)) lengths ends.
Proof.
  intros HI H. destruct (climb_rows G F (hc F S I) full Sp (fun x => Inv (h_nh F S I x)) (simple_hc G F S I lt has nh neval move xfuel) (fun a b => improves lt nbrs full move a b /\ steepest lt nbrs full move a b) (local_optimum lt nbrs full move)) with (1 := fun s x ds x' ds' (E : x_init (simple_hc G F S I lt has nh neval move xfuel) s x ds = Ok (x', ds')) (K : Inv (h_nh F S I x)) => match E in _ = y return match y with Ok (x', _) => Inv (h_nh F S I x') | _ => True end with eq_refl => K end) (init := init) (blank := blank) (nbWalk := nbWalk) (cfuel := cfuel) (fuel := fuel) (x := x) (v := v) (ds := ds) (r := r) as (C1 & C2 & C3); auto.
  { intros s1 x1 ds1 b s2 x2 ds2 H1 H2. apply (simple_turn G F S I lt Sp nbrs has nh Inv Prog xfuel cost full neval move LT NH MV _ _ _ _ _ _ _ H1 H2). }
  exists (map (fun t => snd (snd (geno t))) (r_visited r)), (map (inner_part G F (hc F S I)) (r_visited r)). rewrite !map_map. split; [exact C1|]. rewrite map_length. split; auto. split.
  - apply Forall_map. eapply Forall_impl; [|exact C3]. intros t Ht. apply Ht.
  - clear -C3. induction C3 as [|t l Ht C3 IH]; constructor; auto. apply Ht.
Qed.
(** adaptive walks: by strictly better neighbors *)
Theorem C157_adaptive_walks nbWalk cfuel fuel x v ds r : Inv (h_nh F S I x) ->
  climb_sampling G F (hc F S I) full init (first_hc G F S I lt has nh neval move xfuel false) blank nbWalk cfuel fuel x v ds = Ok r ->
  exists lengths ends, columns r = [map inl lengths; map inr ends] /\ length lengths = Nat.max 2 nbWalk /\ Forall (evaluated full) ends /\
  Forall2 (fun n t => exists s0 ds0 s ds1, init s0 ds0 = Ok (s, ds1) /\
     climb (improves lt nbrs full move) (local_optimum lt nbrs full move) n (geno s) (geno t)) lengths ends.
Proof.
  intros HI H. destruct (climb_rows G F (hc F S I) full Sp (fun x => Inv (h_nh F S I x)) (first_hc G F S I lt has nh neval move xfuel false) (improves lt nbrs full move) (local_optimum lt nbrs full move)) with (1 := fun s x ds x' ds' (E : x_init (first_hc G F S I lt has nh neval move xfuel false) s x ds = Ok (x', ds')) (K : Inv (h_nh F S I x)) => match E in _ = y return match y with Ok (x', _) => Inv (h_nh F S I x') | _ => True end with eq_refl => K end) (init := init) (blank := blank) (nbWalk := nbWalk) (cfuel := cfuel) (fuel := fuel) (x := x) (v := v) (ds := ds) (r := r) as (C1 & C2 & C3); auto.
  { intros s1 x1 ds1 b s2 x2 ds2 H1 H2. destruct (first_turn G F S I lt Sp nbrs has nh Inv Prog xfuel cost full neval move NH MV false _ _ _ _ _ _ _ H1 H2) as (A1 & A2 & A3). split; auto. }
  exists (map (fun t => snd (snd (geno t))) (r_visited r)), (map (inner_part G F (hc F S I)) (r_visited r)). rewrite !map_map. split; [exact C1|]. rewrite map_length. split; auto. split.
  - apply Forall_map. eapply Forall_impl; [|exact C3]. intros t Ht. apply Ht.
  - clear -C3. induction C3 as [|t l Ht C3 IH]; constructor; auto. apply Ht.
Qed.

(** ** clouds: the fitness of each solution and what a statistic finds in its neighborhood; the run of the statistics
    ended without a failure *)
Notation ended r := (exists w, snd (fst (fst (r_c r))) = Ok w).
Notation cloud f := (cloud_sampling G F S full init blank f).
Lemma cloud_random {B} (f : sol G F -> option B -> S -> list nat -> res (B * S * list nat)) fspec nbSol fuel v0 o0 n0 d0 ds r :
  (forall s o n ds b n' ds', Sp (geno s) -> evaluated full s -> Inv n -> f s o n ds = Ok (b, n', ds') -> fspec s b /\ Inv n') ->
  Inv n0 -> cloud f (random_search_of G F full init nbSol) fuel 0 (v0, Ok (o0, n0, d0)) ds = Ok r -> ended r ->
  length (r_visited r) = Nat.max 2 nbSol /\
  (exists s ds1 l, init blank ds = Ok (s, ds1) /\ r_visited r = started full s :: l /\ draws_from init (started full) (started full s) ds1 l (r_draws r)) /\
  exists bs, columns r = [map (fun t => inl (Some (full (geno t)))) (r_visited r); map (fun b => inr (Some b)) bs] /\ Forall2 fspec (r_visited r) bs.
Proof.
  intros Hf HI H [w Hw]. destruct (cloud_search G F S full init blank B nat f _ _ _ _ _ _ H) as (s & ds1 & Hi & Hl). destruct (INIT _ _ _ _ Hi) as [S1 S2].
  destruct (search_good G F full Sp init INIT nbSol fuel s ds1 (plain r) S1 S2 Hl) as ((l & A & D) & L & Hg). cbn [plain r_visited r_draws] in *. split; auto. split; [exists s, ds1, l; auto|].
  destruct (cloud_columns G F S full Sp init blank B nat f fspec Inv Hf _ _ _ _ _ _ _ _ _ w HI H Hg Hw) as (bs & E & Hb). exists bs. split; auto. rewrite E. f_equal. apply map_ext_in. intros t Ht. rewrite Forall_forall in Hg. f_equal. apply (Hg t Ht).
Qed.
(** random solutions, the best of (at most kmax of) their neighbors *)
Theorem C157_random_best_cloud no_fitness kmax nbSol fuel v0 o0 n0 d0 ds r : Inv n0 ->
  cloud (best_neighbor_stat G F S I lt has nh neval xfuel no_fitness kmax) (random_search_of G F full init nbSol) fuel 0 (v0, Ok (o0, n0, d0)) ds = Ok r -> ended r ->
  length (r_visited r) = Nat.max 2 nbSol /\
  (exists s ds1 l, init blank ds = Ok (s, ds1) /\ r_visited r = started full s :: l /\ draws_from init (started full) (started full s) ds1 l (r_draws r)) /\
  exists bs, columns r = [map (fun t => inl (Some (full (geno t)))) (r_visited r); map (fun b => inr (Some b)) bs] /\
    Forall2 (best_looked_at lt nbrs move full no_fitness kmax) (r_visited r) bs.
Proof. apply cloud_random. apply (best_ok G F S I lt Sp nbrs has nh Inv Prog xfuel cost full neval move no_fitness NH MV LT). Qed.
(** random solutions, one of their neighbors *)
Theorem C157_random_random_cloud no_fitness nbSol fuel v0 o0 n0 d0 ds r : Inv n0 ->
  cloud (one_neighbor_stat G F S I has nh neval no_fitness) (random_search_of G F full init nbSol) fuel 0 (v0, Ok (o0, n0, d0)) ds = Ok r -> ended r ->
  length (r_visited r) = Nat.max 2 nbSol /\
  (exists s ds1 l, init blank ds = Ok (s, ds1) /\ r_visited r = started full s :: l /\ draws_from init (started full) (started full s) ds1 l (r_draws r)) /\
  exists bs, columns r = [map (fun t => inl (Some (full (geno t)))) (r_visited r); map (fun b => inr (Some b)) bs] /\
    Forall2 (a_neighbors_fitness nbrs move full no_fitness) (r_visited r) bs.
Proof. apply cloud_random. apply (one_ok G F S I Sp nbrs has nh Inv Prog xfuel cost full neval move no_fitness NH MV). Qed.
(** neutral degree: random solutions, how many of their neighbors have their fitness *)
Theorem C157_neutral_degree val as_fit sqrt sort nbSol fuel v0 o0 n0 d0 ds r : std_sort_ok sort -> (forall x y, (x == y -> sqrt x == sqrt y)%Q) -> Inv n0 ->
  cloud (neutral_degree_stat G F S I lt eq has nh neval xfuel val as_fit sqrt sort) (random_search_of G F full init nbSol) fuel 0 (v0, Ok (o0, n0, d0)) ds = Ok r -> ended r ->
  length (r_visited r) = Nat.max 2 nbSol /\
  (exists s ds1 l, init blank ds = Ok (s, ds1) /\ r_visited r = started full s :: l /\ draws_from init (started full) (started full s) ds1 l (r_draws r)) /\
  exists bs, columns r = [map (fun t => inl (Some (full (geno t)))) (r_visited r); map (fun b => inr (Some b)) bs] /\
    Forall2 (neutral_degree eq nbrs nh move full xfuel) (r_visited r) bs.
Proof. intros SO SQ. apply cloud_random. apply (degree_ok G F S I lt eq Sp nbrs has nh Inv Prog xfuel cost full neval move NH MV LT val as_fit sqrt sort SO SQ). Qed.

(** Metropolis-Hastings: the solutions of a walk that stays or goes to a neighbor *)
Variable dbl : F -> Q.
Hypothesis POS : forall g, Sp g -> (0 < dbl (full g))%Q.
Lemma cloud_metropolis {B} (f : sol G F -> option B -> S -> list nat -> res (B * S * list nat)) fspec nbStep fuel x v0 o0 n0 d0 ds r :
  (forall s o n ds b n' ds', Sp (geno s) -> evaluated full s -> Inv n -> f s o n ds = Ok (b, n', ds') -> fspec s b /\ Inv n') ->
  Inv n0 -> Inv (h_nh F S I (fst x)) -> cloud f (mh_search G F lt S I has nh neval move dbl nbStep) fuel x (v0, Ok (o0, n0, d0)) ds = Ok r -> ended r ->
  length (r_visited r) = 1 + Nat.max 1 nbStep /\
  (exists s ds1, init blank ds = Ok (s, ds1) /\ nth_error (r_visited r) 0 = Some (started full s)) /\
  chain (fun a b => b = a \/ neighbor nbrs move (geno a) (geno b)) (r_visited r) /\
  exists bs, columns r = [map (fun t => inl (Some (full (geno t)))) (r_visited r); map (fun b => inr (Some b)) bs] /\ Forall2 fspec (r_visited r) bs.
Proof.
  intros Hf HI HX H [w Hw]. destruct (cloud_search G F S full init blank B _ f _ _ _ _ _ _ H) as (s & ds1 & Hi & Hl). destruct (INIT _ _ _ _ Hi) as [S1 S2]. destruct (started_ok G F Sp full s S1 S2) as [S3 S4].
  destruct (mh_run G F S I unit lt Sp nbrs has nh Inv Prog xfuel cost full neval move true_cont dbl NH MV POS nbStep fuel s x tt ds1 (plain r) S1 S2 HX Hl) as (_ & T2 & _).
  assert (Tb := true_run_by_itself _ _ _ _ _ _ Hl). specialize (T2 Tb).
  assert (Hl' := Hl). unfold local_search in Hl'. fold (started full s) in Hl'. unfold ls_run in Hl'. apply rbind_ok in Hl' as ([x1 ds2] & Hx & Hl'). apply rbind_ok in Hl' as (r1 & Hr & E). cbn [x_init mh_search] in Hx. injection Hx as <- <-.
  apply (f_equal (fun o => match o with Ok y => r_visited y | _ => [] end)) in E. cbn [r_visited plain] in E.
  apply (loop_chain _ _ _ (mh_search G F lt S I has nh neval move dbl nbStep) true_cont (fun t y => hc_ok G F S I Sp Inv full t (fst y))) with (R := fun a b => b = a \/ neighbor nbrs move (geno a) (geno b)) (Stop := fun _ _ => True) in Hr.
  - destruct Hr as (C1 & _ & _ & _ & _ & _ & _ & _ & _ & C2). rewrite E in C1.
    assert (Hg : Forall (fun t => Sp (geno t) /\ evaluated full t) (r_visited r)). { rewrite <- E. constructor; auto. eapply Forall_impl; [|exact C2]. intros t (y & Y1 & Y2 & _). auto. }
    split; [unfold turns in T2; cbn [plain r_visited] in T2; rewrite <- E in *; cbn [length] in *; lia|]. split; [exists s, ds1; split; auto; rewrite <- E; reflexivity|]. split; auto.
    destruct (cloud_columns G F S full Sp init blank B _ f fspec Inv Hf _ _ _ _ _ _ _ _ _ w HI H Hg Hw) as (bs & Ec & Hb). exists bs. split; auto. rewrite Ec. f_equal. apply map_ext_in. intros t Ht. rewrite Forall_forall in Hg. f_equal. apply (Hg t Ht).
  - intros s1 y1 d1 b s2 y2 d2 H1 H2. destruct (mh_turn_spec G F S I lt Sp nbrs has nh Inv Prog xfuel cost full neval move dbl NH MV POS nbStep s1 y1 d1 b s2 y2 d2 H1 H2) as (P1 & P2 & _). split; auto. split; auto.
    destruct P1 as [(_ & _ & -> & _)|(n & i & n' & d3 & g' & _ & I1 & I2 & _ & ->)]; auto. destruct b; auto. right. exists i. auto.
  - repeat split; auto.
Qed.
Theorem C157_metropolis_best_cloud no_fitness kmax nbStep fuel x v0 o0 n0 d0 ds r : Inv n0 -> Inv (h_nh F S I (fst x)) ->
  cloud (best_neighbor_stat G F S I lt has nh neval xfuel no_fitness kmax) (mh_search G F lt S I has nh neval move dbl nbStep) fuel x (v0, Ok (o0, n0, d0)) ds = Ok r -> ended r ->
  length (r_visited r) = 1 + Nat.max 1 nbStep /\
  (exists s ds1, init blank ds = Ok (s, ds1) /\ nth_error (r_visited r) 0 = Some (started full s)) /\
  chain (fun a b => b = a \/ neighbor nbrs move (geno a) (geno b)) (r_visited r) /\
  exists bs, columns r = [map (fun t => inl (Some (full (geno t)))) (r_visited r); map (fun b => inr (Some b)) bs] /\
    Forall2 (best_looked_at lt nbrs move full no_fitness kmax) (r_visited r) bs.
Proof. apply cloud_metropolis. apply (best_ok G F S I lt Sp nbrs has nh Inv Prog xfuel cost full neval move no_fitness NH MV LT). Qed.
Theorem C157_metropolis_random_cloud no_fitness nbStep fuel x v0 o0 n0 d0 ds r : Inv n0 -> Inv (h_nh F S I (fst x)) ->
  cloud (one_neighbor_stat G F S I has nh neval no_fitness) (mh_search G F lt S I has nh neval move dbl nbStep) fuel x (v0, Ok (o0, n0, d0)) ds = Ok r -> ended r ->
  length (r_visited r) = 1 + Nat.max 1 nbStep /\
  (exists s ds1, init blank ds = Ok (s, ds1) /\ nth_error (r_visited r) 0 = Some (started full s)) /\
  chain (fun a b => b = a \/ neighbor nbrs move (geno a) (geno b)) (r_visited r) /\
  exists bs, columns r = [map (fun t => inl (Some (full (geno t)))) (r_visited r); map (fun b => inr (Some b)) bs] /\
    Forall2 (a_neighbors_fitness nbrs move full no_fitness) (r_visited r) bs.
Proof. apply cloud_metropolis. apply (one_ok G F S I Sp nbrs has nh Inv Prog xfuel cost full neval move no_fitness NH MV). Qed.
End Search.

(** ** a landscape: the numbers 0..9, each next to the one before and the one after *)
Definition land (g : nat) : nat := nth g [3; 5; 2; 2; 4; 7; 6; 6; 1; 8] 0.
Definition step_to (i g : nat) : nat := if i =? 0 then g - 1 else if g <? 9 then g + 1 else g.
Definition l_move (i g : nat) : res nat := Ok (step_to i g).
Definition l_neval (s : sol nat nat) (i : nat) : res nat := Ok (land (step_to i (geno s))).
Definition l_init (s : sol nat nat) (ds : list nat) : res (sol nat nat * list nat) := let! (k, ds) := draw 10 ds in Ok (Sol k None, ds).
Definition l_hc : hc nat nat nat := Hc nat nat nat 0 None true.
Definition l_has (g : nat) : bool := 0 <? 2.
Definition l_nh (g : nat) : iterator nat nat := order_nh 2.
Example C157_eg_hypotheses : initialises (fun _ => True) land l_init /\
  neighborhood_ok (fun _ : nat => True) (fun _ => seq 0 2) l_has l_nh (fun _ => True) (fun _ cur => cur < 2) 2 0 /\
  moves_ok (fun _ => True) (fun _ => seq 0 2) land l_neval l_move.
Proof.
  split; [|split].
  - intros s ds s' ds' H. unfold l_init in H. apply rbind_ok in H as ([k ds1] & _ & H). injection H as <- <-. split; auto. left. reflexivity.
  - apply (order_ok (fun _ : nat => True) 2).
  - intros g i _ _. eexists. split; [reflexivity|]. split; auto.
Qed.
Example C157_eg_density : match density_sampling nat nat land l_init (Sol 0 None) 4 9 None [3; 5; 9; 0] with
  | Ok r => columns r = [[Some 2; Some 7; Some 8; Some 3]] | _ => False end.
Proof. vm_compute. reflexivity. Qed.
Example C157_eg_fdc : match fdc_sampling nat nat land l_init (Sol 0 None) (fun a b => inject_Z (Z.of_nat (geno b - geno a))) (Sol 9 None) 3 9 (None, 0%Q) [3; 5; 9; 0] with
  | Ok r => columns r = [[inl (Some 2); inl (Some 7); inl (Some 8)]; [inr (inject_Z 6); inr (inject_Z 4); inr (inject_Z 0)]] | _ => False end.
Proof. vm_compute. reflexivity. Qed.
Example C157_eg_walk : match autocorrelation_sampling nat nat nat nat land l_init (Sol 0 None) l_has l_nh l_neval l_move 4 9 l_hc None 0 [5] with
  | Ok r => columns r = [[Some 7; Some 4; Some 2; Some 2; Some 5]] | _ => False end.
Proof. vm_compute. reflexivity. Qed.
Example C157_eg_hill : match climb_sampling nat nat (hc nat nat nat) land l_init (simple_hc nat nat nat nat Nat.ltb l_has l_nh l_neval l_move 2) (Sol 0 None) 3 20 9 l_hc (0, Sol 0 None) [3; 0; 9] with
  | Ok r => columns r = [[inl 2; inl 1; inl 0]; [inr (Sol 5 (Some 7)); inr (Sol 1 (Some 5)); inr (Sol 9 (Some 8))]] | _ => False end.
Proof. vm_compute. reflexivity. Qed.
Example C157_eg_adaptive : match climb_sampling nat nat (hc nat nat nat) land l_init (first_hc nat nat nat nat Nat.ltb l_has l_nh l_neval l_move 2 false) (Sol 0 None) 3 20 9 l_hc (0, Sol 0 None) [3; 8; 2] with
  | Ok r => columns r = [[inl 2; inl 1; inl 1]; [inr (Sol 5 (Some 7)); inr (Sol 7 (Some 6)); inr (Sol 1 (Some 5))]] | _ => False end.
Proof. vm_compute. reflexivity. Qed.
Example C157_eg_best_cloud : match cloud_sampling nat nat nat land l_init (Sol 0 None) (best_neighbor_stat nat nat nat nat Nat.ltb l_has l_nh l_neval 2 0 0) (random_search_of nat nat land l_init 3) 9 0 (None, Ok (None, 0, [])) [3; 5; 9] with
  | Ok r => columns r = [[inl (Some 2); inl (Some 7); inl (Some 8)]; [inr (Some 4); inr (Some 6); inr (Some 8)]] /\ exists w, snd (fst (fst (r_c r))) = Ok w | _ => False end.
Proof. vm_compute. split; eauto. Qed.
Example C157_eg_neutral : match cloud_sampling nat nat nat land l_init (Sol 0 None) (neutral_degree_stat nat nat nat nat Nat.ltb Nat.eqb l_has l_nh l_neval 2 (fun f => inject_Z (Z.of_nat f)) (fun q => Z.to_nat (Qnum q)) (fun q => q) the_sort) (random_search_of nat nat land l_init 3) 9 0 (None, Ok (None, 0, [])) [3; 5; 9] with
  | Ok r => columns r = [[inl (Some 2); inl (Some 7); inl (Some 8)]; [inr (Some 1); inr (Some 0); inr (Some 1)]] /\ exists w, snd (fst (fst (r_c r))) = Ok w | _ => False end.
Proof. vm_compute. split; eauto. Qed.
Example C157_eg_metropolis : match cloud_sampling nat nat nat land l_init (Sol 0 None) (one_neighbor_stat nat nat nat nat l_has l_nh l_neval 0) (mh_search nat nat Nat.ltb nat nat l_has l_nh l_neval l_move (fun f => inject_Z (Z.of_nat f)) 2) 9 (l_hc, 0) (None, Ok (None, 0, [])) [6; 0; 0; 0; 0; 0] with
  | Ok r => length (r_visited r) = 3 /\ exists w, snd (fst (fst (r_c r))) = Ok w | _ => False end.
Proof. vm_compute. split; eauto. Qed.
Example C156_eg_export : exists t, file_export [[102]; [100; 49]] [[[55]; [56; 57]]; [[48]; [49]]] [32] false true [1; 2] = Ok t /\
  table_of 32 t = [[[102]; [100; 49]]; [[55]; [48]]; [[56; 57]; [49]]].
Proof. eexists. split; reflexivity. Qed.
Example C156_eg_counter : match sampling land l_init (Sol 0 None) (random_walk nat nat nat nat l_has l_nh l_neval l_move) (iter_cont (sol nat nat) 3)
    [minus_one_stat (fun n => n) (fun n _ => n)] [Monitor (fun n : nat * nat => snd n) [7; 8]] 9 l_hc (5, 5) 0 [5] with
  | Ok r => columns r = [[0; 0; 1; 2]] | _ => False end.
Proof. vm_compute. reflexivity. Qed.

(** ** C158 *)
(** A sample of one solution has two: a search always makes one turn. *)
Theorem C158_sample_size_refuted :
  ~ (forall nbSol fuel v ds r, 1 <= nbSol -> density_sampling nat nat land l_init (Sol 0 None) nbSol fuel v ds = Ok r -> length (r_visited r) = nbSol).
Proof.
  intros H. assert (E : exists r, density_sampling nat nat land l_init (Sol 0 None) 1 9 None [3; 5] = Ok r /\ length (r_visited r) = 2) by (eexists; split; vm_compute; reflexivity).
  destruct E as (r & E & L). specialize (H 1 _ _ _ _ (le_n 1) E). lia.
Qed.
(** A walk of no step makes one. *)
Theorem C158_walk_steps_refuted :
  ~ (forall nbStep fuel x v cs ds r, autocorrelation_sampling nat nat nat nat land l_init (Sol 0 None) l_has l_nh l_neval l_move nbStep fuel x v cs ds = Ok r -> length (r_visited r) <= 1 + nbStep).
Proof.
  intros H. assert (E : exists r, autocorrelation_sampling nat nat nat nat land l_init (Sol 0 None) l_has l_nh l_neval l_move 0 9 l_hc None 0 [3] = Ok r /\ length (r_visited r) = 2) by (eexists; split; vm_compute; reflexivity).
  destruct E as (r & E & L). specialize (H _ _ _ _ _ _ _ E). lia.
Qed.
(** The neutral degree of a solution without neighbors is that of the solution before it, not 0; and it is an
    uninitialised value for the first solution. *)
Definition no_has (g : nat) : bool := negb (g =? 9).
Notation l_degree := (neutral_degree_stat nat nat nat nat Nat.ltb Nat.eqb no_has l_nh l_neval 2 (fun f => inject_Z (Z.of_nat f)) (fun q => Z.to_nat (Qnum q)) (fun q => q) the_sort).
Theorem C158_neutral_degree_refuted :
  ~ (forall nbSol fuel v0 o0 n0 d0 ds r k t c, cloud_sampling nat nat nat land l_init (Sol 0 None) l_degree (random_search_of nat nat land l_init nbSol) fuel 0 (v0, Ok (o0, n0, d0)) ds = Ok r ->
     nth_error (r_visited r) k = Some t -> no_has (geno t) = false -> nth_error (nth 1 (columns r) []) k = Some (inr (Some c)) -> c = 0).
Proof.
  intros H. assert (E : exists r, cloud_sampling nat nat nat land l_init (Sol 0 None) l_degree (random_search_of nat nat land l_init 2) 9 0 (None, Ok (None, 0, [])) [3; 9] = Ok r /\
    nth_error (r_visited r) 1 = Some (Sol 9 (Some 8)) /\ nth_error (nth 1 (columns r) []) 1 = Some (inr (Some 1))) by (eexists; split; [vm_compute; reflexivity|split; reflexivity]).
  destruct E as (r & E & E1 & E2). specialize (H _ _ _ _ _ _ _ _ _ _ _ E E1 eq_refl E2). discriminate.
Qed.
Theorem C158_first_degree_uninitialised : l_degree (Sol 9 (Some 8)) None 0 [] = UB.
Proof. reflexivity. Qed.
Print Assumptions C156_same_search.
Print Assumptions C156_columns.
Print Assumptions C156_counter.
Print Assumptions C156_minus_one_counter.
Print Assumptions C156_copied_stat.
Print Assumptions C156_export.
Print Assumptions C156_export_column.
Print Assumptions C157_density.
Print Assumptions C157_fdc.
Print Assumptions C157_autocorrelation.
Print Assumptions C157_hill_climbers.
Print Assumptions C157_adaptive_walks.
Print Assumptions C157_random_best_cloud.
Print Assumptions C157_random_random_cloud.
Print Assumptions C157_neutral_degree.
Print Assumptions C157_metropolis_best_cloud.
Print Assumptions C157_metropolis_random_cloud.
Print Assumptions C158_sample_size_refuted.
Print Assumptions C158_walk_steps_refuted.
Print Assumptions C158_neutral_degree_refuted.
Print Assumptions C158_first_degree_uninitialised.
Print Assumptions C156_added.
