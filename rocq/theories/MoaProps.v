(** C149: runs of the multi-objective evolutionary algorithms. C150: what SEEA and ASEEA do with a
    transform and with the population. *)
From Coq Require Import List Arith Lia Bool ZArith QArith Permutation.
From Verif Require Import Outcome Lib OrderSpec OrderLemmas ParetoSpec ArchSpec BreedModel BreedSpec AlgoSpec MoaModel MoaSpec MoaProofs MoaBreed MoaArch.
Import ListNotations.
Close Scope Q_scope.
Open Scope nat_scope.

(** one generation of NSGA-II's replacement: never fails on evaluated individuals, elitist, and
    leaves individuals the selections can compare *)
Theorem C149_elitist_step : forall (G W : Type) (value : G -> list Q) dirs sort inf (par off : list (indiv G worth)) (w : W),
  std_sort_ok sort -> (forall g, length (value g) = length dirs) -> usable dirs ->
  Forall (measured value) (par ++ off) -> par ++ off <> [] ->
  exists next, keep_best dirs sort inf par off w = Ok (next, [], w) /\ elitist_step value dirs par off next /\ Forall (comparable value) next.
Proof. intros. eapply keep_best_ok; eauto. Qed.

(** a run of NSGA-II *)
Theorem C149_nsga2_run : forall (G W : Type) (value : G -> list Q) dirs sort inf pop_eval breed cont fuel (pop : list (indiv G worth)) (w : W) final history w',
  std_sort_ok sort -> (forall g, length (value g) = length dirs) -> usable dirs ->
  measures value pop_eval -> breeds value (comparable value) breed ->
  Forall (not_wrong value) pop -> pop <> [] ->
  nsga2 dirs sort inf pop_eval breed cont fuel pop w = Ok (final, history, w') ->
  follows (map (@geno G worth) pop) history /\
  Forall (fun g => Forall (measured value) (g_parents g) /\ Forall (measured value) (g_offspring g) /\
                   elitist_step value dirs (g_parents g) (g_offspring g) (g_next g) /\ Forall (comparable value) (g_next g)) history /\
  (exists h0 g, history = h0 ++ [g] /\ g_next g = final) /\
  stops_at_first_no cont (map g_next history).
Proof.
  intros G W value dirs sort inf pe br cont fuel pop w fin h w' Hs Hz Hd Hp Hb F Hn H.
  exact (nsga2_ok value dirs sort Hs inf Hz Hd pe br cont Hp Hb fuel pop w fin h w' F Hn H).
Qed.
(** which never fails by itself *)
Theorem C149_nsga2_total : forall (G W : Type) (value : G -> list Q) dirs sort inf pop_eval breed cont fuel (pop : list (indiv G worth)) (w : W),
  std_sort_ok sort -> (forall g, length (value g) = length dirs) -> usable dirs ->
  measures value pop_eval -> breeds value (comparable value) breed ->
  (forall par off w, Forall (measured value) par -> Forall (not_wrong value) off -> exists r, pop_eval par off w = Ok r) ->
  (forall pop w, Forall (comparable value) pop -> pop <> [] -> exists r, breed pop [] w = Ok r) ->
  (forall pop w, exists r, cont pop w = Ok r) ->
  Forall (not_wrong value) pop -> pop <> [] ->
  nsga2 dirs sort inf pop_eval breed cont fuel pop w = NoDraw \/ exists r, nsga2 dirs sort inf pop_eval breed cont fuel pop w = Ok r.
Proof.
  intros G W value dirs sort inf pe br cont fuel pop w Hs Hz Hd Hp Hb T1 T2 T3 F Hn.
  exact (nsga2_total value dirs sort Hs inf Hz Hd pe br cont Hp Hb T1 T2 T3 fuel pop w F Hn).
Qed.

(** a run of moeoEasyEA that returns: the size never changes *)
Theorem C149_easy_run : forall (G W : Type) (value : G -> list Q) pop_eval breed replace fitness diversity cont fuel always (pop : list (indiv G worth)) (w : W) final history w',
  measures value pop_eval -> breeds value (measured value) breed -> replaces value replace -> assigns value fitness -> assigns value diversity ->
  Forall (not_wrong value) pop ->
  easy pop_eval breed replace fitness diversity cont fuel always pop w = Ok (final, history, w') ->
  follows (map (@geno G worth) pop) history /\
  Forall (fun g => Forall (measured value) (g_parents g) /\ Forall (measured value) (g_offspring g) /\ Forall (measured value) (g_next g) /\
                   length (g_parents g) = length pop /\ length (g_next g) = length pop /\
                   forall x, In x (g_next g) -> exists y, In y (g_parents g ++ g_offspring g) /\ geno y = geno x) history /\
  (exists h0 g, history = h0 ++ [g] /\ g_next g = final) /\
  stops_at_first_no cont (map g_next history).
Proof.
  intros G W value pe br re fi di cont fuel al pop w fin h w' H1 H2 H3 H4 H5 F H.
  exact (easy_ok value pe br re fi di cont H1 H2 H3 H4 H5 fuel al pop w fin h w' F H).
Qed.
(** a replacement that changes the size stops it with an exception *)
Theorem C149_easy_size : forall (G W : Type) pop_eval breed replace fitness diversity cont fuel always (pop : list (indiv G worth)) (w : W) r,
  (forall par off w par' off' w', pop_eval par off w = Ok (par', off', w') -> length par' = length par /\ length off' = length off) ->
  (forall p w p' w', fitness p w = Ok (p', w') -> length p' = length p) -> (forall p w p' w', diversity p w = Ok (p', w') -> length p' = length p) ->
  (forall par off w par' off' w', replace par off w = Ok (par', off', w') -> length par' <> length par) ->
  easy (M := indiv G worth) pop_eval breed replace fitness diversity cont fuel always pop w <> Ok r.
Proof.
  intros G W pe br re fi di cont fuel al pop w r H1 H2 H3 H4 H. unfold easy in H. apply rbind_ok in H as ([[p1 pop1] w1] & E1 & H). destruct fuel as [|fuel]; [discriminate|]. cbn [easy_loop] in H.
  apply rbind_ok in H as ([pop2 w2] & E2 & H). apply rbind_ok in H as ([off1 w3] & E3 & H). apply rbind_ok in H as ([[pop3 off2] w4] & E4 & H). apply rbind_ok in H as ([[pop4 off3] w5] & E5 & H).
  assert (L2 : length pop2 = length pop1) by (destruct (al || true); [apply rbind_ok in E2 as ([p v] & E2 & E2'); rewrite (H3 _ _ _ _ E2'); eauto|inversion E2; auto]).
  destruct (H1 _ _ _ _ _ _ E4) as [L3 _]. specialize (H4 _ _ _ _ _ _ E5). destruct (Nat.eqb_spec (length pop4) (length pop1)); [lia|discriminate].
Qed.

(** runs of SEEA with operators: the archive represents the front of everything evaluated, the
    population is evaluated and otherwise left alone, every generation makes as many offspring as
    the population has members, out of the archive *)
Theorem C149_seea_run : forall (G W : Type) (value : G -> list Q) dirs swaps pop_eval cont pick flip wheel turns op fuel (pop arch : list (indiv G (list Q))) (w : W) pop' arch' history w',
  (forall g, length (value g) = length dirs) -> evaluates_pop value pop_eval ->
  (forall l w x w', pick l w = Ok (x, w') -> In x l) -> (forall w b w', flip 0%Q w = Ok (b, w') -> b = false) -> honest op ->
  Forall (unspoilt value) pop -> Forall (known value) arch -> antichain (under value dirs) (level value) arch ->
  seea_run dirs swaps pop_eval cont (seea_op pick flip wheel turns op) fuel pop arch w = Ok (pop', arch', history, w') ->
  Forall (known value) pop' /\ map (@geno G (list Q)) pop' = map (@geno G (list Q)) pop /\ Forall (Forall (known value)) history /\
  represents_front (under value dirs) (level value) (arch ++ pop' ++ concat history) arch' /\
  (forall i off, nth_error history i = Some off -> length off = length pop /\
     exists a bred, represents_front (under value dirs) (level value) (arch ++ pop' ++ concat (firstn i history)) a /\
       (a <> [] -> Forall (fresh_or_copy a) bred) /\ map (@geno G (list Q)) off = map (@geno G (list Q)) bred).
Proof.
  intros G W value dirs sw pe cont pick flip wheel turns op fuel pop arch w pop' arch' h w' Hz Hp Hk Hf Hh F Fa Ha H.
  destruct (seea_run_ok value dirs sw Hz pe cont Hp (seea_op pick flip wheel turns op) bred (op_breeds value cont pick flip wheel Hk turns op Hh Hf) fuel pop arch w pop' arch' h w' F Fa Ha H)
    as (R1 & R2 & R3 & R4 & R5).
  split; auto. split; auto. split; auto. split; auto. intros i off Hi. destruct (R5 i off Hi) as (a & o & A1 & [A2 A2'] & A3). split; [|exists a, o; auto].
  apply (f_equal (@length _)) in A3, R2. rewrite !map_length in A3, R2. lia.
Qed.
(** the constructor with a crossover and a mutation is an instance *)
Theorem C149_seea_crossover_mutation : forall (G W : Type) pick flip wheel turns (cross : quad_op (G:=G) (F:=list Q) (W:=W)) pcross mut pmut,
  honest_quad cross -> honest_mon mut ->
  honest (sga_op cross pcross mut pmut) /\ seea_sga pick flip wheel turns cross pcross mut pmut = seea_op pick flip wheel turns (sga_op cross pcross mut pmut).
Proof. intros. split; [apply honest_sga; auto|reflexivity]. Qed.

(** runs of ASEEA: the same for the archive *)
Theorem C149_aseea_run : forall (G W : Type) (value : G -> list Q) dirs swaps pop_eval cont shuffle reseed mx transform fuel (pop arch : list (indiv G (list Q))) (w : W) pop' arch' history w',
  (forall g, length (value g) = length dirs) -> evaluates_pop value pop_eval ->
  (forall w l, Permutation l (shuffle w l)) -> transforms value transform ->
  Forall (unspoilt value) pop -> Forall (known value) arch -> antichain (under value dirs) (level value) arch ->
  aseea_run dirs swaps pop_eval cont shuffle reseed mx transform fuel pop arch w = Ok (pop', arch', history, w') ->
  exists pop1, Forall (known value) pop1 /\ map (@geno G (list Q)) pop1 = map (@geno G (list Q)) pop /\ Forall (Forall (known value)) history /\
  represents_front (under value dirs) (level value) (arch ++ pop1 ++ concat history) arch'.
Proof.
  intros G W value dirs sw pe cont sh rs mx tr fuel pop arch w pop' arch' h w' Hz Hp Hs Ht F Fa Ha H.
  destruct (aseea_run_ok value dirs sw Hz pe cont Hp sh rs tr Hs Ht mx fuel pop arch w pop' arch' h w' F Fa Ha H) as (pop1 & R1 & R2 & R3 & R4 & _). exists pop1. auto.
Qed.

(** runs of SPEA2: [history] has the populations handed to the archive, in order; any invariant [R]
    between the archive and what it was handed holds at the end *)
Theorem C149_spea2_run : forall (G A W : Type) (value : G -> list Q) pop_eval breed fitness diversity archive cont (R : A -> list (list (indiv G worth)) -> Prop) fuel pop a (w : W) final a' history w',
  measures value pop_eval ->
  (forall a pop off w off' w', Forall (measured value) pop -> breed a pop off w = Ok (off', w') -> Forall (not_wrong value) off') ->
  (forall a h p w a' p' w', R a h -> Forall (measured value) p -> fitness a p w = Ok (a', p', w') ->
     R a' h /\ Forall (measured value) p' /\ Permutation (map (@geno G worth) p) (map (@geno G worth) p')) ->
  (forall a h p w a' p' w', R a h -> Forall (measured value) p -> diversity a p w = Ok (a', p', w') ->
     R a' h /\ Forall (measured value) p' /\ Permutation (map (@geno G worth) p) (map (@geno G worth) p')) ->
  (forall a h p w a' w', R a h -> Forall (measured value) p -> archive a p w = Ok (a', w') -> R a' (h ++ [p])) ->
  Forall (not_wrong value) pop -> R a [] ->
  spea2 pop_eval breed fitness diversity archive cont fuel pop a w = Ok (final, a', history, w') ->
  Forall (Forall (measured value)) history /\ R a' history /\ (exists h0, history = h0 ++ [final]) /\
  (exists p h1, history = p :: h1 /\ Permutation (map (@geno G worth) pop) (map (@geno G worth) p)) /\
  stops_at_first_no cont history /\
  (forall i p q, nth_error history i = Some p -> nth_error history (S i) = Some q ->
     exists a off w o w', breed a p off w = Ok (o, w') /\ Permutation (map (@geno G worth) o) (map (@geno G worth) q)).
Proof.
  intros G A W value pe br fi di ar cont R fuel pop a w fin a' h w' H1 H2 H3 H4 H5 F Ra H.
  exact (spea2_ok value pe br fi di ar cont H1 H2 R H3 H4 H5 fuel pop a w fin a' h w' F Ra H).
Qed.

(** ** C150 *)
(** SEEA built with a transform: whatever it is, a run only ever makes copies of the initial
    population and archive, and ends with the front of these *)
Theorem C150_seea_transform_refuted : forall (G W : Type) (value : G -> list Q) dirs swaps pop_eval cont pick flip wheel turns transform fuel (pop arch : list (indiv G (list Q))) (w : W) pop' arch' history w',
  (forall g, length (value g) = length dirs) -> evaluates_pop value pop_eval -> (forall l w x w', pick l w = Ok (x, w') -> In x l) ->
  Forall (unspoilt value) pop -> Forall (known value) arch -> antichain (under value dirs) (level value) arch ->
  seea_run dirs swaps pop_eval cont (seea_transform pick flip wheel turns transform) fuel pop arch w = Ok (pop', arch', history, w') ->
  Forall (known value) pop' /\ map (@geno G (list Q)) pop' = map (@geno G (list Q)) pop /\
  (forall off x, In off history -> In x off -> In x (arch ++ pop')) /\
  represents_front (under value dirs) (level value) (arch ++ pop') arch'.
Proof.
  intros G W value dirs sw pe cont pick flip wheel turns tr fuel pop arch w pop' arch' h w' Hz Hp Hk F Fa Ha H.
  exact (transform_idle value dirs sw Hz pe cont Hp pick flip wheel Hk turns tr fuel pop arch w pop' arch' h w' F Fa Ha H).
Qed.
(** two transforms cannot be told apart *)
Theorem C150_seea_transform_never_called_refuted : forall (G W : Type) dirs swaps pop_eval cont pick flip wheel turns t1 t2 fuel (pop arch : list (indiv G (list Q))) (w : W),
  seea_run dirs swaps pop_eval cont (seea_transform pick flip wheel turns t1) fuel pop arch w =
  seea_run dirs swaps pop_eval cont (seea_transform pick flip wheel turns t2) fuel pop arch w.
Proof. reflexivity. Qed.
(** ASEEA: the user's population is empty after any run of one generation or more *)
Theorem C150_aseea_population_refuted : forall (G W : Type) (value : G -> list Q) dirs swaps pop_eval cont shuffle reseed mx transform fuel (pop arch : list (indiv G (list Q))) (w : W) pop' arch' history w',
  (forall g, length (value g) = length dirs) -> evaluates_pop value pop_eval ->
  (forall w l, Permutation l (shuffle w l)) -> transforms value transform ->
  Forall (unspoilt value) pop -> Forall (known value) arch -> antichain (under value dirs) (level value) arch ->
  aseea_run dirs swaps pop_eval cont shuffle reseed mx transform fuel pop arch w = Ok (pop', arch', history, w') -> history <> [] ->
  pop' = [].
Proof.
  intros G W value dirs sw pe cont sh rs mx tr fuel pop arch w pop' arch' h w' Hz Hp Hs Ht F Fa Ha H Hn.
  destruct (aseea_run_ok value dirs sw Hz pe cont Hp sh rs tr Hs Ht mx fuel pop arch w pop' arch' h w' F Fa Ha H) as (pop1 & _ & _ & _ & _ & ->). destruct h; tauto.
Qed.

(** ** examples: minimise x and (x - 4)^2 over the integers, two generations *)
Definition ex_value (x : Z) : list Q := [inject_Z (x * x); inject_Z ((x - 4) * (x - 4))].
Definition ex_pe (par off : list (indiv Z worth)) (w : nat) : res (list (indiv Z worth) * list (indiv Z worth) * nat) :=
  Ok (par, map (fun x => match fit x with Some _ => x | None => Ind (geno x) (Some (Worth (ex_value (geno x)) None None)) end) off, w).
Definition ex_br (pop off : list (indiv Z worth)) (w : nat) : res (list (indiv Z worth) * nat) :=
  Ok (map (fun x => Ind (geno x - 1)%Z None) pop, w).
Definition ex_cont {M} (p : list M) (w : nat) : res (bool * nat) := match w with 0 => Ok (false, 0) | S k => Ok (true, k) end.
Definition ex_pop {F} : list (indiv Z F) := [Ind 9%Z None; Ind 5%Z None; Ind 4%Z None].

Lemma ex_measures : measures ex_value ex_pe.
Proof.
  intros par off w par' off' w' F1 F2 H. inversion H; subst. split; auto. split; [|split; auto].
  - apply Forall_forall. intros y Hy. apply in_map_iff in Hy as (x & <- & Hx). rewrite Forall_forall in F2. destruct (F2 x Hx) as [E|(v & E & Ev)]; rewrite E; [eexists; split; reflexivity|]. exists v. auto.
  - rewrite map_map. apply map_ext. intros x. destruct (fit x); auto.
Qed.
Example C149_nsga2_nonvacuous :
  std_sort_ok the_sort /\ (forall g, length (ex_value g) = length [true; true]) /\ usable [true; true] /\ measures ex_value ex_pe /\
  breeds ex_value (comparable ex_value) ex_br /\ Forall (not_wrong ex_value) ex_pop /\
  match nsga2 [true; true] the_sort 1000%Q ex_pe ex_br ex_cont 5 ex_pop 2 with
  | Ok (fin, h, _) => map (fun g => map (@geno Z worth) (g_next g)) h = [[4; 3; 4]; [4; 2; 3]; [4; 1; 2]]%Z /\ map (@geno Z worth) fin = [4; 1; 2]%Z
  | _ => False end.
Proof.
  split; [apply the_sort_ok|]. split; [auto|]. split; [split; [discriminate|intros a b E; inversion E; auto]|]. split; [apply ex_measures|].
  split. { intros pop w off w' _ H. inversion H; subst. apply Forall_forall. intros y Hy. apply in_map_iff in Hy as (x & <- & _). left. auto. }
  split; [repeat constructor|]. vm_compute. auto.
Qed.
Definition ex_pe2 (par off : list (indiv Z (list Q))) (w : nat) : res (list (indiv Z (list Q)) * list (indiv Z (list Q)) * nat) :=
  Ok (par, map (fun x => match fit x with Some _ => x | None => Ind (geno x) (Some (ex_value (geno x))) end) off, w).
Definition ex_pick {M} (l : list M) (w : nat) : res (M * nat) := match l with x :: _ => Ok (x, w) | [] => UB end.
Definition ex_flip (p : Q) (w : nat) : res (bool * nat) := Ok (negb (Qle_bool p 0), w).
Definition ex_wheel (l : list Q) (w : nat) : res (nat * nat) := Ok (0, w).
Definition ex_op : genop (G:=Z) (F:=list Q) (W:=nat) := MonGen (fun x w => Ok (Ind (geno x - 1)%Z (fit x), true, w)).
Lemma ex_evaluates : evaluates_pop ex_value ex_pe2.
Proof.
  intros par off w par' off' w' F1 F2 H. inversion H; subst. split; auto. split.
  - apply Forall_forall. intros y Hy. apply in_map_iff in Hy as (x & <- & Hx). rewrite Forall_forall in F2. destruct (F2 x Hx) as [E|E]; [rewrite E; reflexivity|]. pose proof E as E'. unfold known in E'. rewrite E'. auto.
  - rewrite map_map. apply map_ext. intros x. destruct (fit x); auto.
Qed.
Example C149_seea_nonvacuous :
  evaluates_pop ex_value ex_pe2 /\ (forall l w (x : indiv Z (list Q)) w', ex_pick l w = Ok (x, w') -> In x l) /\
  (forall w b w', ex_flip 0%Q w = Ok (b, w') -> b = false) /\ honest ex_op /\
  antichain (under ex_value [true; true]) (level ex_value) (@nil (indiv Z (list Q))) /\
  match seea_run [true; true] false ex_pe2 ex_cont (seea_op ex_pick ex_flip ex_wheel 9 ex_op) 5 ex_pop [] 2 with
  | Ok (p, a, h, _) => map (@geno Z (list Q)) p = [9; 5; 4]%Z /\ map (@geno Z (list Q)) a = [4; 3]%Z /\ map (map (@geno Z (list Q))) h = [[3; 3; 3]; [3; 3; 3]]%Z
  | _ => False end /\
  match seea_run [true; true] false ex_pe2 ex_cont (seea_transform ex_pick ex_flip ex_wheel 9 (fun l w => Ok (map (fun x => Ind (geno x - 1)%Z None) l, w))) 5 ex_pop [] 2 with
  | Ok (p, a, h, _) => map (@geno Z (list Q)) a = [4]%Z /\ map (map (@geno Z (list Q))) h = [[4; 4; 4]; [4; 4; 4]]%Z
  | _ => False end /\
  match aseea_run [true; true] false ex_pe2 ex_cont (fun _ l => l) (fun w => w) 2 (fun l w => Ok (map (fun x => Ind (geno x - 1)%Z None) l, w)) 5 ex_pop [] 2 with
  | Ok (p, a, h, _) => p = [] /\ map (@geno Z (list Q)) a = [4; 3; 2]%Z /\ map (map (@geno Z (list Q))) h = [[3]; [3; 2]]%Z
  | _ => False end.
Proof.
  split; [apply ex_evaluates|]. split. { intros [|y l] w x w' H; inversion H; subst; left; auto. }
  split. { intros w b w' H. inversion H. auto. } split. { intros x w x' w' H. inversion H. }
  split. { intros i j a b _ H. destruct i; discriminate. } vm_compute. auto 20.
Qed.
Print Assumptions C149_elitist_step.
Print Assumptions C149_nsga2_run.
Print Assumptions C149_nsga2_total.
Print Assumptions C149_easy_run.
Print Assumptions C149_easy_size.
Print Assumptions C149_seea_run.
Print Assumptions C149_seea_crossover_mutation.
Print Assumptions C149_aseea_run.
Print Assumptions C149_spea2_run.
Print Assumptions C150_seea_transform_refuted.
Print Assumptions C150_seea_transform_never_called_refuted.
Print Assumptions C150_aseea_population_refuted.
