(** C52: variable neighborhood search; C70: iterated local search; C71: annealing; C72: cooling schedules;
    C73: Metropolis-Hastings. *)
From Coq Require Import List Arith Bool Lia ZArith QArith Qabs Qminmax Lqa Permutation.
From Verif Require Import Outcome Lib OrderSpec OrderLemmas NeighModel NeighSpec NeighProofs LsModel LsSpec LsInst MetaModel MetaSpec MetaProofs MetaAnneal.
From Coq Require Import List.
Import ListNotations.
Open Scope nat_scope.

(** ** C52 *)
Section Vns.
Variables (G F C : Type) (lt : F -> F -> bool) (full : G -> F) (kind : vn_kind) (cycle : bool) (shuf : nat -> list nat -> list nat).
(** the heuristics: a shake and a local search each; the acceptance criterion; the continuator *)
Variable hs : list ((sol G F -> list nat -> res (sol G F * list nat)) * (sol G F -> list nat -> res (sol G F * list nat))).
Variables (crit : sol G F -> sol G F -> res bool) (c : continuator (sol G F) C).
Hypothesis LT : strict_weak_order lt.
Hypothesis SH : forall k l, Permutation (shuf k l) l.
(** whatever the heuristics, the selection and the criterion: the solution returned is the start or one that
    a local search gave, and none of these is strictly better; every solution visited is one of these *)
Theorem C52_returns_best : forall fuel s x cs ds r, 1 <= length hs -> sel_fresh kind (length hs) (v_sel _ _ x) -> v_stop _ _ x = false -> v_made _ _ x = [] -> v_used _ _ x = [] ->
  local_search full (vns_search G F lt kind cycle shuf hs crit) c fuel s x cs ds = Ok r ->
  best_stored lt (started full s :: v_made _ _ (r_x r)) (r_final r) /\ length (v_made _ _ (r_x r)) = turns r /\
  forall v, In v (r_visited r) -> In v (started full s :: v_made _ _ (r_x r)).
Proof.
  intros fuel s x cs ds r H1 H2 H3 H4 H5 H. destruct (vns_run G F C lt full LT kind cycle shuf hs crit c SH fuel s x cs ds r H1 H2 H3 H4 H5 H) as (l & A1 & A2 & A3 & A4 & A5 & _). auto.
Qed.
(** the heuristics used, in order: round after round of the same order, which has each heuristic once, from
    the first, from the last or in any order; without cycle there is one round *)
Theorem C52_rounds : forall fuel s x cs ds r, 1 <= length hs -> sel_fresh kind (length hs) (v_sel _ _ x) -> v_stop _ _ x = false -> v_made _ _ x = [] -> v_used _ _ x = [] ->
  local_search full (vns_search G F lt kind cycle shuf hs crit) c fuel s x cs ds = Ok r ->
  exists l, round_of kind (length hs) l /\ v_used _ _ (r_x r) = rounds l (turns r) /\ 1 <= turns r /\
    (cycle = false -> kind = Backward \/ 2 <= length hs -> turns r <= length hs) /\
    (r_by_itself r = true -> cycle = false /\ (kind = Backward \/ 2 <= length hs) /\ turns r = length hs).
Proof.
  intros fuel s x cs ds r H1 H2 H3 H4 H5 H. destruct (vns_run G F C lt full LT kind cycle shuf hs crit c SH fuel s x cs ds r H1 H2 H3 H4 H5 H) as (l & A1 & A2 & A3 & A4 & A5 & A6 & A7 & A8). exists l. repeat split; auto; apply A1 || apply A8; auto.
Qed.
(** without cycle, and if the heuristics and the criterion do their work, the search ends *)
Theorem C52_ends : forall cost,
  (forall shake ls s ds, In (shake, ls) hs -> fit s <> None -> cost <= length ds ->
     exists s1 ds1 s2 ds2, shake s ds = Ok (s1, ds1) /\ ls s1 ds1 = Ok (s2, ds2) /\ fit s2 <> None /\ length ds <= cost + length ds2) ->
  (forall a b, fit a <> None -> fit b <> None -> exists v, crit a b = Ok v) ->
  forall s x cs ds, cycle = false -> (kind = Backward \/ 2 <= length hs) -> 1 <= length hs -> sel_fresh kind (length hs) (v_sel _ _ x) -> v_stop _ _ x = false ->
  (length hs + 1) * cost <= length ds ->
  exists r, local_search full (vns_search G F lt kind cycle shuf hs crit) c (length hs + 1) s x cs ds = Ok r.
Proof.
  intros cost OPS CRIT s x cs ds H1 H2 H3 H4 H5 H6. exact (vns_total G F C lt full kind cycle shuf hs crit c SH cost OPS CRIT s x cs ds H1 H2 H3 H4 H5 H6).
Qed.
End Vns.
Print Assumptions C52_returns_best.
Print Assumptions C52_rounds.
Print Assumptions C52_ends.
(** three heuristics on numbers: add 1, subtract 2, set to 7; fitness: the number, greater is better *)
Definition num (f : nat -> nat) : (sol nat nat -> list nat -> res (sol nat nat * list nat)) * (sol nat nat -> list nat -> res (sol nat nat * list nat)) :=
  (fun s ds => Ok (Sol (f (geno s)) None, ds), fun s ds => Ok (Sol (geno s) (Some (geno s)), ds)).
Definition steps3 := [num (fun n => n + 1); num (fun n => n - 2); num (fun n => 7)].
Definition forever {T} : continuator T unit := Continuator (fun _ c => c) (fun _ c => (true, c)).
Definition within (n : nat) {T} : continuator T nat := Continuator (fun _ _ => 0) (fun _ k => (k <? n, S k)).
Definition id_shuf (_ : nat) (l : list nat) : list nat := l.
Definition new_sel := VnSel 0 [] 0 0.
Definition shows {G F X C} (r : res (run (sol G F) X C)) (P : run (sol G F) X C -> Prop) : Prop := match r with Ok r => P r | _ => False end.
Example C52_ex : shows (local_search (fun g => g) (vns_search nat nat Nat.ltb Backward false id_shuf steps3 (better_accept nat nat Nat.ltb)) forever 9 (Sol 3 None) (vns_new nat nat new_sel) tt []) (fun r =>
  map geno (r_visited r) = [3; 7; 7; 8] /\ geno (r_final r) = 8 /\ v_used _ _ (r_x r) = [2; 1; 0] /\ r_by_itself r = true /\ sel_fresh Backward 3 new_sel).
Proof. vm_compute. repeat split. Qed.
Example C52_ex_cycle : shows (local_search (fun g => g) (vns_search nat nat Nat.ltb Forward true id_shuf steps3 (always_accept nat nat)) (within 4) 9 (Sol 3 None) (vns_new nat nat new_sel) 0 []) (fun r =>
  map geno (r_visited r) = [3; 4; 2; 7; 8; 6] /\ geno (r_final r) = 8 /\ v_used _ _ (r_x r) = [0; 1; 2; 0; 1]).
Proof. vm_compute. repeat split. Qed.
Example C52_ex_ops : forall shake ls s ds, In (shake, ls) steps3 -> fit s <> None -> 0 <= length ds ->
     exists s1 ds1 s2 ds2, shake s ds = Ok (s1, ds1) /\ ls s1 ds1 = Ok (s2, ds2) /\ fit s2 <> None /\ length ds <= 0 + length ds2.
Proof. intros shake ls s ds [E|[E|[E|[]]]] _ _; injection E as <- <-; repeat eexists; cbn; auto; discriminate. Qed.
(** With one heuristic, the forward selection does not end: [current <= size() - 2] compares with the largest
    size_t (moForwardVectorVNSelection.h:72-74). *)
Lemma forever_by_itself {G F X} full (e : explorer (sol G F) X) fuel s x cs ds r : local_search full e forever fuel s x cs ds = Ok r -> r_by_itself r = true.
Proof.
  unfold local_search, ls_run. intros H. apply rbind_ok in H as ([x' ds'] & _ & H). apply rbind_ok in H as (r1 & H & E). injection E as <-. cbn. revert H.
  generalize (match fit s with Some _ => s | None => Sol (geno s) (Some (full (geno s))) end). intros s1. cbn [c_init forever]. revert s1 x' ds' cs r1. induction fuel as [|f IH]; intros s1 x' ds' cs r1 H; [discriminate|].
  cbn [ls_loop] in H. apply rbind_ok in H as ([[[b s'] x''] ds''] & _ & H). cbn [c_step forever andb] in H. destruct (x_continue e s' x''); [|injection H as <-; reflexivity]. apply rbind_ok in H as (r2 & H2 & H). injection H as <-. cbn. eauto.
Qed.
Theorem C93_vns_one_heuristic_refuted :
  ~ (forall kind hs crit s x cs ds, 1 <= length hs -> sel_fresh kind (length hs) (v_sel _ _ x) -> v_stop _ _ x = false ->
     (forall shake ls s ds, In (shake, ls) hs -> exists s1 ds1 s2 ds2, shake s ds = Ok (s1, ds1) /\ ls s1 ds1 = Ok (s2, ds2) /\ fit s2 <> None) ->
     exists fuel r, local_search (fun g => g) (vns_search nat nat Nat.ltb kind false id_shuf hs crit) (@forever (sol nat nat)) fuel s x cs ds = Ok r).
Proof.
  intros H. destruct (H Forward [num (fun n => n + 1)] (always_accept nat nat) (Sol 0 None) (vns_new nat nat new_sel) tt []) as (fuel & r & Hr); auto; try exact Logic.I.
  - intros shake ls s ds [E|[]]. injection E as <- <-. repeat eexists. cbn. discriminate.
  - assert (HB := forever_by_itself _ _ _ _ _ _ _ _ Hr). destruct (C52_rounds nat nat unit Nat.ltb (fun g => g) Forward false id_shuf [num (fun n => n + 1)] (always_accept nat nat) (@forever (sol nat nat)) ltb_nat_swo (fun k l => Permutation_refl l) fuel (Sol 0 None) (vns_new nat nat new_sel) tt [] r) as (l & _ & _ & _ & _ & A); auto; try exact Logic.I.
    destruct (A HB) as (_ & [E|E] & _); [discriminate|cbn in E; lia].
Qed.
Print Assumptions C93_vns_one_heuristic_refuted.
(** A second search with the same explorer stops after its first turn: stop stays true (moVNSexplorer.h:74-81). *)
Definition run3 x := local_search (fun g => g) (vns_search nat nat Nat.ltb Forward false id_shuf steps3 (always_accept nat nat)) (@forever (sol nat nat)) 9 (Sol 3 None) x tt [].
Theorem C93_vns_second_search_refuted :
  ~ (forall kind hs crit fuel s x cs ds r, 2 <= length hs -> sel_fresh kind (length hs) (v_sel _ _ x) ->
     local_search (fun g => g) (vns_search nat nat Nat.ltb kind false id_shuf hs crit) (@forever (sol nat nat)) fuel s x cs ds = Ok r -> turns r = length hs).
Proof.
  intros H. assert (W : shows (run3 (vns_new nat nat new_sel)) (fun r => shows (run3 (r_x r)) (fun r2 => turns r2 = 1))) by (vm_compute; reflexivity).
  destruct (run3 (vns_new nat nat new_sel)) as [r| | |]; cbn [shows] in W; try contradiction. destruct (run3 (r_x r)) as [r2| | |] eqn:E2; cbn [shows] in W; try contradiction.
  unfold run3 in E2. assert (K := H Forward steps3 _ _ _ _ _ _ r2 (le_S 2 2 (le_n 2)) Logic.I E2). change (length steps3) with 3 in K. congruence.
Qed.
Print Assumptions C93_vns_second_search_refuted.
(** An accepted move does not bring the search back to the first heuristic, although updateParam has a branch
    for it: first is set by initParam and never cleared (moVNSexplorer.h:74-96). *)
Theorem C93_vns_restart_refuted :
  ~ (forall hs crit fuel s x cs ds r k, 2 <= length hs -> v_stop _ _ x = false -> v_made _ _ x = [] -> v_used _ _ x = [] ->
     local_search (fun g => g) (vns_search nat nat Nat.ltb Forward false id_shuf hs crit) (@forever (sol nat nat)) fuel s x cs ds = Ok r ->
     k + 1 < turns r -> crit (nth k (r_visited r) s) (nth k (v_made _ _ (r_x r)) s) = Ok true -> nth (k + 1) (v_used _ _ (r_x r)) 0 = 0).
Proof.
  intros H. assert (W : shows (run3 (vns_new nat nat new_sel)) (fun r => turns r = 3 /\ nth 1 (v_used _ _ (r_x r)) 0 = 1)) by (vm_compute; split; reflexivity).
  destruct (run3 (vns_new nat nat new_sel)) as [r| | |] eqn:E; cbn [shows] in W; try contradiction. destruct W as [W1 W2].
  unfold run3 in E. specialize (H steps3 _ _ _ (vns_new nat nat new_sel) _ _ r 0 (le_S 2 2 (le_n 2)) eq_refl eq_refl eq_refl E). rewrite W1 in H. specialize (H ltac:(lia) eq_refl). change (0 + 1) with 1 in H. congruence.
Qed.
Print Assumptions C93_vns_restart_refuted.

(** ** C70 *)
Section Ils.
Variables (G F P C : Type) (lt : F -> F -> bool) (full : G -> F).
Variables (p_init : sol G F -> P -> list nat -> res (P * list nat)) (p_apply : sol G F -> P -> list nat -> res (sol G F * P * list nat)).
Variables (p_add p_update : sol G F -> P -> list nat -> res (P * list nat)).
Variables (ls : sol G F -> list nat -> res (sol G F * list nat)) (c : continuator (sol G F) C).
(** for every perturbation, local search, criterion and continuator: the turns are those of the
    specification, and only the continuator ends the search *)
Theorem C70_turns : forall crit fuel s x cs ds r, i_from G F P x = [] -> i_made G F P x = [] ->
  local_search full (ils_search G F P p_init p_apply p_add p_update ls crit) c fuel s x cs ds = Ok r ->
  nth_error (r_visited r) 0 = Some (started full s) /\ 1 <= turns r /\ r_by_itself r = false /\ r_final r = last (r_visited r) s /\
  length (i_from G F P (r_x r)) = turns r /\ length (i_made G F P (r_x r)) = turns r /\
  forall k, k < turns r -> ils_turn p_apply ls crit (k =? 0) (nth k (r_visited r) s) (nth k (i_from G F P (r_x r)) s) (nth k (i_made G F P (r_x r)) s) (nth (S k) (r_visited r) s).
Proof. exact (fun crit => ils_run G F P C full p_init p_apply p_add p_update ls crit c). Qed.
(** what the memory of the perturbation is told *)
Theorem C70_memory : forall crit fuel s x cs ds r, i_from G F P x = [] -> i_made G F P x = [] ->
  local_search full (ils_search G F P p_init p_apply p_add p_update ls crit) c fuel s x cs ds = Ok r ->
  remembers p_init p_apply p_add p_update crit (i_pert G F P x) (started full s) (tl (r_visited r)) (i_pert G F P (r_x r)).
Proof. exact (fun crit => ils_remembers G F P C full p_init p_apply p_add p_update ls crit c). Qed.
(** moAlwaysAcceptCrit: the solutions visited are those the local search gave *)
Theorem C70_always : forall fuel s x cs ds r, i_from G F P x = [] -> i_made G F P x = [] ->
  local_search full (ils_search G F P p_init p_apply p_add p_update ls (always_accept G F)) c fuel s x cs ds = Ok r -> r_visited r = started full s :: i_made G F P (r_x r).
Proof. exact (ils_always full p_init p_apply p_add p_update ls c). Qed.
(** moBetterAcceptCrit: after [k] turns the solution is the best of the start and of what the local search gave
    so far *)
Theorem C70_better : strict_weak_order lt -> forall fuel s x cs ds r, i_from G F P x = [] -> i_made G F P x = [] ->
  local_search full (ils_search G F P p_init p_apply p_add p_update ls (better_accept G F lt)) c fuel s x cs ds = Ok r ->
  forall k, k <= turns r -> best_stored lt (started full s :: firstn k (i_made G F P (r_x r))) (nth k (r_visited r) s).
Proof. intros LT fuel s x cs ds r A B H. exact (ils_better lt full p_init p_apply p_add p_update ls c fuel s x cs ds r LT A B H). Qed.
End Ils.
Print Assumptions C70_turns.
Print Assumptions C70_always.
Print Assumptions C70_memory.
(** a memory that counts the replaced solutions and the turns *)
Example C70_memory_ex : shows (local_search (fun g => g) (ils_search nat nat (nat * nat) (fun _ _ ds => Ok ((0, 0), ds)) (fun s p ds => match ds with [] => NoDraw | d :: r => Ok (Sol (geno s + d) None, p, r) end)
    (fun _ p ds => Ok ((S (fst p), snd p), ds)) (fun _ p ds => Ok ((fst p, S (snd p)), ds)) (fun s ds => Ok (Sol (geno s mod 10) (Some (geno s mod 10)), ds)) (better_accept nat nat Nat.ltb)) (within 3) 9 (Sol 3 None) (ils_new nat nat (nat * nat) (7, 7)) 0 [4; 5; 1]) (fun r =>
  map geno (r_visited r) = [3; 3; 7; 7; 8] /\ i_pert nat nat (nat * nat) (r_x r) = (2, 4)).
Proof. vm_compute. repeat split. Qed.
Print Assumptions C70_better.
(** perturbation: add the next draw; local search: keep the remainder by 10 *)
Definition kick (s : sol nat nat) (p : unit) (ds : list nat) : res (sol nat nat * unit * list nat) := match ds with [] => NoDraw | d :: r => Ok (Sol (geno s + d) None, tt, r) end.
Definition rem10 (s : sol nat nat) (ds : list nat) : res (sol nat nat * list nat) := Ok (Sol (geno s mod 10) (Some (geno s mod 10)), ds).
Definition quiet (s : sol nat nat) (p : unit) (ds : list nat) : res (unit * list nat) := Ok (tt, ds).
Example C70_ex : shows (local_search (fun g => g) (ils_search nat nat unit quiet kick quiet quiet rem10 (better_accept nat nat Nat.ltb)) (within 3) 9 (Sol 23 None) (ils_new nat nat unit tt) 0 [4; 5; 1; 6]) (fun r =>
  map geno (r_visited r) = [23; 23; 23; 23; 23] /\ i_made nat nat unit (r_x r) = map (fun n => Sol n (Some n)) [3; 7; 8; 4]).
Proof. vm_compute. repeat split. Qed.
Example C70_ex2 : shows (local_search (fun g => g) (ils_search nat nat unit quiet kick quiet quiet rem10 (better_accept nat nat Nat.ltb)) (within 3) 9 (Sol 3 None) (ils_new nat nat unit tt) 0 [4; 5; 1]) (fun r =>
  map geno (r_visited r) = [3; 3; 7; 7; 8] /\ i_made nat nat unit (r_x r) = map (fun n => Sol n (Some n)) [3; 7; 2; 8]).
Proof. vm_compute. repeat split. Qed.

(** ** C71 *)
(** an annealing turn, spelled out: what the schedule says before it, then the proposal *)
Definition anneal_turn {G F S I K} (lt : F -> F -> bool) (dbl : F -> Q) (exp : Q -> Q) (full : G -> F) (nbrs : G -> list I) (nh : G -> iterator S I) (move : I -> G -> res G)
    (sch : cooling K) (k0 : K) (h : list bool) (s : sol G F) (ds : list nat) (b : bool) (s' : sol G F) (ds' : list nat) : Prop :=
  (h = [] \/ goes_on sch k0 h = true) /\ proposal full nbrs nh move (metropolis lt dbl exp (fst (after sch k0 h))) s ds b s' ds'.
Section Anneal.
Variables (G F S I C : Type) (lt : F -> F -> bool) (Sp : G -> Prop) (nbrs : G -> list I) (has : G -> bool) (nh : G -> iterator S I).
Variables (Inv : S -> Prop) (Prog : G -> S -> Prop) (xfuel cost : nat).
Variables (full : G -> F) (neval : sol G F -> I -> res F) (move : I -> G -> res G) (c : continuator (sol G F) C).
Variables (dbl : F -> Q) (exp : Q -> Q).
Hypothesis EXP : exponential exp.
Hypothesis NH : neighborhood_ok Sp nbrs has nh Inv Prog xfuel cost.
Hypothesis MV : moves_ok Sp nbrs full neval move.
(** for every neighborhood, evaluation, schedule and continuator: the whole run is a sequence of proposals
    answered by Metropolis' rule at the temperature that the schedule gives after the answers so far;
    fitnesses are true; the search goes on as long as the schedule and the continuator say so *)
Theorem C71_metropolis : forall K (sch : cooling K) fuel s x cs ds r, Sp (geno s) -> not_stale full s -> Inv (h_nh F S I (a_hc F S I K x)) ->
  local_search full (sa_search G F lt S I has nh neval move dbl exp K sch) c fuel s x cs ds = Ok r ->
  exists h, length h = turns r /\ 1 <= turns r /\ traced (anneal_turn lt dbl exp full nbrs nh move sch (a_cool F S I K x)) (started full s) ds h (r_visited r) (r_draws r) /\
    Forall (evaluated full) (r_visited r) /\ r_final r = last (r_visited r) s /\ (r_by_itself r = true -> goes_on sch (a_cool F S I K x) h = false).
Proof. intros K sch fuel s x cs ds r H1 H2 H3 H. exact (sa_run G F S I C lt Sp nbrs has nh Inv Prog xfuel cost full neval move c dbl exp NH MV K sch fuel s x cs ds r EXP H1 H2 H3 H). Qed.
(** with the simple schedule, 0 <= alpha < 1 and a positive final temperature: there is a number of turns after
    which every run has ended, whatever the neighborhood, the solution and the draws *)
Theorem C71_ends : forall initT alpha span finalT, (0 <= alpha)%Q -> (alpha < 1)%Q -> (0 < finalT)%Q -> exists N, forall s x cs ds,
  Sp (geno s) -> not_stale full s -> Inv (h_nh F S I (a_hc F S I nat x)) -> N * (cost + 1) <= length ds ->
  exists r, local_search full (sa_search G F lt S I has nh neval move dbl exp nat (simple_cooling initT alpha span finalT)) c N s x cs ds = Ok r.
Proof.
  intros initT alpha span finalT H0 H1 HF. destruct (cools initT alpha finalT H0 H1 HF) as (M & HM). exists (M * (span + 1) + 1). intros s x cs ds HS HN HI Hd.
  apply (sa_total G F S I C lt Sp nbrs has nh Inv Prog xfuel cost full neval move c dbl exp NH MV nat _ _ s x cs ds EXP HS HN HI); auto; [lia|].
  intros h Hh. destruct (goes_on _ _ h) eqn:E; auto. apply simple_goes_on in E. specialize (HM (length h / (span + 1))). exfalso. apply (Qlt_not_le _ _ E). apply HM. apply Nat.div_le_lower_bound; [lia|]. rewrite Nat.mul_comm. lia.
Qed.
End Anneal.
Print Assumptions C71_metropolis.
Print Assumptions C71_ends.
(** the rule: a neighbor as good as the solution is always accepted, for every draw of 32 bits; the worse the
    neighbor, and the lower the temperature, the fewer the draws that accept it *)
Theorem C71_equal_accepted : forall F (lt : F -> F -> bool) dbl exp t f g ds b ds', exponential exp -> (dbl f == dbl g)%Q -> (forall d, In d ds -> (Z.of_nat d < 2 ^ 32)%Z) ->
  metropolis lt dbl exp t f g ds b ds' -> b = true.
Proof.
  intros F lt dbl exp t f g ds b ds' (E1 & E2 & E3 & E4) Hfg Hd H. unfold metropolis in H. destruct (lt f g); [tauto|]. destruct H as (d & -> & H). apply H. assert (D := Hd d (or_introl eq_refl)).
  rewrite (E1 _ 0%Q); [rewrite E2|].
  - unfold u01, Qlt. cbn. lia.
  - rewrite (Qabs_wd (dbl g - dbl f) 0) by lra. change (Qabs 0) with 0%Q. unfold Qdiv. ring.
Qed.
Print Assumptions C71_equal_accepted.
Theorem C71_monotone : forall F (lt : F -> F -> bool) dbl exp t1 t2 f g1 g2 d b1 b2 r, exponential exp -> (0 < t1)%Q -> (t1 <= t2)%Q ->
  lt f g1 = false -> lt f g2 = false -> (Qabs (dbl g2 - dbl f) <= Qabs (dbl g1 - dbl f))%Q ->
  metropolis lt dbl exp t1 f g1 (d :: r) b1 r -> metropolis lt dbl exp t2 f g2 (d :: r) b2 r -> b1 = true -> b2 = true.
Proof.
  intros F lt dbl exp t1 t2 f g1 g2 d b1 b2 r (E1 & E2 & E3 & E4) T0 T1 L1 L2 Hg M1 M2 B. unfold metropolis in *. rewrite L1 in M1. rewrite L2 in M2.
  destruct M1 as (d1 & D1 & M1). injection D1 as <-. destruct M2 as (d2 & D2 & M2). injection D2 as <-. apply M2. apply M1 in B. eapply Qlt_le_trans; [exact B|].
  assert (K : (- (Qabs (dbl g1 - dbl f) / t1) <= - (Qabs (dbl g2 - dbl f) / t2))%Q).
  { set (x := Qabs (dbl g1 - dbl f)) in *. set (y := Qabs (dbl g2 - dbl f)) in *. assert (Y : (0 <= y)%Q) by apply Qabs_nonneg. apply Qopp_le_compat. apply Qle_shift_div_l; [lra|].
    apply Qle_trans with (y / t2 * t2)%Q; [|rewrite Qmult_comm, Qmult_div_r; lra]. rewrite (Qmult_comm _ t1), (Qmult_comm _ t2). apply Qmult_le_compat_r; auto. apply Qle_shift_div_l; lra. }
  apply Qle_lteq in K as [K|K]; [apply Qlt_le_weak; auto|]. rewrite (E1 _ _ K). apply Qle_refl.
Qed.
Print Assumptions C71_monotone.
(** a function that can stand for exp *)
Definition pseudo_exp (a : Q) : Q := if Qle_bool 0 a then (1 + a)%Q else (/ (1 - a))%Q.
Example C71_ex_exp : exponential pseudo_exp.
Proof.
  assert (N : forall a, (a < 0)%Q -> (0 < / (1 - a) /\ / (1 - a) < 1)%Q). { intros a Ha. assert (D : (0 < / (1 - a))%Q) by (apply Qinv_lt_0_compat; lra). split; auto. assert ((1 - a) * / (1 - a) == 1)%Q by (apply Qmult_inv_r; lra). set (i := (/ (1 - a))%Q) in *. assert (0 < (- a) * i)%Q by (apply Qmult_lt_0_compat; lra). assert ((1 - a) * i == i + (- a) * i)%Q by ring. lra. }
  assert (S : forall a, (0 <= a -> pseudo_exp a == 1 + a)%Q /\ (a < 0 -> pseudo_exp a == / (1 - a))%Q).
  { intros a. unfold pseudo_exp. destruct (Qle_bool 0 a) eqn:E; split; intros H; try reflexivity; exfalso; [apply Qle_bool_iff in E; lra|]. rewrite <- not_true_iff_false, Qle_bool_iff in E. auto. }
  repeat split.
  - intros a b E. destruct (Qlt_le_dec a 0) as [H|H]; destruct (S a) as [A1 A2], (S b) as [B1 B2]; [rewrite A2, B2 by lra; rewrite E; reflexivity|rewrite A1, B1 by lra; lra].
  - intros a. destruct (Qlt_le_dec a 0) as [H|H]; destruct (S a) as [A1 A2]; [rewrite A2 by lra; apply N; auto|rewrite A1 by lra; lra].
  - intros a b H. destruct (S a) as [A1 A2], (S b) as [B1 B2]. destruct (Qlt_le_dec a 0) as [Ha|Ha], (Qlt_le_dec b 0) as [Hb|Hb]; try lra.
    + rewrite A2, B2 by auto. destruct (N a Ha), (N b Hb). assert ((1 - a) * / (1 - a) == 1)%Q by (apply Qmult_inv_r; lra). assert ((1 - b) * / (1 - b) == 1)%Q by (apply Qmult_inv_r; lra).
      set (i := (/ (1 - a))%Q) in *. set (j := (/ (1 - b))%Q) in *. apply Qnot_le_lt. intros L. assert ((b - a) * j > 0)%Q by (apply Qmult_lt_0_compat; lra). assert (((1 - a) * j <= (1 - a) * i)%Q) by (rewrite !(Qmult_comm (1 - a)); apply Qmult_le_compat_r; lra). assert ((1 - a) * j == (1 - b) * j + (b - a) * j)%Q by ring. lra.
    + rewrite A2, B1 by auto. destruct (N a Ha). lra.
Qed.
(** annealing on three bits, maximising the number of ones, from 110: the first proposal, bit 2, is
    accepted without a draw; then bit 0 is proposed, the fitness falls from 3 to 2 at temperature 1/2 and the
    draw 5, that is 5 / 2^32, accepts it; the temperature is then 1/4 and the search stops *)
Definition count_ones (g : list bool) : nat := length (filter (fun b => b) g).
Definition bit_anneal (initT alpha : Q) (span : nat) (finalT : Q) :=
  sa_search (list bool) nat Nat.ltb wr_state nat (fun _ => 0 <? 3) (fun _ => without_repl_nh 3) (eval_by_copy count_ones bit_move) bit_move (fun n => inject_Z (Z.of_nat n)) pseudo_exp nat (simple_cooling initT alpha span finalT).
Definition sa0 : sa nat wr_state nat nat := Sa nat wr_state nat nat (Hc nat wr_state nat (wr_start 3) None false) 0 0.
Example C71_ex : shows (local_search count_ones (bit_anneal 1 (1 # 2) 0 (1 # 4)) (@forever (sol (list bool) nat)) 9 (Sol [true; true; false] None) sa0 tt [2; 0; 5])
    (fun r => map geno (r_visited r) = [[true; true; false]; [true; true; true]; [false; true; true]] /\ r_by_itself r = true) /\
  shows (local_search count_ones (bit_anneal 1 (1 # 2) 1 (1 # 4)) (within 1) 9 (Sol [true; true; false] None) sa0 0 [2; 0; 5])
    (fun r => turns r = 2 /\ r_by_itself r = false) /\
  Permutation (indexVector (h_nh nat wr_state nat (a_hc nat wr_state nat nat sa0))) (seq 0 3) /\ not_stale count_ones (Sol [true; true; false] None).
Proof. split; [vm_compute; repeat split|]. split; [vm_compute; repeat split|]. split; [apply Permutation_refl|left; reflexivity]. Qed.
Example C71_ex_rule : metropolis Nat.ltb (fun n => inject_Z (Z.of_nat n)) pseudo_exp (1 # 2) 3 2 [0] true [] /\ ~ metropolis Nat.ltb (fun n => inject_Z (Z.of_nat n)) pseudo_exp (1 # 2) 3 2 [0] false [].
Proof.
  split.
  - exists 0. split; auto. split; auto. intros _. vm_compute. reflexivity.
  - intros (d & E & H). injection E as <-. discriminate (proj2 H eq_refl).
Qed.

(** ** C72 *)
(** the simple schedule: after [n] turns the temperature is initT * alpha^(n / (span + 1)), and the search goes
    on as long as this is above finalT *)
Theorem C72_simple : forall initT alpha span finalT k0 h,
  (fst (after (simple_cooling initT alpha span finalT) k0 h) == initT * qpow alpha (length h / (span + 1)))%Q /\
  (goes_on (simple_cooling initT alpha span finalT) k0 h = true <-> (finalT < initT * qpow alpha (length h / (span + 1)))%Q).
Proof. intros. split; [apply simple_after|apply simple_goes_on]. Qed.
Print Assumptions C72_simple.
(** with 0 <= alpha < 1 and finalT > 0 it stops *)
Theorem C72_simple_stops : forall initT alpha span finalT, (0 <= alpha)%Q -> (alpha < 1)%Q -> (0 < finalT)%Q ->
  exists N, forall k0 h, N <= length h -> goes_on (simple_cooling initT alpha span finalT) k0 h = false.
Proof.
  intros initT alpha span finalT H0 H1 HF. destruct (cools initT alpha finalT H0 H1 HF) as (M & HM). exists (M * (span + 1)). intros k0 h Hh.
  destruct (goes_on _ _ h) eqn:E; auto. apply simple_goes_on in E. exfalso. apply (Qlt_not_le _ _ E). apply HM. apply Nat.div_le_lower_bound; [lia|]. rewrite Nat.mul_comm. lia.
Qed.
Print Assumptions C72_simple_stops.
(** the schedule with dynamic spans: the temperature is initT * alpha^(complete spans); the search goes on
    until more than nbSpanMax spans in a row had no accepted move *)
Theorem C72_dynamic : forall initT alpha tries moves nbSpanMax k0 h,
  (fst (after (dyn_cooling initT alpha tries moves nbSpanMax) k0 h) == initT * qpow alpha (length (fst (spans tries moves [] h))))%Q /\
  (goes_on (dyn_cooling initT alpha tries moves nbSpanMax) k0 h = true <-> quiet_end (fst (spans tries moves [] h)) 0 <= nbSpanMax).
Proof.
  intros initT alpha tm mm nbm k0 h. assert (D := dyn_after initT alpha tm mm nbm k0 h). cbv zeta in D. unfold goes_on. destruct (spans tm mm [] h) as [l e]. cbn [fst]. destruct D as [D1 D2]. split; auto.
  rewrite D2. cbn [dyn_cooling k_go]. apply Nat.leb_le.
Qed.
Print Assumptions C72_dynamic.
(** what [spans] and [quiet_end] compute: the spans follow each other; each complete one has [tries] tries or
    [moves] moves and no shorter beginning has *)
Theorem C72_spans : forall tries moves h l e, 1 <= tries -> 1 <= moves -> spans tries moves [] h = (l, e) -> h = concat l ++ e /\
  (forall p, In p l -> (length p = tries \/ accepted p = moves) /\ length p <= tries /\ accepted p <= moves /\ forall n, n < length p -> n < tries /\ accepted (firstn n p) < moves) /\
  length e < tries /\ accepted e < moves.
Proof. exact spans_spec. Qed.
Print Assumptions C72_spans.
Theorem C72_quiet_end : forall l n, quiet_end l 0 = n <-> exists a b, l = a ++ b /\ length b = n /\ (forall p, In p b -> accepted p = 0) /\ (a = [] \/ exists a' p, a = a' ++ [p] /\ accepted p <> 0).
Proof. exact quiet_end_spec. Qed.
Print Assumptions C72_quiet_end.
Example C72_ex : (fst (after (simple_cooling 10 (1 # 2) 2 1) 0%nat (repeat false 7%nat)) == 10 # 4)%Q /\ goes_on (simple_cooling 10 (1 # 2) 2 1) 0 (repeat false 8) = true /\ goes_on (simple_cooling 10 (1 # 2) 2 1) 0 (repeat true 12) = false.
Proof. repeat split. Qed.
Example C72_ex_dyn : spans 3 2 [] [true; false; true; false; false; false; true] = ([[true; false; true]; [false; false; false]], [true]) /\
  goes_on (dyn_cooling 10 (1 # 2) 3 2 0) (0, 0, 0) [true; false; true; false; false; false; true] = false /\ goes_on (dyn_cooling 10 (1 # 2) 3 2 1) (0, 0, 0) [true; false; true; false; false; false; true] = true.
Proof. repeat split. Qed.
(** The dynamic schedule does not stop while every span has an accepted move: no temperature ends it. *)
Theorem C72_dynamic_endless : ~ (forall initT alpha tries moves nbSpanMax k0, (0 < alpha)%Q -> (alpha < 1)%Q -> exists N, forall h, N <= length h -> goes_on (dyn_cooling initT alpha tries moves nbSpanMax) k0 h = false).
Proof.
  intros H. destruct (H 1%Q (1 # 2)%Q 1 1 0 (0, 0, 0)) as (N & HN); try reflexivity. specialize (HN (repeat true N)). rewrite repeat_length in HN. specialize (HN (le_n N)).
  assert (K : goes_on (dyn_cooling 1 (1 # 2) 1 1 0) (0, 0, 0) (repeat true N) = true).
  { apply C72_dynamic. assert (E : fst (spans 1 1 [] (repeat true N)) = repeat [true] N). { clear. induction N; auto. cbn. destruct (spans 1 1 [] (repeat true N)) as [l e]. cbn in *. rewrite IHN. reflexivity. } rewrite E. clear. induction N; auto. }
  congruence.
Qed.
Print Assumptions C72_dynamic_endless.

(** ** C73 *)
(** a turn of the Metropolis-Hastings search with positive fitnesses *)
Definition mh_turn {G F S I} (lt : F -> F -> bool) (dbl : F -> Q) (full : G -> F) (nbrs : G -> list I) (nh : G -> iterator S I) (move : I -> G -> res G) (h : list bool) :=
  proposal full nbrs nh move (ratio lt dbl).
Section Mh.
Variables (G F S I C : Type) (lt : F -> F -> bool) (Sp : G -> Prop) (nbrs : G -> list I) (has : G -> bool) (nh : G -> iterator S I).
Variables (Inv : S -> Prop) (Prog : G -> S -> Prop) (xfuel cost : nat).
Variables (full : G -> F) (neval : sol G F -> I -> res F) (move : I -> G -> res G) (c : continuator (sol G F) C) (dbl : F -> Q).
Hypothesis NH : neighborhood_ok Sp nbrs has nh Inv Prog xfuel cost.
Hypothesis MV : moves_ok Sp nbrs full neval move.
Hypothesis POS : forall g, Sp g -> (0 < dbl (full g))%Q.
Theorem C73_ratio : forall nbStep fuel s x cs ds r, Sp (geno s) -> not_stale full s -> Inv (h_nh F S I (fst x)) ->
  local_search full (mh_search G F lt S I has nh neval move dbl nbStep) c fuel s x cs ds = Ok r ->
  1 <= turns r <= Nat.max 1 nbStep /\ (r_by_itself r = true -> turns r = Nat.max 1 nbStep) /\
  (exists h, traced (mh_turn lt dbl full nbrs nh move) (started full s) ds h (r_visited r) (r_draws r)) /\
  Forall (evaluated full) (r_visited r) /\ r_final r = last (r_visited r) s.
Proof. exact (mh_run G F S I C lt Sp nbrs has nh Inv Prog xfuel cost full neval move c dbl NH MV POS). Qed.
End Mh.
Print Assumptions C73_ratio.
Definition bit_metro (dbl : nat -> Q) (nbStep : nat) :=
  mh_search (list bool) nat Nat.ltb wr_state nat (fun _ => 0 <? 3) (fun _ => without_repl_nh 3) (eval_by_copy count_ones bit_move) bit_move dbl nbStep.
Definition mh0 : hc nat wr_state nat * nat := (Hc nat wr_state nat (wr_start 3) None false, 0).
Example C73_ex : shows (local_search count_ones (bit_metro (fun n => inject_Z (Z.of_nat n) + 1)%Q 2) (@forever (sol (list bool) nat)) 9 (Sol [true; true; false] None) mh0 tt [2; 0; 5])
    (fun r => map geno (r_visited r) = [[true; true; false]; [true; true; true]; [false; true; true]] /\ r_by_itself r = true) /\
  (forall g : list bool, length g = 3 -> (0 < inject_Z (Z.of_nat (count_ones g)) + 1)%Q).
Proof. split; [vm_compute; repeat split|]. intros g _. assert (0 <= inject_Z (Z.of_nat (count_ones g)))%Q by (change 0%Q with (inject_Z 0); rewrite <- Zle_Qle; lia). lra. Qed.
(** Outside positive fitnesses the rule is another one. From a solution of fitness 0 every worse neighbor is
    accepted, for every draw (moMetropolisHastingExplorer.h:152-157). *)
Theorem C73_zero_fitness_outside :
  ~ (forall (F : Type) (lt : F -> F -> bool) (dbl : F -> Q) S (x : hc F S nat * nat) f p ds b x' ds', (dbl (snd p) < dbl f)%Q -> h_sel _ _ _ (fst x) = Some p -> lt f (snd p) = false ->
     mh_accept nat F lt S nat (fun _ => true) dbl (Sol 0 (Some f)) x ds = Ok (b, x', ds') -> b = true -> exists d, ds = d :: ds').
Proof.
  intros H. destruct (H Z Z.ltb inject_Z unit (Hc Z unit nat tt (Some (0, (-5)%Z)) false, 0) 0%Z (0, (-5)%Z) [] true (Hc Z unit nat tt (Some (0, (-5)%Z)) true, 0) []) as (d & E); try reflexivity. discriminate.
Qed.
Print Assumptions C73_zero_fitness_outside.
(** With negative fitnesses a worse neighbor has a ratio above 1: it is accepted for every 32-bit draw. *)
Theorem C73_negative_fitness_outside :
  ~ (forall (f g : Z) S (x : hc Z S nat * nat), (g < f)%Z -> h_sel _ _ _ (fst x) = Some (0, g) -> exists d x' ds', (Z.of_nat d < 2 ^ 32)%Z /\
     mh_accept nat Z Z.ltb S nat (fun _ => true) inject_Z (Sol 0 (Some f)) x [d] = Ok (false, x', ds')).
Proof.
  intros H. destruct (H (-1)%Z (-5)%Z unit (Hc Z unit nat tt (Some (0, (-5)%Z)) false, 0)) as (d & x' & ds' & Hd & E); try reflexivity.
  cbn in E. assert (B : below (Z.of_nat d # 4294967296) (-5 / -1) = true) by (apply below_lt; unfold Qlt; cbn; lia). cbn in B. 
  match type of E with context [below ?a ?b] => assert (B2 : below a b = true) by (apply below_lt; unfold Qlt; cbn; lia) end. rewrite B2 in E. discriminate E.
Qed.
Print Assumptions C73_negative_fitness_outside.
