(** C36, C38, C69: hill climbing, tabu search, neutral and random searches. *)
From Coq Require Import List Arith Bool Lia Permutation.
From Verif Require Import Outcome Lib OrderSpec OrderLemmas NeighModel NeighSpec NeighProofs LsModel LsSpec LsProofs LsClimb LsNeutral LsTabu LsInst DomModel.
Import ListNotations.
Open Scope nat_scope.

(** any genotypes [G], fitness type [F] with its operator<, neighborhood, continuator; the
    hypotheses are met by the neighborhoods and moves of mo (see the theorems on bit strings and
    permutations below) *)
Section Search.
Variables (G F S I C : Type) (lt eq : F -> F -> bool) (Sp : G -> Prop) (nbrs : G -> list I) (has : G -> bool) (nh : G -> iterator S I).
Variables (Inv : S -> Prop) (Prog : G -> S -> Prop) (xfuel cost : nat).
Variables (full : G -> F) (neval : sol G F -> I -> res F) (move : I -> G -> res G) (c : continuator (sol G F) C).
Hypothesis LT : strict_weak_order lt.
Hypothesis NH : neighborhood_ok Sp nbrs has nh Inv Prog xfuel cost.
Hypothesis MV : moves_ok Sp nbrs full neval move.

(** ** C36 *)
(** steepest ascent: every solution visited but the last is followed by a best neighbor, strictly
    better than it; fitnesses are true; a search that stops by itself is at a local optimum *)
Theorem C36_simple_hc : forall fuel s x cs ds r, Sp (geno s) -> not_stale full s -> Inv (h_nh F S I x) ->
  local_search full (simple_hc G F S I lt has nh neval move xfuel) c fuel s x cs ds = Ok r ->
  climbs (fun a b => improves lt nbrs full move (geno a) (geno b) /\ steepest lt nbrs full move (geno a) (geno b)) (r_visited r) /\
  nth_error (r_visited r) 0 = Some (started full s) /\ Forall (evaluated full) (r_visited r) /\ r_final r = last (r_visited r) s /\
  Sp (geno (r_final r)) /\ (r_by_itself r = true -> local_optimum lt nbrs full move (geno (r_final r))).
Proof. exact (simple_run G F S I C lt Sp nbrs has nh Inv Prog xfuel cost full neval move c LT NH MV). Qed.
(** first improvement *)
Theorem C36_first_improvement_hc : forall always fuel s x cs ds r, Sp (geno s) -> not_stale full s -> Inv (h_nh F S I x) ->
  local_search full (first_hc G F S I lt has nh neval move xfuel always) c fuel s x cs ds = Ok r ->
  (always = false -> climbs (fun a b => improves lt nbrs full move (geno a) (geno b)) (r_visited r)) /\
  chain (fun a b => improves lt nbrs full move (geno a) (geno b) \/ (b = a /\ local_optimum lt nbrs full move (geno a))) (r_visited r) /\
  nth_error (r_visited r) 0 = Some (started full s) /\ Forall (evaluated full) (r_visited r) /\ r_final r = last (r_visited r) s /\
  Sp (geno (r_final r)) /\ (r_by_itself r = true -> always = false /\ local_optimum lt nbrs full move (geno (r_final r))).
Proof. exact (first_run G F S I C lt Sp nbrs has nh Inv Prog xfuel cost full neval move c NH MV). Qed.
(** in a finite search space both end, whatever the continuator, with no more turns than solutions *)
Theorem C36_simple_terminates : forall space, (forall g, Sp g -> In g space) ->
  forall s x cs ds, Sp (geno s) -> not_stale full s -> Inv (h_nh F S I x) -> length space * cost <= length ds ->
  exists r, local_search full (simple_hc G F S I lt has nh neval move xfuel) c (length space) s x cs ds = Ok r.
Proof. exact (simple_terminates G F S I C lt Sp nbrs has nh Inv Prog xfuel cost full neval move c LT NH MV). Qed.
Theorem C36_first_improvement_terminates : forall space, (forall g, Sp g -> In g space) ->
  forall s x cs ds, Sp (geno s) -> not_stale full s -> Inv (h_nh F S I x) -> length space * cost <= length ds ->
  exists r, local_search full (first_hc G F S I lt has nh neval move xfuel false) c (length space) s x cs ds = Ok r.
Proof. exact (first_terminates G F S I C lt Sp nbrs has nh Inv Prog xfuel cost full neval move c LT NH MV). Qed.

(** ** C38 *)
Section Tabu.
Variables (M : Type) (ms : memories G F I M).
(** one iteration, for every tabu list, aspiration, intensification and diversification: it moves to
    the best neighbor that is not tabu or is aspired, tells the tabu list which, and stays where it
    is only if there is no such neighbor *)
Theorem C38_best_admissible_move : keeps_evaluated Sp full (m_intensify _ _ _ _ ms) -> keeps_evaluated Sp full (m_diversify _ _ _ _ ms) ->
  forall s x ds b s' x' ds', Sp (geno s) -> evaluated full s -> Inv (t_nh _ _ _ _ _ x) -> evaluated full (t_best _ _ _ _ _ x) ->
  ls_turn _ _ (tabu_search G F S I lt has nh neval move xfuel M ms) s x ds = Ok (b, s', x', ds') ->
  exists s1 m1 ds1 s2 m2 ds2, m_intensify _ _ _ _ ms s (t_mem _ _ _ _ _ x) ds = Ok (s1, m1, ds1) /\
    m_diversify _ _ _ _ ms s1 m1 ds1 = Ok (s2, m2, ds2) /\ evaluated full s2 /\ evaluated full s' /\
  (b = true -> exists i m3 ds3 ds4, best_admissible lt nbrs full move (allowed ms s2 m2) (geno s2) i (geno s') /\
     m_add _ _ _ _ ms s' (Some (i, full (geno s'))) m2 ds3 = Ok (m3, ds4) /\
     t_mem _ _ _ _ _ x' = m_update _ _ _ _ ms s' (Some (i, full (geno s'))) m3) /\
  (b = false -> s' = s2 /\ none_admissible nbrs full move (allowed ms s2 m2) (geno s2)).
Proof.
  intros HI HD s x ds b s' x' ds' A1 A2 A3 A4 H.
  destruct (ts_turn G F S I M lt Sp nbrs has nh Inv Prog xfuel cost full neval move ms LT NH MV HI HD s x ds b s' x' ds') as (s1 & m1 & ds1 & s2 & m2 & ds2 & B1 & B2 & B3 & B4 & (_ & B5 & _) & B6 & B7); auto.
  { repeat split; auto. }
  exists s1, m1, ds1, s2, m2, ds2. repeat split; auto.
  - intros E. destruct (B6 E) as (i & m3 & d3 & d4 & D1 & D2 & D3 & _). eauto 8.
  - apply B7; auto.
  - apply B7; auto.
Qed.
(** the whole run, when intensification and diversification leave the solution as it is: the
    solution returned is a visited one and no visited one, the start included, is strictly better *)
Theorem C38_returns_best_visited : leaves_solution (m_intensify _ _ _ _ ms) -> leaves_solution (m_diversify _ _ _ _ ms) ->
  forall fuel s x cs ds r, Sp (geno s) -> not_stale full s -> Inv (t_nh _ _ _ _ _ x) ->
  local_search full (tabu_search G F S I lt has nh neval move xfuel M ms) c fuel s x cs ds = Ok r ->
  nth_error (r_visited r) 0 = Some (started full s) /\
  chain (fun a b => exists m, (exists i, best_admissible lt nbrs full move (allowed ms a m) (geno a) i (geno b)) \/
                              (b = a /\ none_admissible nbrs full move (allowed ms a m) (geno a))) (r_visited r) /\
  Forall (evaluated full) (r_visited r) /\ best_of lt full (r_visited r) (r_final r) /\ evaluated full (r_final r).
Proof.
  intros HI HD. assert (HI' : keeps_evaluated Sp full (m_intensify _ _ _ _ ms)) by (intros s m ds s' m' ds' A B E; apply HI in E; subst; auto).
  assert (HD' : keeps_evaluated Sp full (m_diversify _ _ _ _ ms)) by (intros s m ds s' m' ds' A B E; apply HD in E; subst; auto).
  exact (ts_run G F S I C M lt Sp nbrs has nh Inv Prog xfuel cost full neval move c ms LT NH MV HI' HD' HI HD).
Qed.
End Tabu.

(** ** C69 *)
Hypothesis EQ : forall a b, eq a b = true <-> a = b.
Hypothesis TOT : forall a b, lt a b = false -> lt b a = false -> a = b.
(** the random-best hill climber climbs like the simple one, whatever the draws *)
Theorem C69_random_best : forall fuel s x cs ds r, Sp (geno s) -> not_stale full s -> Inv (b_nh F S I x) ->
  local_search full (random_best_hc G F S I lt eq has nh neval move xfuel) c fuel s x cs ds = Ok r ->
  climbs (fun a b => improves lt nbrs full move (geno a) (geno b) /\ steepest lt nbrs full move (geno a) (geno b)) (r_visited r) /\
  nth_error (r_visited r) 0 = Some (started full s) /\ Forall (evaluated full) (r_visited r) /\ r_final r = last (r_visited r) s /\
  Sp (geno (r_final r)) /\ (r_by_itself r = true -> local_optimum lt nbrs full move (geno (r_final r))).
Proof. exact (random_best_run G F S I C lt eq Sp nbrs has nh Inv Prog xfuel cost full neval move c LT EQ TOT NH MV). Qed.
(** any of the best neighbors can be the one it moves to: some draw gives it *)
Theorem C69_any_best_neighbor : forall s x ds s1 x1 ds1 g', Sp (geno s) -> evaluated full s -> Inv (b_nh F S I x) -> b_best F S I x = [] -> has (geno s) = true ->
  x_explore (random_best_hc G F S I lt eq has nh neval move xfuel) s x ds = Ok (s1, x1, ds1) ->
  neighbor nbrs move (geno s) g' -> (forall g2, neighbor nbrs move (geno s) g2 -> lt (full g') (full g2) = false) ->
  forall rest, exists d, x_move (random_best_hc G F S I lt eq has nh neval move xfuel) s1 x1 (d :: rest) = Ok (Sol g' (Some (full g')), x1, rest).
Proof.
  intros s x ds s1 x1 ds1 g' A1 A2 A3 A4. apply (rb_any_tie G F S I lt eq Sp nbrs has nh Inv Prog xfuel cost full neval move LT EQ TOT NH MV s x ds s1 x1 ds1 g'). repeat split; auto.
Qed.
(** the neutral hill climber never worsens, takes at most nbStep moves (one if nbStep is 0), and ends
    where every neighbor is strictly worse or when its moves are used up *)
Theorem C69_neutral_hc : forall nbStep fuel s x cs ds r, Sp (geno s) -> not_stale full s -> Inv (b_nh F S I (fst x)) ->
  local_search full (neutral_hc G F S I lt eq has nh neval move xfuel nbStep) c fuel s x cs ds = Ok r ->
  climbs (fun a b => neighbor nbrs move (geno a) (geno b) /\ steepest lt nbrs full move (geno a) (geno b) /\
    (lt (full (geno a)) (full (geno b)) = true \/ full (geno b) = full (geno a))) (r_visited r) /\
  length (r_visited r) <= 1 + Nat.max 1 nbStep /\
  nth_error (r_visited r) 0 = Some (started full s) /\ Forall (evaluated full) (r_visited r) /\ r_final r = last (r_visited r) s /\
  Sp (geno (r_final r)) /\
  (r_by_itself r = true -> (forall g', neighbor nbrs move (geno (r_final r)) g' -> lt (full (geno (r_final r))) (full g') = false /\ full g' <> full (geno (r_final r))) \/
                           nbStep < length (r_visited r)).
Proof. exact (neutral_run G F S I C lt eq Sp nbrs has nh Inv Prog xfuel cost full neval move c LT EQ TOT NH MV). Qed.
(** the random walk goes from neighbor to neighbor and stops by itself only where there is none *)
Theorem C69_random_walk : forall fuel s x cs ds r, Sp (geno s) -> not_stale full s -> Inv (h_nh F S I x) ->
  local_search full (random_walk G F S I has nh neval move) c fuel s x cs ds = Ok r ->
  climbs (fun a b => neighbor nbrs move (geno a) (geno b)) (r_visited r) /\
  nth_error (r_visited r) 0 = Some (started full s) /\ Forall (evaluated full) (r_visited r) /\ r_final r = last (r_visited r) s /\
  Sp (geno (r_final r)) /\ (r_by_itself r = true -> nbrs (geno (r_final r)) = []).
Proof. exact (walk_run G F S I C Sp nbrs has nh Inv Prog xfuel cost full neval move c NH MV). Qed.
(** the neutral walk keeps the fitness of the start, and stops where no neighbor has it or when its
    moves are used up *)
Theorem C69_neutral_walk : forall nbStep fuel s x cs ds r, Sp (geno s) -> not_stale full s -> Inv (h_nh F S I (fst x)) ->
  local_search full (neutral_walk G F S I eq has nh neval move xfuel nbStep) c fuel s x cs ds = Ok r ->
  climbs (fun a b => neighbor nbrs move (geno a) (geno b) /\ full (geno b) = full (geno a)) (r_visited r) /\
  Forall (fun t => evaluated full t /\ full (geno t) = full (geno s)) (r_visited r) /\
  nth_error (r_visited r) 0 = Some (started full s) /\ r_final r = last (r_visited r) s /\ Sp (geno (r_final r)) /\
  (r_by_itself r = true -> (forall g', ~ (neighbor nbrs move (geno (r_final r)) g' /\ full g' = full (geno (r_final r)))) \/ nbStep < length (r_visited r)) /\
  length (r_visited r) <= 1 + Nat.max 1 nbStep.
Proof. exact (nwalk_run G F S I C eq Sp nbrs has nh Inv Prog xfuel cost full neval move c EQ NH MV). Qed.
End Search.
Print Assumptions C36_simple_hc.
Print Assumptions C36_first_improvement_hc.
Print Assumptions C36_simple_terminates.
Print Assumptions C36_first_improvement_terminates.
Print Assumptions C38_best_admissible_move.
Print Assumptions C38_returns_best_visited.
Print Assumptions C69_random_best.
Print Assumptions C69_neutral_hc.
Print Assumptions C69_random_walk.
Print Assumptions C69_neutral_walk.

(** ** the same on bit strings and permutations, with nothing assumed *)
Definition bit_ascent {F} (lt : F -> F -> bool) (full : list bool -> F) (n : nat) :=
  simple_hc (list bool) F nat nat lt (fun _ => 0 <? n) (fun _ => order_nh n) (eval_by_copy full bit_move) bit_move n.
Definition swap_first {A F} (lt : F -> F -> bool) (full : list A -> F) (n : nat) :=
  first_hc (list A) F (nat * nat) (nat * nat) lt (fun g => 1 <? length g) (fun g => pairs_nh (length g)) (eval_by_copy full (swap_move A)) (swap_move A) (n * n) false.
(** steepest ascent on the strings of [n] bits ends within 2^n turns, and ends where no bit flip is better *)
Theorem C36_bit_strings : forall F (lt : F -> F -> bool) full n C (c : continuator (sol (list bool) F) C) s x cs ds, strict_weak_order lt ->
  length (geno s) = n -> not_stale full s ->
  exists r, local_search full (bit_ascent lt full n) c (length (words n [true; false])) s x cs ds = Ok r /\
    length (geno (r_final r)) = n /\ evaluated full (r_final r) /\
    (geno (r_final r) = geno s \/ lt (full (geno s)) (full (geno (r_final r))) = true) /\
    (r_by_itself r = true -> forall i g', i < n -> bit_move i (geno (r_final r)) = Ok g' -> lt (full (geno (r_final r))) (full g') = false).
Proof.
  intros F lt full n C c s x cs ds LT HL HN.
  destruct (C36_simple_terminates (list bool) F nat nat C lt (fun g => length g = n) (fun _ => seq 0 n) (fun _ => 0 <? n) (fun _ => order_nh n) (fun _ => True) (fun _ cur => cur < n) n 0 full
    (eval_by_copy full bit_move) bit_move c LT (order_ok _ n) (bit_moves_ok full n) (words n [true; false])) with (s := s) (x := x) (cs := cs) (ds := ds) as [r Hr]; auto; try lia.
  { intros g Hg. apply words_In; auto. intros b _. destruct b; cbn; auto. }
  exists r. split; auto.
  destruct (C36_simple_hc (list bool) F nat nat C lt (fun g => length g = n) (fun _ => seq 0 n) (fun _ => 0 <? n) (fun _ => order_nh n) (fun _ => True) (fun _ cur => cur < n) n 0 full
    (eval_by_copy full bit_move) bit_move c LT (order_ok _ n) (bit_moves_ok full n) _ s x cs ds r HL HN Logic.I Hr) as (A1 & A2 & A3 & A4 & A5 & A6).
  split; auto. assert (HIn : In (r_final r) (r_visited r)).
  { rewrite A4. apply last_In. intros E. rewrite E in A2. discriminate. }
  split; [rewrite Forall_forall in A3; auto|]. split.
  - assert (K : forall v, In v (r_visited r) -> geno v = geno (started full s) \/ lt (full (geno (started full s))) (full (geno v)) = true).
    { destruct (r_visited r) as [|v0 l]; [discriminate|]. injection A2 as ->. destruct LT as (L1 & L2 & L3).
      apply (chain_first (fun a b => geno b = geno a \/ lt (full (geno a)) (full (geno b)) = true)); auto.
      - intros a b d [E1|E1] [E2|E2]; [left; congruence|right; rewrite <- E1; auto|right; rewrite E2; auto|right; eauto].
      - intros k a b Ha Hb. destruct (A1 k a b Ha Hb) as [[[_ E] _]|[E _]]; [right; auto|left; congruence]. }
    specialize (K _ HIn). assert (E : geno (started full s) = geno s) by (unfold started; destruct (fit s); auto). rewrite E in K. auto.
  - intros E i g' Hi Hm. apply (A6 E). exists i. split; auto. apply in_seq. lia.
Qed.
Print Assumptions C36_bit_strings.
(** first improvement by exchanges on the arrangements of [p] always ends, and ends where no exchange is better *)
Theorem C36_arrangements : forall A F (lt : F -> F -> bool) full (p : list A) C (c : continuator (sol (list A) F) C) s x cs ds, strict_weak_order lt ->
  Permutation (geno s) p -> not_stale full s ->
  exists fuel r, local_search full (swap_first lt full (length p)) c fuel s x cs ds = Ok r /\
    Permutation (geno (r_final r)) p /\ evaluated full (r_final r) /\
    (r_by_itself r = true -> forall i j g', i < j < length p -> swap_move A (i, j) (geno (r_final r)) = Ok g' -> lt (full (geno (r_final r))) (full g') = false).
Proof.
  intros A F lt full p C c s x cs ds LT HP HN.
  assert (PO := pairs_ok (fun g => Permutation g p) (length p) (fun g => @Permutation_length A g p)).
  destruct (C36_first_improvement_terminates (list A) F _ _ C lt _ _ _ _ _ _ _ _ full (eval_by_copy full (swap_move A)) (swap_move A) c LT PO (swap_moves_ok full p) (words (length p) p)) with (s := s) (x := x) (cs := cs) (ds := ds) as [r Hr]; auto; try lia.
  { intros g Hg. apply words_In; [apply Permutation_length; auto|]. intros b Hb. apply (Permutation_in _ Hg). auto. }
  exists (length (words (length p) p)), r. split; auto.
  destruct (C36_first_improvement_hc (list A) F _ _ C lt _ _ _ _ _ _ _ _ full (eval_by_copy full (swap_move A)) (swap_move A) c PO (swap_moves_ok full p) false _ s x cs ds r HP HN Logic.I Hr) as (A1 & A2 & A3 & A4 & A5 & A6 & A7).
  split; auto. split.
  - rewrite Forall_forall in A4. apply A4. rewrite A5. apply last_In. intros E. rewrite E in A3. discriminate.
  - intros E i j g' Hij Hm. apply (A7 E). exists (i, j). split; auto. apply DomProofs.pairs_In. rewrite (Permutation_length A6). auto.
Qed.
Print Assumptions C36_arrangements.

(** ** concrete runs *)
Definition ones (g : list bool) : nat := length (filter (fun b => b) g).
Definition never {T} : continuator T unit := Continuator (fun _ c => c) (fun _ c => (true, c)).
Definition after (n : nat) {T} : continuator T nat := Continuator (fun _ _ => 0) (fun _ k => (k <? n, Datatypes.S k)).
Definition show {G F X C} (r : res (run (sol G F) X C)) := match r with Ok r => Some (map geno (r_visited r), r_final r, r_by_itself r) | _ => None end.
(** steepest ascent on the number of ones, from 010 *)
Example C36_ex : show (local_search ones (bit_ascent Nat.ltb ones 3) never 8 (Sol [false; true; false] None) (Hc nat nat nat 0 None false) tt [])
  = Some ([[false; true; false]; [true; true; false]; [true; true; true]; [true; true; true]], Sol [true; true; true] (Some 3), true).
Proof. reflexivity. Qed.
Definition weight (g : list nat) : nat := fold_right (fun x acc => x + 2 * acc) 0 g.
Example C36_ex2 : show (local_search weight (swap_first Nat.ltb weight 3) never 30 (Sol [3; 2; 1] None) (Hc nat (nat * nat) (nat * nat) (0, 0) None false) tt [])
  = Some ([[3; 2; 1]; [2; 3; 1]; [1; 3; 2]; [1; 2; 3]; [1; 2; 3]], Sol [1; 2; 3] (Some 17), true).
Proof. reflexivity. Qed.
(** a tabu search whose memory forbids undoing the last move; fitness of a pair of bits: 00 is 3, 10
    is 2, 11 is 5, 01 is 0. It leaves the local optimum 00 for 10, then finds 11. *)
Definition table (g : list bool) : nat := match g with [false; false] => 3 | [true; false] => 2 | [true; true] => 5 | _ => 0 end.
Definition last_move : memories (list bool) nat nat (option nat) := Memories _ _ _ _ (fun _ _ => None) (fun s m ds => Ok (s, m, ds)) (fun s m ds => Ok (s, m, ds))
  (fun _ p _ ds => Ok (option_map fst p, ds)) (fun _ _ m => m) (fun _ p m => Ok (match m with Some i => i =? fst p | None => false end)) (fun _ _ _ => Ok false).
Definition tabu2 (ms : memories (list bool) nat nat (option nat)) :=
  tabu_search (list bool) nat nat nat Nat.ltb (fun _ => 0 <? 2) (fun _ => order_nh 2) (eval_by_copy table bit_move) bit_move 2 (option nat) ms.
Definition start0 : ts (list bool) nat nat nat (option nat) := Ts _ _ _ _ _ 0 None false None (Sol [] None).
Example C38_ex : show (local_search table (tabu2 last_move) (after 2) 9 (Sol [false; false] None) start0 0 [])
  = Some ([[false; false]; [true; false]; [true; true]; [false; true]], Sol [true; true] (Some 5), false) /\
  leaves_solution (m_intensify _ _ _ _ last_move) /\ leaves_solution (m_diversify _ _ _ _ last_move).
Proof. split; [reflexivity|]. split; intros s m ds s' m' ds' E; injection E; auto. Qed.
(** A diversification that changes the solution can lose the best solution visited: here it puts 11,
    of fitness 5, where no move is admissible; the search stops there and returns the start, of
    fitness 3 (updateParam looks at the solution only when a move was made, moTSexplorer.h:110-121). *)
Definition jump : memories (list bool) nat nat (option nat) := Memories _ _ _ _ (fun _ _ => None) (fun s m ds => Ok (s, m, ds))
  (fun s m ds => Ok (Sol [true; true] (Some (table [true; true])), m, ds))
  (fun _ p _ ds => Ok (option_map fst p, ds)) (fun _ _ m => m) (fun _ _ _ => Ok true) (fun _ _ _ => Ok false).
Theorem C93_tabu_diversification_refuted :
  ~ (forall (ms : memories (list bool) nat nat (option nat)) fuel s x cs ds r,
     keeps_evaluated (fun g => length g = 2) table (m_intensify _ _ _ _ ms) -> keeps_evaluated (fun g => length g = 2) table (m_diversify _ _ _ _ ms) ->
     length (geno s) = 2 -> not_stale table s -> local_search table (tabu2 ms) (after 0) fuel s x cs ds = Ok r -> best_of Nat.ltb table (r_visited r) (r_final r)).
Proof.
  intros H. destruct (local_search table (tabu2 jump) (after 0) 9 (Sol [false; false] None) start0 0 []) as [r| | |] eqn:E; try discriminate.
  destruct (H jump 9 (Sol [false; false] None) start0 0 [] r) as [_ B]; auto.
  - intros s m ds s' m' ds' A1 A2 E1. injection E1 as <- <- <-. auto.
  - intros s m ds s' m' ds' A1 A2 E1. injection E1 as <- <- <-. cbn. split; reflexivity.
  - left. reflexivity.
  - vm_compute in E. injection E as <-. specialize (B (Sol [true; true] (Some 5))). cbn in B. discriminate B. auto.
Qed.
Print Assumptions C93_tabu_diversification_refuted.
(** random-best, neutral and walk runs *)
Example C69_ex :
  show (local_search table (random_best_hc (list bool) nat nat nat Nat.ltb Nat.eqb (fun _ => 0 <? 2) (fun _ => order_nh 2) (eval_by_copy table bit_move) bit_move 2) never 9
    (Sol [false; true] None) (Rb nat nat nat 0 None [] false) tt [0; 0; 0; 0; 0; 0]) = Some ([[false; true]; [true; true]; [true; true]], Sol [true; true] (Some 5), true) /\
  show (local_search ones (neutral_hc (list bool) nat nat nat Nat.ltb Nat.eqb (fun _ => 0 <? 2) (fun _ => order_nh 2) (eval_by_copy ones bit_move) bit_move 2 1) never 9
    (Sol [false; false] None) (Rb nat nat nat 0 None [] false, 7) tt [1; 1; 0; 0; 0; 0]) = Some ([[false; false]; [false; true]], Sol [false; true] (Some 1), true) /\
  show (local_search ones (random_walk (list bool) nat wr_state nat (fun _ => 0 <? 2) (fun _ => without_repl_nh 2) (eval_by_copy ones bit_move) bit_move) (after 1) 9
    (Sol [false; false] None) (Hc nat wr_state nat (wr_start 2) None false) 0 [1; 0; 0; 0; 0; 0]) = Some ([[false; false]; [false; true]; [true; true]], Sol [true; true] (Some 2), false).
Proof. repeat split. Qed.
Example C69_hypotheses : (forall a b, Nat.eqb a b = true <-> a = b) /\ (forall a b, Nat.ltb a b = false -> Nat.ltb b a = false -> a = b) /\ strict_weak_order Nat.ltb /\
  (forall n, neighborhood_ok (fun g : list bool => length g = n) (fun _ => seq 0 n) (fun _ => 0 <? n) (fun _ => without_repl_nh n) (fun s => Permutation (indexVector s) (seq 0 n)) (fun _ => wr_ok n) n n).
Proof.
  split; [exact Nat.eqb_eq|]. split; [|split; [exact ltb_nat_swo|]].
  - intros a b H1 H2. apply Nat.ltb_ge in H1, H2. lia.
  - intros n. apply without_repl_ok.
Qed.
Print Assumptions C69_any_best_neighbor.
