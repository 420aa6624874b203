(** C134: evaluating a neighbor by modifying the solution; C135: perturbations and random search;
    C136: what they do not do. *)
From Coq Require Import List Arith Bool Lia Permutation.
From Verif Require Import Outcome Lib NeighModel NeighSpec NeighProofs LsModel LsSpec LsInst MetaModel MetaSpec MetaProps PertModel PertSpec PertProofs.
From Coq Require Import List.
Import ListNotations.
Open Scope nat_scope.

(** ** C134 *)
(** when moveBack undoes the move, moFullEvalByModif gives the neighbor the value moFullEvalByCopy gives,
    that of the moved solution, and leaves the solution exactly as it was *)
Theorem C134_modif (G F I : Type) (full : G -> F) (move back : I -> G -> res G) (s : sol G F) (i : I) g :
  fit s <> None -> move i (geno s) = Ok g -> back i g = Ok (geno s) ->
  eval_by_modif G F full move back s i = Ok (s, full g) /\ eval_by_copy full move s i = Ok (full g).
Proof.
  intros Hf Hm Hb. destruct (fit s) as [f|] eqn:E; [|congruence]. split; [eapply modif_ok; eauto|]. unfold eval_by_copy. rewrite Hm. auto.
Qed.
Print Assumptions C134_modif.
(** this is so for bit flips, swaps, 2-opt and shifts *)
Theorem C134_bit F (full : list bool -> F) (s : sol (list bool) F) k : fit s <> None -> k < length (geno s) ->
  exists g, bit_move k (geno s) = Ok g /\ eval_by_modif _ F full bit_move bit_move s k = Ok (s, full g).
Proof. intros Hf Hk. destruct (bit_move_ok k (geno s) Hk) as (g & E & _ & _ & B). exists g. split; auto. eapply C134_modif; eauto. Qed.
Print Assumptions C134_bit.
Theorem C134_swap A F (full : list A -> F) (s : sol (list A) F) i j : fit s <> None -> i < length (geno s) -> j < length (geno s) ->
  exists g, swap_move A (i, j) (geno s) = Ok g /\ eval_by_modif _ F full (swap_move A) (swap_move A) s (i, j) = Ok (s, full g).
Proof. intros Hf Hi Hj. destruct (swap_move_ok i j (geno s) Hi Hj) as (g & E & _ & _ & B). exists g. split; auto. eapply C134_modif; eauto. Qed.
Print Assumptions C134_swap.
Theorem C134_two_opt A F (full : list A -> F) (s : sol (list A) F) i j : fit s <> None -> i < j -> j < length (geno s) ->
  exists g, two_opt_move A (i, j) (geno s) = Ok g /\ eval_by_modif _ F full (two_opt_move A) (two_opt_move A) s (i, j) = Ok (s, full g).
Proof. intros Hf Hi Hj. destruct (two_opt_move_ok i j (geno s) Hi Hj) as (g & E & _ & _ & B). exists g. split; auto. eapply C134_modif; eauto. Qed.
Print Assumptions C134_two_opt.
Theorem C134_shift A F (full : list A -> F) (s : sol (list A) F) i j : fit s <> None -> i < length (geno s) -> j <= length (geno s) ->
  exists g, shift_move A (i, j) (geno s) = Ok g /\ eval_by_modif _ F full (shift_move A) (shift_move_back A) s (i, j) = Ok (s, full g).
Proof. intros Hf Hi Hj. destruct (shift_move_ok i j (geno s) Hi Hj) as (g & E & _ & _ & B). exists g. split; auto. eapply C134_modif; eauto. Qed.
Print Assumptions C134_shift.
(** an invalid solution makes it throw before anything is changed *)
Theorem C134_invalid (G F I : Type) (full : G -> F) (move back : I -> G -> res G) (s : sol G F) (i : I) :
  fit s = None -> eval_by_modif G F full move back s i = Throw.
Proof. intros H. unfold eval_by_modif, fitness. rewrite H. auto. Qed.
Print Assumptions C134_invalid.
Definition weight (g : list nat) : nat := fold_right (fun x a => x + 10 * a) 0 g.
Example C134_eg : eval_by_modif _ _ weight (shift_move nat) (shift_move_back nat) (Sol [1; 2; 3; 4] (Some 4321)) (0, 3) = Ok (Sol [1; 2; 3; 4] (Some 4321), 4132).
Proof. reflexivity. Qed.

(** ** C135 *)
(** moMonOpPerturb applies its operator the given number of times, or a number of times from the least one
    up; the solution is then always evaluated, and the answer is whether some application changed it *)
Theorem C135_mon_op (G F : Type) (full : G -> F) op how (s : sol G F) ds s' b ds' :
  mon_op_perturb G F full op how s ds = Ok (s', b, ds') ->
  exists bs ds1 s1, applications op s ds1 bs s1 ds' /\ geno s' = geno s1 /\ evaluated full s' /\ (b = true <-> In true bs) /\
    match how with
    | inl n => length bs = n /\ ds1 = ds
    | inr (lo, hi) => lo <= length bs /\ (length bs < hi \/ lo = hi /\ length bs = lo)
    end.
Proof.
  intros H. unfold mon_op_perturb in H. apply rbind_ok in H as ([n ds1] & En & H). apply rbind_ok in H as ([[s1 r] ds2] & E & H). injection H as <- <- <-.
  apply repeat_op_spec in E as (bs & L & A & R). exists bs, ds1, s1. split; auto. split; auto. split; [reflexivity|]. split.
  - rewrite R, orb_false_r, existsb_exists. split; [intros (x & Hx & Ex); unfold id in Ex; subst; auto|intros Hx; exists true; auto].
  - destruct how as [m|[lo hi]]; unfold perturb_number in En; [injection En as <- <-; auto|]. destruct (Nat.ltb_spec hi lo) as [Hh|Hh]; [discriminate|].
    apply rbind_ok in En as ([d ds3] & Ed & En). injection En as En _. rewrite L, <- En. destruct (Nat.eqb_spec (hi - lo) 0); [lia|]. apply draw_lt in Ed; lia.
Qed.
Print Assumptions C135_mon_op.
(** with a fixed number of applications it succeeds whenever these do *)
Theorem C135_mon_op_total (G F : Type) (full : G -> F) op (s : sol G F) ds bs s1 ds' : applications op s ds bs s1 ds' ->
  mon_op_perturb G F full op (inl (length bs)) s ds = Ok (Sol (geno s1) (Some (full (geno s1))), existsb id bs, ds').
Proof. intros A. unfold mon_op_perturb, perturb_number. cbn [rbind]. rewrite (repeat_op_total op _ _ _ _ _ A). cbn [rbind]. rewrite orb_false_r. auto. Qed.
Print Assumptions C135_mon_op_total.
(** each number of applications from lo to hi - 1 is possible *)
Theorem C135_each_number lo hi n ds : lo <= n < hi -> exists d, perturb_number (inr (lo, hi)) (d :: ds) = Ok (n, ds).
Proof.
  intros H. exists (n - lo). unfold perturb_number. destruct (Nat.ltb_spec hi lo); [lia|]. unfold draw. cbn [rbind]. destruct (Nat.eqb_spec (hi - lo) 0); [lia|]. rewrite Nat.mod_small by lia.
  cbn [rbind]. repeat f_equal. lia.
Qed.
Print Assumptions C135_each_number.
(** moRestartPerturb: a new solution, evaluated, when the counter has reached the threshold, and only then *)
Theorem C135_restart_apply (G F : Type) (full : G -> F) init thr (s : sol G F) c ds :
  (counter c < thr -> restart_apply G F full init thr s (Some c) ds = Ok (s, Some c, ds)) /\
  (thr <= counter c -> forall s1 ds1, init s ds = Ok (s1, ds1) -> exists s2 c2, restart_apply G F full init thr s (Some c) ds = Ok (s2, Some c2, ds1) /\
     geno s2 = geno s1 /\ (not_stale full s1 -> evaluated full s2) /\ counter c2 = 0 /\ nbMove c2 = nbMove c /\ nbNoMove c2 = nbNoMove c).
Proof.
  unfold restart_apply. cbn [of_opt rbind]. split.
  - intros H. destruct (Nat.leb_spec thr (counter c)); [lia|auto].
  - intros H s1 ds1 E. destruct (Nat.leb_spec thr (counter c)); [|lia]. rewrite E. cbn [rbind]. exists (full_eval G F full s1), (Counters (nbMove c) (nbNoMove c) 0). repeat split; auto.
    + unfold full_eval. destruct (fit s1); auto.
    + intros [N|N]; unfold evaluated, full_eval in *; rewrite N; auto.
Qed.
Print Assumptions C135_restart_apply.
Section Ils.
Variables (G F C : Type) (full : G -> F) (ls : sol G F -> list nat -> res (sol G F * list nat)) (crit : sol G F -> sol G F -> res bool) (c : continuator (sol G F) C).
(** in an iterated local search, whatever the local search, the criterion and the continuator: a history
    gives for each turn whether the candidate was accepted and whether the solution was restarted.  The turn
    restarts when the turns since the last acceptance or restart, that one included, reach the threshold. *)
Theorem C135_restart_in_ils init thr fuel (s : sol G F) x cs ds r :
  i_from G F (option counters) x = [] -> i_made G F (option counters) x = [] ->
  local_search full (ils_search G F (option counters) (count_init G F) (restart_apply G F full init thr) (count_add G F) (count_update G F) ls crit) c fuel s x cs ds = Ok r ->
  exists hist : list (bool * bool), decisions crit (started full s) (tl (r_visited r)) (map fst hist) /\
    i_pert G F (option counters) (r_x r) = Some (Counters (length (filter fst hist)) (length hist) (turns_since (fun h => fst h || snd h) (rev hist))) /\
    forall k a b, nth_error hist k = Some (a, b) -> (b = true <-> 0 < k /\ thr <= turns_since (fun h => fst h || snd h) (rev (firstn k hist))).
Proof.
  intros H1 H2 H. apply C70_memory in H; auto. apply restart_history in H as (hist & D & E & R). exists hist. split; auto. split; auto.
  intros k a b Hk. rewrite (R _ _ _ Hk). rewrite andb_true_iff, Nat.ltb_lt, Nat.leb_le. reflexivity.
Qed.
(** moNeighborhoodPerturb on a neighborhood of [n] neighbors in order: the neighbor it is to apply is the
    number of turns since the last acceptance, modulo [n] *)
Theorem C135_neighborhood_in_ils n neval move fuel (s : sol G F) x cs ds r : 0 < n ->
  i_from G F (nat * option nat) x = [] -> i_made G F (nat * option nat) x = [] ->
  local_search full (ils_search G F (nat * option nat) (nbh_init G F nat nat (fun _ => true) (fun _ => order_nh n)) (nbh_apply G F nat nat (fun _ => true) neval move)
    (nbh_init G F nat nat (fun _ => true) (fun _ => order_nh n)) (nbh_update G F nat nat (fun _ => true) (fun _ => order_nh n)) ls crit) c fuel s x cs ds = Ok r ->
  exists bs, decisions crit (started full s) (tl (r_visited r)) bs /\ snd (i_pert G F (nat * option nat) (r_x r)) = Some (turns_since id (rev bs) mod n).
Proof.
  intros N H1 H2 H. apply C70_memory in H; auto. apply (nbh_history n neval move N) in H as (bs & D & E). exists bs. split; auto. rewrite E. auto.
Qed.
End Ils.
Print Assumptions C135_restart_in_ils.
Print Assumptions C135_neighborhood_in_ils.
(** so that [n] turns in a row without acceptance apply each of the [n] neighbors once *)
Theorem C135_all_tried n bs : 0 < n -> Permutation (map (fun j => turns_since id (rev (bs ++ repeat false j)) mod n) (seq 0 n)) (seq 0 n).
Proof.
  intros N.
  assert (T : forall j, turns_since id (rev (bs ++ repeat false j)) = j + turns_since id (rev bs)).
  { intros j. rewrite rev_app_distr. replace (rev (repeat false j)) with (repeat false j).
    - induction j; cbn; auto.
    - symmetry. induction j as [|j IH]; cbn; auto. rewrite IH. clear. induction j; cbn; auto. f_equal. auto. }
  rewrite (map_ext _ (fun j => (j + turns_since id (rev bs)) mod n)) by (intros; rewrite T; auto). set (t := turns_since id (rev bs)).
  apply NoDup_Permutation_bis.
  - apply (NoDup_nth _ 0). rewrite map_length, seq_length. intros i j Hi Hj E.
    rewrite !(nth_indep _ 0 ((0 + t) mod n)) in E by (rewrite map_length, seq_length; auto).
    rewrite !(map_nth (fun j => (j + t) mod n)), !seq_nth in E by auto. cbn [plus] in E.
    pose proof (Nat.div_mod (i + t) n ltac:(lia)) as D1. pose proof (Nat.div_mod (j + t) n ltac:(lia)) as D2. rewrite E in D1.
    assert ((i + t) / n = (j + t) / n) by nia. nia.
  - rewrite map_length, seq_length. auto.
  - intros x Hx. apply in_map_iff in Hx as (j & <- & _). apply in_seq. pose proof (Nat.mod_upper_bound (j + t) n). lia.
Qed.
Print Assumptions C135_all_tried.
(** moNeighborhoodPerturb applies its current neighbor with the fitness of the evaluation *)
Theorem C135_neighborhood_apply (G F S I : Type) has neval (move : I -> G -> res G) (s : sol G F) (n : S) i f g ds :
  has (geno s) = true -> neval s i = Ok f -> move i (geno s) = Ok g -> nbh_apply G F S I has neval move s (n, Some i) ds = Ok (Sol g (Some f), (n, Some i), ds).
Proof. intros H E M. unfold nbh_apply. rewrite H. cbn [snd of_opt rbind]. rewrite E. cbn [rbind]. rewrite M. auto. Qed.
Print Assumptions C135_neighborhood_apply.
(** moRandomSearch visits the start, then solutions drawn one after the other; it ends on the last one; left
    to itself it visits exactly nbSolMax solutions, when that is 2 or more *)
Theorem C135_random_search (G F C : Type) (full : G -> F) init (c : continuator (sol G F) C) nb fuel s cs ds r :
  random_search G F full init nb c fuel s cs ds = Ok r ->
  exists l, r_visited r = started full s :: l /\ draws_from init (started full) (started full s) ds l (r_draws r) /\ r_final r = last l s /\
    (2 <= nb -> length (r_visited r) <= nb /\ (r_by_itself r = true -> length (r_visited r) = nb)).
Proof.
  intros H. apply rs_run in H as (l & A & B & D & L1 & L2 & L3). exists l. repeat split; auto; try lia. intros Hb. specialize (L3 Hb). lia.
Qed.
Print Assumptions C135_random_search.
Example C135_eg_mon_op : mon_op_perturb nat nat S (fun s ds => match ds with [] => NoDraw | d :: r => Ok (Sol (geno s + d) (fit s), 0 <? d, r) end) (inr (1, 4)) (Sol 7 (Some 8)) [4; 0; 5; 9]
  = Ok (Sol 12 (Some 13), true, [9]).
Proof. reflexivity. Qed.
Definition next_number (s : sol nat nat) (ds : list nat) : res (sol nat nat * list nat) := match ds with [] => NoDraw | d :: r => Ok (Sol d None, r) end.
Example C135_eg_random : shows (random_search nat nat (fun g => g) next_number 4 (Continuator (fun _ (_ : unit) => tt) (fun _ _ => (true, tt))) 9 (Sol 5 None) tt [8; 2; 6; 1]) (fun r =>
  map geno (r_visited r) = [5; 8; 2; 6] /\ geno (r_final r) = 6 /\ r_by_itself r = true).
Proof. vm_compute. repeat split. Qed.
(** the local search does nothing, the solution is never improved: restarts every 2 turns *)
Example C135_eg_restart : shows (local_search (fun g => g) (ils_search nat nat (option counters) (count_init nat nat) (restart_apply nat nat (fun g => g) next_number 2) (count_add nat nat) (count_update nat nat)
    (fun s ds => Ok (s, ds)) (better_accept nat nat Nat.ltb)) (within 5) 9 (Sol 50 None) (ils_new nat nat (option counters) None) 0 [4; 5; 1; 6]) (fun r =>
  map geno (r_visited r) = [50; 50; 50; 50; 50; 50; 50] /\ map geno (i_from nat nat (option counters) (r_x r)) = [50; 50; 4; 50; 5; 50] /\ i_pert nat nat (option counters) (r_x r) = Some (Counters 0 6 2)).
Proof. vm_compute. repeat split. Qed.
(** neighbors 1, 2, 0, 1 of the solution 10 (the neighbor k adds k) *)
Example C135_eg_neighborhood : shows (local_search (fun g => g) (ils_search nat nat (nat * option nat) (nbh_init nat nat nat nat (fun _ => true) (fun _ => order_nh 3)) (nbh_apply nat nat nat nat (fun _ => true) (fun s i => Ok (geno s + i)) (fun i g => Ok (g + i)))
    (nbh_init nat nat nat nat (fun _ => true) (fun _ => order_nh 3)) (nbh_update nat nat nat nat (fun _ => true) (fun _ => order_nh 3)) (fun s ds => Ok (s, ds)) (fun _ _ => Ok false)) (within 4) 9 (Sol 10 None) (ils_new nat nat (nat * option nat) (0, None)) 0 []) (fun r =>
  map geno (i_from nat nat (nat * option nat) (r_x r)) = [10; 11; 12; 10; 11]).
Proof. vm_compute. repeat split. Qed.

(** ** C136 *)
(** moCountMoveMemory is documented to count the successive stagnations since the last move, moNeighborhoodPerturb
    to start again from the first neighbor when a move was done.  moILSexplorer::updateParam calls update after
    add: after a turn that accepted, the counter is 1 and the current neighbor is the second one. *)
Theorem C136_counter_after_move_refuted (G F : Type) (s : sol G F) c ds : exists c1 c2,
  count_add G F s (Some c) ds = Ok (Some c1, ds) /\ count_update G F s (Some c1) ds = Ok (Some c2, ds) /\ counter c2 = 1 /\ nbNoMove c2 = S (nbNoMove c).
Proof. eexists _, _. split; [reflexivity|]. split; [reflexivity|]. auto. Qed.
Print Assumptions C136_counter_after_move_refuted.
Section Ils2.
Variables (G F C : Type) (full : G -> F) (ls : sol G F -> list nat -> res (sol G F * list nat)) (crit : sol G F -> sol G F -> res bool) (c : continuator (sol G F) C).
(** the number of turns without a move is reported as the number of all turns *)
Theorem C136_no_move_counts_all_refuted init thr fuel (s : sol G F) x cs ds r :
  i_from G F (option counters) x = [] -> i_made G F (option counters) x = [] ->
  local_search full (ils_search G F (option counters) (count_init G F) (restart_apply G F full init thr) (count_add G F) (count_update G F) ls crit) c fuel s x cs ds = Ok r ->
  exists k, i_pert G F (option counters) (r_x r) = Some k /\ nbNoMove k = turns r.
Proof.
  intros H1 H2 H. assert (T : length (r_visited r) = S (turns r)).
  { pose proof (C70_turns _ _ _ _ _ _ _ _ _ _ _ _ _ _ _ _ _ _ H1 H2 H) as (A & _). unfold turns. destruct (r_visited r); [discriminate|]. cbn. lia. }
  apply C135_restart_in_ils in H as (hist & D & E & _); auto. eexists. split; [exact E|]. cbn [nbNoMove].
  assert (L : length (tl (r_visited r)) = length hist).
  { rewrite <- (map_length fst hist). clear -D. induction D; auto. rewrite !app_length. cbn. lia. }
  rewrite <- L. destruct (r_visited r); cbn in *; lia.
Qed.
End Ils2.
Print Assumptions C136_no_move_counts_all_refuted.
(** the first turn after an acceptance applies the second neighbor *)
Theorem C136_skips_first_neighbor_refuted n bs : 2 <= n -> turns_since id (rev (bs ++ [true])) mod n = 1.
Proof. intros N. rewrite rev_app_distr. cbn [rev app turns_since]. unfold id. apply Nat.mod_small. lia. Qed.
Print Assumptions C136_skips_first_neighbor_refuted.
(** the documented maximum number of applications of moMonOpPerturb is never reached *)
Theorem C136_maximum_never_refuted lo hi n ds ds' : lo < hi -> perturb_number (inr (lo, hi)) ds = Ok (n, ds') -> n <> hi.
Proof.
  intros L H. unfold perturb_number in H. destruct (Nat.ltb_spec hi lo); [lia|]. apply rbind_ok in H as ([d e] & Ed & H). injection H as <- _.
  apply draw_lt in Ed; [|lia]. destruct (hi - lo =? 0) eqn:E; [apply Nat.eqb_eq in E; lia|lia].
Qed.
Print Assumptions C136_maximum_never_refuted.
(** a random search of one solution draws a second one, and ends on it *)
Theorem C136_one_solution_refuted (G F C : Type) (full : G -> F) init (c : continuator (sol G F) C) nb fuel s cs ds r :
  nb <= 1 -> random_search G F full init nb c fuel s cs ds = Ok r -> length (r_visited r) = 2.
Proof.
  intros N H. apply rs_run in H as (l & A & B & D & L1 & L2 & L3). rewrite A in *. cbn [length] in *. lia.
Qed.
Print Assumptions C136_one_solution_refuted.
Example C136_eg : shows (random_search nat nat (fun g => g) next_number 1 (Continuator (fun _ (_ : unit) => tt) (fun _ _ => (true, tt))) 9 (Sol 5 None) tt [8; 2; 6; 1]) (fun r => map geno (r_visited r) = [5; 8]).
Proof. vm_compute. repeat split. Qed.
