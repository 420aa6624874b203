(** Theorems C208-C212. *)
From Coq Require Import Arith ZArith QArith Qabs Bool Lia Lqa Permutation.
From Verif Require Import Lib Outcome BoundsModel BoundsSpec UgenModel RtiModel RtiSpec RtiProofs.
From Coq Require Import List.
Import ListNotations.
Close Scope Q_scope.
Open Scope Z_scope.

(** ** C208: real operators on integers *)

(** Whatever the operator on reals does, the integers stay within the bounds. *)
Theorem C208_in_bounds : forall b w op sol us sol' changed,
  proper_bounds b -> draws_for b us -> Forall (allowed b) sol ->
  mon_op b w op sol us = Ok (sol', changed) -> Forall (allowed b) sol' /\ length sol' = length sol.
Proof.
  intros b w op sol us sol' changed P D A H. unfold mon_op in H. destruct (asserted b sol); [|easy]. cbn [negb] in H.
  destruct (op _) as [real [|]]; [|inversion H; subst; auto]. destruct (write b w real sol us 0) eqn:E; cbn [rbind] in H; try easy.
  inversion H. subst. split; [eapply write_allowed; eauto|]. now apply write_length in E.
Qed.
(** The answer is the one of the operator on reals, and nothing moves when it says so. *)
Theorem C208_answer : forall b w op sol us sol' changed,
  mon_op b w op sol us = Ok (sol', changed) -> changed = snd (op (map inject_Z sol)) /\ (changed = false -> sol' = sol).
Proof.
  intros b w op sol us sol' changed H. unfold mon_op in H. destruct (asserted b sol); [|easy]. cbn [negb] in H.
  destruct (op _) as [real [|]]; [|inversion H; subst; auto]. destruct (write b w real sol us 0) eqn:E; cbn [rbind] in H; try easy.
  inversion H. subst. split; [easy|discriminate].
Qed.
(** An atom that the operator leaves alone keeps its value; one that it moves to a value that rounds to an allowed int becomes an integer at most
    half away from it, with both repairs. *)
Theorem C208_atoms : forall b w op sol us sol' real k x,
  Forall (allowed b) sol -> Forall int_range sol -> op (map inject_Z sol) = (real, true) -> nth_error real k = Some x ->
  mon_op b w op sol us = Ok (sol', true) ->
  (forall z, x = inject_Z z -> allowed b z -> int_range z -> nth_error sol' k = Some z) /\
  ((exists z, (inject_Z z - (1 # 2) < x /\ x < inject_Z z + (1 # 2))%Q /\ allowed b z /\ int_range z) ->
   exists z, nth_error sol' k = Some z /\ (Qabs (x - inject_Z z) < 1 # 2)%Q).
Proof.
  intros b w op sol us sol' real k x A I O K H. unfold mon_op in H. apply asserted_ok in A. rewrite A, O in H. cbn [negb] in H.
  destruct (write b w real sol us 0) eqn:E; cbn [rbind] in H; try easy. inversion H. subst a.
  destruct (write_nth _ _ _ _ _ _ _ E) as (B & _). destruct (B k x K) as (z & N & T). split.
  - intros z' -> A' I'. rewrite atom_integer in T by auto. now inversion T; subst.
  - intros (z' & L & A' & I'). assert (R : qround x = z').
    { now apply round_unique. }
    rewrite atom_rounded in T by (rewrite R; auto). inversion T. subst z. exists (qround x). split; [easy|]. rewrite R.
    apply Qabs_Qlt_condition. lra.
Qed.
(** With truncation, each atom is an allowed integer that is as near as can be to the real value. *)
Theorem C208_truncate_nearest : forall b op sol us sol' real k x,
  proper_bounds b -> Forall (allowed b) sol -> op (map inject_Z sol) = (real, true) -> nth_error real k = Some x ->
  mon_op b Truncate op sol us = Ok (sol', true) ->
  exists z, nth_error sol' k = Some z /\ allowed b z /\ forall z', allowed b z' -> (Qabs (x - inject_Z z) <= Qabs (x - inject_Z z'))%Q.
Proof.
  intros b op sol us sol' real k x P A O K H. unfold mon_op in H. apply asserted_ok in A. rewrite A, O in H. cbn [negb] in H.
  destruct (write b Truncate real sol us 0) eqn:E; cbn [rbind] in H; try easy. inversion H. subst a.
  destruct (write_nth _ _ _ _ _ _ _ E) as (B & _). destruct (B k x K) as (z & N & T). exists z. split; [easy|]. split.
  - clear - T P. unfold atom in T. destruct (in_bounds _ _) eqn:E; cbn [rbind] in T.
    + rewrite qtrunc_Z in T. destruct (is_int _); inversion T; subst. now apply allowed_in.
    + destruct (is_int _); inversion T; subst. apply qtrunc_allowed.
      destruct (BoundsProofs.truncate_ok (real_bounds b) (inject_Z (qround x)) (proper_not_empty b P)) as [[A _] _]. exact A.
  - now apply atom_truncate_nearest with (u := us (0 + k)%nat).
Qed.
(** With folding between two ints, each atom is the one image of the rounded value by the reflections on the bounds. *)
Theorem C208_folds_mirror : forall mn mx op sol us sol' real k x r,
  proper_bounds (Both mn mx) -> Forall (allowed (Both mn mx)) sol -> op (map inject_Z sol) = (real, true) -> nth_error real k = Some x ->
  (inject_Z r - (1 # 2) < x /\ x < inject_Z r + (1 # 2))%Q -> - 1000000000 <= r <= 1000000000 ->
  mon_op (Both mn mx) Folds op sol us = Ok (sol', true) ->
  exists z, nth_error sol' k = Some z /\ mn <= z <= mx /\ mirror_image (inject_Z mn) (inject_Z mx) (inject_Z r) (inject_Z z).
Proof.
  intros mn mx op sol us sol' real k x r P A O K R B H. unfold mon_op in H. apply asserted_ok in A. rewrite A, O in H. cbn [negb] in H.
  destruct (write (Both mn mx) Folds real sol us 0) eqn:E; cbn [rbind] in H; try easy. inversion H. subst a.
  destruct (write_nth _ _ _ _ _ _ _ E) as (W & _). destruct (W k x K) as (z & N & T). exists z. split; [easy|].
  rewrite <- (round_unique x r R). apply (atom_folds mn mx x (us (0 + k)%nat)); [easy| |easy]. rewrite (round_unique x r R).
  apply Qabs_Qle_condition. split; [apply (inj_le (-1000000000))|apply (inj_le r 1000000000)]; lia.
Qed.
(** Between two ints, an operator that keeps the length always gives an answer. *)
Theorem C208_answers : forall mn mx w op sol us,
  proper_bounds (Both mn mx) -> draws_for (Both mn mx) us -> Forall (allowed (Both mn mx)) sol ->
  (length (fst (op (map inject_Z sol))) <= length sol)%nat -> exists r, mon_op (Both mn mx) w op sol us = Ok r.
Proof.
  intros mn mx w op sol us P D A L. unfold mon_op. apply asserted_ok in A. rewrite A. cbn [negb]. destruct (op _) as [real [|]]; [|eauto].
  destruct (write_total (Both mn mx) w real sol us 0) as (s & ->); [exact L| |cbn [rbind]; eauto].
  intros x k _. apply atom_interval_total; [easy|now apply draws_draw].
Qed.
(** An operator on two individuals does the same to each of them. *)
Theorem C208_quad : forall b w op sol1 sol2 us1 us2 s1 s2 changed,
  quad_op b w op sol1 sol2 us1 us2 = Ok (s1, s2, changed) <->
  mon_op b w (fun _ => (fst (fst (op (map inject_Z sol1) (map inject_Z sol2))), snd (op (map inject_Z sol1) (map inject_Z sol2)))) sol1 us1 = Ok (s1, changed) /\
  mon_op b w (fun _ => (snd (fst (op (map inject_Z sol1) (map inject_Z sol2))), snd (op (map inject_Z sol1) (map inject_Z sol2)))) sol2 us2 = Ok (s2, changed).
Proof.
  intros. unfold quad_op, mon_op. destruct (asserted b sol1); cbn [negb orb]; [|split; [easy|intros (H & _); discriminate]].
  destruct (asserted b sol2); cbn [negb]; [|split; [easy|intros (_ & H); discriminate]].
  destruct (op _ _) as [[r1 r2] [|]]; cbn [fst snd].
  - destruct (write b w r1 sol1 us1 0); cbn [rbind]; [|split; [easy|intros (H & _); discriminate]..].
    destruct (write b w r2 sol2 us2 0); cbn [rbind]; [|split; [easy|intros (_ & H); discriminate]..].
    split; [intro H; inversion H; auto|intros (H & K); inversion H; inversion K; auto].
  - split; [intro H; inversion H; auto|intros (H & K); inversion H; inversion K; auto].
Qed.
(** The initializer gives an individual of the length that the initializer of reals chose, within the bounds. *)
Theorem C208_init : forall mn mx w init sol us,
  proper_bounds (Both mn mx) -> draws_for (Both mn mx) us -> Forall (allowed (Both mn mx)) sol ->
  exists s, init_op (Both mn mx) w init sol us = Ok s /\ length s = length (init (map inject_Z sol)) /\ Forall (allowed (Both mn mx)) s /\
    (forall k z, nth_error (init (map inject_Z sol)) k = Some (inject_Z z) -> allowed (Both mn mx) z -> nth_error s k = Some z).
Proof.
  intros mn mx w init sol us P D A. unfold init_op. apply asserted_ok in A. rewrite A. cbn [negb].
  set (real := init (map inject_Z sol)).
  destruct (write_total (Both mn mx) w real (resized sol (length real)) us 0) as (s & E).
  { now rewrite resized_length. }
  { intros x k _. apply atom_interval_total; [easy|now apply draws_draw]. }
  exists s. rewrite E. destruct (write_length _ _ _ _ _ _ _ E) as (L & _). rewrite resized_length in L.
  destruct (write_nth _ _ _ _ _ _ _ E) as (B & _). split; [easy|]. split; [easy|]. split.
  - apply Forall_forall. intros z Hz. apply In_nth_error in Hz as (k & K). destruct (nth_error real k) as [x|] eqn:X.
    + destruct (B k x X) as (z' & K' & T). rewrite K in K'. inversion K'. subst. eapply atom_allowed; [exact P| |exact T]. now apply draws_draw.
    + apply nth_error_None in X. rewrite <- L in X. apply nth_error_None in X. congruence.
  - intros k z X Al. destruct (B k _ X) as (z' & K' & T). rewrite atom_integer in T; [now inversion T; subst|easy|].
    cbn in Al. destruct P as (I1 & I2 & _). unfold int_range in *. lia.
Qed.
Example C208_ex_op : mon_op (Both 0 9) Folds (fun v => (map (fun x => x * (5 # 2))%Q v, true)) [1; 3; 5; 9] (fun _ => 0%Q) = Ok ([3; 8; 5; 5], true).
Proof. vm_compute. reflexivity. Qed.
Example C208_ex_truncate : mon_op (Both 0 9) Truncate (fun v => (map (fun x => x * (5 # 2) - 4)%Q v, true)) [1; 3; 5; 9] (fun _ => 0%Q) = Ok ([0; 4; 9; 9], true).
Proof. vm_compute. reflexivity. Qed.
Example C208_ex_far : mon_op (AtLeast 0) Folds (fun v => (map (fun x => x - 5)%Q v, true)) [1; 3; 9] (fun _ => 0%Q) = Ok ([4; 2; 4], true).
Proof. vm_compute. reflexivity. Qed.
Example C208_ex_init : init_op (Both 0 9) Truncate (fun _ => [1 # 2; 7 # 3; 40]%Q) [] (fun _ => 0%Q) = Ok [1; 2; 9].
Proof. vm_compute. reflexivity. Qed.
Example C208_ex_hyps : proper_bounds (Both 0 9) /\ draws_for (Both 0 9) (fun _ => 0%Q) /\ Forall (allowed (Both 0 9)) [1; 3; 5; 9].
Proof. unfold proper_bounds, int_range. cbn. repeat split; try lia; try lra; repeat constructor; lia. Qed.

(** ** C209: what the wrappers do not ensure *)

(** An operator that makes the vector longer: there is no good outcome. *)
Theorem C209_longer_refuted : forall b w op sol us real,
  op (map inject_Z sol) = (real, true) -> (length sol < length real)%nat -> forall r, mon_op b w op sol us <> Ok r.
Proof.
  intros b w op sol us real O L r H. unfold mon_op in H. destruct (asserted b sol); [|easy]. cbn [negb] in H. rewrite O in H.
  destruct (write b w real sol us 0) eqn:E; cbn [rbind] in H; try easy. now apply write_beyond in E.
Qed.
(** An operator that makes it shorter: the length stays, and the end keeps the old values. *)
Theorem C209_shorter_refuted : forall b w op sol us real sol',
  op (map inject_Z sol) = (real, true) -> (length real < length sol)%nat -> mon_op b w op sol us = Ok (sol', true) ->
  length sol' = length sol /\ skipn (length real) sol' = skipn (length real) sol.
Proof.
  intros b w op sol us real sol' O L H. unfold mon_op in H. destruct (asserted b sol); [|easy]. cbn [negb] in H. rewrite O in H.
  destruct (write b w real sol us 0) eqn:E; cbn [rbind] in H; try easy. inversion H. subst a. clear H O.
  split; [now apply write_length in E|]. revert sol sol' E L. generalize 0%nat. induction real as [|x real IH]; intros i sol sol' E L.
  - cbn in E. now inversion E.
  - cbn [write] in E. destruct sol as [|v sol]; [easy|]. destruct (atom b w x (us i)); cbn [rbind] in E; try easy.
    destruct (write b w real sol us (S i)) eqn:F; cbn [rbind] in E; try easy. inversion E. subst. cbn [length skipn].
    apply (IH (S i)); [easy|]. cbn in L. lia.
Qed.
(** "Changed" is answered for an individual that rounding leaves as it was, whatever the individual. *)
Theorem C209_changed_refuted : forall b w sol us, Forall (allowed b) sol -> Forall int_range sol ->
  mon_op b w (fun v => (map (fun x => x + (1 # 3))%Q v, true)) sol us = Ok (sol, true).
Proof.
  intros b w sol us A I. unfold mon_op. pose proof A as A'. apply asserted_ok in A'. rewrite A'. cbn [negb].
  assert (E : forall i, write b w (map (fun x => x + (1 # 3))%Q (map inject_Z sol)) sol us i = Ok sol).
  { clear A'. induction sol as [|z sol IH]; intro i; [easy|]. inversion A. inversion I. subst. cbn [map write].
    assert (R : qround (inject_Z z + (1 # 3)) = z).
    { destruct (qround_half (inject_Z z + (1 # 3))) as [X Y]. destruct (Z.lt_trichotomy (qround (inject_Z z + (1 # 3))) z) as [G|[G|G]]; [|easy|].
      - assert (G' : qround (inject_Z z + (1 # 3)) + 1 <= z) by lia. apply inj_le in G'. rewrite inject_Z_plus in G'. change (inject_Z 1) with 1%Q in G'. lra.
      - assert (G' : z + 1 <= qround (inject_Z z + (1 # 3))) by lia. apply inj_le in G'. rewrite inject_Z_plus in G'. change (inject_Z 1) with 1%Q in G'. lra. }
    rewrite atom_rounded by (rewrite R; auto). rewrite R. cbn [rbind]. rewrite IH by auto. reflexivity. }
  rewrite E. reflexivity.
Qed.
Example C209_ex : mon_op (Both 0 9) Truncate (fun v => (1 # 2 :: v, true)%Q) [4; 5] (fun _ => 0%Q) = UB /\
  mon_op (Both 0 9) Truncate (fun v => (tl v, true)) [4; 5; 6] (fun _ => 0%Q) = Ok ([5; 6; 6], true).
Proof. split; vm_compute; reflexivity. Qed.

(** ** C210: selection from an archive *)
Open Scope nat_scope.

(** An archive of an accepted size is copied as it is. *)
Theorem C210_copy : forall {X} (archive : list X) mx mn perm dest, mn <= length archive <= mx -> archive_select archive mx mn perm dest = Ok archive.
Proof.
  intros X archive mx mn perm dest [A B]. unfold archive_select. assert (E : (mx <? mn) = false) by (apply Nat.ltb_ge; lia). rewrite E.
  apply Nat.leb_le in A, B. rewrite A, B. apply pushed_seq.
Qed.
(** From a larger one, as many members as asked for, at distinct places. *)
Theorem C210_larger : forall {X} (archive : list X) mx mn perm dest, mn <= mx -> mx < length archive -> Permutation perm (seq 0 (length archive)) ->
  exists ks l, archive_select archive mx mn perm dest = Ok l /\ length l = mx /\ NoDup ks /\ map Some l = map (nth_error archive) ks.
Proof.
  intros X archive mx mn perm dest A B P. unfold archive_select. assert (E : (mx <? mn) = false) by (apply Nat.ltb_ge; lia). rewrite E.
  assert (E2 : (length archive <=? mx) = false) by (apply Nat.leb_gt; lia). rewrite E2, andb_false_r.
  assert (E3 : (mx <? length archive) = true) by (apply Nat.ltb_lt; lia). rewrite E3.
  assert (N : NoDup perm) by (apply (Permutation_NoDup (Permutation_sym P)), seq_NoDup).
  assert (I : Forall (fun k => k < length archive) perm).
  { apply Forall_forall. intros k K. apply (Permutation_in _ P) in K. apply in_seq in K. lia. }
  assert (L : length perm = length archive) by (rewrite (Permutation_length P); apply seq_length).
  rewrite <- (firstn_skipn mx perm) in N, I. apply Forall_app in I as (I & _).
  destruct (pushed_total archive (firstn mx perm) I) as (l & H). exists (firstn mx perm), l. split; [easy|]. apply pushed_ok in H.
  split; [|split; [|easy]].
  - apply (f_equal (@length _)) in H. rewrite !map_length, firstn_length in H. lia.
  - clear - N. induction (firstn mx perm) as [|a r IH]; [constructor|]. cbn in N. inversion N. subst. constructor; [|auto].
    intro K. apply H1. apply in_or_app. now left.
Qed.
(** From a smaller one, the members are repeated in turn. *)
Theorem C210_smaller : forall {X} (archive : list X) mx mn perm dest, mn <= mx -> 0 < length archive < mn ->
  exists l, archive_select archive mx mn perm dest = Ok l /\ length l = mn /\
    forall i, i < mn -> nth_error l i = nth_error archive (i mod length archive).
Proof.
  intros X archive mx mn perm dest A B. unfold archive_select. assert (E : (mx <? mn) = false) by (apply Nat.ltb_ge; lia). rewrite E.
  assert (E2 : (mn <=? length archive) = false) by (apply Nat.leb_gt; lia). rewrite E2. cbn [andb].
  assert (E3 : (mx <? length archive) = false) by (apply Nat.ltb_ge; lia). rewrite E3.
  assert (E4 : (length archive =? 0) = false) by (apply Nat.eqb_neq; lia). rewrite E4.
  destruct (pushed_total archive (map (fun i => i mod length archive) (seq 0 mn))) as (l & H).
  { apply Forall_forall. intros k K. apply in_map_iff in K as (j & <- & _). apply Nat.mod_upper_bound. lia. }
  exists l. split; [easy|]. apply pushed_ok in H. split.
  - apply (f_equal (@length _)) in H. rewrite !map_length, seq_length in H. easy.
  - intros i I. apply (f_equal (fun m => nth_error m i)) in H.
    rewrite map_map, (map_nth_error _ i (seq 0 mn) (d := i)) in H.
    + destruct (nth_error l i) as [x|] eqn:E5.
      * rewrite (map_nth_error Some i l E5) in H. congruence.
      * apply nth_error_None in E5. assert (K : nth_error (map Some l) i = None) by (apply nth_error_None; now rewrite map_length). congruence.
    + rewrite nth_error_nth' with (d := 0) by (rewrite seq_length; lia). f_equal. now apply seq_nth.
Qed.
(** With a maximum below the minimum, nothing is done. *)
Theorem C210_nothing : forall {X} (archive : list X) mx mn perm dest, mx < mn -> archive_select archive mx mn perm dest = Ok dest.
Proof. intros X archive mx mn perm dest H. unfold archive_select. apply Nat.ltb_lt in H. now rewrite H. Qed.
(** The size is always within the asked ones, and every selected member is in the archive. *)
Theorem C210_sizes : forall {X} (archive : list X) mx mn perm dest l, mn <= mx -> Permutation perm (seq 0 (length archive)) ->
  archive_select archive mx mn perm dest = Ok l -> mn <= length l <= mx /\ incl l archive.
Proof.
  intros X archive mx mn perm dest l A P H.
  assert (I : forall ks, map Some l = map (nth_error archive) ks -> incl l archive).
  { intros ks E x Hx. apply (in_map Some) in Hx. rewrite E in Hx. apply in_map_iff in Hx as (k & K & _). now apply nth_error_In in K. }
  unfold archive_select in H. assert (E : (mx <? mn) = false) by (apply Nat.ltb_ge; lia). rewrite E in H.
  destruct (Nat.leb_spec mn (length archive)); cbn [andb] in H; [destruct (Nat.leb_spec (length archive) mx); cbn [andb] in H|].
  - rewrite pushed_seq in H. inversion H. subst. split; [lia|apply incl_refl].
  - assert (E3 : (mx <? length archive) = true) by (apply Nat.ltb_lt; lia). rewrite E3 in H. apply pushed_ok in H. split; [|eauto].
    apply (f_equal (@length _)) in H. rewrite !map_length, firstn_length in H.
    assert (L : length perm = length archive) by (rewrite (Permutation_length P); apply seq_length). lia.
  - assert (E3 : (mx <? length archive) = false) by (apply Nat.ltb_ge; lia). rewrite E3 in H. destruct (length archive =? 0); [easy|].
    apply pushed_ok in H. split; [|eauto]. apply (f_equal (@length _)) in H. rewrite !map_length, seq_length in H. lia.
Qed.
(** An empty archive: undefined as soon as a member is asked for. *)
Theorem C210_empty : forall {X} mx mn perm (dest : list X), mn <= mx ->
  archive_select [] mx mn perm dest = if mn =? 0 then Ok [] else UB.
Proof.
  intros X mx mn perm dest A. unfold archive_select. assert (E : (mx <? mn) = false) by (apply Nat.ltb_ge; lia). rewrite E. cbn [length].
  destruct mn; [reflexivity|]. cbn. destruct (Nat.ltb_spec mx 0); [lia|reflexivity].
Qed.
Example C210_ex : archive_select [7; 8; 9] 5 2 [2; 0; 1] [] = Ok [7; 8; 9] /\ archive_select [7; 8; 9] 2 1 [2; 0; 1] [5] = Ok [9; 7] /\
  archive_select [7; 8; 9] 8 5 [2; 0; 1] [] = Ok [7; 8; 9; 7; 8] /\ archive_select [7; 8; 9] 1 2 [] [4] = Ok [4].
Proof. repeat split. Qed.

(** ** C211: finite parameters *)

(** The search goes on exactly if the six checked parameters are finite. *)
Theorem C211_finite : forall d, go_on d = true <->
  a_sigma d <> NotFinite /\ ~ In NotFinite (a_path_sigma d) /\ ~ In NotFinite (a_scaling d) /\ ~ In NotFinite (a_path_covar d) /\
  (forall v, In v (a_coord d) -> ~ In NotFinite v) /\ (forall v, In v (a_covar d) -> ~ In NotFinite v).
Proof.
  intro d. unfold go_on. rewrite !andb_true_iff, !finite_vec_ok, !finite_mat_ok.
  assert (S : isfinite (a_sigma d) = true <-> a_sigma d <> NotFinite) by (destruct (a_sigma d); cbn; split; easy).
  rewrite S. tauto.
Qed.
Example C211_ex : go_on (Adaptive [Fin 0; Fin 1] (Fin 1) [Fin 0; Fin 0] [Fin 1; Fin 1] [[Fin 1; Fin 0]; [Fin 0; Fin 1]] [Fin 0; Fin 0] [[Fin 1; Fin 0]; [Fin 0; Fin 1]])%Q = true /\
  go_on (Adaptive [NotFinite; Fin 1] (Fin 1) [Fin 0; Fin 0] [Fin 1; Fin 1] [[Fin 1; Fin 0]; [Fin 0; Fin 1]] [Fin 0; Fin 0] [[Fin 1; Fin 0]; [Fin 0; Fin 1]])%Q = true /\
  go_on (Adaptive [Fin 0; Fin 1] (Fin 1) [Fin 0; Fin 0] [Fin 1; Fin 1] [[Fin 1; Fin 0]; [Fin 0; Fin 1]] [Fin 0; Fin 0] [[Fin 1; Fin 0]; [NotFinite; Fin 1]])%Q = false.
Proof. repeat split. Qed.

(** ** C212: the mean *)

(** The mean is a parameter too, and it is not looked at: a search with a mean that is not finite goes on. *)
Theorem C212_mean_refuted : ~ (forall d, go_on d = true -> ~ In NotFinite (a_mean d)).
Proof.
  intro H. apply (H (Adaptive [NotFinite] (Fin 1) [Fin 0] [Fin 1] [[Fin 1]] [Fin 0] [[Fin 1]])%Q); [reflexivity|now left].
Qed.
(** It never plays a part. *)
Theorem C212_mean_ignored_refuted : forall mean mean' sigma path scaling coord pc covar,
  go_on (Adaptive mean sigma path scaling coord pc covar) = go_on (Adaptive mean' sigma path scaling coord pc covar).
Proof. reflexivity. Qed.
Print Assumptions C208_in_bounds.
Print Assumptions C208_answer.
Print Assumptions C208_atoms.
Print Assumptions C208_truncate_nearest.
Print Assumptions C208_folds_mirror.
Print Assumptions C208_answers.
Print Assumptions C208_quad.
Print Assumptions C208_init.
Print Assumptions C209_longer_refuted.
Print Assumptions C209_shorter_refuted.
Print Assumptions C209_changed_refuted.
Print Assumptions C210_copy.
Print Assumptions C210_larger.
Print Assumptions C210_smaller.
Print Assumptions C210_nothing.
Print Assumptions C210_sizes.
Print Assumptions C210_empty.
Print Assumptions C211_finite.
Print Assumptions C212_mean_refuted.
Print Assumptions C212_mean_ignored_refuted.
