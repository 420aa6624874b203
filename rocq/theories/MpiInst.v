(** * Parallel apply with the two assignments *)

From Coq Require Import ZArith List Bool Lia Permutation.
From Verif Require Import Outcome Lib MpiModel MpiSpec MpiStatic MpiWorker MpiApply.
Import ListNotations.
Local Open Scope Z_scope.

Lemma filter_out (ws : list Z) bz w : NoDup ws -> In w ws -> bz w = false ->
  Permutation (filter (fun x => negb (bz x)) ws)
              (w :: filter (fun x => negb (set_fn bz w true x)) ws).
Proof.
  intros ND Hw Bw. destruct (in_split w ws Hw) as (l1 & l2 & ->).
  assert (N : forall y, In y (l1 ++ l2) -> y <> w).
  { intros y Hy ->. apply NoDup_remove_2 in ND. contradiction. }
  assert (E : forall l, incl l (l1 ++ l2) ->
            filter (fun x => negb (set_fn bz w true x)) l = filter (fun x => negb (bz x)) l).
  { intros l HL. apply filter_ext_in. intros y Hy. rewrite set_fn_neq; [reflexivity|]. apply N. now apply HL. }
  rewrite !filter_app. cbn [filter]. rewrite set_fn_eq, Bw. cbn [negb].
  rewrite (E l1) by (apply incl_appl; apply incl_refl).
  rewrite (E l2) by (apply incl_appr; apply incl_refl).
  apply Permutation_sym. apply Permutation_middle.
Qed.

Lemma filter_in (ws : list Z) bz w : NoDup ws -> In w ws -> bz w = true ->
  Permutation (filter (fun x => negb (set_fn bz w false x)) ws)
              (w :: filter (fun x => negb (bz x)) ws).
Proof.
  intros ND Hw Bw. rewrite (filter_out ws (set_fn bz w false) w ND Hw (set_fn_eq _ _ _)).
  constructor. erewrite filter_ext; [apply Permutation_refl|]. intros x.
  destruct (Z.eq_dec x w) as [->|N].
  - now rewrite set_fn_eq, Bw.
  - now rewrite !set_fn_neq by exact N.
Qed.

(** ** The dynamic assignment *)

Definition dyn_R (ws : list Z) (a : list Z) (bz : Z -> bool) (n : nat) : Prop :=
  Permutation a (filter (fun w => negb (bz w)) ws).

Lemma dyn_contract ws : NoDup ws -> ws <> [] ->
  contract dyn_get dyn_avail dyn_confirm dyn_idles ws (dyn_R ws).
Proof.
  intros ND NE. constructor; unfold dyn_R.
  - intros a bz n P. exists a. auto.
  - intros a bz n P. unfold dyn_avail. now rewrite (Permutation_length P).
  - intros a bz n P. unfold dyn_get. destruct a as [|x a].
    + right. exists (-1), []. repeat split; auto; [lia|]. right.
      apply someone_busy. intros E. apply Permutation_length in P. cbn in P. rewrite <- P in E.
      destruct ws; [contradiction|discriminate].
    + left. set (a1 := x :: a) in *. assert (NE1 : a1 <> []) by discriminate.
      exists (last a1 (-1)), (removelast a1). split; [reflexivity|].
      assert (PA : Permutation (last a1 (-1) :: removelast a1) (filter (fun w => negb (bz w)) ws)).
      { rewrite <- P. rewrite (app_removelast_last (-1) NE1) at 3.
        apply Permutation_cons_append. }
      assert (Hl : In (last a1 (-1)) ws /\ bz (last a1 (-1)) = false).
      { pose proof (Permutation_in _ PA (or_introl eq_refl)) as H. apply filter_In in H as [H1 H2].
        split; [exact H1|]. now destruct (bz _). }
      destruct Hl as [H1 H2]. split; [exact H1|]. split; [exact H2|].
      rewrite (filter_out ws bz _ ND H1 H2) in PA. now apply Permutation_cons_inv in PA.
  - intros a bz n w P Hw Bw. exists (a ++ [w]). split; [reflexivity|].
    rewrite <- Permutation_cons_append, P. symmetry. now apply filter_in.
Qed.

Lemma dyn_start ws n : dyn_R ws ws (fun _ => false) n.
Proof. unfold dyn_R. rewrite all_idle by reflexivity. apply Permutation_refl. Qed.

(** ** The static assignment *)

Definition static_R (ws : list Z) (s : static) (bz : Z -> bool) (n : nat) : Prop :=
  exists rem, st_inv ws s bz rem /\ Z.of_nat n <= total_of rem ws.

Lemma static_contract ws :
  contract static_get static_avail static_confirm static_idles ws (static_R ws).
Proof.
  constructor; unfold static_R.
  - intros a bz n (rem & I & H). eexists. split; [apply (static_idles_spec ws a bz rem I)|apply Permutation_refl].
  - intros a bz n (rem & I & H). apply (si_free _ _ _ _ I).
  - intros a bz n (rem & I & H).
    destruct (static_get_spec ws a bz rem I) as [(w & s' & E & Hw & Bw & Rw & I' & _)|(E & L)].
    + left. exists w, s'. repeat split; auto. eexists. split; [exact I'|].
      rewrite (total_of_set ws rem w _ (si_nodup _ _ _ _ I) Hw).
      assert (HS : 0 <= total_of (set_fn rem w 0) ws).
      { apply total_of_nonneg. intros x Hx. destruct (Z.eq_dec x w) as [->|N].
        - rewrite set_fn_eq. lia.
        - rewrite set_fn_neq by exact N. now apply (si_rem _ _ _ _ I). }
      rewrite (total_of_set ws rem w _ (si_nodup _ _ _ _ I) Hw) in HS. lia.
    + right. exists (-1), a. repeat split; auto; [lia|exists rem; auto|].
      destruct n as [|n]; [now left|]. right.
      destruct (all_or_one (fun w => bz w = false) ws) as [Q|(w & Hw & NB)].
      { intros w. destruct (bz w); [right; discriminate|now left]. }
      * exfalso. assert (Z0 : total_of rem ws = 0).
        { rewrite (total_of_ext rem (fun _ => 0) ws).
          - clear. induction ws as [|x l IH]; [reflexivity|]. exact IH.
          - intros w Hw. destruct (L w Hw) as [B|B]; [rewrite (Q w Hw) in B; discriminate|exact B]. }
        lia.
      * exists w. split; [exact Hw|]. now destruct (bz w).
  - intros a bz n w (rem & I & H) Hw Bw.
    destruct (static_confirm_spec ws a bz rem w I Hw Bw) as (s' & E & I').
    exists s'. split; [exact E|]. exists rem. auto.
Qed.

Lemma static_start s1 ws runs s n : NoDup ws -> ws <> [] -> 1 <= runs ->
  static_init s1 ws runs = Ok s -> Z.of_nat n <= runs -> static_R ws s (fun _ => false) n.
Proof.
  intros ND NE HR E HN. destruct (static_init_ok s1 ws runs ND NE HR) as (s' & E' & I).
  rewrite E in E'. injection E' as <-. exists (shares ws runs). split; [exact I|].
  rewrite shares_total by assumption. exact HN.
Qed.

(** ** The two protocols *)

Section Both.
Context {T : Type}.
Variable f : T -> T.
Variable packet : nat.
Variable ws : list Z.
Hypothesis ws_nodup : NoDup ws.
Hypothesis ws_some : ws <> [].
Hypothesis ws_pos : forall w, In w ws -> 0 < w.
Hypothesis packet_pos : (0 < packet)%nat.

(** A bound on the length of a run: a few steps for each worker, each job and
    each element. *)
Definition bound (tables : list (list T)) : nat :=
  (4 * length ws + 3 + list_sum (map (fun t => 6 * length ws + 12 + 12 * length t) tables))%nat.

Lemma measure_start {A} (a : A) tables : measure ws (start a tables) = bound tables.
Proof.
  unfold measure, bound, start. cbn [pc table index todo wk mm length].
  assert (E : sumw (fun _ : Z => wm (mkWorker WOrder [] [] [] : worker T)) ws = 0%nat).
  { clear. induction ws; [reflexivity|]. cbn in *. exact IHl. }
  rewrite E. unfold job_cost. lia.
Qed.

Section General.
Context {A : Type}.
Variable a_get : A -> res (A * Z).
Variable a_avail : A -> Z.
Variable a_confirm : A -> Z -> res A.
Variable a_idles : A -> res (list Z).
Variable R : A -> (Z -> bool) -> nat -> Prop.
Hypothesis C : contract a_get a_avail a_confirm a_idles ws R.

Notation step := (step f packet a_get a_avail a_confirm a_idles).
Notation run := (run f packet a_get a_avail a_confirm a_idles).

Lemma reaches tables a n ls s :
  R a (fun _ => false) n ->
  (list_sum (map (fun t => packets packet (length t)) tables) <= n)%nat ->
  run (start a tables) ls s ->
  Inv f packet ws R tables s /\ (length ls + measure ws s <= bound tables)%nat.
Proof.
  intros HR HN H.
  pose proof (start_inv f packet ws packet_pos R tables a n HR HN) as I.
  destruct (run_inv f packet a_get a_avail a_confirm a_idles ws ws_nodup ws_pos packet_pos R C
              tables _ _ _ I H) as (I' & M).
  rewrite measure_start in M. auto.
Qed.

Lemma all_runs tables a n ls s :
  R a (fun _ => false) n ->
  (list_sum (map (fun t => packets packet (length t)) tables) <= n)%nat ->
  run (start a tables) ls s ->
  (length ls <= bound tables)%nat /\
  (forall l, step s l <> Bad) /\
  (forall w, (arrays (wk s w) <= 1)%nat /\ (continues (wk s w) <= 1)%nat) /\
  (~ finished ws s -> exists l s', step s l = Next s' /\ ~ sent_pending ws s l) /\
  (finished ws s ->
     results s = map (map f) tables /\ Permutation (calls s) (concat tables) /\
     (forall w, wk s w = mkWorker (if in_dec Z.eq_dec w ws then WLeft else WOrder) [] [] []) /\
     exists l, a_idles (alg s) = Ok l /\ Permutation l ws).
Proof.
  intros HR HN H. destruct (reaches tables a n ls s HR HN H) as (I & M).
  split; [lia|]. split.
  { intros l E. pose proof (step_inv f packet a_get a_avail a_confirm a_idles ws ws_nodup ws_pos packet_pos R C tables s l I) as G.
    now rewrite E in G. }
  split; [intros w; exact (one_task_each f packet ws packet_pos R tables s w I)|].
  split.
  { intros NF. eapply progress; try eassumption. }
  intros F. destruct (finished_spec f packet ws R tables s I F) as (F1 & F2 & F3 & bz & m & F4 & F5).
  split; [exact F1|]. split; [exact F2|]. split; [exact F3|].
  destruct (c_idles _ _ _ _ _ _ C _ _ _ F4) as (l & El & P). exists l. split; [exact El|].
  rewrite all_idle in P by exact F5. exact P.
Qed.

Lemma finished_dec (x : world T A) : finished ws x \/ ~ finished ws x.
Proof.
  unfold finished. assert (D : pc x = MEnd \/ pc x <> MEnd) by (destruct (pc x); auto; right; discriminate).
  destruct D as [D|D]; [|right; tauto].
  destruct (all_or_one (fun w => at_ (wk x w) = WLeft) ws) as [L|(w & Hw & NL)].
  - intros w. destruct (at_ (wk x w)); auto; right; discriminate.
  - left. auto.
  - right. intros [_ H]. apply NL. now apply H.
Qed.

(** Hence every run can be completed, and ends. *)
Lemma completes tables a n ls s :
  R a (fun _ => false) n ->
  (list_sum (map (fun t => packets packet (length t)) tables) <= n)%nat ->
  run (start a tables) ls s ->
  exists more s', run (start a tables) (ls ++ more) s' /\ finished ws s'.
Proof.
  intros HR HN H. remember (bound tables - length ls)%nat as k eqn:EK.
  revert ls s H EK. induction k as [k IH] using lt_wf_ind. intros ls s H EK.
  destruct (finished_dec s) as [F|F]; [exists [], s; rewrite app_nil_r; auto|].
  destruct (all_runs tables a n ls s HR HN H) as (L & _ & _ & P & _).
  destruct (P F) as (l & s' & E & _).
  assert (H' : run (start a tables) (ls ++ [l]) s').
  { clear -H E. induction H as [s0|s0 l0 s1 ls0 s2 E0 H0 IH0]; cbn.
    - econstructor; [exact E|constructor].
    - econstructor; [exact E0|]. now apply IH0. }
  destruct (all_runs tables a n _ _ HR HN H') as (L' & _). rewrite app_length in L'. cbn [length] in L'.
  destruct (IH (bound tables - length (ls ++ [l]))%nat) with (ls := ls ++ [l]) (s := s') as (more & s2 & R2 & F2).
  - rewrite app_length. cbn [length]. lia.
  - exact H'.
  - reflexivity.
  - exists (l :: more), s2. rewrite <- app_assoc in R2. auto.
Qed.

End General.
End Both.
