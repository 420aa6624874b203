(** The samplings of mo: what their columns hold. *)
From Coq Require Import Bool Arith QArith Lia.
From Verif Require Import Outcome Lib OrderSpec OrderLemmas NeighModel LsModel LsSpec LsProofs LsClimb LsNeutral StopModel StopSpec StopProofs PertModel PertSpec PertProofs MetaModel MetaSpec MetaProofs MetaAnneal
  StatModel StatSpec StatProofs StatNh NeighProofs SampModel SampSpec SampProofs.
From Coq Require Import List.
Import ListNotations.
Close Scope Q_scope.
Open Scope nat_scope.

Lemma true_by_itself {T X} (e : explorer T X) : forall fuel s x ds r, ls_loop T X unit e true_cont fuel s x tt ds = Ok r -> r_by_itself r = true.
Proof.
  induction fuel as [|f IH]; intros s x ds r H; cbn [ls_loop] in H; [discriminate|]. apply rbind_ok in H as ([[[b s'] x'] ds'] & Ht & H). cbn [c_step true_cont andb] in H.
  destruct (x_continue e s' x').
  - apply rbind_ok in H as (r1 & Hr & H). injection H as <-. cbn. eauto.
  - injection H as <-. reflexivity.
Qed.
Lemma true_run_by_itself {T X} (e : explorer T X) fuel s x ds r : ls_run T X unit e true_cont fuel s x tt ds = Ok r -> r_by_itself r = true.
Proof. intros H. unfold ls_run in H. apply rbind_ok in H as ([x' ds'] & Hi & H). apply rbind_ok in H as (r1 & Hr & H). injection H as <-. cbn. eapply true_by_itself; eauto. Qed.

Lemma last_any {A} (l : list A) y a b : last (y :: l) a = last (y :: l) b.
Proof. revert y. induction l as [|z l IH]; intros y; auto. exact (IH z). Qed.
Lemma last_in {A} (l : list A) x a : last (x :: l) a = last l x.
Proof. destruct l as [|y l]; auto. exact (last_any l y a x). Qed.
(** a climb: all turns move but the last *)
Section Climb.
Variables (T X C : Type) (e : explorer T X) (c : continuator T C) (P : T -> X -> Prop) (R : T -> T -> Prop) (Stop : T -> Prop).
Hypothesis go : forall s cs, fst (c_step c s cs) = true.
Hypothesis ends : forall s x, x_terminate e s x = s.
Hypothesis turn : forall s x ds b s' x' ds', P s x -> ls_turn T X e s x ds = Ok (b, s', x', ds') ->
  P s' x' /\ x_continue e s' x' = b /\ (b = true -> R s s') /\ (b = false -> s' = s /\ Stop s).
Lemma climb_loop : forall fuel s x cs ds r, P s x -> ls_loop T X C e c fuel s x cs ds = Ok r ->
  exists path, r_visited r = path ++ [last path s] /\ chain R (s :: path) /\ r_final r = last path s /\ Stop (r_final r) /\ P (r_final r) (r_x r).
Proof.
  induction fuel as [|f IH]; intros s x cs ds r HP H; cbn [ls_loop] in H; [discriminate|]. apply rbind_ok in H as ([[[b s'] x'] ds'] & Ht & H).
  destruct (turn _ _ _ _ _ _ _ HP Ht) as (HP' & Hb & H1 & H2). specialize (go s' cs). destruct (c_step c s' cs) as [g cs']. cbn in go. subst g. cbn [andb] in H. rewrite Hb in H. destruct b.
  - apply rbind_ok in H as (r1 & Hr & H). injection H as <-. cbn [r_visited r_final r_x]. destruct (IH _ _ _ _ _ HP' Hr) as (path & A & B & D & E & E').
    assert (L : last (s' :: path) s = last path s'). { apply last_in. }
    exists (s' :: path). rewrite A, L. split; [reflexivity|]. split; [apply chain_cons; auto|]. auto.
  - injection H as <-. cbn [r_visited r_final r_x]. destruct (H2 eq_refl) as [-> Hs]. exists []. cbn [app last]. rewrite ends. split; auto. split; [apply chain_one|]. auto.
Qed.
End Climb.

Lemma last_cons_map {A B} (f : A -> B) l a : f (last l a) = last (map f l) (f a).
Proof. revert a. induction l as [|x l IH]; intros a; auto. cbn [map last]. destruct l as [|y l]; auto. cbn [map] in IH |- *. apply (IH a). Qed.
Lemma nth_last {A} (l : list A) a : nth_error (a :: l) (length l) = Some (last l a).
Proof. revert a. induction l as [|x l IH]; intros a; auto. cbn [length nth_error]. rewrite last_in. apply IH. Qed.

(** one statistic after the other *)
Ltac turns H := let K := fresh "K" in inversion H as [|? ? ? ? K]; subst; clear H; try (turns K).
Section Hill.
Variables (G F X : Type) (full : G -> F) (Sp : G -> Prop) (Ok_x : X -> Prop) (climber : explorer (sol G F) X) (R : G -> G -> Prop) (Stop : G -> Prop).
Definition hill_ok (s : sol G F) (x : X) : Prop := Sp (geno s) /\ evaluated full s /\ Ok_x x.
Hypothesis starts : forall s x ds x' ds', x_init climber s x ds = Ok (x', ds') -> Ok_x x -> Ok_x x'.
Hypothesis ends : forall s x, x_terminate climber s x = s.
Hypothesis turn : forall s x ds b s' x' ds', hill_ok s x -> ls_turn _ _ climber s x ds = Ok (b, s', x', ds') ->
  hill_ok s' x' /\ x_continue climber s' x' = b /\ (b = true -> R (geno s) (geno s')) /\ (b = false -> s' = s /\ Stop (geno s)).
Variable init : sol G F -> list nat -> res (sol G F * list nat).
Hypothesis init_ok : initialises Sp full init.

(** what a climb makes *)
Definition climbed (t : sol (G * (X * nat)) F) : Prop :=
  (exists s0 ds0 s ds1, init s0 ds0 = Ok (s, ds1) /\ climb R Stop (snd (snd (geno t))) (geno s) (fst (geno t))) /\
  evaluated full (inner_part G F X t) /\ Sp (fst (geno t)) /\ Ok_x (fst (snd (geno t))).
Lemma climb_init_ok cfuel t ds t' ds' : Ok_x (fst (snd (geno t))) -> climb_init G F X full init climber cfuel t ds = Ok (t', ds') -> climbed t'.
Proof.
  intros HX H. unfold climb_init in H. apply rbind_ok in H as ([s ds1] & Hi & H). apply rbind_ok in H as (r & Hr & H). injection H as <- <-.
  destruct (init_ok _ _ _ _ Hi) as [S1 S2]. destruct (started_ok G F Sp full s S1 S2) as [S3 S4].
  unfold local_search in Hr. fold (started full s) in Hr. set (st := [minus_one_stat (fun v : nat * nat => v) (fun b _ => b)] : list (stat (sol G F) (nat * nat))) in *.
  pose proof (cp_run _ _ _ _ _ _ _ _ _ _ _ Hr) as (Hp & vs & Ov & _ & Lv & Ev).
  unfold ls_run in Hp. apply rbind_ok in Hp as ([x1 ds2] & Hx & Hp). apply rbind_ok in Hp as (r1 & Hl & Hp).
  destruct (climb_loop _ _ _ climber true_cont hill_ok (fun a b => R (geno a) (geno b)) (fun a => Stop (geno a)) (fun _ _ => eq_refl) ends turn cfuel (started full s) x1 tt ds2 r1) as (path & A & B & D & E & E'); auto.
  { repeat split; auto. eapply starts; eauto. }
  assert (Ef : r_final r = r_final r1 /\ r_visited r = started full s :: r_visited r1 /\ r_x r = r_x r1).
  { unfold plain in Hp. repeat split; [exact (f_equal r_final (eq_sym (f_equal (fun o => match o with Ok y => y | _ => plain r end) Hp)))|..].
    - exact (f_equal r_visited (eq_sym (f_equal (fun o => match o with Ok y => y | _ => plain r end) Hp))).
    - exact (f_equal r_x (eq_sym (f_equal (fun o => match o with Ok y => y | _ => plain r end) Hp))). }
  destruct Ef as (E1 & E2 & E3). unfold climbed, inner_part. cbn [geno fst snd fit]. rewrite E1, E3.
  assert (N : snd (fst (fst (r_c r))) = length path).
  { assert (K : forall k t v, nth_error (r_visited r) k = Some t -> nth_error vs k = Some v -> v = (k, k - 1)).
    { intros k t0 v. apply (observed_inv st (fun k (_ : sol G F) v => v = (k, k - 1)) (0, 0) (r_visited r) vs); auto.
      - intros s' v' H. inversion H as [|? ? ? ? H']; subst. inversion H'; subst. reflexivity.
      - intros k' t' s' v' v'' -> H. inversion H as [|? ? ? ? H']; subst. inversion H'; subst. cbn. f_equal; try lia. }
    rewrite Ev. assert (Ln : length vs = S (S (length path))) by (rewrite Lv, E2, A; cbn; rewrite app_length; cbn; lia).
    destruct vs as [|v0 vs]; [discriminate|]. assert (Hn : nth_error (v0 :: vs) (length vs) = Some (last vs v0)) by apply nth_last.
    assert (Hlt : length vs < length (r_visited r)) by (rewrite <- Lv; cbn; lia). apply nth_error_Some in Hlt. destruct (nth_error (r_visited r) (length vs)) as [t0|] eqn:Et; [|congruence].
    specialize (K _ _ _ Et Hn). assert (last (v0 :: vs) (0, 0) = last vs v0) as ->. { apply last_in. }
    rewrite K. cbn [snd]. cbn in Ln. lia. }
  rewrite N. destruct E' as (P1 & P2 & P3). split; [|split; [|split; auto]].
  - exists (inner_part G F X t), ds, s, ds1. split; auto. exists (geno (started full s) :: map (@geno G F) path). split; [cbn; rewrite map_length; auto|]. split; [cbn; unfold started; destruct (fit s); auto|]. split.
    + rewrite <- (map_length (@geno G F) path). rewrite nth_last. rewrite D, (last_cons_map (@geno G F)). reflexivity.
    + split; auto. intros k a b Ha Hb. change (geno (started full s) :: map (@geno G F) path) with (map (@geno G F) (started full s :: path)) in Ha, Hb.
      rewrite nth_error_map' in Ha, Hb. destruct (nth_error (started full s :: path) k) as [a'|] eqn:Ea; [|discriminate]. destruct (nth_error (started full s :: path) (S k)) as [b'|] eqn:Eb; [|discriminate].
      injection Ha as <-. injection Hb as <-. apply (B k); auto.
  - unfold evaluated in *. cbn. auto.
Qed.

Lemma climb_rows blank nbWalk cfuel fuel x v ds r : Ok_x x ->
  climb_sampling G F X full init climber blank nbWalk cfuel fuel x v ds = Ok r ->
  columns r = [map (fun t => inl (snd (snd (geno t)))) (r_visited r); map (fun t => inr (inner_part G F X t)) (r_visited r)] /\
  length (r_visited r) = Nat.max 2 nbWalk /\ Forall climbed (r_visited r).
Proof.
  intros HX H. unfold climb_sampling in H. cbn [added fold_left fst snd app] in H. apply sampling_run in H as (s & ds1 & Hi & Hl & vs & Ov & Hc & Lv & Ev).
  assert (Cs : climbed s) by (eapply climb_init_ok; [|exact Hi]; exact HX).
  split.
  - rewrite Hc. cbn [map m_read]. f_equal; [|f_equal].
    + eapply observed_pure; [| |exact Ov]; intros a b b' K; turns K; reflexivity.
    + eapply observed_pure; [| |exact Ov]; intros a b b' K; turns K; reflexivity.
  - pose proof (rs_run _ _ true_cont nbWalk fuel s tt ds1 (plain r) Hl) as (l & A & B & _ & L1 & L2 & L3). cbn [r_visited r_draws plain] in A, B, L2, L3.
    assert (L4 := L3 (true_run_by_itself _ _ _ _ _ _ Hl)). split; auto. rewrite A.
    assert (St : forall t, climbed t -> started (fun g : G * (X * nat) => full (fst g)) t = t).
    { intros t (_ & E & _). unfold started, evaluated, inner_part in *. cbn in E. rewrite E. reflexivity. }
    rewrite (St s Cs) in *. constructor; auto. clear -B Cs St starts ends turn init_ok.
    remember s as t0 eqn:Et0 in B. assert (Ct : climbed t0) by (subst; auto). clear Et0 Cs s. induction B as [t ds|t ds t1 ds2 l ds3 Hi B IH]; constructor.
    + rewrite St; [|]; eapply climb_init_ok; try exact Hi; apply Ct.
    + apply IH. rewrite St; [|]; eapply climb_init_ok; try exact Hi; apply Ct.
Qed.
End Hill.
