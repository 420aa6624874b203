(** Random-best and neutral hill climbing, random walk and neutral walk. *)
From Coq Require Import List Arith Bool Lia.
From Verif Require Import Outcome Lib OrderSpec NeighModel LsModel LsSpec LsProofs LsClimb.
Import ListNotations.
Open Scope nat_scope.

Section Neutral.
Variables (G F S I C : Type) (lt eq : F -> F -> bool) (Sp : G -> Prop) (nbrs : G -> list I) (has : G -> bool) (nh : G -> iterator S I).
Variables (Inv : S -> Prop) (Prog : G -> S -> Prop) (xfuel cost : nat).
Variables (full : G -> F) (neval : sol G F -> I -> res F) (move : I -> G -> res G) (c : continuator (sol G F) C).
Hypothesis LT : strict_weak_order lt.
Hypothesis EQ : forall a b, eq a b = true <-> a = b.
Hypothesis TOT : forall a b, lt a b = false -> lt b a = false -> a = b.
Hypothesis NH : neighborhood_ok Sp nbrs has nh Inv Prog xfuel cost.
Hypothesis MV : moves_ok Sp nbrs full neval move.
Notation sol := (sol G F).
Notation good := (good G F I Sp nbrs full move).
Notation improves := (improves lt nbrs full move).
Notation steepest := (steepest lt nbrs full move).
Notation local_optimum := (local_optimum lt nbrs full move).
Notation rbest := (random_best_hc G F S I lt eq has nh neval move xfuel).
Notation neutral := (neutral_hc G F S I lt eq has nh neval move xfuel).
Notation start_of := (started full).
Definition rb_ok (s : sol) (x : rb F S I) : Prop := Sp (geno s) /\ evaluated full s /\ Inv (b_nh F S I x) /\ b_best F S I x = [].

(** bestVector after an exploration: exactly the best neighbors of one value [v] *)
Definition ties (s : sol) (l : list (I * F)) (v : F) : Prop :=
  l <> [] /\ (forall p, In p l -> good s p /\ snd p = v) /\
  (forall g', neighbor nbrs move (geno s) g' -> lt v (full g') = false) /\
  (forall i, In i (nbrs (geno s)) -> good s (i, v) -> In (i, v) l).
Lemma draw_from_In (l : list (I * F)) ds p ds' : draw_from F I l ds = Ok (p, ds') -> In p l.
Proof.
  unfold draw_from. destruct (length l =? 0); [discriminate|]. intros H. apply rbind_ok in H as ([i ds1] & Hd & H). apply rbind_ok in H as (q & Hq & H). injection H as <- <-.
  apply of_opt_ok in Hq. eapply nth_error_In; eauto.
Qed.
Lemma rb_explore_spec s x ds s1 x1 ds1 : rb_ok s x -> has (geno s) = true ->
  rb_explore G F S I lt eq has nh neval xfuel s x ds = Ok (s1, x1, ds1) ->
  s1 = s /\ Inv (b_nh F S I x1) /\ exists q v, b_sel F S I x1 = Some q /\ In q (b_best F S I x1) /\ ties s (b_best F S I x1) v.
Proof.
  intros (HS & HE & HI & HB) Hh H. unfold rb_explore in H. rewrite Hh, HB in H. cbn [app] in H.
  apply rbind_ok in H as ([[p n] ds2] & Hst & H). apply rbind_ok in H as ([[l n'] ds3] & Hsc & H). apply rbind_ok in H as ([q ds4] & Hdr & H). injection H as <- <- <-. cbn.
  destruct (start_spec G F S I Sp nbrs has nh Inv Prog xfuel cost full neval move NH MV s _ _ _ _ _ HS HE Hh HI Hst) as (Hi & Hp & HP & Hl).
  destruct (scan_spec G F S I Sp nbrs has nh Inv Prog xfuel cost neval NH _ _ s HS _ _ _ _ _ _ _ HP Hsc) as (xs & X1 & X2 & X3 & X4 & [X5|X5]); [discriminate|].
  assert (Hall := explore_all G F S I Sp nbrs has nh Inv Prog xfuel cost NH s _ _ p _ _ _ _ _ _ HS Hh HI Hi X5).
  split; auto. split; [apply (nh_inv _ _ _ _ _ _ _ _ NH (geno s)); auto|]. exists q.
  assert (Q : exists v, l <> [] /\ (forall p, In p l -> good s p /\ snd p = v) /\
     forall i f, In i ([fst p] ++ xs) -> good s (i, f) -> lt v f = false /\ (f = v -> In (i, f) l)).
  { apply (fold_inv G F I Sp nbrs full neval move MV s (keep_ties F I lt eq)
      (fun a seen => exists v, a <> [] /\ (forall p, In p a -> good s p /\ snd p = v) /\ forall i f, In i seen -> good s (i, f) -> lt v f = false /\ (f = v -> In (i, f) a))) with (a := [p]); auto.
    - destruct LT as (L1 & L2 & L3). intros a seen i f a' (v & Ha & Hv & Hseen) Hg E. unfold keep_ties in E. destruct a as [|q0 a]; [discriminate|]. injection E as <-. cbn [snd].
      assert (Hq0 : snd q0 = v) by (apply Hv; left; auto). rewrite Hq0. destruct (lt v f) eqn:El.
      + exists f. split; [discriminate|]. split; [intros p0 [<-|[]]; auto|].
        intros j fj Hj Hgj. apply in_app_or in Hj as [Hj|[<-|[]]].
        * destruct (Hseen j fj Hj Hgj) as [A B]. assert (Hfv : lt f v = false). { destruct (lt f v) eqn:Ef; auto. rewrite <- (L2 v f v El Ef). apply L1. }
          split; [apply (L3 f v fj); auto|]. intros ->. congruence.
        * rewrite <- (good_eq G F I Sp nbrs full move s i f fj Hg Hgj). split; [apply L1|]. intros _. left. auto.
      + destruct (eq f v) eqn:Eq.
        * apply EQ in Eq. subst f. exists v. split; [discriminate|]. split.
          { intros p0 Hp0. apply (in_app_or (q0 :: a)) in Hp0 as [Hp0|[<-|[]]]; auto. }
          intros j fj Hj Hgj. apply in_app_or in Hj as [Hj|[<-|[]]].
          -- destruct (Hseen j fj Hj Hgj) as [A B]. split; auto. intros E. apply (in_or_app (q0 :: a)). left. auto.
          -- rewrite <- (good_eq G F I Sp nbrs full move s i v fj Hg Hgj). split; auto. intros _. apply (in_or_app (q0 :: a)). right. left. auto.
        * exists v. split; [discriminate|]. split; auto. intros j fj Hj Hgj. apply in_app_or in Hj as [Hj|[<-|[]]]; auto.
          rewrite <- (good_eq G F I Sp nbrs full move s i f fj Hg Hgj). split; auto. intros ->. assert (eq v v = true) by (apply EQ; auto). congruence.
    - exists (snd p). split; [discriminate|]. split; [intros p0 [<-|[]]; auto|]. intros i f [<-|[]] Hg. destruct p as [i0 f0]. cbn in *.
      rewrite (good_eq G F I Sp nbrs full move s i0 f f0 Hg Hp). split; [apply LT|left; auto]. }
  destruct Q as (v & Q1 & Q2 & Q3). exists v. split; auto. split; [eapply draw_from_In; eauto|]. split; auto. split; auto. split.
  - intros g' Hn. destruct (neighbor_good G F I Sp nbrs full neval move MV s g' HS Hn) as (i & Hin & _ & Hg). apply (Q3 i); auto.
  - intros i Hin Hg. apply (Q3 i v); auto.
Qed.
(** every best neighbor can be drawn *)
Lemma rb_any_tie s x ds s1 x1 ds1 g' : rb_ok s x -> has (geno s) = true ->
  rb_explore G F S I lt eq has nh neval xfuel s x ds = Ok (s1, x1, ds1) ->
  neighbor nbrs move (geno s) g' -> (forall g2, neighbor nbrs move (geno s) g2 -> lt (full g') (full g2) = false) ->
  forall rest, exists d, rb_move G F S I move s1 x1 (d :: rest) = Ok (Sol g' (Some (full g')), x1, rest).
Proof.
  intros HOK Hh He Hn Hb rest. destruct (rb_explore_spec _ _ _ _ _ _ HOK Hh He) as (-> & _ & q & v & _ & Hin & (T1 & T2 & T3 & T4)).
  destruct (neighbor_good G F I Sp nbrs full neval move MV s g' (proj1 HOK) Hn) as (i & Hi & Hm & Hg).
  assert (Ev : v = full g'). { apply TOT; [apply T3; auto|]. destruct (T2 q Hin) as (Gq & <-). destruct (good_move G F I Sp nbrs full move s q Gq) as (g2 & A1 & _ & -> & _). apply Hb. auto. }
  subst v. assert (K := T4 i Hi Hg). apply In_nth_error in K as (d & Hd). assert (Ld := nth_error_lt _ _ _ Hd).
  exists d. unfold rb_move, draw_from. destruct (Nat.eqb_spec (length (b_best F S I x1)) 0) as [|_]; [lia|]. unfold draw. cbn [rbind]. rewrite Nat.mod_small by lia. rewrite Hd. cbn [of_opt rbind].
  unfold move_to. cbn [fst snd]. rewrite Hm. auto.
Qed.
Lemma rb_move_spec s x ds s' x' ds' v : ties s (b_best F S I x) v -> rb_move G F S I move s x ds = Ok (s', x', ds') ->
  x' = x /\ evaluated full s' /\ Sp (geno s') /\ neighbor nbrs move (geno s) (geno s') /\ full (geno s') = v.
Proof.
  intros (T1 & T2 & T3 & T4) H. unfold rb_move in H. apply rbind_ok in H as ([p ds1] & Hd & H). apply rbind_ok in H as (s2 & Hm & H). injection H as <- <- <-.
  destruct (T2 p (draw_from_In _ _ _ _ Hd)) as [Hg Hv]. destruct (good_move G F I Sp nbrs full move s p Hg) as (g' & A1 & A2 & A3 & A4). rewrite A4 in Hm. injection Hm as <-. cbn. repeat split; auto. congruence.
Qed.
Lemma rb_turn s x ds b s' x' ds' : rb_ok s x -> ls_turn _ _ rbest s x ds = Ok (b, s', x', ds') ->
  rb_ok s' x' /\ b_acc F S I x' = b /\ (b = true -> improves (geno s) (geno s') /\ steepest (geno s) (geno s')) /\
  (b = false -> s' = s /\ local_optimum (geno s)).
Proof.
  intros HOK H. assert (HOK' := HOK). destruct HOK as (HS & HE & HI & HB). unfold ls_turn in H. cbn [x_explore x_accept x_move x_update random_best_hc] in H.
  apply rbind_ok in H as ([[s1 x1] ds1] & He & H). destruct (has (geno s)) eqn:Hh.
  - destruct (rb_explore_spec _ _ _ _ _ _ HOK' Hh He) as (-> & HI1 & q & v & Hq & Hin & Hties).
    unfold rb_accept in H. rewrite Hh, Hq in H. cbn [get rbind] in H. unfold better, fitness in H. rewrite HE in H. cbn [rbind] in H.
    destruct Hties as (T1 & T2 & T3 & T4). destruct (T2 q Hin) as [Hgq Hvq]. rewrite Hvq in H.
    destruct (lt (full (geno s)) v) eqn:El.
    + apply rbind_ok in H as ([[s2 x3] ds3] & Hm & H). injection H as <- <- <- <-.
      assert (Ht : ties s (b_best F S I (Rb F S I (b_nh F S I x1) (Some q) (b_best F S I x1) true)) v) by (cbn; split; auto).
      destruct (rb_move_spec s _ _ _ _ _ v Ht Hm) as (-> & A2 & A3 & A4 & A5). cbn.
      split; [repeat split; auto|]. split; auto. split; [|discriminate]. intros _. split; [split; auto; congruence|]. intros g'' Hn. rewrite A5. auto.
    + cbn in H. injection H as <- <- <- <-. cbn. split; [repeat split; auto|]. split; auto. split; [discriminate|]. intros _. split; auto.
      intros g' Hn. destruct LT as (L1 & L2 & L3). apply (L3 _ v); auto.
  - unfold rb_explore in He. rewrite Hh in He. injection He as <- <- <-. unfold rb_accept in H. rewrite Hh in H. cbn in H. injection H as <- <- <- <-.
    cbn. split; [repeat split; auto|]. split; auto. split; [discriminate|]. split; auto.
    apply (nothing_left G F S I lt Sp nbrs has nh Inv Prog xfuel cost full move NH); auto.
Qed.
Theorem random_best_run fuel s x cs ds r : Sp (geno s) -> not_stale full s -> Inv (b_nh F S I x) ->
  local_search full rbest c fuel s x cs ds = Ok r ->
  climbs (fun a b => improves (geno a) (geno b) /\ steepest (geno a) (geno b)) (r_visited r) /\
  nth_error (r_visited r) 0 = Some (start_of s) /\ Forall (evaluated full) (r_visited r) /\ r_final r = last (r_visited r) s /\
  Sp (geno (r_final r)) /\ (r_by_itself r = true -> local_optimum (geno (r_final r))).
Proof.
  intros HS HN HI H. destruct (run_split G F C full c _ _ _ _ _ _ _ _ H) as (x0 & ds0 & r0 & Hi & Hl & ->). cbn in Hi. injection Hi as <- <-.
  destruct (start_of_ok G F full s HN) as [HE HG]. assert (HOK : rb_ok (start_of s) (rb_clear F S I x)) by (repeat split; auto; rewrite HG; auto).
  cbn. split.
  - apply (loop_climbs _ _ _ rbest c rb_ok) with (R := fun a b => improves (geno a) (geno b) /\ steepest (geno a) (geno b)) in Hl; auto.
    intros s1 x1 ds1 b s2 x2 ds2 H1 H2. destruct (rb_turn _ _ _ _ _ _ _ H1 H2) as (A1 & A2 & A3 & A4).
    split; auto. destruct b; auto. right. split; [apply A4; auto|]. auto.
  - split; auto. apply (loop_chain _ _ _ rbest c rb_ok) with (R := fun a b => True) (Stop := fun s _ => local_optimum (geno s)) in Hl; auto.
    + destruct Hl as (_ & s' & x' & A1 & A2 & A3 & A4 & A5 & A6 & A7). cbn in A5. unfold as_is in A5. split; [|split; [|split]].
      * constructor; auto. eapply Forall_impl; [|exact A7]. intros t [y Hy]. apply Hy.
      * rewrite A5, <- A2. destruct (r_visited r0) eqn:Ev; [congruence|]. apply last_any.
      * rewrite A5. apply A1.
      * rewrite A5. auto.
    + intros s1 x1 ds1 b s2 x2 ds2 H1 H2. destruct (rb_turn _ _ _ _ _ _ _ H1 H2) as (B1 & B2 & B3 & B4).
      split; auto. split; auto. cbn. intros E. rewrite E in B2. subst b. destruct (B4 eq_refl) as [-> ?]. auto.
Qed.

(** neutral hill climbing *)
Definition not_worse (a b : sol) : Prop := lt (full (geno a)) (full (geno b)) = true \/ full (geno b) = full (geno a).
Definition no_better_or_equal (g : G) : Prop := forall g', neighbor nbrs move g g' -> lt (full g) (full g') = false /\ full g' <> full g.
Lemma neutral_turn nbStep s x ds b s' x' ds' : rb_ok s (fst x) -> ls_turn _ _ (neutral nbStep) s x ds = Ok (b, s', x', ds') ->
  rb_ok s' (fst x') /\ snd x' = Datatypes.S (snd x) /\ b_acc F S I (fst x') = b /\
  (b = true -> neighbor nbrs move (geno s) (geno s') /\ steepest (geno s) (geno s') /\ not_worse s s') /\
  (b = false -> s' = s /\ no_better_or_equal (geno s)).
Proof.
  intros HOK H. assert (HOK' := HOK). destruct HOK as (HS & HE & HI & HB). destruct x as [x k]. cbn [fst snd] in *. unfold ls_turn in H. cbn [x_explore x_accept x_move x_update neutral_hc] in H.
  apply rbind_ok in H as ([[s1 x1] ds1] & He & H). apply rbind_ok in He as ([[s0 y] ds0] & He & E0). injection E0 as <- <- <-. cbn [fst snd] in *. destruct (has (geno s)) eqn:Hh.
  - destruct (rb_explore_spec _ _ _ _ _ _ HOK' Hh He) as (-> & HI1 & q & v & Hq & Hin & Hties). assert (Hties' := Hties).
    destruct Hties as (T1 & T2 & T3 & T4). unfold neutral_accept in H. rewrite Hh in H. destruct (b_best F S I y) as [|p0 l] eqn:Eb; [congruence|]. cbn [nth_error of_opt rbind] in H.
    destruct (T2 p0 (or_introl eq_refl)) as [Hg0 Hv0]. unfold better, equals, fitness in H. unfold evaluated in HE. rewrite !HE in H. cbn [rbind] in H. rewrite Hv0 in H.
    assert (exists b0, (if lt (full (geno s)) v then Ok true else Ok (eq (full (geno s)) v)) = Ok b0 /\ b0 = lt (full (geno s)) v || eq (full (geno s)) v) as (b0 & Eb0 & Eb1).
    { destruct (lt (full (geno s)) v); eexists; split; eauto. }
    rewrite Eb0 in H. cbn [rbind] in H. destruct b0.
    + apply rbind_ok in H as ([[s2 x3] ds3] & Hm & H). injection H as <- <- <- <-. apply rbind_ok in Hm as ([[s3 y3] ds4] & Hm & E3). injection E3 as <- <- <-. cbn [fst] in Hm.
      assert (Ht : ties s (b_best F S I (Rb F S I (b_nh F S I y) (b_sel F S I y) (p0 :: l) true)) v) by (cbn; split; auto).
      destruct (rb_move_spec s _ _ _ _ _ v Ht Hm) as (-> & A2 & A3 & A4 & A5). cbn. split; [repeat split; auto|]. split; auto. split; auto. split; [|discriminate]. intros _. split; auto. split.
      * intros g'' Hn. rewrite A5. auto.
      * unfold not_worse. rewrite A5. symmetry in Eb1. apply orb_prop in Eb1 as [E|E]; auto. right. symmetry. apply EQ. auto.
    + cbn in H. injection H as <- <- <- <-. cbn. split; [repeat split; auto|]. split; auto. split; auto. split; [discriminate|]. intros _. split; auto.
      symmetry in Eb1. apply orb_false_elim in Eb1 as [E1 E2]. intros g' Hn. destruct LT as (L1 & L2 & L3). split; [apply (L3 _ v); auto|].
      intros Ef. destruct (lt v (full (geno s))) eqn:Elv.
      * specialize (T3 g' Hn). rewrite Ef in T3. congruence.
      * assert (E : full (geno s) = v) by (apply TOT; auto). apply EQ in E. congruence.
  - unfold rb_explore in He. rewrite Hh in He. injection He as <- <- <-. unfold neutral_accept in H. rewrite Hh in H. cbn in H. injection H as <- <- <- <-.
    cbn. split; [repeat split; auto|]. split; auto. split; auto. split; [discriminate|]. split; auto.
    intros g' (i & Hi & _). rewrite (has_false G F S I Sp nbrs has nh Inv Prog xfuel cost NH s HS Hh) in Hi. destruct Hi.
Qed.
Theorem neutral_run nbStep fuel s x cs ds r : Sp (geno s) -> not_stale full s -> Inv (b_nh F S I (fst x)) ->
  local_search full (neutral nbStep) c fuel s x cs ds = Ok r ->
  climbs (fun a b => neighbor nbrs move (geno a) (geno b) /\ steepest (geno a) (geno b) /\ not_worse a b) (r_visited r) /\
  length (r_visited r) <= 1 + Nat.max 1 nbStep /\
  nth_error (r_visited r) 0 = Some (start_of s) /\ Forall (evaluated full) (r_visited r) /\ r_final r = last (r_visited r) s /\
  Sp (geno (r_final r)) /\ (r_by_itself r = true -> no_better_or_equal (geno (r_final r)) \/ nbStep < length (r_visited r)).
Proof.
  intros HS HN HI H. destruct (run_split G F C full c _ _ _ _ _ _ _ _ H) as (x0 & ds0 & r0 & Hi & Hl & ->). cbn in Hi. injection Hi as <- <-.
  destruct (start_of_ok G F full s HN) as [HE HG].
  assert (Hcnt : forall s x ds b s' x' ds', ls_turn _ _ (neutral nbStep) s x ds = Ok (b, s', x', ds') -> snd x' = Datatypes.S (snd x)).
  { clear. intros s x ds b s' x' ds' H. unfold ls_turn in H. cbn [x_explore x_accept x_move x_update neutral_hc] in H.
    apply rbind_ok in H as ([[s1 x1] ds1] & He & H). apply rbind_ok in He as ([[s0 y] ds0] & He & E0). injection E0 as <- <- <-.
    apply rbind_ok in H as ([[b1 x2] ds2] & Ha & H). assert (snd x2 = snd x).
    { unfold neutral_accept in Ha. destruct (has (geno s0)); [|injection Ha as <- <- <-; auto]. inv_res. auto. }
    apply rbind_ok in H as ([[s2 x3] ds3] & Hm & H). injection H as <- <- <- <-. cbn. f_equal. destruct b1; [|injection Hm as <- <- <-; auto].
    apply rbind_ok in Hm as ([[s4 x4] ds4] & Hm & E). injection E as <- <- <-. auto. }
  cbn [r_visited r_final r_by_itself].
  assert (Hlen := loop_length _ _ _ (neutral nbStep) c snd nbStep Hcnt ltac:(intros s1 x1 E; cbn in E; apply andb_prop in E as [E _]; apply Nat.ltb_lt in E; auto) _ _ _ _ _ _ Hl). cbn [snd] in Hlen.
  assert (Hx := loop_count _ _ _ (neutral nbStep) c snd Hcnt _ _ _ _ _ _ Hl). cbn [snd] in Hx.
  assert (Hcl := Hl). apply (loop_climbs _ _ _ (neutral nbStep) c (fun s x => rb_ok s (fst x))) with
    (R := fun a b => neighbor nbrs move (geno a) (geno b) /\ steepest (geno a) (geno b) /\ not_worse a b) in Hcl; auto.
  2: { intros s1 x1 ds1 b s2 x2 ds2 H1 H2. destruct (neutral_turn _ _ _ _ _ _ _ _ H1 H2) as (B1 & B2 & B3 & B4 & B5). split; auto. destruct b; auto. right. split; [apply B5; auto|].
    cbn. rewrite B3, andb_false_r. auto. }
  2: { repeat split; auto; rewrite HG; auto. }
  apply (loop_chain _ _ _ (neutral nbStep) c (fun s x => rb_ok s (fst x))) with
    (R := fun a b => (neighbor nbrs move (geno a) (geno b) /\ steepest (geno a) (geno b) /\ not_worse a b) \/ b = a)
    (Stop := fun s x => no_better_or_equal (geno s) \/ nbStep <= snd x) in Hl; auto.
  - destruct Hl as (A0 & s' & x' & A1 & A2 & A3 & A4 & A5 & A6 & A7). cbn in A5. unfold as_is in A5. split; auto. split; [cbn [length]; lia|]. split; auto. split; [|split; [|split]].
    + constructor; auto. eapply Forall_impl; [|exact A7]. intros t [y Hy]. apply Hy.
    + rewrite A5, <- A2. change (last (start_of s :: r_visited r0) s) with (match r_visited r0 with [] => start_of s | _ => last (r_visited r0) s end). destruct (r_visited r0) eqn:Ev; [congruence|]. apply last_any.
    + rewrite A5. apply A1.
    + rewrite A5. intros E. destruct (A6 E) as [A8|A8]; auto. right. rewrite <- A4 in A8. cbn [length]. lia.
  - intros s1 x1 ds1 b s2 x2 ds2 H1 H2. destruct (neutral_turn _ _ _ _ _ _ _ _ H1 H2) as (B1 & B2 & B3 & B4 & B5).
    split; auto. split. { destruct b; auto. right. apply B5; auto. }
    cbn. intros E. apply andb_false_iff in E as [E|E].
    + right. apply Nat.ltb_ge in E. auto.
    + rewrite E in B3. subst b. destruct (B5 eq_refl) as [-> ?]. auto.
  - repeat split; auto; rewrite HG; auto.
Qed.

(** ** walks *)
Notation walk := (random_walk G F S I has nh neval move).
Notation nwalk := (neutral_walk G F S I eq has nh neval move xfuel).
Notation hc_ok := (hc_ok G F S I Sp Inv full).
Lemma walk_turn s x ds b s' x' ds' : hc_ok s x -> ls_turn _ _ walk s x ds = Ok (b, s', x', ds') ->
  hc_ok s' x' /\ h_acc F S I x' = b /\ (b = true -> neighbor nbrs move (geno s) (geno s')) /\ (b = false -> s' = s /\ nbrs (geno s) = []).
Proof.
  intros (HS & HE & HI) H. unfold ls_turn in H. cbn [x_explore x_accept x_move x_update random_walk] in H.
  apply rbind_ok in H as ([[s1 x1] ds1] & He & H). unfold walk_explore in He. destruct (has (geno s)) eqn:Hh.
  - apply rbind_ok in He as ([[p n] ds2] & Hst & E). injection E as <- <- <-. rewrite Hh in H. cbn [rbind] in H.
    destruct (start_spec G F S I Sp nbrs has nh Inv Prog xfuel cost full neval move NH MV s _ _ _ _ _ HS HE Hh HI Hst) as (Hi & Hp & HP & Hl).
    unfold hc_move in H. cbn in H. destruct (good_move G F I Sp nbrs full move s p Hp) as (g' & Hn & Hg & Hf & E). rewrite E in H. cbn in H. injection H as <- <- <- <-.
    split; [repeat split; auto; apply (nh_inv _ _ _ _ _ _ _ _ NH (geno s)); auto|]. split; auto. split; auto. discriminate.
  - injection He as <- <- <-. rewrite Hh in H. cbn in H. injection H as <- <- <- <-. split; [repeat split; auto|]. split; auto. split; [discriminate|].
    split; auto. apply (has_false G F S I Sp nbrs has nh Inv Prog xfuel cost NH s HS Hh).
Qed.
Theorem walk_run fuel s x cs ds r : Sp (geno s) -> not_stale full s -> Inv (h_nh F S I x) ->
  local_search full walk c fuel s x cs ds = Ok r ->
  climbs (fun a b => neighbor nbrs move (geno a) (geno b)) (r_visited r) /\
  nth_error (r_visited r) 0 = Some (start_of s) /\ Forall (evaluated full) (r_visited r) /\ r_final r = last (r_visited r) s /\
  Sp (geno (r_final r)) /\ (r_by_itself r = true -> nbrs (geno (r_final r)) = []).
Proof.
  intros HS HN HI H. destruct (run_split G F C full c _ _ _ _ _ _ _ _ H) as (x0 & ds0 & r0 & Hi & Hl & ->). cbn in Hi. injection Hi as <- <-.
  destruct (start_of_ok G F full s HN) as [HE HG]. assert (HOK : hc_ok (start_of s) (Hc F S I (h_nh F S I x) (h_sel F S I x) true)) by (repeat split; auto; rewrite HG; auto).
  cbn. split.
  - apply (loop_climbs _ _ _ walk c hc_ok) with (R := fun a b => neighbor nbrs move (geno a) (geno b)) in Hl; auto.
    intros s1 x1 ds1 b s2 x2 ds2 H1 H2. destruct (walk_turn _ _ _ _ _ _ _ H1 H2) as (A1 & A2 & A3 & A4).
    split; auto. destruct b; auto. right. split; [apply A4; auto|]. auto.
  - split; auto. apply (loop_chain _ _ _ walk c hc_ok) with (R := fun a b => True) (Stop := fun s _ => nbrs (geno s) = []) in Hl; auto.
    + destruct Hl as (_ & s' & x' & A1 & A2 & A3 & A4 & A5 & A6 & A7). cbn in A5. unfold as_is in A5. split; [|split; [|split]].
      * constructor; auto. eapply Forall_impl; [|exact A7]. intros t [y Hy]. apply Hy.
      * rewrite A5, <- A2. destruct (r_visited r0) eqn:Ev; [congruence|]. apply last_any.
      * rewrite A5. apply A1.
      * rewrite A5. auto.
    + intros s1 x1 ds1 b s2 x2 ds2 H1 H2. destruct (walk_turn _ _ _ _ _ _ _ H1 H2) as (B1 & B2 & B3 & B4).
      split; auto. split; auto. cbn. intros E. rewrite E in B2. subst b. destruct (B4 eq_refl) as [-> ?]. auto.
Qed.
Definition neutral_neighbor (g g' : G) : Prop := neighbor nbrs move g g' /\ full g' = full g.
Lemma nwalk_turn nbStep s x ds b s' x' ds' : hc_ok s (fst x) -> ls_turn _ _ (nwalk nbStep) s x ds = Ok (b, s', x', ds') ->
  hc_ok s' (fst x') /\ snd x' = Datatypes.S (snd x) /\ h_acc F S I (fst x') = b /\
  (b = true -> neutral_neighbor (geno s) (geno s')) /\ (b = false -> s' = s /\ forall g', ~ neutral_neighbor (geno s) g').
Proof.
  intros (HS & HE & HI) H. destruct x as [x k]. cbn [fst snd] in *. unfold ls_turn in H. cbn [x_explore x_accept x_move x_update neutral_walk] in H.
  apply rbind_ok in H as ([[s1 x1] ds1] & He & H). unfold nwalk_explore in He. destruct (has (geno s)) eqn:Hh.
  - apply rbind_ok in He as ([[p n] ds2] & Hst & He). unfold fitness in He. unfold evaluated in HE. rewrite HE in He. cbn [rbind] in He.
    apply rbind_ok in He as ([[q n'] ds3] & Hsc & E). injection E as <- <- <-. unfold nwalk_accept in H. rewrite Hh in H. cbn [get h_sel rbind] in H. unfold equals, fitness in H. rewrite HE in H. cbn [rbind] in H.
    destruct (start_spec G F S I Sp nbrs has nh Inv Prog xfuel cost full neval move NH MV s _ _ _ _ _ HS HE Hh HI Hst) as (Hi & Hp & HP & Hl).
    destruct (scan_until G F S I Sp nbrs has nh Inv Prog xfuel cost full neval move NH MV (eq (full (geno s))) s HS HE _ _ _ _ _ _ _ HP Hp Hsc) as (X1 & X2 & X3 & X4).
    assert (HI' : Inv n') by (apply (nh_inv _ _ _ _ _ _ _ _ NH (geno s)); auto).
    destruct (eq (full (geno s)) (snd q)) eqn:Eq.
    + cbn in H. destruct (good_move G F I Sp nbrs full move s q X1) as (g' & Hn & Hg & Hf & E). unfold hc_move in H. cbn in H. rewrite E in H. cbn in H. injection H as <- <- <- <-.
      split; [repeat split; auto|]. split; auto. split; auto. split; [|discriminate]. intros _. split; auto. cbn. apply EQ in Eq. congruence.
    + cbn in H. injection H as <- <- <- <-. split; [repeat split; auto|]. split; auto. split; auto. split; [discriminate|]. intros _. split; auto.
      intros g' [Hn Hf]. destruct (X4 eq_refl) as (ys & Y1 & Y2).
      assert (Hall := explore_all G F S I Sp nbrs has nh Inv Prog xfuel cost NH s _ _ p _ _ _ _ _ _ HS Hh HI Hi Y1).
      destruct (neighbor_good G F I Sp nbrs full neval move MV s g' HS Hn) as (i & Hin & _ & Hg). specialize (Y2 i (full g') (Hall i Hin) Hg). rewrite Hf in Y2.
      assert (eq (full (geno s)) (full (geno s)) = true) by (apply EQ; auto). congruence.
  - injection He as <- <- <-. unfold nwalk_accept in H. rewrite Hh in H. cbn in H. injection H as <- <- <- <-. cbn. split; [repeat split; auto|]. split; auto. split; auto. split; [discriminate|].
    split; auto. intros g' [(i & Hi & _) _]. rewrite (has_false G F S I Sp nbrs has nh Inv Prog xfuel cost NH s HS Hh) in Hi. destruct Hi.
Qed.
Theorem nwalk_run nbStep fuel s x cs ds r : Sp (geno s) -> not_stale full s -> Inv (h_nh F S I (fst x)) ->
  local_search full (nwalk nbStep) c fuel s x cs ds = Ok r ->
  climbs (fun a b => neutral_neighbor (geno a) (geno b)) (r_visited r) /\
  Forall (fun t => evaluated full t /\ full (geno t) = full (geno s)) (r_visited r) /\
  nth_error (r_visited r) 0 = Some (start_of s) /\ r_final r = last (r_visited r) s /\
  Sp (geno (r_final r)) /\ (r_by_itself r = true -> (forall g', ~ neutral_neighbor (geno (r_final r)) g') \/ nbStep < length (r_visited r)) /\ length (r_visited r) <= 1 + Nat.max 1 nbStep.
Proof.
  intros HS HN HI H. destruct (run_split G F C full c _ _ _ _ _ _ _ _ H) as (x0 & ds0 & r0 & Hi & Hl & ->). cbn in Hi. injection Hi as <- <-.
  destruct (start_of_ok G F full s HN) as [HE HG].
  assert (HOK : hc_ok (start_of s) (Hc F S I (h_nh F S I (fst x)) (h_sel F S I (fst x)) true)) by (repeat split; auto; rewrite HG; auto).
  assert (Hcnt : forall s x ds b s' x' ds', ls_turn _ _ (nwalk nbStep) s x ds = Ok (b, s', x', ds') -> snd x' = Datatypes.S (snd x)).
  { clear. intros s [x k] ds b s' x' ds' H. unfold ls_turn in H. cbn [x_explore x_accept x_move x_update neutral_walk] in H.
    apply rbind_ok in H as ([[s1 x1] ds1] & He & H). assert (snd x1 = k). { unfold nwalk_explore in He. destruct (has (geno s)); [|injection He as <- <- <-; auto]. apply rbind_ok in He as ([[p n] ds2] & _ & He). apply rbind_ok in He as (f & _ & He). apply rbind_ok in He as ([[q n'] ds3] & _ & He). injection He as <- <- <-. auto. }
    apply rbind_ok in H as ([[b1 x2] ds2] & Ha & H). assert (snd x2 = k).
    { unfold nwalk_accept in Ha. destruct x1 as [y k1]. cbn in *. subst k1. destruct (has (geno s1)); [|injection Ha as <- <- <-; auto]. inv_res. auto. }
    apply rbind_ok in H as ([[s2 x3] ds3] & Hm & H). injection H as <- <- <- <-. cbn. f_equal. destruct b1; [|injection Hm as <- <- <-; auto].
    apply rbind_ok in Hm as ([[s4 x4] ds4] & Hm & E). injection E as <- <- <-. auto. }
  cbn [r_visited r_final r_by_itself].
  assert (Hlen := loop_length _ _ _ (nwalk nbStep) c snd nbStep Hcnt ltac:(intros s1 x1 E; cbn in E; apply andb_prop in E as [E _]; apply Nat.ltb_lt in E; auto) _ _ _ _ _ _ Hl). cbn [snd] in Hlen.
  assert (Hx := loop_count _ _ _ (nwalk nbStep) c snd Hcnt _ _ _ _ _ _ Hl). cbn [snd] in Hx. split.
  - apply (loop_climbs _ _ _ (nwalk nbStep) c (fun s x => hc_ok s (fst x))) with (R := fun a b => neutral_neighbor (geno a) (geno b)) in Hl; auto.
    intros s1 x1 ds1 b s2 x2 ds2 H1 H2. destruct (nwalk_turn _ _ _ _ _ _ _ _ H1 H2) as (A1 & A2 & A3 & A4 & A5).
    split; auto. destruct b; auto. right. split; [apply A5; auto|]. cbn. rewrite A3. apply andb_false_r.
  - apply (loop_chain _ _ _ (nwalk nbStep) c (fun s x => hc_ok s (fst x))) with (R := fun a b => full (geno a) = full (geno b))
      (Stop := fun s x => (forall g', ~ neutral_neighbor (geno s) g') \/ nbStep <= snd x) in Hl; auto.
    + destruct Hl as (A0 & s' & x' & A1 & A2 & A3 & A4 & A5 & A6 & A7). cbn in A5. unfold as_is in A5. split; [|split; [|split; [|split; [|split]]]]; auto; [| | | |cbn [length]; lia].
      * apply Forall_forall. intros t Ht. split.
        -- destruct Ht as [<-|Ht]; auto. rewrite Forall_forall in A7. destruct (A7 t Ht) as [y Hy]. apply Hy.
        -- rewrite <- HG. symmetry. apply (chain_first (fun a b => full (geno a) = full (geno b))) with (l := r_visited r0); auto. intros; congruence.
      * rewrite A5, <- A2. change (last (start_of s :: r_visited r0) s) with (match r_visited r0 with [] => start_of s | _ => last (r_visited r0) s end). destruct (r_visited r0) eqn:Ev; [congruence|]. apply last_any.
      * rewrite A5. apply A1.
      * rewrite A5. intros E. destruct (A6 E) as [A8|A8]; auto. right. rewrite <- A4 in A8. cbn [length]. lia.
    + intros s1 x1 ds1 b s2 x2 ds2 H1 H2. destruct (nwalk_turn _ _ _ _ _ _ _ _ H1 H2) as (B1 & B2 & B3 & B4 & B5).
      split; auto. split. { destruct b; [destruct (B4 eq_refl); auto|destruct (B5 eq_refl) as [-> _]; auto]. }
      cbn. intros E. apply andb_false_iff in E as [E|E]; [right; apply Nat.ltb_ge; auto|]. rewrite E in B3. subst b. destruct (B5 eq_refl) as [-> ?]. auto.
Qed.
End Neutral.
