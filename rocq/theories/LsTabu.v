(** Tabu search. *)
From Coq Require Import List Arith Bool Lia.
From Verif Require Import Outcome Lib OrderSpec NeighModel LsModel LsSpec LsProofs LsClimb.
Import ListNotations.
Open Scope nat_scope.

Section TabuProofs.
Variables (G F S I C M : Type) (lt : F -> F -> bool) (Sp : G -> Prop) (nbrs : G -> list I) (has : G -> bool) (nh : G -> iterator S I).
Variables (Inv : S -> Prop) (Prog : G -> S -> Prop) (xfuel cost : nat).
Variables (full : G -> F) (neval : sol G F -> I -> res F) (move : I -> G -> res G) (c : continuator (sol G F) C).
Variable ms : memories G F I M.
Hypothesis LT : strict_weak_order lt.
Hypothesis NH : neighborhood_ok Sp nbrs has nh Inv Prog xfuel cost.
Hypothesis MV : moves_ok Sp nbrs full neval move.
Notation sol := (sol G F).
Notation good := (good G F I Sp nbrs full move).
Notation tabu := (tabu_search G F S I lt has nh neval move xfuel M ms).
Notation admissible := (admissible G F I M ms).
Notation start_of := (started full).
Hypothesis INT : keeps_evaluated Sp full (m_intensify _ _ _ _ ms).
Hypothesis DIV : keeps_evaluated Sp full (m_diversify _ _ _ _ ms).
Definition ts_ok (s : sol) (x : ts G F S I M) : Prop :=
  Sp (geno s) /\ evaluated full s /\ Inv (t_nh _ _ _ _ _ x) /\ evaluated full (t_best _ _ _ _ _ x).

(** what one exploration selects *)
Lemma ts_explore_spec s x ds s1 x1 ds1 : ts_ok s x -> ts_explore G F S I lt has nh neval xfuel M ms s x ds = Ok (s1, x1, ds1) ->
  exists sa ma dsa dsb, m_intensify _ _ _ _ ms s (t_mem _ _ _ _ _ x) ds = Ok (sa, ma, dsa) /\
    m_diversify _ _ _ _ ms sa ma dsa = Ok (s1, t_mem _ _ _ _ _ x1, dsb) /\
  Sp (geno s1) /\ evaluated full s1 /\ Inv (t_nh _ _ _ _ _ x1) /\ t_best _ _ _ _ _ x1 = t_best _ _ _ _ _ x /\
  (t_acc _ _ _ _ _ x1 = true -> exists q, t_sel _ _ _ _ _ x1 = Some q /\ good s1 q /\ admissible s1 (t_mem _ _ _ _ _ x1) q = Ok true /\
     forall i f, good s1 (i, f) -> admissible s1 (t_mem _ _ _ _ _ x1) (i, f) = Ok true -> lt (snd q) f = false) /\
  (t_acc _ _ _ _ _ x1 = false -> forall i f, good s1 (i, f) -> admissible s1 (t_mem _ _ _ _ _ x1) (i, f) = Ok false).
Proof.
  intros (HS & HE & HI & HB) H. unfold ts_explore in H.
  apply rbind_ok in H as ([[sa ma] dsa] & Ha & H). apply rbind_ok in H as ([[sd m] dsd] & Hd & H).
  destruct (INT _ _ _ _ _ _ HS HE Ha) as [HSa HEa]. destruct (DIV _ _ _ _ _ _ HSa HEa Hd) as [HSd HEd].
  exists sa, ma, dsa, dsd. split; auto. destruct (has (geno sd)) eqn:Hh.
  - apply rbind_ok in H as ([[p n] ds2] & Hst & H). apply rbind_ok in H as (okp & Hok & H). apply rbind_ok in H as ([[o n1] ds3] & Hsc & H).
    destruct (start_spec G F S I Sp nbrs has nh Inv Prog xfuel cost full neval move NH MV sd _ _ _ _ _ HSd HEd Hh HI Hst) as (Hi & Hp & HP & Hl).
    pose (Q := fun (a : option (I * F)) (seen : list I) => match a with
      | Some q => good sd q /\ admissible sd m q = Ok true /\ forall i f, In i seen -> good sd (i, f) -> admissible sd m (i, f) = Ok true -> i = fst q
      | None => forall i f, In i seen -> good sd (i, f) -> admissible sd m (i, f) = Ok false end).
    destruct (fun A B => scan_inv G F S I Sp nbrs has nh Inv Prog xfuel cost full neval move NH MV _ _ sd Q HSd HEd A _ _ [fst p] _ _ _ _ _ HP B Hsc)
      as (xs & X1 & X2 & X3 & X4 & X5).
    { intros a seen i f a' Hs HQ Hg E. destruct a as [q|]; [discriminate|]. apply rbind_ok in E as (b & Hb & E). injection E as <-. destruct b; cbn in *.
      - split; [auto|]. split; [auto|]. intros j fj Hj Hgj Hadm. apply in_app_or in Hj as [Hj|[<-|[]]]; auto. rewrite (HQ j fj Hj Hgj) in Hadm. discriminate.
      - intros j fj Hj Hgj. apply in_app_or in Hj as [Hj|[<-|[]]]; auto. rewrite <- (good_eq G F I Sp nbrs full move sd i f fj Hg Hgj). auto. }
    { destruct p as [i0 f0]. destruct okp; cbn.
      - split; [auto|]. split; [auto|]. intros j fj [<-|[]] _ _. auto.
      - intros j fj [<-|[]] Hgj. rewrite <- (good_eq G F I Sp nbrs full move sd i0 f0 fj Hp Hgj). auto. }
    destruct o as [q|].
    + destruct X1 as (Q1 & Q2 & Q3). apply rbind_ok in H as ([[q' n2] ds4] & Hsc2 & H). injection H as <- <- <-. cbn.
      destruct (fun A B => scan_inv G F S I Sp nbrs has nh Inv Prog xfuel cost full neval move NH MV (fun _ => false) _ sd
        (fun a seen => good sd a /\ admissible sd m a = Ok true /\ forall i f, In i seen -> good sd (i, f) -> admissible sd m (i, f) = Ok true -> lt (snd a) f = false) HSd HEd A _ _ ([fst p] ++ xs) _ _ _ _ _ X2 B Hsc2)
        as (ys & Y1 & Y2 & Y3 & Y4 & Y5).
      { destruct LT as (L1 & L2 & L3). intros a seen i f a' _ (A1 & A2 & A3) Hg E. apply rbind_ok in E as (b & Hb & E). injection E as <-. cbn [snd].
        destruct (b && lt (snd a) f) eqn:Eb.
        - apply andb_prop in Eb as [-> El]. split; [auto|]. split; [auto|]. intros j fj Hj Hgj Hadm. cbn [snd]. apply in_app_or in Hj as [Hj|[<-|[]]].
          + apply (L3 f (snd a) fj); [|apply (A3 j); auto]. destruct (lt f (snd a)) eqn:Ef; auto. rewrite <- (L2 (snd a) f (snd a) El Ef). apply L1.
          + rewrite (good_eq G F I Sp nbrs full move sd i f fj Hg Hgj). apply L1.
        - split; [auto|]. split; [auto|]. intros j fj Hj Hgj Hadm. apply in_app_or in Hj as [Hj|[<-|[]]]; [apply (A3 j); auto|].
          rewrite <- (good_eq G F I Sp nbrs full move sd i f fj Hg Hgj) in *. rewrite Hadm in Hb. injection Hb as <-. auto. }
      { split; [auto|]. split; [auto|]. intros i f Hi' Hg Hadm. assert (i = fst q) as -> by (apply (Q3 i f); auto). destruct q as [i0 f0]. cbn in *.
        rewrite <- (good_eq G F I Sp nbrs full move sd i0 f0 f Q1 Hg). apply LT. }
      destruct Y4 as [Y4|Y4]; [discriminate|]. destruct (Y5 0 [] n2 ds4) as (k & Hk); [cbn; rewrite Y4; auto|]. rewrite app_nil_r in Hk.
      destruct (X5 k ys n2 ds4 Hk) as (k' & Hk'). assert (Hall := explore_all G F S I Sp nbrs has nh Inv Prog xfuel cost NH sd _ _ p _ _ _ _ _ _ HSd Hh HI Hi Hk').
      split; auto. split; auto. split; auto. split; [apply (nh_inv _ _ _ _ _ _ _ _ NH (geno sd)); auto|]. split; auto. split; [|discriminate]. intros _.
      exists q'. destruct Y1 as (Y6 & Y7 & Y8). split; auto. split; auto. split; auto. intros i f Hg Hadm. apply (Y8 i f); auto.
      rewrite <- app_assoc. apply Hall, Hg.
    + injection H as <- <- <-. cbn. destruct X4 as [X4|X4]; [discriminate|]. destruct (X5 0 [] n1 ds3) as (k & Hk); [cbn; rewrite X4; auto|]. rewrite app_nil_r in Hk.
      assert (Hall := explore_all G F S I Sp nbrs has nh Inv Prog xfuel cost NH sd _ _ p _ _ _ _ _ _ HSd Hh HI Hi Hk).
      split; auto. split; auto. split; auto. split; [apply (nh_inv _ _ _ _ _ _ _ _ NH (geno sd)); auto|]. split; auto. split; [discriminate|]. intros _ i f Hg.
      apply X1; auto. apply Hall, Hg.
  - injection H as <- <- <-. cbn. split; auto. split; auto. split; auto. split; auto. split; auto. split; [discriminate|].
    intros _ i f [Hi _]. rewrite (has_false G F S I Sp nbrs has nh Inv Prog xfuel cost NH sd HSd Hh) in Hi. destruct Hi.
Qed.
Lemma admissible_true s m p : admissible s m p = Ok true <-> allowed ms s m (fst p) (snd p).
Proof.
  destruct p as [i f]. unfold LsModel.admissible, allowed. cbn [fst snd]. destruct (m_tabu G F I M ms s (i, f) m) as [[|]| | |]; cbn; split; auto.
  all: intros H; try discriminate; try (destruct H as [H|[H _]]; discriminate); auto.
  destruct H as [H|[_ H]]; [discriminate|auto].
Qed.
Theorem ts_turn s x ds b s' x' ds' : ts_ok s x -> ls_turn _ _ tabu s x ds = Ok (b, s', x', ds') ->
  exists s1 m1 ds1 s2 m2 ds2, m_intensify _ _ _ _ ms s (t_mem _ _ _ _ _ x) ds = Ok (s1, m1, ds1) /\
    m_diversify _ _ _ _ ms s1 m1 ds1 = Ok (s2, m2, ds2) /\ Sp (geno s2) /\ evaluated full s2 /\ ts_ok s' x' /\
  (b = true -> exists i m3 ds3 ds4, best_admissible lt nbrs full move (allowed ms s2 m2) (geno s2) i (geno s') /\
     m_add _ _ _ _ ms s' (Some (i, full (geno s'))) m2 ds3 = Ok (m3, ds4) /\
     t_mem _ _ _ _ _ x' = m_update _ _ _ _ ms s' (Some (i, full (geno s'))) m3 /\
     t_best _ _ _ _ _ x' = (if lt (full (geno (t_best _ _ _ _ _ x))) (full (geno s')) then s' else t_best _ _ _ _ _ x)) /\
  (b = false -> s' = s2 /\ none_admissible nbrs full move (allowed ms s2 m2) (geno s2) /\ t_best _ _ _ _ _ x' = t_best _ _ _ _ _ x /\
     exists q, t_mem _ _ _ _ _ x' = m_update _ _ _ _ ms s' q m2).
Proof.
  intros HOK H. unfold ls_turn in H. cbn [x_explore x_accept x_move x_update tabu_search] in H.
  apply rbind_ok in H as ([[s1 x1] ds1] & He & H). destruct (ts_explore_spec _ _ _ _ _ _ HOK He) as (sa & ma & dsa & dsb & E1 & E2 & HS & HE & HI & HB & Hacc & Hno).
  destruct HOK as (_ & _ & _ & HBE). cbn [rbind] in H.
  exists sa, ma, dsa, s1, (t_mem _ _ _ _ _ x1), dsb. split; auto. split; auto. split; auto. split; auto.
  destruct (t_acc G F S I M x1) eqn:Ea.
  - destruct (Hacc eq_refl) as (q & Hq & Hg & Hadm & Hbest). rewrite Hq in H. cbn [get rbind] in H.
    destruct (good_move G F I Sp nbrs full move s1 q Hg) as (g' & _ & Hg' & Hf & E). rewrite E in H. cbn [rbind] in H.
    apply rbind_ok in H as ([x4 ds4] & Hu & H). injection H as <- <- <- <-. unfold ts_update in Hu.
    apply rbind_ok in Hu as ([[m4 best] ds5] & Hm & Hu). injection Hu as <- <-. apply rbind_ok in Hm as ([m5 ds6] & Hadd & Hm).
    unfold fitness in Hm. cbn [fit rbind] in Hm. rewrite HB in Hm. unfold evaluated in HBE. rewrite HBE in Hm. cbn [rbind] in Hm. injection Hm as <- <- <-.
    rewrite Hq in Hadd |- *. destruct q as [i f]. cbn [fst snd] in *. subst f. cbn [geno].
    split.
    + unfold ts_ok. cbn. split; auto. split; [reflexivity|]. split; auto. destruct (lt _ _); [reflexivity|auto].
    + split; [|discriminate]. intros _. exists i, m5, ds1, ds6. split; [|split; [auto|split; [reflexivity|]]].
      * destruct Hg as [Hi (g2 & Hmv & _)]. cbn in *. unfold move_to in E. cbn [fst] in E. rewrite Hmv in E. cbn in E. injection E as ->.
        split; auto. split; auto. split; [apply admissible_true in Hadm; auto|]. intros j h Hj Hh Ha.
        apply (Hbest j (full h)); [|apply admissible_true; auto]. split; auto. cbn. exists h. split; auto. split; auto.
        destruct (MV _ j HS Hj) as (h2 & Hh2 & Hs2 & _). rewrite Hh in Hh2. injection Hh2 as <-. auto.
      * cbn. auto.
  - cbn [rbind] in H. apply rbind_ok in H as ([x4 ds4] & Hu & H). injection H as <- <- <- <-. unfold ts_update in Hu. cbn [rbind] in Hu. injection Hu as <- <-. cbn.
    split.
    + unfold ts_ok. cbn. split; auto. split; auto. split; auto. rewrite HB. auto.
    + split; [discriminate|]. intros _. split; auto. split; [|split; [auto|eexists; reflexivity]]. intros j h Hj Hh Ha.
      assert (Hf : admissible s1 (t_mem G F S I M x1) (j, full h) = Ok false).
      { apply (Hno eq_refl). split; auto. cbn. exists h. split; auto. split; auto. destruct (MV _ j HS Hj) as (h2 & Hh2 & Hs2 & _). rewrite Hh in Hh2. injection Hh2 as <-. auto. }
      assert (Ht : admissible s1 (t_mem G F S I M x1) (j, full h) = Ok true) by (apply admissible_true; auto). rewrite Hf in Ht. discriminate.
Qed.
Hypothesis INT' : leaves_solution (m_intensify _ _ _ _ ms).
Hypothesis DIV' : leaves_solution (m_diversify _ _ _ _ ms).
(** one turn of the walk: the best admissible move, or none if no move is admissible *)
Definition ts_step (a b : sol) : Prop :=
  exists m, (exists i, best_admissible lt nbrs full move (allowed ms a m) (geno a) i (geno b)) \/
            (b = a /\ none_admissible nbrs full move (allowed ms a m) (geno a)).
Lemma ts_loop fuel : forall s x cs ds r, ts_ok s x -> lt (full (geno (t_best _ _ _ _ _ x))) (full (geno s)) = false ->
  ls_loop _ _ _ tabu c fuel s x cs ds = Ok r ->
  chain ts_step (s :: r_visited r) /\ Forall (evaluated full) (r_visited r) /\
  (r_final r = t_best _ _ _ _ _ x \/ In (r_final r) (r_visited r)) /\
  (forall v, In v (t_best _ _ _ _ _ x :: r_visited r) -> lt (full (geno (r_final r))) (full (geno v)) = false) /\ r_by_itself r = false.
Proof.
  destruct LT as (L1 & L2 & L3).
  assert (asym : forall a b, lt a b = true -> lt b a = false).
  { intros a b H. destruct (lt b a) eqn:E; auto. rewrite <- (L2 a b a H E). apply L1. }
  induction fuel as [|f IH]; intros s x cs ds r HOK Hb H; [discriminate|]. cbn [ls_loop] in H.
  apply rbind_ok in H as ([[[b s'] x'] ds'] & Ht & H).
  destruct (ts_turn _ _ _ _ _ _ _ HOK Ht) as (s1 & m1 & ds1 & s2 & m2 & ds2 & E1 & E2 & _ & _ & HOK' & Hy & Hn).
  apply INT' in E1. apply DIV' in E2. subst s1 s2.
  assert (Hstep : ts_step s s').
  { exists m2. destruct b; [left; destruct (Hy eq_refl) as (i & m3 & d3 & d4 & A & _); eauto|right; destruct (Hn eq_refl) as (A & B & _); auto]. }
  assert (HB : (t_best _ _ _ _ _ x' = t_best _ _ _ _ _ x \/ t_best _ _ _ _ _ x' = s') /\ lt (full (geno (t_best _ _ _ _ _ x'))) (full (geno s')) = false /\
     lt (full (geno (t_best _ _ _ _ _ x'))) (full (geno (t_best _ _ _ _ _ x))) = false).
  { destruct b.
    - destruct (Hy eq_refl) as (i & m3 & d3 & d4 & _ & _ & _ & A). rewrite A. destruct (lt (full (geno (t_best G F S I M x))) (full (geno s'))) eqn:El; auto.
    - destruct (Hn eq_refl) as (-> & _ & A & _). rewrite A. auto. }
  destruct HB as (HB1 & HB2 & HB3).
  assert (HE' : evaluated full s') by apply HOK'.
  cbn [x_continue x_terminate tabu_search] in H. destruct (c_step c s' cs) as [go cs']. destruct go; cbn [andb] in H.
  - apply rbind_ok in H as (r' & Hr & H). injection H as <-. cbn [r_visited r_final r_by_itself].
    destruct (IH _ _ _ _ _ HOK' HB2 Hr) as (K1 & K2 & K3 & K4 & K5).
    split; [apply chain_cons; auto|]. split; [constructor; auto|]. split; [|split; [|auto]].
    + destruct K3 as [K3|K3]; [|right; right; auto]. rewrite K3. destruct HB1 as [->| ->]; [left|right; left]; auto.
    + intros v [<-|[<-|Hv]].
      * apply (L3 _ (full (geno (t_best _ _ _ _ _ x')))); auto. apply K4. left. auto.
      * apply (L3 _ (full (geno (t_best _ _ _ _ _ x')))); auto. apply K4. left. auto.
      * apply K4. right. auto.
  - injection H as <-. cbn [r_visited r_final r_by_itself].
    split; [apply chain_cons; auto using chain_one|]. split; [constructor; auto|]. split; [|split; auto].
    + destruct HB1 as [->| ->]; [left|right; left]; auto.
    + intros v [<-|[<-|[]]]; auto.
Qed.
Theorem ts_run fuel s x cs ds r : Sp (geno s) -> not_stale full s -> Inv (t_nh _ _ _ _ _ x) ->
  local_search full tabu c fuel s x cs ds = Ok r ->
  nth_error (r_visited r) 0 = Some (start_of s) /\ chain ts_step (r_visited r) /\ Forall (evaluated full) (r_visited r) /\
  best_of lt full (r_visited r) (r_final r) /\ evaluated full (r_final r).
Proof.
  intros HS HN HI H. apply run_split in H as (x0 & ds0 & r0 & Hi & Hl & ->). cbn [x_init tabu_search] in Hi. injection Hi as <- <-.
  destruct (start_of_ok G F full s HN) as [HE HG].
  apply ts_loop in Hl as (K1 & K2 & K3 & K4 & K5).
  - cbn [r_visited r_final t_best] in *. assert (HF : Forall (evaluated full) (start_of s :: r_visited r0)) by (constructor; auto).
    assert (HIn : In (r_final r0) (start_of s :: r_visited r0)) by (destruct K3 as [->|K3]; [left|right]; auto).
    split; auto. split; auto. split; auto. split; [split; auto|]. rewrite Forall_forall in HF. auto.
  - unfold ts_ok. cbn [t_nh t_best]. rewrite HG. auto.
  - cbn [t_best]. apply LT.
Qed.
End TabuProofs.
