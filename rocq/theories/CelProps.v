(** C153-C155: the cellular algorithm, the simple EDA, evaluations that throw, and clocks. *)
From Coq Require Import Arith Bool ZArith Lia.
From Verif Require Import Lib Outcome OrderSpec OrderLemmas BreedModel AlgoModel AlgoSpec CelModel CelSpec CelProofs CelClock.
From Coq Require Import List.
Import ListNotations.
Local Open Scope nat_scope.

(** ** C153 *)

(** a run of eoCellularEasyEA ends at the first generation the continuator refuses and leaves that
    population; the number of cells never changes, and what a cell holds at the end is what it held
    at the beginning or an individual carrying the fitness of its genotype *)
Theorem C153_cellular_run : forall (G F W : Type) (value : G -> F) neighbours sel_neigh sel_child sel_repl cross mut eval cont
    fuel (pop : list (indiv G F)) (w : W) r tr w',
  picks sel_child -> picks sel_repl -> evaluates value eval ->
  cellular neighbours sel_neigh sel_child sel_repl cross mut eval cont fuel pop w = Ok (r, tr, w') ->
  (exists before, tr = before ++ [r]) /\ stops_at_first_no cont tr /\ (forall p, In p tr -> renewed value pop p) /\
  renewed value pop r /\ (Forall (evaluated value) pop -> Forall (evaluated value) r).
Proof.
  intros G F W value neighbours sel_neigh sel_child sel_repl cross mut eval cont fuel pop w r tr w' Pc Pr He H.
  destruct (cellular_trace _ _ _ _ _ _ _ _ _ _ _ _ _ _ H) as (_ & Hb & Hs).
  destruct (cellular_renews _ _ _ _ _ _ _ _ value Pc Pr He _ _ _ _ _ _ H) as [K1 K2].
  split; [exact Hb|]. split; [exact Hs|]. split; [exact K2|]. split; [exact K1|]. apply renewed_evaluated. exact K1.
Qed.

(** with a replacement that keeps the better one, no cell ever gets worse *)
Theorem C153_cellular_never_worse : forall (G F W : Type) (value : G -> F) ltb neighbours sel_neigh sel_child sel_repl cross mut eval cont
    fuel (pop : list (indiv G F)) (w : W) r tr w',
  strict_weak_order ltb -> picks sel_child -> picks_best ltb sel_repl -> evaluates value eval -> Forall (evaluated value) pop ->
  cellular neighbours sel_neigh sel_child sel_repl cross mut eval cont fuel pop w = Ok (r, tr, w') ->
  forall i j p q, i <= j -> nth_error (pop :: tr) i = Some p -> nth_error (pop :: tr) j = Some q -> no_worse ltb p q.
Proof.
  intros G F W value ltb neighbours sel_neigh sel_child sel_repl cross mut eval cont fuel pop w r tr w' Hl Pc Pr He Hv H.
  exact (cellular_no_worse _ _ _ _ _ _ _ _ ltb Hl value Pc Pr He fuel pop w r tr w' Hv H).
Qed.

(** every cell is visited: when the child always replaces the old individual, all that is left is children *)
Theorem C153_cellular_every_cell : forall (G F W : Type) (Q : indiv G F -> Prop) neighbours sel_neigh sel_child sel_repl cross mut eval cont
    fuel (pop : list (indiv G F)) (w : W) r tr w',
  picks sel_child -> (forall child old w, sel_repl [child; old] w = Ok (child, w)) ->
  (forall x w x' w', eval x w = Ok (x', w') -> Q x') ->
  cellular neighbours sel_neigh sel_child sel_repl cross mut eval cont fuel pop w = Ok (r, tr, w') ->
  forall p, In p tr -> length p = length pop /\ Forall Q p.
Proof.
  intros G F W Q neighbours sel_neigh sel_child sel_repl cross mut eval cont fuel pop w r tr w' Pc Pr He H.
  assert (K : forall todo i pop w pop' w', cell_sweep neighbours sel_neigh sel_child sel_repl cross mut eval todo i pop w = Ok (pop', w') ->
    length pop' = length pop /\ forall j y, nth_error pop' j = Some y -> (i <= j < i + todo -> Q y) /\ (~ i <= j < i + todo -> nth_error pop j = Some y)).
  { induction todo as [|t IH]; intros i q u q' u' K; cbn [cell_sweep] in K; [injection K as <- <-; split; auto; intros j y E; split; [lia|auto]|].
    apply rbind_ok in K as ([q1 u1] & K1 & K2). destruct (IH _ _ _ _ _ K2) as [L1 K3].
    unfold cell_step in K1. apply rbind_ok in K1 as ([ne v1] & _ & K1). apply rbind_ok in K1 as (old & _ & K1). apply rbind_ok in K1 as ([part v2] & _ & K1).
    apply rbind_ok in K1 as ([[[x part2] b2] v3] & _ & K1). apply rbind_ok in K1 as ([[x2 b3] v4] & _ & K1). apply rbind_ok in K1 as ([[part3 b4] v5] & _ & K1).
    apply rbind_ok in K1 as ([x3 v6] & Q1 & K1). apply rbind_ok in K1 as ([part4 v7] & Q2 & K1). apply rbind_ok in K1 as ([child v8] & Q3 & K1).
    rewrite Pr in K1. cbn [rbind] in K1. apply rbind_ok in K1 as (q2 & Eu & K1). injection K1 as <- <-. apply of_opt_ok in Eu.
    assert (HQ : Q child) by (apply Pc in Q3; destruct Q3 as [<-|[<-|[]]]; eauto).
    apply upd_some in Eu as [Hi ->]. rewrite set_length in L1. split; auto. intros j y E. destruct (K3 j y E) as [K4 K5]. split.
    - intros Hj. destruct (Nat.eq_dec j i) as [->|Hn]; [|apply K4; lia]. assert (E2 := K5 ltac:(lia)). rewrite nth_error_set_eq in E2 by auto. injection E2 as <-. auto.
    - intros Hj. assert (E2 := K5 ltac:(lia)). rewrite nth_error_set_neq in E2 by lia. auto. }
  revert pop w r tr w' H. induction fuel as [|f IH]; intros pop w r tr w' H p Hp; cbn [cellular] in H; [discriminate|].
  apply rbind_ok in H as ([p1 w1] & H1 & H). apply rbind_ok in H as ([b w2] & _ & H). destruct (K _ _ _ _ _ _ H1) as [L1 K1].
  assert (G1 : Forall Q p1). { apply Forall_forall. intros y Hy. apply In_nth_error in Hy as [j Hj]. apply (K1 _ _ Hj). apply nth_error_lt in Hj. lia. }
  destruct b.
  - apply rbind_ok in H as ([[r' tr'] w3] & H2 & H). injection H as <- <- <-. destruct Hp as [<-|Hp]; auto. rewrite <- L1. eapply IH; eauto.
  - injection H as <- <- <-. destruct Hp as [<-|[]]; auto.
Qed.
(** what the crossover and the mutation preserve, the algorithm preserves *)
Theorem C153_cellular_genotypes : forall (G F W : Type) (P : G -> Prop) neighbours sel_neigh sel_child sel_repl cross mut eval cont
    fuel (pop : list (indiv G F)) (w : W) r tr w',
  (forall p i w n w', neighbours p i w = Ok (n, w') -> incl n p) -> picks sel_neigh -> picks sel_child -> picks sel_repl ->
  (forall x y w x' y' b w', cross x y w = Ok (x', y', b, w') -> P (geno x) -> P (geno y) -> P (geno x') /\ P (geno y')) ->
  (forall x w x' b w', mut x w = Ok (x', b, w') -> P (geno x) -> P (geno x')) ->
  (forall x w x' w', eval x w = Ok (x', w') -> geno x' = geno x) ->
  cellular neighbours sel_neigh sel_child sel_repl cross mut eval cont fuel pop w = Ok (r, tr, w') ->
  genotypes P pop -> genotypes P r.
Proof.
  intros G F W P neighbours sel_neigh sel_child sel_repl cross mut eval cont fuel pop w r tr w' H1 H2 H3 H4 H5 H6 H7 H.
  exact (cellular_genotypes _ _ _ _ _ _ _ _ P H1 H2 H3 H4 H5 H6 H7 _ _ _ _ _ _ H).
Qed.

(** two evaluations per cell and generation *)
Theorem C153_cellular_evaluations : forall (G F W : Type) (count : W -> nat) neighbours sel_neigh sel_child sel_repl cross mut eval cont
    fuel (pop : list (indiv G F)) (w : W) r tr w',
  one_more count eval ->
  (forall i, uncounted count (fun p w => neighbours p i w)) -> uncounted count sel_neigh -> uncounted count sel_child ->
  uncounted count sel_repl -> (forall x, uncounted count (fun y w => cross x y w)) -> uncounted count mut -> uncounted count cont ->
  cellular neighbours sel_neigh sel_child sel_repl cross mut eval cont fuel pop w = Ok (r, tr, w') ->
  count w' = count w + 2 * length pop * length tr.
Proof.
  intros G F W count neighbours sel_neigh sel_child sel_repl cross mut eval cont fuel pop w r tr w' H1 H2 H3 H4 H5 H6 H7 H8 H.
  exact (cellular_count _ _ _ _ _ _ _ _ count H1 H2 H3 H4 H5 H6 H7 H8 _ _ _ _ _ _ H).
Qed.

(** the algorithm does not evaluate the population it is given: if the replacement reads the fitnesses,
    an initial population whose first member is unevaluated cannot be run *)
Theorem C153_cellular_unevaluated_outside : forall (G F W : Type) neighbours sel_neigh sel_child sel_repl cross mut eval cont
    fuel x (r : list (indiv G F)) (w : W),
  (forall a b w, fit b = None -> sel_repl [a; b] w = Throw) -> fit x = None ->
  forall res, cellular neighbours sel_neigh sel_child sel_repl cross mut eval cont fuel (x :: r) w = Ok res -> False.
Proof.
  intros G F W neighbours sel_neigh sel_child sel_repl cross mut eval cont fuel x r w H1 H2.
  exact (cellular_unevaluated _ _ _ _ _ _ _ _ _ _ _ _ H1 H2).
Qed.

(** a concrete ring of cells: the partner is the next cell, the fitness is the genotype, the world counts
    the evaluations *)
Section Ring.
Notation J := (indiv nat nat).
Definition ring_neigh (p : list J) (i : nat) (w : nat) : res (list J * nat) :=
  let! x := of_opt (nth_error p ((i + 1) mod length p)) in Ok ([x], w).
Definition head (l : list J) (w : nat) : res (J * nat) := match l with x :: _ => Ok (x, w) | [] => UB end.
Definition better_of (l : list J) (w : nat) : res (J * nat) :=
  match l with
  | [a] => Ok (a, w)
  | [a; b] => match fit a, fit b with Some f, Some g => Ok (if f <? g then b else a, w) | _, _ => Throw end
  | _ => Throw
  end.
Definition swap_cross (x y : J) (w : nat) : res (J * J * bool * nat) := Ok (Ind (geno y) (fit x), Ind (geno x) (fit y), true, w).
Definition incr_mut (x : J) (w : nat) : res (J * bool * nat) := Ok (Ind (geno x + 1) (fit x), true, w).
Definition id_eval (x : J) (w : nat) : res (J * nat) := Ok (Ind (geno x) (Some (geno x)), S w).
Definition two_gens (p : list J) (w : nat) : res (bool * nat) := Ok (w <? 12, w).
Definition e (n : nat) : J := Ind n (Some n).
Example C153_ring_ex : cellular ring_neigh head better_of better_of swap_cross incr_mut id_eval two_gens 5 [e 1; e 5; e 3] 0 =
  Ok ([e 7; e 8; e 8], [[e 6; e 6; e 7]; [e 7; e 8; e 8]], 12).
Proof. reflexivity. Qed.
Example C153_hypotheses_ex : picks_best Nat.ltb better_of /\ evaluates (fun n => n) id_eval /\
  (forall a b w, fit b = None -> better_of [a; b] w = Throw) /\ one_more (fun w => w) id_eval.
Proof.
  split; [|split; [|split]].
  - intros l w x w' H. destruct l as [|a [|b [|]]]; cbn [better_of] in H; try discriminate.
    + inversion H; subst. split; [left; reflexivity|]. intros y f g [<-|[]] E1 E2. rewrite E1 in E2. inversion E2. apply Nat.ltb_irrefl.
    + destruct (fit a) as [f|] eqn:Ea; [|discriminate]. destruct (fit b) as [g|] eqn:Eb; [|discriminate].
      destruct (f <? g) eqn:E; inversion H; subst; (split; [cbn; auto|]); intros y h k [<-|[<-|[]]] E1 E2;
        rewrite ?Ea, ?Eb in *; inversion E1; inversion E2; subst; try apply Nat.ltb_irrefl; try exact E.
      apply Nat.ltb_lt in E. apply Nat.ltb_ge. lia.
  - intros x w x' w' H. inversion H; subst. cbn. auto.
  - intros a b w Hb. cbn. rewrite Hb. destruct (fit a); reflexivity.
  - intros x w x' w' H. inversion H; subst. reflexivity.
Qed.
End Ring.

(** a run of eoSimpleEDA: every population given to the updater has the requested size, its members are
    samples of the current distribution and carry the fitness of their genotypes; each distribution is what
    the updater made of the former one and its population; the run ends at the first refusal of the
    continuator and leaves the last distribution *)
Theorem C153_eda_run : forall (G F W D : Type) (value : G -> F) sample eval update cont fuel n (blank : indiv G F) (d : D) (w : W) d' tr w',
  evaluates value eval -> (forall d x w x' w', sample d x w = Ok (x', w') -> fit x' = None) ->
  (forall d p w d' p' w', update d p w = Ok (d', p', w') -> length p' = length p) ->
  eda D sample eval update cont fuel n blank d w = Ok (d', tr, w') ->
  (forall t, In t tr -> length (t_pop t) = n /\ Forall (evaluated value) (t_pop t) /\
     forall y, In y (t_pop t) -> exists x u x' u', sample (t_before t) x u = Ok (x', u') /\ geno y = geno x') /\
  stops_at_first_no cont (map t_left tr) /\
  (exists t, nth_error tr 0 = Some t /\ t_before t = d) /\
  (forall i a b, nth_error tr i = Some a -> nth_error tr (S i) = Some b -> t_before b = t_after a) /\
  (exists t, nth_error tr (length tr - 1) = Some t /\ t_after t = d') /\
  (forall t, In t tr -> exists u u', update (t_before t) (t_pop t) u = Ok (t_after t, t_left t, u')).
Proof.
  intros G F W D value sample eval update cont fuel n blank d w d' tr w' He Hs Hu H. unfold eda in H.
  apply rbind_ok in H as ([pop w1] & H1 & H). destruct (apply_eval_each _ _ _ _ _ H1) as [L _]. rewrite repeat_length in L.
  split; [exact (eda_populations D sample eval update cont value n He Hs Hu fuel d pop w1 d' tr w' L H)|].
  destruct (eda_trace D sample eval update cont fuel d pop w1 d' tr w' H) as (N & K1 & K2 & K3 & K4 & K5).
  split; [exact K1|]. split.
  { destruct tr as [|t tr]; [congruence|]. exists t. split; [reflexivity|]. apply K2. reflexivity. }
  split; [exact K3|]. split; [|exact K5].
  destruct (nth_error tr (length tr - 1)) as [t|] eqn:E.
  - exists t. split; [reflexivity|]. apply K4. reflexivity.
  - exfalso. apply nth_error_None in E. destruct tr; [congruence|cbn in E; lia].
Qed.
(** a distribution that always samples its parameter, and an updater that adds one to it *)
Example C153_eda_ex :
  match eda nat (fun d (x : indiv nat nat) (w : nat) => Ok (Ind d None, w)) (fun x w => Ok (Ind (geno x) (Some (geno x)), S w))
    (fun d p w => Ok (d + length p, p, w)) (fun p w => Ok (w <? 4, w)) 5 2 (Ind 0 None) 7 0 with
  | Ok (d', tr, w') => d' = 11 /\ map t_before tr = [7; 9] /\ map (fun t => map (@geno nat nat) (t_pop t)) tr = [[7;7]; [9;9]]
  | _ => False
  end.
Proof. vm_compute. auto. Qed.

(** ** C154 *)

(** eoEvalNanThrowException over a population: without exception, all unevaluated members got finite
    fitnesses; with one, it was thrown by the first member whose fitness is not finite, and the members
    after it are as before *)
Theorem C154_not_finite : forall (G F W : Type) (value : G -> F) (func : indiv G F -> W -> res (indiv G F * W)) finite pop w r,
  computes value func -> apply_or_throw (nan_eval finite func) pop w = Ok r ->
  match r with
  | inl (pop', _) => pop' = all_evaluated value pop /\ forall x, In x pop -> fit x = None -> finite (value (geno x)) = true
  | inr (pop', _) => exists l1 x l2, pop = l1 ++ x :: l2 /\
      pop' = all_evaluated value l1 ++ Ind (geno x) (Some (value (geno x))) :: l2 /\
      fit x = None /\ finite (value (geno x)) = false /\
      forall y, In y l1 -> fit y = None -> finite (value (geno y)) = true
  end.
Proof.
  intros G F W value func finite pop w r Hc H. pose proof (nan_apply value func Hc finite pop w r H) as K.
  destruct r as [[p s]|[p s]]; [exact K|]. destruct K as (l1 & x & l2 & E1 & E2 & E3 & E4).
  exists l1, x, l2. split; [exact E1|]. split; [|auto]. rewrite E2. unfold newly. rewrite E3. reflexivity.
Qed.
Theorem C154_not_finite_total : forall (G F W : Type) (value : G -> F) (func : indiv G F -> W -> res (indiv G F * W)) finite pop w,
  (forall x w, exists w', func x w = Ok (Ind (geno x) (Some (value (geno x))), w')) ->
  exists r, apply_or_throw (nan_eval finite func) pop w = Ok r.
Proof.
  intros G F W value func finite pop w Hf. revert w. induction pop as [|x pop IH]; intros w; cbn [apply_or_throw]; eauto.
  assert (exists y, nan_eval finite func x w = Ok y) as [y Ey].
  { unfold nan_eval. destruct (fit x); eauto. destruct (Hf x w) as [w' ->]. cbn. eauto. }
  rewrite Ey. cbn. destruct y as [[x' w']|[x' w']]; eauto. destruct (IH w') as [z ->]. cbn. eauto.
Qed.

(** eoEvalUserTimeThrowException over a population: without exception everyone is evaluated; with one, the
    clock had reached the limit, the members before are evaluated and nothing else has changed *)
Theorem C154_time_out : forall (G F W : Type) (value : G -> F) (func : indiv G F -> W -> res (indiv G F * W)) usage max pop s r,
  computes value func -> apply_or_throw (time_eval usage max func) pop s = Ok r ->
  match r with
  | inl (pop', _) => pop' = all_evaluated value pop
  | inr (pop', _) => exists l1 x l2 u, pop = l1 ++ x :: l2 /\ pop' = all_evaluated value l1 ++ x :: l2 /\
      fit x = None /\ (max <= fst (usage u))%Z
  end.
Proof.
  intros G F W value func usage max pop s r Hc H. pose proof (time_apply value func Hc usage max pop s r H) as K.
  destruct r as [[p s']|[p s']]; [exact (proj1 K)|]. exact (proj2 K).
Qed.
(** ... and an evaluation goes through exactly when the clock is below the limit *)
Theorem C154_time_out_iff : forall (G F W : Type) (value : G -> F) (func : indiv G F -> W -> res (indiv G F * W)) usage max x s r,
  computes value func -> fit x = None -> time_eval usage max func x s = Ok r ->
  ((exists x' s', r = inl (x', s') /\ x' = Ind (geno x) (Some (value (geno x)))) <-> (fst (usage (snd s)) < max)%Z) /\
  ((exists s', r = inr (x, s')) <-> (max <= fst (usage (snd s)))%Z).
Proof.
  intros G F W value func usage max x s r Hc Hx H. pose proof (time_step value func Hc usage max x s r H) as K.
  unfold newly in K. rewrite Hx in K. destruct r as [[x' s']|[x' s']].
  - destruct K as (-> & _ & K). specialize (K eq_refl). split; split; intros X; try lia.
    + eauto.
    + destruct X as (? & E). discriminate.
  - destruct K as (-> & _ & _ & K). split; split; intros X; try lia.
    + destruct X as (? & ? & E & _). discriminate.
    + eauto.
Qed.
Example C154_eval_ex :
  apply_or_throw (nan_eval (fun n => n <? 10) (fun x (w : unit) => Ok (Ind (geno x) (Some (geno x)), w)))
     [Ind 1 None; Ind 50 (Some 50); Ind 20 None; Ind 2 None] tt
   = Ok (inr ([Ind 1 (Some 1); Ind 50 (Some 50); Ind 20 (Some 20); Ind 2 None], tt)) /\
  apply_or_throw (time_eval (fun w => (w, (w + 1)%Z)) 1 (fun x w => Ok (Ind (geno x) (Some (geno x)), w)))
     [Ind 1 None; Ind 20 None; Ind 2 None] (0, 0%Z)
   = Ok (inr ([Ind 1 (Some 1); Ind 20 None; Ind 2 None], (0, 2%Z))).
Proof. split; reflexivity. Qed.

(** eoTimeContinue and eoSecondsElapsedContinue go on exactly while the elapsed time is below the maximum;
    as long as the clock does not go back they never go on again after having stopped *)
Theorem C154_time_continue : forall start max now, time_continue start max now = true <-> (now - start < max)%Z.
Proof. exact time_continue_iff. Qed.
Theorem C154_time_stops_for_good : forall start max readings i j a b, forward readings -> i <= j ->
  nth_error readings i = Some a -> nth_error readings j = Some b ->
  time_continue start max a = false -> time_continue start max b = false.
Proof. exact time_continue_once. Qed.
(** moTimeContinuator: init restarts the count, unless a starting time has been given *)
Theorem C154_timer : forall max t0 now0 now,
  (timer_continue (timer_init (timer_new max t0) now0) now = true <-> (now - now0 < max)%Z) /\
  forall s, timer_continue (timer_init (timer_set_start (timer_new max t0) s) now0) now = true <-> (now - s < max)%Z.
Proof. intros. unfold timer_continue. cbn. split; [|intros s]; apply Z.ltb_lt. Qed.
(** eoTimedMonitor: the first call fires; then it fires exactly when the given number of seconds has passed
    since the last time it fired (differences below 2^32 ticks) *)
Theorem C154_timed_monitor : forall seconds last c1 c2 c3,
  (last = 0%Z -> timed_monitor seconds last c1 c2 c3 = (true, c3)) /\
  (last <> 0%Z -> (0 <= c2 - last < 2 ^ 32)%Z ->
   ((seconds * clocks_per_sec <= c2 - last)%Z -> timed_monitor seconds last c1 c2 c3 = (true, c3)) /\
   ((c2 - last < seconds * clocks_per_sec)%Z -> timed_monitor seconds last c1 c2 c3 = (false, last))).
Proof.
  intros seconds last c1 c2 c3. split; [intros ->; apply timed_first|]. intros Hl Hc. rewrite timed_step by assumption.
  split; intros H; [apply Z.leb_le in H|apply Z.leb_gt in H]; rewrite H; reflexivity.
Qed.
Example C154_clock_ex : time_continue 100 60 159 = true /\ time_continue 100 60 160 = false /\
  timed_calls 2 0 [(7, 8, 9); (0, 2000008, 0); (0, 2000009, 2000010)]%Z = [true; false; true].
Proof. repeat split. Qed.

(** ** C155 *)

(** eoEvalUserTimeThrowException is an eoEvalFuncCounter, but its counter never moves *)
Theorem C155_counts_evaluations_refuted : forall (G F W : Type) (value : G -> F) (func : indiv G F -> W -> res (indiv G F * W)) usage max pop n w r,
  computes value func -> apply_or_throw (time_eval usage max func) pop (n, w) = Ok r ->
  match r with inl (_, (n', _)) => n' = n | inr (_, (n', _)) => n' = n end.
Proof.
  intros G F W value func usage max pop n w r Hc H. pose proof (time_apply value func Hc usage max pop (n, w) r H) as K.
  destruct r as [[p [n' w']]|[p [n' w']]]; [exact (proj2 K)|exact (proj1 K)].
Qed.
(** eoTimedMonitor with a period of 4295 seconds or more fires once, and then never again *)
Theorem C155_timed_monitor_fires_refuted : forall seconds c1 c2 c3 later, (4295 <= seconds)%Z -> c3 <> 0%Z ->
  exists silent, timed_calls seconds 0 ((c1, c2, c3) :: later) = true :: silent /\ Forall (fun b => b = false) silent.
Proof.
  intros seconds c1 c2 c3 later Hs Hc. cbn [timed_calls]. rewrite timed_first.
  eexists. split; [reflexivity|]. apply timed_never; assumption.
Qed.
(** the time shown by eoTimeCounter can go back although both clocks go forward *)
Theorem C155_time_counter_forward_refuted : exists start cpu1 now1 cpu2 now2,
  (0 <= cpu1 <= cpu2)%Z /\ (start <= now1 <= now2)%Z /\ (time_counter start cpu2 now2 < time_counter start cpu1 now1)%Z.
Proof. exists 0%Z, 8000000000%Z, 2140%Z, 8000000010%Z, 2141%Z. unfold time_counter, clocks_per_sec. cbn. lia. Qed.
Example C155_ex : timed_calls 5000 0 [(1, 2, 3); (0, 6000000000, 0)]%Z = [true; false] /\
  timed_calls 4000 0 [(1, 2, 3); (0, 4000000003, 5)]%Z = [true; true].
Proof. split; reflexivity. Qed.
Print Assumptions C153_cellular_run.
Print Assumptions C153_cellular_never_worse.
Print Assumptions C153_cellular_genotypes.
Print Assumptions C153_cellular_evaluations.
Print Assumptions C153_cellular_unevaluated_outside.
Print Assumptions C153_eda_run.
Print Assumptions C154_not_finite.
Print Assumptions C154_time_out.
Print Assumptions C154_time_out_iff.
Print Assumptions C154_time_continue.
Print Assumptions C154_time_stops_for_good.
Print Assumptions C154_timer.
Print Assumptions C154_timed_monitor.
Print Assumptions C155_counts_evaluations_refuted.
Print Assumptions C155_timed_monitor_fires_refuted.
Print Assumptions C155_time_counter_forward_refuted.
Print Assumptions C153_cellular_every_cell.
Print Assumptions C154_not_finite_total.
