(** C165, C166, C167: the star topology, weighted and integer velocities, weights, binary flights *)
From Coq Require Import List Arith Bool Lia Permutation ZArith QArith Qminmax Lqa.
From Verif Require Import Lib Outcome OrderSpec OrderLemmas PsoModel PsoSpec PsoProofs PsoSetup PsoRun PsoMore PsvModel PsvSpec PsvStar PsvProofs.
From Coq Require Import List.
Import ListNotations.
Open Scope nat_scope.

Section Star.
Context {A V F : Type} (lt : F -> F -> bool).
Hypothesis swo : strict_weak_order lt.
Context {W : Type}.
(** any velocity, any flight, any velocity initialiser; a deterministic evaluation *)
Variable velocity : list (hood A V F) -> particle A V F -> nat -> W -> res (list V * W).
Variable flight : particle A V F -> W -> res (list A * W).
Variable eval : list A -> F.
Variable init_velocity : particle A V F -> W -> res (list V * W).

Inductive variant := Async | Sync.
Definition turn_of (v : variant) : swarm A V F W -> res (swarm A V F W) :=
  match v with
  | Async => async_turn A V F W velocity flight eval (star_update lt)
  | Sync => sync_turn A V F W velocity flight eval (star_update lt)
  end.
Definition twin (v : variant) : swarm A V F W -> res (swarm A V F W) :=
  match v with
  | Async => async_turn A V F W (guarded velocity) flight eval (linear_update A V F lt)
  | Sync => sync_turn A V F W (guarded velocity) flight eval (linear_update A V F lt)
  end.
(** eoEasyPSO or eoSyncEasyPSO with its initialisation, on a star topology *)
Definition run (v : variant) := pso A V F W eval (star_setup lt) init_velocity (turn_of v).
Lemma twin_ok v : turn_ok lt eval (twin v).
Proof. destruct v; [apply async_ok|apply sync_ok]; auto. Qed.
Lemma twin_members v s s' : twin v s = Ok s' -> same_members s s'.
Proof. destruct v; [apply async_members|apply sync_members]. Qed.
Lemma twin_same v n answers s : settled lt eval n s -> one n s -> turns A V F W (turn_of v) answers s = turns A V F W (twin v) answers s.
Proof.
  apply turns_same; [|apply twin_ok|apply twin_members].
  intros s1 O L. destruct v; [eapply async_same|eapply sync_same]; eauto.
Qed.
Lemma star_settled v m rest s s' : log s = [] -> pop s <> [] -> run v (repeat true m ++ false :: rest) s = Ok s' ->
  settled lt eval (length (pop s)) s' /\ map fst (log s') = concat (repeat (seq 0 (length (pop s))) (S (S m))) /\ one (length (pop s)) s'.
Proof.
  intros L Sn H. apply rbind_ok in H as (s1 & H1 & H).
  destruct (star_initialise_ok lt swo eval init_velocity s s1 L Sn H1) as (S1 & M1 & _ & B1).
  rewrite (twin_same v (length (pop s))) in H by auto.
  destruct (turns_ok lt eval (twin v) _ (twin_ok v) m rest s1 s' S1 H) as (S2 & l & L2 & M2).
  split; auto. split.
  - rewrite L2, map_app, M1, M2. reflexivity.
  - apply turns_members in H; [|apply twin_members]. eapply one_members; eauto.
Qed.

(** Each particle is evaluated once per turn and once before the first turn; at the end it remembers the first of
    the best positions evaluated for it. *)
Theorem C165_particles_remember_their_best : forall v m rest s s',
  log s = [] -> pop s <> [] -> run v (repeat true m ++ false :: rest) s = Ok s' ->
  length (pop s') = length (pop s) /\
  map fst (log s') = concat (repeat (seq 0 (length (pop s))) (m + 2)) /\
  forall k p, nth_error (pop s') k = Some p ->
    first_best lt eval (history (log s') k) (bpos p) /\ best p = eval (bpos p) /\
    (exists before, history (log s') k = before ++ [pos p]) /\ fit p = Some (eval (pos p)).
Proof.
  intros v m rest s s' L Sn H. destruct (star_settled v m rest s s' L Sn H) as (((N & M & _) & Cu) & Lm & _).
  split; auto. split; [rewrite Lm; f_equal; f_equal; lia|]. intros k p Hp. destruct (M k p Hp). destruct (Cu k p Hp). auto.
Qed.
(** All the particles share one neighborhood. best(k), for any k, and globalBest() are a particle that stands at a
    position evaluated in the run, and no position evaluated in the run is better. *)
Theorem C165_global_best : forall v m rest s s',
  log s = [] -> pop s <> [] -> run v (repeat true m ++ false :: rest) s = Ok s' ->
  (exists h, hoods s' = [h] /\ members h = seq 0 (length (pop s))) /\
  exists g, star_best (hoods s') = Ok g /\ In (pos g) (map snd (log s')) /\
    (forall k x, In (k, x) (log s') -> lt (eval (pos g)) (eval x) = false) /\
    fit g = Some (eval (pos g)) /\ best g = eval (pos g) /\ bpos g = pos g.
Proof.
  intros v m rest s s' L Sn H. destruct (star_settled v m rest s s' L Sn H) as (((_ & _ & Hh & _) & _) & Lm & O). split; auto.
  destruct O as (h & Eh & Em). exists (lbest h). unfold star_best. rewrite Eh. cbn [nth_error of_opt rbind]. split; auto.
  destruct (Hh h) as ((k0 & _ & I0) & Mx & Fh & Bh & Ph); [rewrite Eh; left; auto|]. split; [|split; [|auto]].
  - unfold history in I0. apply in_map_iff in I0 as (e & <- & I0). apply filter_In in I0 as [I0 _]. apply in_map; auto.
  - intros k x Hx. apply (Mx k x).
    + rewrite Em. assert (X : In k (map fst (log s'))) by (apply in_map_iff; exists (k, x); auto).
      rewrite Lm in X. apply in_concat in X as (l & Hl & X). apply repeat_spec in Hl. subst l. auto.
    + unfold history. apply in_map_iff. exists (k, x). split; auto. apply filter_In. split; auto. cbn. apply Nat.eqb_refl.
Qed.
(** The run never fails on any population that is not empty, when the user's functors keep the dimension. *)
Theorem C165_runs_to_the_end : forall v d m rest s,
  log s = [] -> pop s <> [] -> (forall p, In p (pop s) -> length (pos p) = d) ->
  star_velocity_works velocity d -> flight_works flight d -> init_works init_velocity d ->
  exists s', run v (repeat true m ++ false :: rest) s = Ok s'.
Proof.
  intros v d m rest s L Sn Pl Vw Fw Iw.
  destruct (star_initialise_total lt swo eval init_velocity d s Iw L Sn Pl) as (s1 & E1 & Z1).
  destruct (star_initialise_ok lt swo eval init_velocity s s1 L Sn E1) as (S1 & _ & _ & O1).
  unfold run, pso. rewrite E1. cbn [rbind]. rewrite (twin_same v (length (pop s))) by auto.
  eapply (turns_total lt eval d); eauto; [apply twin_ok|].
  destruct v; [eapply (async_total lt swo _ flight eval 1 Nat.lt_0_1)|eapply (sync_total lt swo _ flight eval 1 Nat.lt_0_1)]; eauto; apply guarded_works; auto.
Qed.
(** An empty population is refused; a topology set up once keeps its neighborhood and its best particle. *)
Theorem C165_empty_is_refused : star_setup lt ([] : list (particle A V F)) = Throw.
Proof. reflexivity. Qed.
End Star.

Definition z_velocity (hs : list (hood Z Z Z)) (p : particle Z Z Z) (k : nat) (w : list Z) : res (list Z * list Z) :=
  let! g := star_best hs in
  match w with [] => NoDraw | u :: w => Ok (map (fun e => (snd e - fst e + u)%Z) (combine (pos p) (pos g)), w) end.
Definition z_flight (p : particle Z Z Z) (w : list Z) : res (list Z * list Z) :=
  Ok (map (fun e => (fst e + snd e)%Z) (combine (pos p) (vel p)), w).
Definition z_eval (x : list Z) : Z := match x with [a] => (- (a - 5) * (a - 5))%Z | _ => 0%Z end.
Definition z_init (p : particle Z Z Z) (w : list Z) : res (list Z * list Z) := Ok (map (fun _ => 0%Z) (pos p), w).
Definition z_pop : list (particle Z Z Z) := map (fun a => Particle [a] [] [] None 0%Z) [9; 1; 4]%Z.
(** three particles, two turns *)
Example C165_example : match run Z.ltb z_velocity z_flight z_eval z_init Async [true; false] (Swarm z_pop [] [1; 2; 0; -1; 3; 1]%Z []) with
  | Ok s => map snd (log s) = [[9]; [1]; [4]; [5]; [7]; [5]; [4]; [8]; [6]]%Z /\ map (fun h => pos (lbest h)) (hoods s) = [[5%Z]]
  | _ => False end.
Proof. vm_compute. auto. Qed.

(** *** C166: velocities with weights and bounds that change *)
Section Moves.
Context {F : Type}.
Notation particle := (particle Q Q F).
(** [l] are velocities: component [j] is the value of the formula brought back in the [j]-th of the bounds [bs] *)
Definition moved (coeff weight r1 r2 : Q) (p lb : particle) (bs : list bound) (l : list Q) : Prop :=
  length l = length (pos p) /\
  forall j x v b g c, nth_error (pos p) j = Some x -> nth_error (vel p) j = Some v -> nth_error (bpos p) j = Some b ->
    nth_error (pos lb) j = Some g -> bound_for bs j c -> consistent (fst c) (snd c) ->
    exists y z, nth_error l j = Some y /\ (z == coeff * (weight * v + r1 * (b - x) + r2 * (g - x)))%Q /\ brought_back (fst c) (snd c) z y.
(** The weight is updated first, then used for all the components; without a modifier the bounds stay the same. *)
Theorem C166_variable_weight : forall updater weight c1 c2 u1 u2 (p lb : particle) b l w b',
  length (vel p) = length (pos p) ->
  variable_velocity dummy_modifier updater weight c1 c2 u1 u2 p lb b = Ok (l, w, b') ->
  w = updater weight /\ moved 1 w (u1 * c1) (u2 * c2) p lb b l /\ forall j c, bound_for b j c -> bound_for b' j c.
Proof.
  intros updater weight c1 c2 u1 u2 p lb b l w b' E H. unfold variable_velocity in H. apply rbind_ok in H as ([l1 b1] & H & Ee). injection Ee as <- <- <-.
  split; auto. assert (K := weighted_dummy _ _ _ _ _ _ _ _ _ _ _ H). apply (weighted_ok _ _ _ _ _ _ _ _ _ _ _ _ _ dummy_local E) in H as ((L & M) & _ & _).
  split; [|auto]. split; [auto|]. intros j x v bb g c Hx Hv Hb Hg Hc. apply (M j x v bb g c Hx Hv Hb Hg). auto.
Qed.
Theorem C166_constricted_variable_weight : forall updater coeff weight c1 c2 u1 u2 (p lb : particle) b l w b',
  length (vel p) = length (pos p) ->
  constricted_variable_velocity dummy_modifier updater coeff weight c1 c2 u1 u2 p lb b = Ok (l, w, b') ->
  w = updater weight /\ moved coeff w (u1 * c1) (u2 * c2) p lb b l /\ forall j c, bound_for b j c -> bound_for b' j c.
Proof.
  intros updater coeff weight c1 c2 u1 u2 p lb b l w b' E H. unfold constricted_variable_velocity in H. apply rbind_ok in H as ([l1 b1] & H & Ee). injection Ee as <- <- <-.
  split; auto. assert (K := weighted_dummy _ _ _ _ _ _ _ _ _ _ _ H). apply (weighted_ok _ _ _ _ _ _ _ _ _ _ _ _ _ dummy_local E) in H as ((L & M) & _ & _).
  split; [|auto]. split; [auto|]. intros j x v bb g c Hx Hv Hb Hg Hc. apply (M j x v bb g c Hx Hv Hb Hg). auto.
Qed.
Theorem C166_fixed_weight : forall weight c1 c2 u1 u2 (p lb : particle) b l b',
  length (vel p) = length (pos p) ->
  fixed_velocity dummy_modifier weight c1 c2 u1 u2 p lb b = Ok (l, b') ->
  moved 1 weight (u1 * c1) (u2 * c2) p lb b l /\ forall j c, bound_for b j c -> bound_for b' j c.
Proof.
  intros weight c1 c2 u1 u2 p lb b l b' E H. unfold fixed_velocity in H.
  assert (K := weighted_dummy _ _ _ _ _ _ _ _ _ _ _ H). apply (weighted_ok _ _ _ _ _ _ _ _ _ _ _ _ _ dummy_local E) in H as ((L & M) & _ & _).
  split; [|auto]. split; [auto|]. intros j x v bb g c Hx Hv Hb Hg Hc. apply (M j x v bb g c Hx Hv Hb Hg). auto.
Qed.
(** With decaying bounds the velocities are brought back in the new bounds, and the new bounds are left in place. *)
Theorem C166_decaying_bounds : forall power updater coeff weight c1 c2 u1 u2 (p lb : particle) b l w b',
  length (vel p) = length (pos p) ->
  constricted_variable_velocity (decay_modifier power) updater coeff weight c1 c2 u1 u2 p lb b = Ok (l, w, b') ->
  moved coeff w (u1 * c1) (u2 * c2) p lb b' l /\
  forall j lo hi, j < length (pos p) -> bound_for b j (Some lo, Some hi) ->
    exists hi', bound_for b' j (Some lo, Some hi') /\ (hi' == Qmax lo ((1 - power) * hi))%Q.
Proof.
  intros power updater coeff weight c1 c2 u1 u2 p lb b l w b' E H. unfold constricted_variable_velocity in H. apply rbind_ok in H as ([l1 b1] & H & Ee). injection Ee as <- <- <-.
  apply (weighted_ok _ _ _ _ _ _ _ _ _ _ _ _ _ (decay_local power) E) in H as (M & _ & B). split; auto.
  intros j lo hi J Hb. destruct (B j _ Hb J) as (c' & Ec & Hc). cbn [decayed] in Ec. injection Ec as <-.
  eexists. split; [left; apply Hc|]. unfold std_max. destruct (Qlt_le_dec _ _) as [Q0|Q0].
  - rewrite Q.max_r by lra. reflexivity.
  - rewrite Q.max_l by lra. reflexivity.
Qed.
(** They never fail on particles of one size, if there is at least one bound (and all are intervals, to decay). *)
Theorem C166_velocities_work : forall updater coeff weight c1 c2 u1 u2 (p lb : particle) b,
  same_size p lb -> b <> [] ->
  (exists l w b', constricted_variable_velocity dummy_modifier updater coeff weight c1 c2 u1 u2 p lb b = Ok (l, w, b')) /\
  (forall power, (forall c, In c b -> exists lo hi, c = (Some lo, Some hi)) ->
    exists l w b', constricted_variable_velocity (decay_modifier power) updater coeff weight c1 c2 u1 u2 p lb b = Ok (l, w, b')).
Proof.
  intros updater coeff weight c1 c2 u1 u2 p lb b Sz N. unfold constricted_variable_velocity. split.
  - destruct (weighted_total dummy_modifier (fun _ => True) coeff (updater weight) c1 c2 u1 u2 p lb b) as (l & b' & E); auto.
    + intros b0 j _ _. exists b0. auto.
    + rewrite E. cbn [rbind]. eauto.
  - intros power Iv. set (P := fun bs : list bound => forall c, In c bs -> exists lo hi, c = (Some lo, Some hi)).
    destruct (weighted_total (decay_modifier power) P coeff (updater weight) c1 c2 u1 u2 p lb b) as (l & b' & E); auto.
    + intros b0 j Pb J. destruct (some_nth b0 j J) as (c & Hc). destruct (Pb c) as (lo & hi & ->); [eapply nth_error_In; eauto|].
      unfold decay_modifier. rewrite Hc. cbn [of_opt rbind]. eexists. split; [reflexivity|]. split; [apply set_length|].
      intros c Ic. apply (set_all (fun c => exists lo hi, c = (Some lo, Some hi)) b0 j (Some lo, Some (std_max lo ((1 - power) * hi)))); eauto.
    + intros n b0 b1 Pb Ha c Hc. apply Pb. apply adjust_ok in Ha. apply Ha. auto.
    + rewrite E. cbn [rbind]. eauto.
Qed.
(** The integer velocity: the nearest integer to the formula brought back in the bounds; an integer if they are. *)
Theorem C166_integer_velocity : forall modify c1 c2 c3 u2 u3 (p lb : particle) b l b',
  length (vel p) = length (pos p) -> integer_velocity modify c1 c2 c3 u2 u3 p lb b = Ok (l, b') ->
  length l = length (pos p) /\
  forall j x v bst g c, nth_error (pos p) j = Some x -> nth_error (vel p) j = Some v -> nth_error (bpos p) j = Some bst ->
    nth_error (pos lb) j = Some g -> bound_for b j c -> consistent (fst c) (snd c) ->
    exists y q z, nth_error l j = Some y /\ (q == c1 * v + u2 * c2 * (bst - x) + u3 * c3 * (g - x))%Q /\ nearest q z /\
      brought_back (fst c) (snd c) (inject_Z z) y /\
      ((forall m, fst c = Some m -> integral m) -> (forall m, snd c = Some m -> integral m) -> integral y).
Proof.
  intros modify c1 c2 c3 u2 u3 p lb b l b' E H. apply integer_ok in H as (L & _ & H); auto. split; auto.
  intros j x v bst g c Hx Hv Hb Hg Hc Co. destruct (H j x v bst g c Hx Hv Hb Hg Hc) as (q & Eq & Hl).
  exists (check (fun _ => c) j (inject_Z (c_round q))), q, (c_round q). split; auto. split; auto. split; [apply c_round_ok|].
  split; [apply check_any; auto|]. intros. apply check_integral; auto.
Qed.
End Moves.

(** The linear weight goes from the initial to the final value in equal steps. *)
Theorem C166_linear_weight : forall stop t initial final, (0 < stop < 2 ^ 32)%Z -> (0 <= t <= stop)%Z ->
  exists w, linear_weight stop t initial final = Some w /\ (w == initial - (inject_Z t / inject_Z stop) * (initial - final))%Q.
Proof.
  intros stop t i f S0 T0. destruct (linear_weight_in stop t i f S0 T0) as (w & E & Ew). exists w. split; auto. rewrite Ew.
  unfold Zminus. rewrite inject_Z_plus, inject_Z_opp. field. unfold Qeq. cbn. lia.
Qed.
Theorem C166_linear_weight_range : forall stop t t' initial final, (0 < stop < 2 ^ 32)%Z -> (0 <= t <= t')%Z -> (t' <= stop)%Z -> (final <= initial)%Q ->
  exists w w', linear_weight stop t initial final = Some w /\ linear_weight stop t' initial final = Some w' /\ (final <= w' <= w)%Q /\ (w <= initial)%Q.
Proof.
  intros stop t t' i f S0 T0 T1 Le.
  destruct (linear_weight_in stop t i f S0) as (w & E & Ew); [lia|]. destruct (linear_weight_in stop t' i f S0) as (w' & E' & Ew'); [lia|].
  exists w, w'. split; auto. split; auto.
  assert (P : (0 < inject_Z stop)%Q) by (unfold Qlt; cbn; lia).
  assert (D : forall a b : Z, (a <= b)%Z -> ((i - f) * inject_Z a / inject_Z stop <= (i - f) * inject_Z b / inject_Z stop)%Q).
  { intros a b Hab. unfold Qdiv. apply Qmult_le_compat_r; [|apply Qlt_le_weak, Qinv_lt_0_compat; auto].
    rewrite (Qmult_comm _ (inject_Z a)), (Qmult_comm _ (inject_Z b)). apply Qmult_le_compat_r; [rewrite <- Zle_Qle; auto|lra]. }
  assert (D0 := D 0%Z (stop - t')%Z ltac:(lia)). assert (D1 := D (stop - t')%Z (stop - t)%Z ltac:(lia)). assert (D2 := D (stop - t)%Z stop ltac:(lia)).
  assert (Z0 : ((i - f) * inject_Z 0 / inject_Z stop == 0)%Q). { unfold Qdiv. change (inject_Z 0) with 0%Q. ring. }
  assert (Z1 : ((i - f) * inject_Z stop / inject_Z stop == i - f)%Q). { field. lra. }
  rewrite Ew, Ew'. lra.
Qed.
(** The random weight is in its range; a range upside down is refused. *)
Theorem C166_random_weight : forall mn mx u, (0 <= u < 1)%Q ->
  ((mn <= mx)%Q -> exists w, random_weight mn mx u = Ok w /\ (mn <= w <= mx)%Q /\ (mn < mx -> w < mx)%Q /\ (w == mn + u * (mx - mn))%Q) /\
  ((mx < mn)%Q -> random_weight mn mx u = Throw).
Proof.
  intros mn mx u U. unfold random_weight. split; intros H.
  - destruct (Qlt_le_dec mx mn) as [L|L]; [lra|]. eexists. split; [reflexivity|].
    assert (X : (0 <= u * (mx - mn))%Q) by (apply Qmult_le_0_compat; lra).
    assert (Y : (u * (mx - mn) <= 1 * (mx - mn))%Q) by (apply Qmult_le_compat_r; lra).
    repeat split; try lra. intros Lt. assert (Z0 : (u * (mx - mn) < 1 * (mx - mn))%Q) by (apply Qmult_lt_compat_r; lra). lra.
  - destruct (Qlt_le_dec mx mn) as [L|L]; auto. lra.
Qed.
(** The binary flight: each component becomes 1 if its number drawn is below the sigmoid of its velocity, else 0; the
    fitness is invalidated, the velocities and the memory are kept, one number is drawn per component. *)
Theorem C166_binary_flight : forall (V F : Type) (sigmoid : V -> Q) (p p' : particle nat V F) us us',
  binary_flight sigmoid p us = Ok (p', us') ->
  length (pos p') = length (pos p) /\ vel p' = vel p /\ bpos p' = bpos p /\ best p' = best p /\ fit p' = None /\
  (exists used, us = used ++ us' /\ length used = length (pos p)) /\
  forall j, j < length (pos p) -> exists v u, nth_error (vel p) j = Some v /\ nth_error us j = Some u /\
    ((u < sigmoid v)%Q -> nth_error (pos p') j = Some 1) /\ ((sigmoid v <= u)%Q -> nth_error (pos p') j = Some 0).
Proof.
  intros V F sigmoid p p' us us' H. unfold binary_flight in H. apply rbind_ok in H as ([l us1] & H & E). injection E as <- <-. cbn [pos vel bpos best fit].
  apply binary_from_ok in H as (L & U & H). split; auto. split; auto. split; auto. split; auto. split; auto. split; auto.
  intros j J. destruct (H j J) as (v & u & V1 & V2 & V3). exists v, u. split; auto. split; auto. rewrite V3.
  destruct (Qlt_le_dec u (sigmoid v)); split; intros; auto; lra.
Qed.
Theorem C166_binary_flight_works : forall (V F : Type) (sigmoid : V -> Q) (p : particle nat V F) us,
  length (vel p) = length (pos p) -> length (pos p) <= length us -> exists p' us', binary_flight sigmoid p us = Ok (p', us').
Proof.
  intros V F sigmoid p us E U. unfold binary_flight. destruct (binary_from_total sigmoid (pos p) 0 (vel p) us) as (l & us' & El); [lia|auto|].
  rewrite El. cbn [rbind]. eauto.
Qed.
(** A component more likely to be 1 when its velocity is larger: with the same draws no bit falls. *)
Theorem C166_binary_flight_monotone : forall (F : Type) (sigmoid : Q -> Q) (p q p' q' : particle nat Q F) us r r',
  (forall a b, a <= b -> sigmoid a <= sigmoid b)%Q -> length (pos p) = length (pos q) ->
  (forall j a b, nth_error (vel p) j = Some a -> nth_error (vel q) j = Some b -> (a <= b)%Q) ->
  binary_flight sigmoid p us = Ok (p', r) -> binary_flight sigmoid q us = Ok (q', r') ->
  forall j a b, nth_error (pos p') j = Some a -> nth_error (pos q') j = Some b -> a <= b.
Proof.
  intros F sigmoid p q p' q' us r r' Mo Ln Le Hp Hq j a b Ha Hb.
  destruct (C166_binary_flight Q F sigmoid p p' us r Hp) as (Lp & _ & _ & _ & _ & _ & P).
  destruct (C166_binary_flight Q F sigmoid q q' us r' Hq) as (Lq & _ & _ & _ & _ & _ & X).
  assert (J := nth_error_lt _ _ _ Ha). rewrite Lp in J. destruct (P j J) as (v & u & V1 & V2 & V3 & V4).
  destruct (X j ltac:(lia)) as (v' & u' & V1' & V2' & V3' & V4'). assert (u' = u) by congruence. subst u'.
  assert (S0 := Mo v v' (Le j v v' V1 V1')).
  destruct (Qlt_le_dec u (sigmoid v)) as [L|L].
  - rewrite (V3' ltac:(lra)) in Hb. injection Hb as <-. rewrite (V3 L) in Ha. injection Ha as <-. auto.
  - rewrite (V4 L) in Ha. injection Ha as <-. lia.
Qed.

Definition here : particle Q Q Z := Particle [1; 5; 0]%Q [1; 1; 1]%Q [3; 1; 7]%Q (Some 0%Z) 0%Z.
Definition there : particle Q Q Z := Particle [5; 1; 3]%Q [] [] (Some 1%Z) 1%Z.
Definition limits : list bound := [(Some (-2)%Q, Some 2%Q); (Some (-1)%Q, Some 4%Q)].
Example C166_example_sizes : same_size here there /\ limits <> [] /\ forall c, In c limits -> exists lo hi, c = (Some lo, Some hi).
Proof. split; [repeat split|]. split; [discriminate|]. intros c [<-|[<-|[]]]; eauto. Qed.
Example C166_example_decay :
  match constricted_variable_velocity (decay_modifier (1 # 4)) (fun w => w / 2)%Q 1 1 2 2 (1 # 2) (1 # 4) here there limits with
  | Ok (l, w, b) => map Qred l = [3 # 2; -1; 3]%Q /\ (w == 1 # 2)%Q /\ map (fun c => option_map Qred (snd c)) b = [Some (3 # 2); Some 3; Some 3]%Q
  | _ => False end.
Proof. vm_compute. auto. Qed.
Example C166_example_integer :
  match integer_velocity dummy_modifier (1 # 2) 1 1 (1 # 2) (1 # 4) here there [(None, None)] with
  | Ok (l, _) => map Qred l = [3; -3; 5]%Q | _ => False end.
Proof. vm_compute. reflexivity. Qed.
Example C166_example_linear : option_map Qred (linear_weight 10 4 (9 # 10) (2 # 5)) = Some (7 # 10)%Q.
Proof. vm_compute. reflexivity. Qed.
Example C166_example_binary :
  match binary_flight (fun v : Q => (1 # 2) + v / 8)%Q (Particle [0; 0; 1] [1; -3; 2]%Q [] (Some 3%Z) 4%Z) [(1 # 2); (1 # 2); (4 # 5)]%Q with
  | Ok (p, us) => pos p = [1; 0; 0] /\ fit p = None /\ us = [] | _ => False end.
Proof. vm_compute. auto. Qed.

(** *** C167: what the comments promise and the code does not do *)
(** [k] calls of a velocity with the same decaying bounds in the same iteration, on particles with a component [j] *)
Inductive calls (power : Q) (j : nat) : nat -> list bound -> list bound -> Prop :=
| no_call b : calls power j 0 b b
| one_call k b b1 b2 weight c1 c2 u1 u2 (p lb : particle Q Q Z) l :
    length (vel p) = length (pos p) -> j < length (pos p) ->
    fixed_velocity (decay_modifier power) weight c1 c2 u1 u2 p lb b = Ok (l, b1) ->
    calls power j k b1 b2 -> calls power j (S k) b b2.
Fixpoint power_of (f : Q) (k : nat) : Q := match k with 0 => 1%Q | S k => (f * power_of f k)%Q end.
(** The maximum shrinks at each call, so once per particle, not once per iteration. *)
Theorem C167_maximum_shrinks_at_each_call : forall power j k b b' lo hi, calls power j k b b' ->
  bound_for b j (Some lo, Some hi) -> (lo <= 0 <= hi)%Q -> (0 <= power <= 1)%Q ->
  exists hi', bound_for b' j (Some lo, Some hi') /\ (hi' == power_of (1 - power) k * hi)%Q.
Proof.
  intros power j k b b' lo hi H. revert hi. induction H as [b|k b b1 b2 weight c1 c2 u1 u2 p lb l Ev J H _ IH]; intros hi Hb Lo Po.
  - exists hi. split; auto. cbn. ring.
  - apply (weighted_ok _ _ _ _ _ _ _ _ _ _ _ _ _ (decay_local power) Ev) in H as (_ & _ & B).
    destruct (B j _ Hb J) as (c' & Ec & Hc). cbn [decayed] in Ec. injection Ec as <-.
    assert (X : (0 <= (1 - power) * hi)%Q) by (apply Qmult_le_0_compat; lra).
    destruct (IH (std_max lo ((1 - power) * hi))) as (hi' & Hh & Eh); auto.
    + left; auto.
    + unfold std_max. destruct (Qlt_le_dec _ _); lra.
    + exists hi'. split; auto. rewrite Eh. cbn [power_of].
      assert (Y : (std_max lo ((1 - power) * hi) == (1 - power) * hi)%Q) by (unfold std_max; destruct (Qlt_le_dec _ _); lra).
      rewrite Y. ring.
Qed.
(** "At iteration t, the interval is updated as [min, (1-(t/Nt)^alpha)*max]": not for the second particle *)
Theorem C167_decaying_bounds_refuted : exists b1 b2,
  calls (1 # 4) 0 1 limits b1 /\ calls (1 # 4) 0 2 limits b2 /\
  option_map (fun c => option_map Qred (snd c)) (nth_error b1 0) = Some (Some (Qred ((1 - (1 # 4)) * 2)))%Q /\
  option_map (fun c => option_map Qred (snd c)) (nth_error b2 0) = Some (Some (9 # 8))%Q.
Proof.
  destruct (fixed_velocity (decay_modifier (1 # 4)) 1 1 1 0 0 here there limits) as [[l1 b1]| | |] eqn:E1; try (vm_compute in E1; discriminate).
  destruct (fixed_velocity (decay_modifier (1 # 4)) 1 1 1 0 0 here there b1) as [[l2 b2]| | |] eqn:E2; try (vm_compute in E1; injection E1 as <- <-; vm_compute in E2; discriminate).
  exists b1, b2. split; [|split].
  - eapply one_call; [| |apply E1|constructor]; cbn; lia.
  - eapply one_call; [| |apply E1|]; [cbn; lia|cbn; lia|]. eapply one_call; [| |apply E2|constructor]; cbn; lia.
  - vm_compute in E1. injection E1 as <- <-. vm_compute in E2. injection E2 as <- <-. vm_compute. auto.
Qed.
(** "v(t) is an INT for any time step": not with a bound that is not *)
Theorem C167_integer_velocity_refuted : exists l b, integer_velocity dummy_modifier 1 0 0 0 0 here there [(None, Some (1 # 2)%Q)] = Ok (l, b) /\
  exists y, nth_error l 0 = Some y /\ ~ integral y.
Proof.
  eexists. eexists. split; [vm_compute; reflexivity|]. eexists. split; [reflexivity|]. intros (z & E). unfold Qeq in E. cbn in E. lia.
Qed.
(** The bound modifier given to eoIntegerVelocity is never used. *)
Theorem C167_integer_velocity_ignores_its_modifier : forall (F : Type) modify modify' c1 c2 c3 u2 u3 (p lb : particle Q Q F) b,
  integer_velocity modify c1 c2 c3 u2 u3 p lb b = integer_velocity modify' c1 c2 c3 u2 u3 p lb b.
Proof. reflexivity. Qed.
(** One iteration after the last one the decreasing weight is far above the initial one; with no iteration it is not a number. *)
Theorem C167_linear_weight_after_the_end : forall stop initial final, (0 < stop < 2 ^ 31)%Z -> (final < initial)%Q ->
  exists w, linear_weight stop (stop + 1) initial final = Some w /\ (initial < w)%Q.
Proof.
  intros stop i f S0 Lt. unfold linear_weight. rewrite (proj2 (Z.eqb_neq stop 0)) by lia. eexists. split; [reflexivity|].
  replace (stop - (stop + 1))%Z with (-1)%Z by lia. change ((-1) mod 2 ^ 32)%Z with 4294967295%Z.
  assert (P : (0 < inject_Z stop)%Q) by (unfold Qlt; cbn; lia).
  assert (L : (inject_Z stop < inject_Z 4294967295)%Q) by (rewrite <- Zlt_Qlt; lia).
  assert (X : (1 < inject_Z 4294967295 / inject_Z stop)%Q) by (apply Qlt_shift_div_l; auto; rewrite Qmult_1_l; auto).
  assert (Y : ((i - f) * 1 < (i - f) * (inject_Z 4294967295 / inject_Z stop))%Q).
  { rewrite !(Qmult_comm (i - f)). apply Qmult_lt_compat_r; lra. }
  assert (E : ((i - f) * inject_Z 4294967295 / inject_Z stop == (i - f) * (inject_Z 4294967295 / inject_Z stop))%Q) by (field; lra).
  rewrite E. lra.
Qed.
Theorem C167_weight_decreases_refuted : exists w w', linear_weight 10 10 (9 # 10) (2 # 5) = Some w /\ linear_weight 10 11 (9 # 10) (2 # 5) = Some w' /\ (w < w')%Q /\
  linear_weight 0 0 (9 # 10) (2 # 5) = None.
Proof. eexists. eexists. split; [reflexivity|]. split; [reflexivity|]. vm_compute. auto. Qed.
(** A second setup, on another population, changes nothing: the best particle of the first one stays. *)
Theorem C167_second_setup_refuted : exists hs g,
  star_setup_again Z.ltb None [Particle [1] [1] [1] (Some 3) 3]%Z = Ok hs /\
  star_setup_again Z.ltb (Some hs) [Particle [8] [1] [8] (Some 9) 9; Particle [7] [1] [7] (Some 7) 7]%Z = Ok hs /\
  star_best hs = Ok g /\ fit g = Some 3%Z /\ map members hs = [[0]].
Proof. eexists. eexists. repeat split. Qed.
Print Assumptions C165_particles_remember_their_best.
Print Assumptions C165_global_best.
Print Assumptions C165_runs_to_the_end.
Print Assumptions C165_empty_is_refused.
Print Assumptions C166_variable_weight.
Print Assumptions C166_constricted_variable_weight.
Print Assumptions C166_fixed_weight.
Print Assumptions C166_decaying_bounds.
Print Assumptions C166_velocities_work.
Print Assumptions C166_integer_velocity.
Print Assumptions C166_linear_weight.
Print Assumptions C166_linear_weight_range.
Print Assumptions C166_random_weight.
Print Assumptions C166_binary_flight.
Print Assumptions C166_binary_flight_works.
Print Assumptions C166_binary_flight_monotone.
Print Assumptions C167_maximum_shrinks_at_each_call.
Print Assumptions C167_decaying_bounds_refuted.
Print Assumptions C167_integer_velocity_refuted.
Print Assumptions C167_integer_velocity_ignores_its_modifier.
Print Assumptions C167_linear_weight_after_the_end.
Print Assumptions C167_weight_decreases_refuted.
Print Assumptions C167_second_setup_refuted.
