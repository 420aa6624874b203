(** C80, C81, C82: particle swarms *)
From Coq Require Import List Arith Bool Lia Permutation ZArith QArith Lqa.
From Verif Require Import Lib Outcome OrderSpec OrderLemmas PsoModel PsoSpec PsoProofs PsoSetup PsoRun PsoMore PsoTurn.
From Coq Require Import List.
Import ListNotations.
Open Scope nat_scope.

Section Claims.
Context {A V F : Type} (lt : F -> F -> bool).
Hypothesis swo : strict_weak_order lt.
Context {W : Type}.
(** any velocity, any flight, any velocity initialiser; a deterministic evaluation *)
Variable velocity : list (hood A V F) -> particle A V F -> nat -> W -> res (list V * W).
Variable flight : particle A V F -> W -> res (list A * W).
Variable eval : list A -> F.
Variable init_velocity : particle A V F -> W -> res (list V * W).
Variable size : nat.
Hypothesis size_pos : 0 < size.

Inductive variant := Async | Sync.
Definition turn_of (v : variant) : swarm A V F W -> res (swarm A V F W) :=
  match v with
  | Async => async_turn A V F W velocity flight eval (linear_update A V F lt)
  | Sync => sync_turn A V F W velocity flight eval (linear_update A V F lt)
  end.
(** eoEasyPSO or eoSyncEasyPSO with its initialisation, on a linear topology *)
Definition run (v : variant) := pso A V F W eval (linear_setup A V F lt size) init_velocity (turn_of v).

Lemma turn_of_ok v : turn_ok lt eval (turn_of v).
Proof. destruct v; [apply async_ok|apply sync_ok]; auto. Qed.
Lemma run_settled v m rest s s' : log s = [] -> size < length (pop s) -> run v (repeat true m ++ false :: rest) s = Ok s' ->
  settled lt eval (length (pop s)) s' /\ map fst (log s') = concat (repeat (seq 0 (length (pop s))) (S (S m))) /\
  blocks size (length (pop s)) (map members (hoods s')).
Proof.
  intros L Sn H. apply rbind_ok in H as (s1 & H1 & H).
  destruct (initialise_ok lt swo eval init_velocity size size_pos s s1 L Sn H1) as (S1 & M1 & _ & B1).
  destruct (turns_ok lt eval (turn_of v) _ (turn_of_ok v) m rest s1 s' S1 H) as (S2 & l & L2 & M2).
  split; auto. split.
  - rewrite L2, map_app, M1, M2. reflexivity.
  - apply turns_members in H; [rewrite H; auto|]. destruct v; [apply async_members|apply sync_members].
Qed.

(** Each particle is evaluated once per turn, in order, and once before the first turn. At the end each particle
    remembers the first of the best positions evaluated for it, with its fitness, and stands at the last one. *)
Theorem C80_particles_remember_their_best : forall v m rest s s',
  log s = [] -> size < length (pop s) -> run v (repeat true m ++ false :: rest) s = Ok s' ->
  length (pop s') = length (pop s) /\
  map fst (log s') = concat (repeat (seq 0 (length (pop s))) (m + 2)) /\
  forall k p, nth_error (pop s') k = Some p ->
    first_best lt eval (history (log s') k) (bpos p) /\ best p = eval (bpos p) /\
    (exists before, history (log s') k = before ++ [pos p]) /\ fit p = Some (eval (pos p)).
Proof.
  intros v m rest s s' L Sn H. destruct (run_settled v m rest s s' L Sn H) as (((N & M & _) & Cu) & Lm & _).
  split; auto. split; [rewrite Lm; f_equal; f_equal; lia|]. intros k p Hp. destruct (M k p Hp). destruct (Cu k p Hp). auto.
Qed.
(** The neighborhoods are consecutive blocks of [size] particles, the last one taking the rest. The best particle of
    each one is a copy of one of its members at a position evaluated for it, and no position evaluated for any of its
    members is better. *)
Theorem C80_neighborhoods_remember_their_best : forall v m rest s s',
  log s = [] -> size < length (pop s) -> run v (repeat true m ++ false :: rest) s = Ok s' ->
  blocks size (length (pop s)) (map members (hoods s')) /\
  forall h, In h (hoods s') ->
    (exists k, In k (members h) /\ In (pos (lbest h)) (history (log s') k)) /\
    (forall k x, In k (members h) -> In x (history (log s') k) -> lt (eval (pos (lbest h))) (eval x) = false) /\
    fit (lbest h) = Some (eval (pos (lbest h))) /\ best (lbest h) = eval (pos (lbest h)) /\ bpos (lbest h) = pos (lbest h).
Proof.
  intros v m rest s s' L Sn H. destruct (run_settled v m rest s s' L Sn H) as (((_ & _ & Hh & _) & _) & _ & B). auto.
Qed.
(** best(k) is the best of the neighborhood of [k] *)
Theorem C80_best_of_a_particle : forall v m rest s s' k,
  log s = [] -> size < length (pop s) -> run v (repeat true m ++ false :: rest) s = Ok s' -> k < length (pop s) ->
  exists h, In h (hoods s') /\ In k (members h) /\ linear_best A V F (hoods s') k = Ok (lbest h).
Proof.
  intros v m rest s s' k L Sn H K. destruct (run_settled v m rest s s' L Sn H) as (((_ & _ & _ & P) & _) & _ & _).
  destruct (retrieve_spec (hoods s') k) as (h & Hr & Hk).
  { assert (I : In k (concat (map members (hoods s')))).
    { eapply Permutation_in; [apply Permutation_sym, P|]. apply in_seq. lia. }
    apply in_concat in I as (l & Hl & I). apply in_map_iff in Hl as (h & <- & Hl). eauto. }
  exists h. split; [eapply nth_error_In; eauto|]. split; auto. unfold linear_best. rewrite Hr. auto.
Qed.
(** A turn computes a new velocity for each particle from what it was, flies it with that velocity and keeps the
    velocity and the position reached; in eoSyncEasyPSO all velocities see the neighborhoods of the turn before. *)
Theorem C81_a_turn_flies_with_the_new_velocity : forall v s s', turn_of v s = Ok s' ->
  forall k p, nth_error (pop s) k = Some p ->
  exists p' hs u w1 w1' w2 w2', nth_error (pop s') k = Some p' /\ (v = Sync -> hs = hoods s) /\
    velocity hs p k w1 = Ok (u, w1') /\
    flight (Particle (pos p) u (bpos p) (fit p) (best p)) w2 = Ok (pos p', w2') /\ vel p' = u.
Proof.
  intros [|] s s' H k p Hp; cbn [turn_of] in H.
  - destruct (async_flown lt velocity flight eval s s' H k p Hp) as (p' & hs & E & u & w1 & w1' & w2 & w2' & X).
    exists p', hs, u, w1, w1', w2, w2'. split; auto. split; [discriminate|auto].
  - destruct (sync_flown lt velocity flight eval s s' H k p Hp) as (p' & E & u & w1 & w1' & w2 & w2' & X).
    exists p', (hoods s), u, w1, w1', w2, w2'. auto.
Qed.
(** globalBest() is a position evaluated in the run, and none is better *)
Theorem C80_global_best : forall v m rest s s',
  log s = [] -> size < length (pop s) -> run v (repeat true m ++ false :: rest) s = Ok s' ->
  exists g, global_best A V F lt (hoods s') = Ok g /\ In (pos g) (map snd (log s')) /\
    (forall k x, In (k, x) (log s') -> lt (eval (pos g)) (eval x) = false) /\ fit g = Some (eval (pos g)) /\ best g = eval (pos g).
Proof.
  intros v m rest s s' L Sn H. destruct (run_settled v m rest s s' L Sn H) as ((I & _) & Lm & _).
  assert (I' := I). destruct I' as (_ & _ & Hh & P).
  destruct (global_best_ok lt swo eval (history (log s')) (hoods s')) as (g & E & Ig & Mx).
  { eapply hoods_nonempty; eauto. lia. } { auto. }
  apply in_map_iff in Ig as (h & <- & Ig). destruct (Hh h Ig) as ((k0 & _ & I0) & _ & Fh & Bh & _).
  exists (lbest h). split; auto. split; [|split; auto].
  - unfold history in I0. apply in_map_iff in I0 as (e & <- & I0). apply filter_In in I0 as [I0 _]. apply in_map; auto.
  - intros k x Hx.
    assert (Hk : In k (concat (map members (hoods s')))).
    { eapply Permutation_in; [apply Permutation_sym, P|]. assert (X : In k (map fst (log s'))) by (apply in_map_iff; exists (k, x); auto).
      rewrite Lm in X. apply in_concat in X as (l & Hl & X). apply repeat_spec in Hl. subst l. auto. }
    apply in_concat in Hk as (l & Hl & Hk). apply in_map_iff in Hl as (h' & <- & Hl).
    destruct (Hh h' Hl) as (_ & Mx' & _). specialize (Mx h' Hl).
    assert (Hx' : In x (history (log s') k)).
    { unfold history. apply in_map_iff. exists (k, x). split; auto. apply filter_In. split; auto. cbn. apply Nat.eqb_refl. }
    eapply swo_ntrans; [auto|apply Mx|apply (Mx' k x Hk Hx')].
Qed.
(** The run never fails when the user's functors keep the dimension [d] and the continuator ends it. *)
Theorem C80_runs_to_the_end : forall v d m rest s,
  log s = [] -> size < length (pop s) -> (forall p, In p (pop s) -> length (pos p) = d) ->
  velocity_works lt velocity d -> flight_works flight d -> init_works init_velocity d ->
  exists s', run v (repeat true m ++ false :: rest) s = Ok s'.
Proof.
  intros v d m rest s L Sn Pl Vw Fw Iw.
  destruct (initialise_total lt swo eval init_velocity size size_pos d s Iw L Sn Pl) as (s1 & E1 & Z1).
  destruct (initialise_ok lt swo eval init_velocity size size_pos s s1 L Sn E1) as (S1 & _).
  unfold run, pso. rewrite E1. cbn [rbind]. eapply (turns_total lt eval d); eauto; [apply turn_of_ok|].
  destruct v; [eapply async_total|eapply sync_total]; eauto.
Qed.
(** A neighborhood size not below the number of particles is refused. *)
Theorem C80_too_large_neighborhoods_are_refused : forall pop, length pop <= size -> linear_setup A V F lt size pop = Throw.
Proof. intros pop H. unfold linear_setup. apply Nat.leb_le in H. rewrite H. auto. Qed.
End Claims.

(** five particles on a line, neighborhoods of two, two turns *)
Definition line_eval (x : list Z) : Z := match x with [a] => (- (a - 3) * (a - 3))%Z | _ => 0%Z end.
Definition line_velocity (hs : list (hood Z Z Z)) (p : particle Z Z Z) (k : nat) (w : list Z) : res (list Z * list Z) :=
  match w with [] => NoDraw | a :: r => Ok ([a], r) end.
Definition line_flight (p : particle Z Z Z) (w : list Z) : res (list Z * list Z) :=
  match pos p, vel p with [a], [v] => Ok ([(a + v)%Z], w) | _, _ => UB end.
Definition line_init (p : particle Z Z Z) (w : list Z) : res (list Z * list Z) := Ok ([0%Z], w).
Definition line_swarm (w : list Z) : swarm Z Z Z (list Z) :=
  Swarm (map (fun a => Particle [a] [] [] None 0%Z) [0; 1; 9; 6; 7]%Z) [] w [].
Definition line_run v := run Z.ltb line_velocity line_flight line_eval line_init 2 v [true; false] (line_swarm [1; 3; -6; -1; -1; 5; 1; 1; 1; -5]%Z).
Lemma z_swo : strict_weak_order Z.ltb.
Proof. split; [intros; apply Z.ltb_irrefl|]. split; intros a b c; rewrite ?Z.ltb_lt, ?Z.ltb_ge; lia. Qed.
Example C80_example_async : match line_run Async with
  | Ok s => length (log s) = 15 /\ map bpos (pop s) = [[1]; [4]; [3]; [5]; [1]]%Z /\ map (fun h => pos (lbest h)) (hoods s) = [[4]; [3]]%Z
    /\ map members (hoods s) = [[0; 1]; [2; 3; 4]]
  | _ => False end.
Proof. vm_compute. auto. Qed.
Example C80_example_sync : match line_run Sync with
  | Ok s => length (log s) = 15 /\ map bpos (pop s) = [[1]; [4]; [3]; [5]; [1]]%Z /\ map best (pop s) = [-4; -1; 0; -4; -4]%Z
  | _ => False end.
Proof. vm_compute. auto. Qed.

(** *** C81 *)
Section Moves.
Context {F : Type}.
Variable bounds : nat -> option Q * option Q.
Hypothesis bounds_consistent : forall j, consistent (fst (bounds j)) (snd (bounds j)).
Notation particle := (particle Q Q F).
(** component [j] of the result, given the value that the formula of the class gives before the check of the bounds *)
Definition component (l : list Q) (j : nat) (value : Q) : Prop :=
  exists y, nth_error l j = Some y /\ exists x, (x == value)%Q /\ brought_back (fst (bounds j)) (snd (bounds j)) x y.

Theorem C81_standard_velocity : forall omega c1 c2 u1 u2 (p lb : particle) l,
  length (vel p) = length (pos p) -> standard_velocity F bounds omega c1 c2 u1 u2 p lb = Ok l ->
  length l = length (pos p) /\
  forall j x v b g, nth_error (pos p) j = Some x -> nth_error (vel p) j = Some v -> nth_error (bpos p) j = Some b -> nth_error (pos lb) j = Some g ->
    component l j (omega * v + u1 * c1 * (b - x) + u2 * c2 * (g - x))%Q.
Proof.
  intros omega c1 c2 u1 u2 p lb l E H. apply velocities_ok in H as [L H]; auto. split; auto.
  intros j x v b g Hx Hv Hb Hg. destruct (H j) as (y & z & Hz & (v' & b' & l' & g' & x' & V1 & V2 & V3 & V4 & V5 & Ey) & Ez).
  { eapply nth_error_lt; eauto. }
  exists z. split; auto. exists y. split; [|rewrite Ez; apply check_ok; auto].
  assert (v' = v /\ b' = b /\ l' = g /\ x' = x) as (-> & -> & -> & ->) by (repeat split; congruence). rewrite Ey. ring.
Qed.
Theorem C81_constricted_velocity : forall coeff c1 c2 u1 u2 (p lb : particle) l,
  length (vel p) = length (pos p) -> constricted_velocity F bounds coeff c1 c2 u1 u2 p lb = Ok l ->
  length l = length (pos p) /\
  forall j x v b g, nth_error (pos p) j = Some x -> nth_error (vel p) j = Some v -> nth_error (bpos p) j = Some b -> nth_error (pos lb) j = Some g ->
    component l j (coeff * (v + u1 * c1 * (b - x) + u2 * c2 * (g - x)))%Q.
Proof.
  intros coeff c1 c2 u1 u2 p lb l E H. apply velocities_ok in H as [L H]; auto. split; auto.
  intros j x v b g Hx Hv Hb Hg. destruct (H j) as (y & z & Hz & (v' & b' & l' & g' & x' & V1 & V2 & V3 & V4 & V5 & Ey) & Ez).
  { eapply nth_error_lt; eauto. }
  exists z. split; auto. exists y. split; [|rewrite Ez; apply check_ok; auto].
  assert (v' = v /\ b' = b /\ l' = g /\ x' = x) as (-> & -> & -> & ->) by (repeat split; congruence). rewrite Ey. ring.
Qed.
Theorem C81_extended_velocity : forall omega c1 c2 c3 u1 u2 u3 (p lb gb : particle) l,
  length (vel p) = length (pos p) -> extended_velocity F bounds omega c1 c2 c3 u1 u2 u3 p lb gb = Ok l ->
  length l = length (pos p) /\
  forall j x v b g h, nth_error (pos p) j = Some x -> nth_error (vel p) j = Some v -> nth_error (bpos p) j = Some b ->
    nth_error (pos lb) j = Some g -> nth_error (pos gb) j = Some h ->
    component l j (omega * v + u1 * c1 * (b - x) + u2 * c2 * (g - x) + u3 * c3 * (h - x))%Q.
Proof.
  intros omega c1 c2 c3 u1 u2 u3 p lb gb l E H. apply velocities_ok in H as [L H]; auto. split; auto.
  intros j x v b g h Hx Hv Hb Hg Hh. destruct (H j) as (y & z & Hz & (v' & b' & l' & g' & x' & V1 & V2 & V3 & V4 & V5 & Ey) & Ez).
  { eapply nth_error_lt; eauto. }
  exists z. split; auto. exists y. split; [|rewrite Ez; apply check_ok; auto].
  assert (v' = v /\ b' = b /\ l' = g /\ g' = h /\ x' = x) as (-> & -> & -> & -> & ->) by (repeat split; congruence). rewrite Ey. ring.
Qed.
Theorem C81_standard_flight : forall (p : particle) l, standard_flight F bounds p = Ok l ->
  length l = length (pos p) /\
  forall j x v, nth_error (pos p) j = Some x -> nth_error (vel p) j = Some v -> component l j (x + v)%Q.
Proof.
  intros p l H. apply flight_ok in H as [L H]. split; auto. intros j x v Hx Hv. destruct (H j x Hx) as (v' & Hv' & Hl).
  exists (check bounds j (x + v')%Q). split; auto. assert (v' = v) by congruence. subst v'.
  exists (x + v)%Q. split; [reflexivity|]. apply check_ok; auto.
Qed.

(** every coordinate within its bounds *)
Definition inside (l : list Q) : Prop := forall j y, nth_error l j = Some y ->
  (forall m, fst (bounds j) = Some m -> (m <= y)%Q) /\ (forall m, snd (bounds j) = Some m -> (y <= m)%Q).
(** With bounded flights, every position evaluated after the first generation is inside the bounds. *)
Theorem C81_the_swarm_stays_inside : forall (lt : F -> F -> bool) velocity eval init_velocity size v answers s s',
  log s = [] ->
  run lt velocity (standard_flight_op F bounds) eval init_velocity size v answers s = Ok s' ->
  forall i e, length (pop s) <= i -> nth_error (log s') i = Some e -> inside (snd e).
Proof.
  intros lt velocity eval init_velocity size v answers s s' L H i e Hi He.
  apply rbind_ok in H as (s1 & H1 & H).
  assert (X : new_in inside s1 s').
  { assert (Fl : forall (p : particle) w x w', standard_flight_op F bounds p w = Ok (x, w') -> inside x).
    { intros p w x w' Hx. apply rbind_ok in Hx as (l & Hl & Hx). injection Hx as <- <-. intros j y Hy.
      apply flight_ok in Hl as [Ll Hl]. destruct (nth_error (pos p) j) as [x0|] eqn:Ex.
      - destruct (Hl j x0 Ex) as (v0 & _ & Hz). assert (y = check bounds j (x0 + v0)) by congruence. subst y.
        destruct (check_ok bounds j (x0 + v0) (bounds_consistent j)) as (B1 & B2 & _). auto.
      - apply nth_error_None in Ex. apply nth_error_lt in Hy. lia. }
    eapply turns_in; [|apply H]. destruct v; [eapply async_in|eapply sync_in]; eauto. }
  destruct X as (l & El & Hl). rewrite El in He.
  assert (N : length (log s1) = length (pop s)).
  { apply rbind_ok in H1 as (t1 & T1 & H1). apply rbind_ok in H1 as (t2 & T2 & H1). apply rbind_ok in H1 as (t3 & T3 & H1). apply rbind_ok in H1 as (hs & _ & H1).
    injection H1 as <-. cbn [log]. destruct (eval_over _ _ _ _ T1) as (_ & _ & l1 & L1 & M1 & _).
    destruct (over_points _ _ (init_velocity_points _) _ _ T2) as (_ & L2 & _). destruct (over_points _ _ (fun s k s' h => proj1 (init_best_points s k s' h)) _ _ T3) as (_ & L3 & _).
    rewrite L3, L2, L1, L. cbn. rewrite <- (map_length fst), M1. apply seq_length. }
  rewrite nth_error_app2 in He by lia. apply Hl. eapply nth_error_In; eauto.
Qed.
(** The three velocities and the flight always let the swarm run to the end. *)
Inductive which := Standard (omega c1 c2 : Q) | Constricted (coeff c1 c2 : Q) | Extended (omega c1 c2 c3 : Q).
Definition velocity_of (lt : F -> F -> bool) vbounds (k : which) :=
  match k with
  | Standard omega c1 c2 => standard_velocity_op F vbounds lt omega c1 c2
  | Constricted coeff c1 c2 => constricted_velocity_op F vbounds lt coeff c1 c2
  | Extended omega c1 c2 c3 => extended_velocity_op F vbounds lt omega c1 c2 c3
  end.
Theorem C81_swarms_run_to_the_end : forall (lt : F -> F -> bool) vbounds k eval init_velocity size v d m rest s,
  strict_weak_order lt -> 0 < size -> log s = [] -> size < length (pop s) -> (forall p, In p (pop s) -> length (pos p) = d) ->
  init_works init_velocity d ->
  exists s', run lt (velocity_of lt vbounds k) (standard_flight_op F bounds) eval init_velocity size v (repeat true m ++ false :: rest) s = Ok s'.
Proof.
  intros lt vbounds k eval init_velocity size v d m rest s swo Sz L Sn Pl Iw.
  eapply C80_runs_to_the_end; eauto.
  - intros hs p j w (P1 & P2 & P3) Hh (lb & Eb) (g & Eg & Ig).
    assert (Lb : length (pos lb) = d). { apply rbind_ok in Eb as (h & Hb & E). apply of_opt_ok in Hb. injection E as <-. apply Hh. eapply nth_error_In; eauto. }
    assert (Lg : length (pos g) = d). { apply in_map_iff in Ig as (h & <- & Ig). auto. }
    destruct k; cbn [velocity_of]; unfold standard_velocity_op, constricted_velocity_op, extended_velocity_op, standard_velocity, constricted_velocity, extended_velocity;
      rewrite Eb; cbn [rbind]; rewrite ?Eg; cbn [rbind];
      match goal with |- context [velocities F p (fun j x => let! v := raw F ?a ?b ?c ?e ?f p ?x1 ?x2 j x in _)] =>
        destruct (velocities_total vbounds a b c e f p x1 x2) as (l & El); try congruence;
        assert (Ll := proj1 (velocities_ok vbounds a b c e f p x1 x2 l ltac:(congruence) El)) end;
      rewrite El; cbn [rbind]; eexists; eexists; (split; [reflexivity|congruence]).
  - intros p w (P1 & P2 & P3). destruct (flight_total bounds p) as (l & El); [congruence|].
    assert (Ll := proj1 (flight_ok bounds p l El)). unfold standard_flight_op. rewrite El. cbn [rbind]. eexists; eexists. split; [reflexivity|congruence].
Qed.
End Moves.
Definition box : nat -> option Q * option Q := fun j => match j with 0 => (Some (-2)%Q, Some 2%Q) | 1 => (Some (-1)%Q, None) | _ => (None, None) end.
Example C81_example_bounds : forall j, consistent (fst (box j)) (snd (box j)).
Proof. intros [|[|j]] a b; cbn; intros E1 E2; inversion E1; inversion E2; subst. lra. Qed.
Example C81_example_velocity :
  match standard_velocity Z box 1 2 2 (1#2) (1#4) (Particle [1; 5; 0]%Q [1; 1; 1]%Q [3; 1; 7]%Q (Some 0%Z) 0%Z) (Particle [5; 1; 3]%Q [] [] (Some 1%Z) 1%Z) with
  | Ok l => map Qred l = [2; -1; 19 # 2]%Q | _ => False end.
Proof. vm_compute. reflexivity. Qed.

(** *** C82 *)
Section Ring.
Context {A V F : Type} (lt : F -> F -> bool).
Hypothesis swo : strict_weak_order lt.
Variable eval : list A -> F.

(** After setup the neighborhood of particle [i] is the [size] particles from [i - size/2] on around the ring, and
    best(i) is one of them at which no other is better. *)
Theorem C82_ring_setup : forall size pop, 0 < size -> size <= length pop -> (forall p, In p pop -> fit p = Some (eval (pos p))) ->
  exists hs, ring_setup A V F lt size pop = Ok hs /\ length hs = length pop /\
  forall i h, nth_error hs i = Some h ->
    members h = map (fun j => (i + length pop - size / 2 + j) mod length pop) (seq 0 size) /\
    (exists k, In k (members h) /\ nth_error pop k = Some (lbest h)) /\
    (forall k p, In k (members h) -> nth_error pop k = Some p -> lt (eval (pos (lbest h))) (eval (pos p)) = false).
Proof.
  intros size pop Sz Sn Sc. destruct (ring_hoods_ok lt swo eval size pop Sz Sn Sc (seq 0 (length pop))) as (hs & E & Fh).
  { intros i Hi. apply in_seq in Hi. lia. }
  exists hs. split; auto. split; [rewrite (Forall2_len _ _ _ Fh); apply seq_length|].
  intros i h Hh. destruct (Forall2_nth _ _ _ Fh _ _ Hh) as (i0 & Ei & (M1 & M2 & M3) & _).
  assert (Li := nth_error_lt _ _ _ Ei). rewrite seq_length in Li. rewrite nth_error_seq' in Ei by auto. injection Ei as <-.
  rewrite M1. split; [|split; auto]. unfold around. apply map_ext. intros j. unfold ring_index. f_equal. cbn. lia.
Qed.
(** updateNeighborhood changes no neighborhood at all for any size from 2 to 2^31 ... *)
Theorem C99_ring_update_changes_nothing : forall size hs p k p' hs', (2 <= size <= 2 ^ 31)%Z ->
  ring_update A V F lt size hs p k = Ok (p', hs') -> hs' = hs.
Proof.
  intros size hs p k p' hs' Hs H. apply rbind_ok in H as (q & _ & H). rewrite ring_range_empty in H by auto. cbn [map] in H. injection H as <- <-. auto.
Qed.
End Ring.
(** ... so the best of a neighborhood is not the best of its members: three particles, particle 1 improves, and no
    neighborhood learns it. *)
Definition ring_pop : list (particle Z Z Z) := map (fun a => Particle [a] [0%Z] [a] (Some (line_eval [a])) (line_eval [a])) [0; 9; 6]%Z.
Definition better : particle Z Z Z := Particle [3%Z] [0%Z] [9%Z] (Some 0%Z) (-36)%Z.
Theorem C99_ring_neighborhoods_are_up_to_date_refuted :
  exists hs p' hs', ring_setup Z Z Z Z.ltb 3 ring_pop = Ok hs /\ ring_update Z Z Z Z.ltb 3 hs better 1 = Ok (p', hs') /\
  (forall h, In h hs' -> In 1 (members h) /\ Z.ltb (line_eval (pos (lbest h))) (line_eval (pos p')) = true) /\ hs' <> [].
Proof.
  eexists. eexists. eexists. split; [vm_compute; reflexivity|]. split; [vm_compute; reflexivity|]. split; [|discriminate].
  intros h Hh. cbn in Hh. repeat (destruct Hh as [<-|Hh]; [vm_compute; auto|]). destruct Hh.
Qed.
(** With a neighborhood of one particle, another particle's neighborhood is changed: the index is taken modulo the
    dimension of the particle. *)
Theorem C99_ring_of_single_particles_refuted :
  exists hs p' hs', ring_setup Z Z Z Z.ltb 1 ring_pop = Ok hs /\ ring_update Z Z Z Z.ltb 1 hs better 1 = Ok (p', hs') /\
  map members hs' = [[0]; [1]; [2]] /\ map (fun h => pos (lbest h)) hs' = [[3]; [9]; [6]]%Z.
Proof. eexists. eexists. eexists. split; [vm_compute; reflexivity|]. split; [vm_compute; reflexivity|]. split; vm_compute; reflexivity. Qed.
(** A linear topology already set up keeps the neighborhoods of the first population: after the second setup the best
    of a neighborhood is no particle of the new population, and better than all of them. *)
Definition second_pop : list (particle Z Z Z) := map (fun a => Particle [a] [0%Z] [a] (Some (line_eval [a])) (line_eval [a])) [20; 30; 40]%Z.
Theorem C99_second_setup_refuted : exists hs, linear_setup_again Z Z Z Z.ltb 2 None ring_pop = Ok hs /\
  linear_setup_again Z Z Z Z.ltb 2 (Some hs) second_pop = Ok hs /\ hs <> [] /\
  forall h p, In h hs -> In p second_pop -> Z.ltb (line_eval (pos p)) (line_eval (pos (lbest h))) = true.
Proof.
  eexists. split; [vm_compute; reflexivity|]. split; [reflexivity|]. split; [discriminate|].
  intros h p Hh Hp. cbn in Hh. destruct Hh as [<-|[]]. cbn in Hp. repeat (destruct Hp as [<-|Hp]; [reflexivity|]). destruct Hp.
Qed.
Example C82_example_ring : match ring_setup Z Z Z Z.ltb 3 ring_pop with
  | Ok hs => map members hs = [[2; 0; 1]; [0; 1; 2]; [1; 2; 0]] /\ map (fun h => pos (lbest h)) hs = [[0]; [0]; [6]]%Z
  | _ => False end.
Proof. vm_compute. auto. Qed.

Print Assumptions C80_particles_remember_their_best.
Print Assumptions C80_neighborhoods_remember_their_best.
Print Assumptions C80_best_of_a_particle.
Print Assumptions C80_global_best.
Print Assumptions C80_runs_to_the_end.
Print Assumptions C81_the_swarm_stays_inside.
Print Assumptions C81_swarms_run_to_the_end.
Print Assumptions C82_ring_setup.
Print Assumptions C99_ring_update_changes_nothing.
Print Assumptions C80_too_large_neighborhoods_are_refused.
Print Assumptions C81_standard_velocity.
Print Assumptions C81_constricted_velocity.
Print Assumptions C81_extended_velocity.
Print Assumptions C81_standard_flight.
Print Assumptions C99_ring_neighborhoods_are_up_to_date_refuted.
Print Assumptions C99_ring_of_single_particles_refuted.
Print Assumptions C99_second_setup_refuted.
Print Assumptions C81_a_turn_flies_with_the_new_velocity.
