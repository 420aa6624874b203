(** C221: the sizes of particles and the initializers of velocities. C222: what they do not keep. *)
From Coq Require Import Arith Bool Lia.
From Verif Require Import Lib Outcome VelModel VelSpec.
From Coq Require Import List.
Import ListNotations.

Lemma vresize_length : forall A (d : A) n l, length (vresize d n l) = n.
Proof. intros. unfold vresize. rewrite app_length, firstn_length, repeat_length. lia. Qed.
Lemma vresize_nth : forall A (d : A) n l i, i < n -> nth_error (vresize d n l) i = Some (nth i l d).
Proof.
  intros A d n l i H. unfold vresize. destruct (lt_dec i (length l)) as [L|L].
  - rewrite nth_error_app1 by (rewrite firstn_length; lia). rewrite <- (firstn_skipn n l) at 2. rewrite app_nth1 by (rewrite firstn_length; lia).
    apply nth_error_nth'. rewrite firstn_length. lia.
  - rewrite nth_error_app2 by (rewrite firstn_length; lia). rewrite nth_overflow by lia. rewrite firstn_length. rewrite nth_error_nth' with (d := d) by (rewrite repeat_length; lia).
    rewrite nth_repeat. reflexivity.
Qed.

(** Giving a position: the particle has this position and no fitness; if its vectors had one length, they have that of the new position; the best positions and
    the velocities keep their values, new places have the default one. *)
Theorem C221_position : forall P V F (p0 : P) (v0 : V) (v : list P) (x : vparticle P V F) n, all_length n (vpos x) (vbests x) (vvel x) ->
  let y := set_position p0 v0 v x in
  vpos y = v /\ vfit y = None /\ all_length (length v) (vpos y) (vbests y) (vvel y) /\
  forall i, i < length v -> nth_error (vbests y) i = Some (nth i (vbests x) p0) /\ nth_error (vvel y) i = Some (nth i (vvel x) v0).
Proof.
  intros P V F p0 v0 v x n (L1 & L2 & L3) y. unfold y, set_position, copy_into. destruct (length v =? length (vpos x)) eqn:E; cbn [vpos vbests vvel vfit resize_all].
  - apply Nat.eqb_eq in E. rewrite skipn_all2 by lia. rewrite app_nil_r. split; [easy|]. split; [easy|]. split; [split; [easy|lia]|]. intros i H. split; apply nth_error_nth'; lia.
  - rewrite skipn_all2 by (rewrite vresize_length; lia). rewrite app_nil_r. split; [easy|]. split; [easy|]. split; [split; [easy|rewrite !vresize_length; easy]|].
    intros i H. split; apply vresize_nth; exact H.
Qed.

Lemma generate_ok : forall V R (gen : R -> V * R) n g, length (fst (generate gen n g)) = n /\ snd (generate gen n g) = state_at gen n g /\
  forall i, i < n -> nth_error (fst (generate gen n g)) i = Some (fst (gen (state_at gen i g))).
Proof.
  intros V R gen. induction n as [|n IH]; intros g; [split; [easy|split; [easy|intros i H; lia]]|]. cbn [generate state_at]. destruct (gen g) as [v g'] eqn:E. specialize (IH g').
  destruct (generate gen n g') as [l g'']. cbn [fst snd length] in *. destruct IH as (I1 & I2 & I3). split; [lia|]. split; [exact I2|].
  intros [|i] H; cbn [nth_error state_at]; [rewrite E; easy|]. rewrite E. apply I3. lia.
Qed.
(** The initializer of a fixed length: whatever the particle was, its three vectors have this length; the velocities are the successive values of the generator;
    the positions keep their values, new places have the default one. *)
Theorem C221_fixed : forall P V F R (p0 : P) (v0 : V) (gen : R -> V * R) n (x : vparticle P V F) g,
  let y := fst (init_fixed p0 v0 gen n x g) in
  all_length n (vpos y) (vbests y) (vvel y) /\ snd (init_fixed p0 v0 gen n x g) = state_at gen n g /\
  forall i, i < n -> nth_error (vvel y) i = Some (fst (gen (state_at gen i g))) /\ nth_error (vpos y) i = Some (nth i (vpos x) p0) /\
    nth_error (vbests y) i = Some (nth i (vbests x) p0).
Proof.
  intros P V F R p0 v0 gen n x g. unfold init_fixed. cbn [resize_all vvel vpos vbests vfit]. rewrite vresize_length. destruct (generate_ok V R gen n g) as (G1 & G2 & G3).
  destruct (generate gen n g) as [l g']. cbn [fst snd vvel vpos vbests] in *. split; [split; [apply vresize_length|split; [apply vresize_length|exact G1]]|]. split; [exact G2|].
  intros i H. split; [apply G3; exact H|]. split; apply vresize_nth; exact H.
Qed.
(** A generator of particles made from it gives particles of this length without fitness, with default positions. *)
Theorem C221_generator : forall P V F R (p0 : P) (v0 : V) (gen : R -> V * R) n g,
  let y : vparticle P V F := fst (velocity_generator p0 v0 (init_fixed p0 v0 gen n) g) in
  vpos y = repeat p0 n /\ vbests y = repeat p0 n /\ length (vvel y) = n /\ vfit y = None.
Proof.
  intros P V F R p0 v0 gen n g. unfold velocity_generator, new_particle, init_fixed. cbn [resize_all vvel vpos vbests vfit repeat]. rewrite vresize_length.
  destruct (generate_ok V R gen n g) as (G1 & _). destruct (generate gen n g) as [l g']. cbn [fst vvel vpos vbests vfit] in *.
  unfold vresize. rewrite firstn_nil. cbn [app length]. rewrite Nat.sub_0_r. auto.
Qed.

Lemma init_each_length : forall V R (init : V -> R -> V * R) l g, length (fst (init_each init l g)) = length l.
Proof. intros V R init. induction l as [|v l IH]; intros g; [easy|]. cbn [init_each]. destruct (init v g) as [v' g']. specialize (IH g'). destruct (init_each init l g'). cbn in *. lia. Qed.
Lemma init_each_turn : forall V R (init : V -> R -> V * R) l g, in_turn init l g (fst (init_each init l g)) (snd (init_each init l g)).
Proof.
  intros V R init. induction l as [|v l IH]; intros g; [constructor|]. cbn [init_each]. destruct (init v g) as [v' g'] eqn:E. specialize (IH g'). destruct (init_each init l g') as [l' g''].
  cbn [fst snd] in *. econstructor; eauto.
Qed.
Lemma init_each_in : forall V R (init : V -> R -> V * R) l g v, In v (fst (init_each init l g)) -> exists u h, v = fst (init u h).
Proof.
  intros V R init. induction l as [|u l IH]; intros g v; [intros []|]. cbn [init_each]. destruct (init u g) as [v' g'] eqn:E. specialize (IH g' v). destruct (init_each init l g') as [l' g''].
  cbn [fst] in *. intros [<-|H]; [exists u, g; rewrite E; easy|auto].
Qed.
(** The initializer of a variable length: the bounds are checked when it is built; the number of velocities is the least size plus the number drawn below the
    difference, thus at least the least size and below the greatest; every velocity, old or new, is
    initialized in turn; positions, best positions and fitness stay. *)
Theorem C221_variable : forall P V F R (v0 : V) random (init : V -> R -> V * R) lo hi, (forall m g, 0 < m -> fst (random m g) < m) ->
  (hi <= lo -> make_variable lo hi = Throw) /\
  (lo < hi -> exists oe, make_variable lo hi = Ok oe /\ forall (x : vparticle P V F) g, let y := fst (init_variable v0 random init oe x g) in
     length (vvel y) = lo + fst (random (hi - lo) g) /\ lo <= length (vvel y) < hi /\ (forall v, In v (vvel y) -> exists u h, v = fst (init u h)) /\
     (exists us, in_turn init us (snd (random (hi - lo) g)) (vvel y) (snd (init_variable v0 random init oe x g)) /\
        forall i, i < length (vvel y) -> nth_error us i = Some (nth i (vvel x) v0)) /\
     vpos y = vpos x /\ vbests y = vbests x /\ vfit y = vfit x).
Proof.
  intros P V F R v0 random init lo hi Rnd. unfold make_variable. split; intros H.
  - apply Nat.leb_le in H. rewrite H. easy.
  - destruct (hi <=? lo) eqn:E; [apply Nat.leb_le in E; lia|]. exists (lo, hi - lo). split; [easy|]. intros x g. unfold init_variable. cbn [fst snd].
    specialize (Rnd (hi - lo) g ltac:(lia)). destruct (random (hi - lo) g) as [k g']. cbn [fst] in Rnd. cbn [resize_velocities vvel vpos vbests].
    pose proof (init_each_length V R init (vresize v0 (lo + k) (vvel x)) g') as L. pose proof (init_each_in V R init (vresize v0 (lo + k) (vvel x)) g') as I.
    pose proof (init_each_turn V R init (vresize v0 (lo + k) (vvel x)) g') as T.
    destruct (init_each init (vresize v0 (lo + k) (vvel x)) g') as [l g'']. cbn [fst vvel vpos vbests] in *. rewrite vresize_length in L. split; [exact L|]. split; [lia|]. split; [exact I|].
    split; [|auto]. eexists. split; [exact T|]. intros i Hi. apply vresize_nth. lia.
Qed.

Definition count (g : nat) : nat * nat := (g, S g).
Example C221_ex : init_fixed 0 9 count 3 (VPart [7] [8; 8; 8; 8] [] (Some 1)) 4 = (VPart [7; 0; 0] [8; 8; 8] [4; 5; 6] (Some 1), 7) /\
  vpos (set_position 0 9 [1; 2; 3] (VPart [7] [8] [5] (Some 1))) = [1; 2; 3] /\ vvel (set_position 0 9 [1; 2; 3] (VPart [7] [8] [5] (Some 1))) = [5; 9; 9] /\
  make_variable 2 5 = Ok (2, 3) /\ fst (init_variable 9 (fun m g => (g mod m, S g)) (fun _ g => count g) (2, 3) (VPart [7] [8] [] (Some 1)) 4) = VPart [7] [8] [5; 6; 7] (Some 1).
Proof. repeat split. Qed.

(** ** C222 *)
(** after the initializer of a fixed length, the position may be another one, with the fitness of the old one *)
Theorem C222_fitness_refuted : forall P V F R (p0 : P) (v0 : V) (gen : R -> V * R) n (x : vparticle P V F) f g, vfit x = Some f -> n <> length (vpos x) ->
  let y := fst (init_fixed p0 v0 gen n x g) in vfit y = Some f /\ vpos y <> vpos x.
Proof.
  intros P V F R p0 v0 gen n x f g Hf Hn. pose proof (C221_fixed P V F R p0 v0 gen n x g) as ((L & _) & _). cbn zeta in *. split.
  - unfold init_fixed. cbn [resize_all vvel vfit]. destruct (generate _ _ _). exact Hf.
  - intros E. rewrite E in L. congruence.
Qed.
(** after the initializer of a variable length, the number of velocities is not that of the positions, unless it happens to be drawn *)
Theorem C222_lengths_refuted : forall P V F R (v0 : V) random (init : V -> R -> V * R) lo hi (x : vparticle P V F) g, (forall m g, 0 < m -> fst (random m g) < m) -> lo < hi ->
  length (vpos x) <> lo + fst (random (hi - lo) g) ->
  exists oe, make_variable lo hi = Ok oe /\ length (vvel (fst (init_variable v0 random init oe x g))) <> length (vpos (fst (init_variable v0 random init oe x g))).
Proof.
  intros P V F R v0 random init lo hi x g Rnd H Hn. destruct (C221_variable P V F R v0 random init lo hi Rnd) as (_ & K). destruct (K H) as (oe & E & G).
  exists oe. split; [exact E|]. specialize (G x g). cbn zeta in G. destruct G as (G1 & _ & _ & _ & G2 & _). rewrite G1, G2. congruence.
Qed.
Example C222_ex : vfit (fst (init_fixed 0 9 count 3 (VPart [7] [8] [] (Some 1)) 4)) = Some 1 /\ (forall m g, 0 < m -> fst ((fun m g => (g mod m, S g)) m g) < m).
Proof. split; [reflexivity|]. intros m g H. apply Nat.mod_upper_bound. lia. Qed.
Print Assumptions C221_position.
Print Assumptions C221_fixed.
Print Assumptions C221_generator.
Print Assumptions C221_variable.
Print Assumptions C222_fitness_refuted.
Print Assumptions C222_lengths_refuted.
