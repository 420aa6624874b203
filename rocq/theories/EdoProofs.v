From Coq Require Import ZArith QArith Qround Qabs List Bool Arith Lia Lqa.
From Verif Require Import Lib Outcome BoundsModel BoundsProofs RealModel RealSpec RealProofs.
From Verif Require Import BreedModel EdoModel EdoSpec.
From Coq Require Import List.
Import ListNotations.
Open Scope Q_scope.

Lemma each_shift {A} (f g : nat -> Q -> A -> res (Q * A)) : (forall d x a, f (S d) x a = g d x a) -> forall v i a, each f (S i) v a = each g i v a.
Proof. intros E. induction v; intros i b; cbn [each]; [reflexivity|]. rewrite E. destruct (g i a b) as [[y c]| | |]; cbn [rbind]; [rewrite IHv; reflexivity|reflexivity..]. Qed.

(** ** bounders *)
Lemma bound_each mins maxs : proper_box mins maxs -> forall x r, length x = length mins ->
  exists v, each (bound_at_limits mins maxs) 0 x r = Ok (v, r) /\ in_box mins maxs v /\ length v = length x /\
    (forall d, inside_at mins maxs x d -> nth d v 0 = nth d x 0) /\
    (forall w d, in_box mins maxs w -> dist (nth d v 0) (nth d x 0) <= dist (nth d w 0) (nth d x 0)).
Proof.
  induction 1 as [|mn mx mins maxs Hm H IH]; intros [|x xs] r L; cbn in L; try discriminate.
  - exists []. split; [reflexivity|]. split; [split; constructor|]. split; [reflexivity|]. split; [reflexivity|].
    intros w d [W _]. inversion W; subst. apply Qle_refl.
  - injection L as L. destruct (IH xs r L) as (v & E & [B1 B2] & Lv & K & D).
    pose (y := if qltb x mn then mn else if qltb mx x then mx else x).
    exists (y :: v). cbn [each]. assert (E0 : bound_at_limits (mn :: mins) (mx :: maxs) 0 x r = Ok (y, r)).
    { unfold bound_at_limits, y. cbn. destruct (qltb x mn); [reflexivity|]. cbn. destruct (qltb mx x); reflexivity. }
    rewrite E0. cbn [rbind]. rewrite (each_shift _ (bound_at_limits mins maxs)) by reflexivity. rewrite E. cbn [rbind].
    assert (Y : (x < mn /\ y = mn) \/ (mx < x /\ y = mx) \/ (mn <= x /\ x <= mx /\ y = x)).
    { unfold y. destruct (qltb x mn) eqn:E1; [apply qltb_lt in E1; auto|]. apply qltb_ge in E1.
      destruct (qltb mx x) eqn:E2; [apply qltb_lt in E2; auto|]. apply qltb_ge in E2. auto. }
    clearbody y. split; [reflexivity|]. split.
    { split; (constructor; [destruct Y as [[? ->]|[[? ->]|(? & ? & ->)]]; lra|assumption]). }
    split; [cbn; lia|]. split.
    + intros [|d] Hd; cbn in *; [|apply K; exact Hd]. unfold inside_at in Hd. cbn in Hd.
      destruct Y as [[? ->]|[[? ->]|(? & ? & ->)]]; [lra|lra|reflexivity].
    + intros w d [W1 W2]. inversion W1 as [|? a ? w' Wa Wr]; subst. inversion W2; subst. destruct d as [|d]; cbn [nth].
      * unfold dist. destruct Y as [[? ->]|[[? ->]|(? & ? & ->)]];
          repeat (apply Qabs_case; intros); lra.
      * apply D. split; assumption.
Qed.
Lemma in_box_inside mins maxs v d : in_box mins maxs v -> (d < length v)%nat -> inside_at mins maxs v d.
Proof.
  intros [A B]. revert maxs B d. unfold inside_at. induction A as [|m x mins v H A IH]; intros maxs B d L; [cbn in L; lia|].
  inversion B; subst. destruct d as [|d]; cbn; [lra|]. apply IH; [assumption|cbn in L; lia].
Qed.

(** the components out of the box *)
Definition out (mins maxs : list Q) (x : list Q) : nat :=
  length (filter (fun p => qltb (snd p) (fst (fst p)) || qltb (snd (fst p)) (snd p)) (combine (combine mins maxs) x)).
(** [gen] gives a number between the bounds, using at most one draw *)
Lemma redraw_each (gen : nat -> rand -> res (Q * rand)) mins maxs : proper_box mins maxs ->
  (forall d r y r', good r -> (d < length mins)%nat -> gen d r = Ok (y, r') -> good r' /\ nth d mins 0 <= y <= nth d maxs 0) ->
  forall x r v r', length x = length mins -> good r -> each (redraw gen mins maxs) 0 x r = Ok (v, r') ->
  good r' /\ in_box mins maxs v /\ length v = length x /\ (forall d, inside_at mins maxs x d -> nth d v 0 = nth d x 0).
Proof.
  intros H. revert gen. induction H as [|mn mx mins maxs Hm H IH]; intros gen G [|x xs] r v r' L Gr E; cbn in L; try discriminate.
  - injection E as <- <-. split; [exact Gr|]. split; [split; constructor|]. split; [reflexivity|]. reflexivity.
  - injection L as L. cbn [each] in E. apply rbind_ok in E as ([y r1] & E1 & E). apply rbind_ok in E as ([v1 r2] & E2 & E). injection E as <- <-.
    assert (Y : good r1 /\ mn <= y <= mx /\ (mn <= x <= mx -> y = x)).
    { unfold redraw in E1. cbn in E1. destruct (qltb x mn) eqn:Q1.
      - apply qltb_lt in Q1. destruct (G 0%nat _ _ _ Gr ltac:(cbn; lia) E1) as [G1 B]. cbn in B. split; [exact G1|]. split; [exact B|]. lra.
      - cbn in E1. apply qltb_ge in Q1. destruct (qltb mx x) eqn:Q2.
        + apply qltb_lt in Q2. destruct (G 0%nat _ _ _ Gr ltac:(cbn; lia) E1) as [G1 B]. cbn in B. split; [exact G1|]. split; [exact B|]. lra.
        + apply qltb_ge in Q2. injection E1 as <- <-. split; [exact Gr|]. split; [lra|reflexivity]. }
    destruct Y as (G1 & B & K). rewrite (each_shift _ (redraw (fun d => gen (S d)) mins maxs)) in E2 by reflexivity.
    destruct (IH (fun d => gen (S d))) with (x := xs) (r := r1) (v := v1) (r' := r2) as (G2 & [B1 B2] & L1 & K1); auto.
    { intros d r0 y0 r0' Gd Hd Eg. apply (G (S d) r0 y0 r0' Gd); [cbn; lia|exact Eg]. }
    split; [exact G2|]. split; [split; constructor; try assumption; lra|]. split; [cbn; lia|].
    intros [|d] Hd; cbn; [apply K; exact Hd|apply K1; exact Hd].
Qed.
Lemma uniform2_ok mn mx r y r' : mn <= mx -> good r -> uniform2 mn mx r = Ok (y, r') -> good r' /\ mn <= y <= mx /\ (mn < mx -> y < mx) /\ length (us r) = S (length (us r')).
Proof.
  unfold uniform2. intros H G E. apply rbind_ok in E as ([u r1] & E1 & E).
  assert (Ey : y = mn + (mx - mn) * u) by congruence. assert (r1 = r') by congruence. subst r1 y.
  destruct (uniform_good _ _ _ G E1) as (G1 & U1 & U2). apply uniform_ok in E1 as (Eu & _). split; [exact G1|]. split; [nra|]. split; [nra|].
  rewrite Eu. reflexivity.
Qed.
Lemma proper_at mins maxs d : proper_box mins maxs -> (d < length mins)%nat ->
  exists mn mx, nth_error mins d = Some mn /\ nth_error maxs d = Some mx /\ nth d mins 0 = mn /\ nth d maxs 0 = mx /\ mn <= mx.
Proof.
  intros H. revert d. induction H as [|m M mins maxs Hm H IH]; intros d L; [cbn in L; lia|]. destruct d as [|d]; cbn.
  - exists m, M. auto.
  - apply IH. cbn in L. lia.
Qed.
Lemma uniform_at_ok mins maxs d r y r' : proper_box mins maxs -> (d < length mins)%nat -> good r -> uniform_at mins maxs d r = Ok (y, r') ->
  good r' /\ nth d mins 0 <= y <= nth d maxs 0.
Proof.
  intros H L G E. destruct (proper_at _ _ _ H L) as (mn & mx & E1 & E2 & N1 & N2 & Hm). unfold uniform_at in E. rewrite E1, E2 in E. cbn in E.
  destruct (uniform2_ok _ _ _ _ _ Hm G E) as (G1 & B & _). rewrite N1, N2. auto.
Qed.
(** one draw for each component out of bounds is enough *)
Lemma uniform_each_total mins maxs : proper_box mins maxs -> forall x r, length x = length mins -> (out mins maxs x <= length (us r))%nat ->
  forall gen, (forall d r, (d < length mins)%nat -> (0 < length (us r))%nat -> exists y r', gen d r = Ok (y, r') /\ length (us r) = S (length (us r'))) ->
  exists v r', each (redraw gen mins maxs) 0 x r = Ok (v, r') /\ length (us r) = (out mins maxs x + length (us r'))%nat.
Proof.
  induction 1 as [|mn mx mins maxs Hm H IH]; intros [|x xs] r L Lr gen G; cbn in L; try discriminate.
  - exists [], r. split; reflexivity.
  - injection L as L. cbn [each]. unfold out in *. cbn in Lr |- *.
    assert (S0 : forall r1, (length (filter (fun p => qltb (snd p) (fst (fst p)) || qltb (snd (fst p)) (snd p)) (combine (combine mins maxs) xs)) <= length (us r1))%nat ->
      exists v r', each (redraw gen (mn :: mins) (mx :: maxs)) 1 xs r1 = Ok (v, r') /\
        length (us r1) = (length (filter (fun p => qltb (snd p) (fst (fst p)) || qltb (snd (fst p)) (snd p)) (combine (combine mins maxs) xs)) + length (us r'))%nat).
    { intros r1 L1. rewrite (each_shift _ (redraw (fun d => gen (S d)) mins maxs)) by reflexivity. apply IH; auto.
      intros d r0 Hd L0. apply G; cbn; lia. }
    change (redraw gen (mn :: mins) (mx :: maxs) 0 x r) with (if qltb x mn then gen 0%nat r else if qltb mx x then gen 0%nat r else Ok (x, r)).
    destruct (qltb x mn) eqn:Q1; cbn [orb] in *.
    + cbn [length] in *. destruct (G 0%nat r) as (y & r1 & E & L1); [cbn; lia|lia|]. rewrite E. cbn [rbind].
      destruct (S0 r1) as (v & r2 & E2 & L2); [lia|]. rewrite E2. cbn [rbind]. do 2 eexists. split; [reflexivity|]. lia.
    + destruct (qltb mx x) eqn:Q2; cbn [length] in *.
      * destruct (G 0%nat r) as (y & r1 & E & L1); [cbn; lia|lia|]. rewrite E. cbn [rbind].
        destruct (S0 r1) as (v & r2 & E2 & L2); [lia|]. rewrite E2. cbn [rbind]. do 2 eexists. split; [reflexivity|]. lia.
      * destruct (S0 r) as (v & r2 & E2 & L2); [lia|]. cbn [rbind]. rewrite E2. cbn [rbind]. do 2 eexists. split; [reflexivity|]. lia.
Qed.

(** ** rounding *)
Lemma floor_spec x : integer (floor x) /\ floor x <= x /\ x < floor x + 1 /\ forall z, integer z -> z <= x -> z <= floor x.
Proof.
  unfold floor. split; [exists (Qfloor x); reflexivity|]. split; [apply Qfloor_le|]. split.
  - pose proof (Qlt_floor x) as H. rewrite inject_Z_plus in H. exact H.
  - intros z [k Hk] Hz. rewrite Hk in *. rewrite <- Zle_Qle. apply Qfloor_resp_le in Hz. rewrite Qfloor_Z in Hz. exact Hz.
Qed.
Lemma ceil_spec x : integer (ceil x) /\ x <= ceil x /\ ceil x < x + 1 /\ forall z, integer z -> x <= z -> ceil x <= z.
Proof.
  unfold ceil. split; [exists (Qceiling x); reflexivity|]. split; [apply Qle_ceiling|]. split.
  - pose proof (Qceiling_lt x) as H. unfold Z.sub in H. rewrite inject_Z_plus in H. assert (E : inject_Z (- (1)) == - (1)) by reflexivity. lra.
  - intros z [k Hk] Hz. rewrite Hk in *. rewrite <- Zle_Qle. apply Qceiling_resp_le in Hz. rewrite Qceiling_Z in Hz. exact Hz.
Qed.
Lemma integer_gap a b : integer a -> integer b -> a < b + 1 -> a <= b.
Proof.
  intros [i Hi] [j Hj] H. rewrite Hi, Hj in *. change 1 with (inject_Z 1) in H. rewrite <- inject_Z_plus in H. rewrite <- Zlt_Qlt in H. rewrite <- Zle_Qle. lia.
Qed.
(** the rounded value is a multiple of the step, at most half a step away, and no multiple is closer *)
Lemma round_spec step x : 0 < step -> let y := edo_round x (1 / step) in
  multiple step y /\ dist y x <= step * (1 # 2) /\ forall m, multiple step m -> dist y x <= dist m x.
Proof.
  intros Hs. cbn zeta.
  assert (P : exists n, integer n /\ edo_round x (1 / step) == n * step /\ dist (n * step) x <= step * (1 # 2)).
  { unfold edo_round. destruct (qltb 0 x).
    - destruct (floor_spec (x * (1 / step) + (1 # 2))) as (I & A & B & _). set (n := floor _) in *. exists n. split; [exact I|]. split; [field; lra|].
      assert (X : x * (1 / step) * step == x) by (field; lra). set (q := x * (1 / step)) in *.
      unfold dist. apply Qabs_case; intros; nra.
    - destruct (ceil_spec (x * (1 / step) - (1 # 2))) as (I & A & B & _). set (n := ceil _) in *. exists n. split; [exact I|]. split; [field; lra|].
      assert (X : x * (1 / step) * step == x) by (field; lra). set (q := x * (1 / step)) in *.
      unfold dist. apply Qabs_case; intros; nra. }
  destruct P as (n & I & E & D).
  assert (D' : dist (edo_round x (1 / step)) x == dist (n * step) x) by (unfold dist; rewrite E; reflexivity).
  split; [destruct I as [k Hk]; exists k; rewrite E, Hk; reflexivity|]. split; [rewrite D'; exact D|].
  intros m [k Hk]. rewrite D'. assert (M : dist m x == dist (inject_Z k * step) x) by (unfold dist; rewrite Hk; reflexivity). rewrite M.
  destruct I as [j Hj].
  assert (N : dist (n * step) x == dist (inject_Z j * step) x) by (unfold dist; rewrite Hj; reflexivity). rewrite N in *. clear M N D' E Hk Hj.
  destruct (Z.lt_trichotomy j k) as [H|[->|H]]; [|apply Qle_refl|].
  - assert (inject_Z j + 1 <= inject_Z k) by (change 1 with (inject_Z 1); rewrite <- inject_Z_plus, <- Zle_Qle; lia).
    revert D. unfold dist. repeat (apply Qabs_case; intros); nra.
  - assert (inject_Z k + 1 <= inject_Z j) by (change 1 with (inject_Z 1); rewrite <- inject_Z_plus, <- Zle_Qle; lia).
    revert D. unfold dist. repeat (apply Qabs_case; intros); nra.
Qed.
(** fmod *)
Lemma fmod_spec x y : ~ y == 0 -> (exists z, x == fmod x y + inject_Z z * y) /\ Qabs (fmod x y) < Qabs y /\ (0 <= x -> 0 <= fmod x y) /\ (x <= 0 -> fmod x y <= 0).
Proof.
  intros Hy. unfold fmod. set (t := qtrunc (x / y)). split; [exists t; ring|].
  assert (X : x == (x / y) * y) by (field; exact Hy). set (q := x / y) in *.
  assert (T : (0 <= q /\ inject_Z t <= q /\ q < inject_Z t + 1 /\ 0 <= inject_Z t) \/ (q < 0 /\ q <= inject_Z t /\ inject_Z t < q + 1 /\ inject_Z t <= 0)).
  { unfold t, qtrunc. destruct (Qle_bool 0 q) eqn:Q.
    - apply Qle_bool_iff in Q. left. destruct (floor_spec q) as (_ & A & B & C). unfold floor in *. split; [exact Q|]. split; [exact A|]. split; [exact B|].
      apply C; [exists 0%Z; reflexivity|exact Q].
    - right. assert (q < 0) by (apply Qnot_le_lt; intros K; apply Qle_bool_iff in K; congruence).
      destruct (ceil_spec q) as (_ & A & B & C). unfold ceil in *. split; [assumption|]. split; [exact A|]. split; [exact B|].
      apply C; [exists 0%Z; reflexivity|lra]. }
  set (z := inject_Z t) in *. clearbody z q. clear t. destruct (Q_dec y 0) as [[N|Pq]|Z]; [| |contradiction].
  - split; [|split; intros; nra]. assert (Qabs y == - y) as Ay by (apply Qabs_neg; lra). rewrite Ay. apply Qabs_case; intros; nra.
  - split; [|split; intros; nra]. assert (Qabs y == y) as Ay by (apply Qabs_pos; lra). rewrite Ay. apply Qabs_case; intros; nra.
Qed.
