From Coq Require Import ZArith QArith Qround Qabs List Bool Arith Lia Lqa.
From Verif Require Import Lib Outcome BoundsModel BoundsSpec BoundsProofs RealModel RealSpec RealProofs RealOps.
From Coq Require Import List.
Import ListNotations.
Open Scope Q_scope.

Lemma normal_ok r z r' : normal r = Ok (z, r') -> zs r = z :: zs r' /\ us r' = us r.
Proof. unfold normal. destruct (zs r) as [|z0 t] eqn:E; intros H; [discriminate|]. injection H as <- <-. auto. Qed.
Lemma clamp_ok s : stdev_eps <= clamp_dev s.
Proof. unfold clamp_dev. destruct (qltb s stdev_eps) eqn:E; [lra|]. apply qltb_ge in E. auto. Qed.

Lemma fold_all_ok bs : forall v r v' r', Forall proper bs -> good r -> fold_all bs v r = Ok (v', r') ->
  good r' /\ length v' = length v /\ (length bs <= length v)%nat /\ all_inside bs v' /\ skipn (length bs) v' = skipn (length bs) v /\
  (forall i b x, nth_error bs i = Some b -> nth_error v i = Some x -> inside b x -> far x = false -> forall y, nth_error v' i = Some y -> y == x).
Proof.
  induction bs as [|b bs IH]; intros v r v' r' P G H; cbn [fold_all] in H.
  - injection H as <- <-. split; auto. split; auto. split; [cbn; lia|]. split; [intros [|i]; discriminate|]. split; auto. intros [|i]; discriminate.
  - destruct v as [|x v]; [discriminate|]. apply rbind_ok in H as ([y r1] & H1 & H). apply rbind_ok in H as ([v1 r2] & H2 & H). injection H as <- <-.
    inversion P as [|? ? P1 P2]; subst. destruct (fold_at_inside _ _ _ _ _ P1 G H1) as (G1 & I1 & K1). destruct (IH _ _ _ _ P2 G1 H2) as (G2 & L & Lb & I2 & S & K2).
    split; auto. split; [cbn; auto|]. split; [cbn; lia|]. split; [|split; [cbn; auto|]].
    + intros [|i] b0 x0 Hb Hx; cbn in Hb, Hx; [|eapply I2; eauto]. injection Hb as <-. injection Hx as <-. auto.
    + intros [|i] b0 x0 Hb Hx Hi Hf y0 Hy; cbn in Hb, Hx, Hy; [|eapply K2; eauto]. injection Hb as <-. injection Hx as <-. injection Hy as <-. auto.
Qed.
Definition bounds_of (vb : vbounds) : list bounds := match vb with Dummy => [] | Vec bs => bs end.
Lemma fold_vec_ok vb v r v' r' : Forall proper (bounds_of vb) -> good r -> fold_vec vb v r = Ok (v', r') ->
  good r' /\ length v' = length v /\ all_inside (bounds_of vb) v' /\ (vb = Dummy -> v' = v).
Proof.
  destruct vb as [|bs]; cbn; intros P G H.
  - injection H as <- <-. split; auto. split; auto. split; auto. intros [|i]; discriminate.
  - destruct (fold_all_ok _ _ _ _ _ P G H) as (? & ? & ? & ? & _). split; auto. split; auto. split; auto. discriminate.
Qed.

(** a loop that draws one normal number for each coordinate *)
Definition step (v d z : list Q) : list Q := map (fun '((x, s), z) => x + s * z) (combine (combine v d) z).
Lemma each_normal (g : Q -> Q -> Q) : forall v i r v' r', each (fun _ x r => let! (z, r) := normal r in Ok (g x z, r)) i v r = Ok (v', r') ->
  exists z, zs r = z ++ zs r' /\ length z = length v /\ us r' = us r /\ v' = map (fun '(x, z) => g x z) (combine v z).
Proof.
  induction v as [|x v IH]; intros i r v' r' H; cbn [each] in H.
  - injection H as <- <-. exists []. auto.
  - apply rbind_ok in H as ([y r1] & H1 & H). apply rbind_ok in H1 as ([z r0] & H1 & K). injection K as <- <-. apply normal_ok in H1 as (Z & U).
    apply rbind_ok in H as ([v1 r2] & H2 & H). injection H as <- <-. destruct (IH _ _ _ _ H2) as (zl & Z1 & L & U1 & ->).
    exists (z :: zl). rewrite Z, Z1. split; auto. split; [cbn; auto|]. split; [congruence|]. auto.
Qed.
Section Functions.
Variables (expo sine cosine : Q -> Q) (pi : Q).
Lemma es_simple_ok vb tau v dev r v' dev' r' : Forall proper (bounds_of vb) -> good r -> es_simple expo vb tau v dev r = Ok (v', dev', r') ->
  length v' = length v /\ stdev_eps <= dev' /\ all_inside (bounds_of vb) v' /\
  exists z0 z rest, zs r = z0 :: z ++ rest /\ length z = length v /\ (dev' = dev * expo (tau * z0) \/ (dev' = stdev_eps /\ dev * expo (tau * z0) < stdev_eps)) /\
    (vb = Dummy -> v' = map (fun '(x, z) => x + dev' * z) (combine v z)).
Proof.
  intros P G H. unfold es_simple in H. apply rbind_ok in H as ([z0 r1] & H1 & H). cbv zeta in H. apply rbind_ok in H as ([v1 r2] & H2 & H). apply rbind_ok in H as ([v2 r3] & H3 & H).
  injection H as <- <- <-. assert (H1' := H1). apply normal_ok in H1' as (Z & U). destruct (each_normal _ _ _ _ _ _ H2) as (z & Z1 & L & U1 & E).
  assert (G2 : good r2) by (unfold good in *; rewrite U1, U; auto). destruct (fold_vec_ok _ _ _ _ _ P G2 H3) as (_ & L3 & I3 & D3).
  assert (Lv : length v1 = length v) by (rewrite E, map_length, combine_length; lia).
  split; [lia|]. split; [apply clamp_ok|]. split; auto. exists z0, z, (zs r2). split; [rewrite Z, Z1; auto|]. split; auto. split; [|intros K; rewrite (D3 K); auto].
  unfold clamp_dev. destruct (qltb _ stdev_eps) eqn:E1; auto. right. split; auto. apply qltb_lt in E1. auto.
Qed.
(** the new deviation of a coordinate *)
Definition new_dev (taul taug g : Q) (d z d' : Q) : Prop :=
  d' = d * expo (taug * g + taul * z) \/ (d' = stdev_eps /\ d * expo (taug * g + taul * z) < stdev_eps).
Lemma clamp_new taul taug g d z : new_dev taul taug g d z (clamp_dev (d * expo (taug * g + taul * z))).
Proof. unfold new_dev, clamp_dev. destruct (qltb _ stdev_eps) eqn:E1; auto. right. split; auto. apply qltb_lt in E1. auto. Qed.
Lemma es_stdev_ok vb taul taug v ds r v' ds' r' : Forall proper (bounds_of vb) -> good r -> es_stdev expo vb taul taug v ds r = Ok (v', ds', r') ->
  length v' = length v /\ length ds' = length ds /\ (length v <= length ds)%nat /\ all_inside (bounds_of vb) v' /\ skipn (length v) ds' = skipn (length v) ds /\
  exists g rest, zs r = g :: rest /\
  forall i x d d', nth_error v i = Some x -> nth_error ds i = Some d -> nth_error ds' i = Some d' ->
    stdev_eps <= d' /\ exists z1 z2, In z1 rest /\ In z2 rest /\ new_dev taul taug g d z1 d' /\ (vb = Dummy -> nth_error v' i = Some (x + d' * z2)).
Proof.
  intros P G H. unfold es_stdev in H. apply rbind_ok in H as ([g r1] & H1 & H). apply rbind_ok in H as ([[v1 d1] r2] & H2 & H). apply rbind_ok in H as ([v2 r3] & H3 & H). injection H as <- <- <-.
  apply normal_ok in H1 as (Z & U).
  assert (Q : forall (i : nat) x y a x' y' a', (good a /\ incl (zs a) (zs r1)) ->
      (fun (_ : nat) x d r => let! (z, r) := normal r in let d := clamp_dev (d * expo (taug * g + taul * z)) in let! (z, r) := normal r in Ok (x + d * z, d, r)) i x y a = Ok (x', y', a') ->
      (good a' /\ incl (zs a') (zs r1)) /\ (stdev_eps <= y' /\ exists z1 z2, In z1 (zs r1) /\ In z2 (zs r1) /\ new_dev taul taug g y z1 y' /\ x' = x + y' * z2)).
  { intros i x y a x' y' a' (Ga & Ia) F. apply rbind_ok in F as ([z1 r4] & F1 & F). cbv zeta in F. apply rbind_ok in F as ([z2 r5] & F2 & F). injection F as <- <- <-.
    apply normal_ok in F1 as (Z1 & U1). apply normal_ok in F2 as (Z2 & U2). split.
    - split; [unfold good in *; rewrite U2, U1; auto|]. intros q Hq. apply Ia. rewrite Z1. right. rewrite Z2. right. auto.
    - split; [apply clamp_ok|]. exists z1, z2. split; [apply Ia; rewrite Z1; left; auto|]. split; [apply Ia; rewrite Z1; right; rewrite Z2; left; auto|]. split; auto. apply clamp_new. }
  destruct (each2_inv _ _ _ Q v ds O r1 v1 d1 r2) as ((G2 & _) & L1 & L2 & L3 & R & S); auto.
  { split; [unfold good in *; rewrite U; auto|apply incl_refl]. }
  destruct (fold_vec_ok _ _ _ _ _ P G2 H3) as (_ & L4 & I4 & D4).
  split; [lia|]. split; auto. split; auto. split; auto. split; auto. exists g, (zs r1). split; auto. intros i x d d' Hx Hd Hd'.
  destruct (nth_error v1 i) as [x1|] eqn:E1; [|apply nth_error_None in E1; apply nth_error_lt in Hx; lia].
  destruct (R i x d x1 d' Hx Hd E1 Hd') as (A & z1 & z2 & B1 & B2 & B3 & ->). split; auto. exists z1, z2. split; auto. split; auto. split; auto. intros K. rewrite (D4 K). auto.
Qed.

(** ** rotations *)
Lemma norm2_app a b : norm2 (a ++ b) == norm2 a + norm2 b.
Proof. induction a as [|x a IH]; cbn [norm2 app]; [ring|]. rewrite IH. ring. Qed.
Lemma norm2_set : forall v i x y, nth_error v i = Some x -> norm2 (set v i y) == norm2 v - x * x + y * y.
Proof.
  induction v as [|a v IH]; intros [|i] x y H; try discriminate.
  - injection H as ->. unfold set. cbn. ring.
  - cbn in H. change (set (a :: v) (S i) y) with (a :: set v i y). cbn [norm2]. rewrite (IH _ _ _ H). ring.
Qed.
Hypothesis pyth : forall a, sine a * sine a + cosine a * cosine a == 1.
Lemma rotate_ok angles st n1 n2 nq st' : n1 <> n2 -> rotate sine cosine angles st n1 n2 nq = Ok st' ->
  length st' = length st /\ norm2 st' == norm2 st /\ forall j, j <> n1 -> j <> n2 -> nth_error st' j = nth_error st j.
Proof.
  intros N H. unfold rotate in H. apply rbind_ok in H as (d1 & E1 & H). apply rbind_ok in H as (d2 & E2 & H). apply rbind_ok in H as (a & E3 & H).
  apply rbind_ok in H as (s1 & U1 & U2). apply of_opt_ok in E1, E2, E3, U1, U2. apply upd_some in U1 as (L1 & ->). apply upd_some in U2 as (L2 & ->).
  split; [rewrite !set_length; auto|]. split; [|intros j J1 J2; rewrite !nth_error_set_neq; auto].
  assert (K : nth_error (set st n2 (d1 * sine a + d2 * cosine a)) n1 = Some d1) by (rewrite nth_error_set_neq; auto).
  rewrite (norm2_set _ _ _ _ K), (norm2_set _ _ _ _ E2). specialize (pyth a). nra.
Qed.
Lemma inner_ok k : forall angles st n1 n2 used st' used', (n1 + k <= n2)%nat -> inner sine cosine k angles st n1 n2 used = Ok (st', used') ->
  length st' = length st /\ norm2 st' == norm2 st /\ (forall j, (j < n1)%nat -> nth_error st' j = nth_error st j) /\ used' = (used + k)%nat /\ (k = 0 \/ used' <= length angles)%nat.
Proof.
  induction k as [|k IH]; intros angles st n1 n2 used st' used' N H; cbn [inner] in H.
  - injection H as <- <-. split; auto. split; [reflexivity|]. split; auto.
  - destruct (Nat.ltb_spec used (length angles)); [|discriminate]. apply rbind_ok in H as (s1 & H1 & H).
    assert (B1 : n1 <> n2) by lia. assert (B2 : (n1 + k <= n2 - 1)%nat) by lia. destruct (rotate_ok _ _ _ _ _ _ B1 H1) as (L1 & N1 & K1). destruct (IH _ _ _ _ _ _ _ B2 H) as (L2 & N2 & K2 & U & U2).
    split; [lia|]. split; [rewrite N2; auto|]. split; [intros j Hj; rewrite K2, K1; auto; lia|]. split; [lia|]. right. destruct U2; lia.
Qed.
Lemma outer_ok : forall ks angles st used st' used', (forall k, In k ks -> k + 1 < length st)%nat -> outer sine cosine ks angles st used = Ok (st', used') ->
  length st' = length st /\ norm2 st' == norm2 st /\ nth_error st' 0 = nth_error st 0 /\ used' = (used + list_sum ks)%nat.
Proof.
  induction ks as [|k ks IH]; intros angles st used st' used' B H; cbn [outer] in H.
  - injection H as <- <-. split; auto. split; [reflexivity|]. split; auto.
  - apply rbind_ok in H as ([s1 u1] & H1 & H). assert (Bk := B k (or_introl eq_refl)).
    assert (B1 : (length st - k - 1 + k <= length st - 1)%nat) by lia. destruct (inner_ok _ _ _ _ _ _ _ _ B1 H1) as (L1 & N1 & K1 & U1 & _).
    assert (B2 : forall q, In q ks -> (q + 1 < length s1)%nat) by (intros q Hq; rewrite L1; apply B; right; auto). destruct (IH _ _ _ _ _ B2 H) as (L2 & N2 & K2 & U2).
    split; [lia|]. split; [rewrite N2; auto|]. split; [rewrite K2; apply K1; lia|]. change (list_sum (k :: ks)) with (k + list_sum ks)%nat. lia.
Qed.
(** the first angles are never read *)
Lemma inner_angles k : forall a b angles st n1 n2 used, length a = length b -> (used + k <= length angles)%nat ->
  inner sine cosine k (a ++ angles) st n1 n2 used = inner sine cosine k (b ++ angles) st n1 n2 used.
Proof.
  induction k as [|k IH]; intros a b angles st n1 n2 used L U; cbn [inner]; auto. rewrite !app_length, L. destruct (Nat.ltb_spec used (length b + length angles)); auto.
  assert (E : rotate sine cosine (a ++ angles) st n1 n2 (length b + length angles - 1 - used) = rotate sine cosine (b ++ angles) st n1 n2 (length b + length angles - 1 - used)).
  { unfold rotate. rewrite (nth_error_app2 a), (nth_error_app2 b) by lia. rewrite L. auto. }
  rewrite E. destruct (rotate _ _ (b ++ angles) _ _ _ _); cbn [rbind]; auto. apply IH; auto. lia.
Qed.
Lemma inner_used k : forall angles st n1 n2 used st' used', inner sine cosine k angles st n1 n2 used = Ok (st', used') -> used' = (used + k)%nat.
Proof.
  induction k as [|k IH]; intros angles st n1 n2 used st' used' H; cbn [inner] in H; [injection H as <- <-; lia|].
  destruct (used <? length angles); [|discriminate]. apply rbind_ok in H as (s1 & H1 & H). apply IH in H. lia.
Qed.
Lemma outer_angles : forall ks a b angles st used, length a = length b -> (used + list_sum ks <= length angles)%nat ->
  outer sine cosine ks (a ++ angles) st used = outer sine cosine ks (b ++ angles) st used.
Proof.
  induction ks as [|k ks IH]; intros a b angles st used L U; cbn [outer]; auto. change (list_sum (k :: ks)) with (k + list_sum ks)%nat in U.
  rewrite (inner_angles k a b) by (auto; lia). destruct (inner _ _ k (b ++ angles) st _ _ used) as [[s1 u1]| | |] eqn:E; cbn [rbind]; auto. apply inner_used in E. apply IH; auto. lia.
Qed.

Lemma trunc_bound c : 0 < pi -> Qabs (c - pi * inject_Z (qtrunc (c / pi))) <= pi.
Proof.
  intros P. set (q := c / pi). assert (E : c == q * pi) by (unfold q; field; lra).
  assert (K : Qabs (q - inject_Z (qtrunc q)) <= 1).
  { unfold qtrunc. destruct (Qle_bool 0 q) eqn:S.
    - assert (F1 := Qfloor_le q). assert (F2 := Qlt_floor q). rewrite inject_Z_plus in F2. change (inject_Z 1) with 1 in F2. apply Qabs_case; intros; lra.
    - assert (F1 := Qle_ceiling q). assert (F2 := Qceiling_lt q). unfold Z.sub in F2. rewrite inject_Z_plus in F2. change (inject_Z (- (1))) with (- (1)) in F2. apply Qabs_case; intros; lra. }
  assert (D : c - pi * inject_Z (qtrunc q) == pi * (q - inject_Z (qtrunc q))) by (rewrite E; ring). rewrite D, Qabs_Qmult, (Qabs_pos pi) by lra. nra.
Qed.
Lemma turn_ok tau c z a : 0 < pi -> turn_angle pi tau c z = Ok a -> Qabs a <= pi /\ exists k : Z, a == c + tau * z - pi * inject_Z k.
Proof.
  intros P H. unfold turn_angle in H. set (d := c + tau * z) in *. cbv zeta in H. destruct (qltb pi (if qltb d 0 then - d else d)) eqn:E.
  - destruct (_ && _)%bool; [|discriminate]. injection H as <-. split; [apply trunc_bound; auto|]. exists (qtrunc (d / pi)). reflexivity.
  - injection H as <-. apply qltb_ge in E. split; [|exists 0%Z; change (inject_Z 0) with 0; ring]. destruct (qltb d 0) eqn:E2; [apply qltb_lt in E2|apply qltb_ge in E2]; apply Qabs_case; intros; lra.
Qed.
Lemma seq_sum n : (2 * list_sum (seq 0 n) = n * (n - 1))%nat.
Proof. induction n; [auto|]. rewrite seq_S. rewrite list_sum_app. change (list_sum [(0 + n)%nat]) with (n + 0)%nat. destruct n; [auto|]. cbn [Nat.sub] in *. nia. Qed.

(** each2 with a constant first component *)
Lemma each2_second (g : Q -> Q -> Q) : forall v w i r v' w' r', each2 (fun _ x d r => let! (z, r) := normal r in Ok (x, g d z, r)) i v w r = Ok (v', w', r') ->
  exists z, zs r = z ++ zs r' /\ length z = length v /\ us r' = us r /\ v' = v /\ (length v <= length w)%nat /\
    w' = map (fun '(d, z) => g d z) (combine (firstn (length v) w) z) ++ skipn (length v) w.
Proof.
  induction v as [|x v IH]; intros w i r v' w' r' H; cbn [each2] in H.
  - injection H as <- <- <-. exists []. cbn. repeat split; auto. lia.
  - destruct w as [|d w]; [discriminate|]. apply rbind_ok in H as ([[x1 y1] r1] & H1 & H). apply rbind_ok in H1 as ([z r0] & H1 & K). injection K as <- <- <-. apply normal_ok in H1 as (Z & U).
    apply rbind_ok in H as ([[v1 w1] r2] & H2 & H). injection H as <- <- <-. destruct (IH _ _ _ _ _ _ H2) as (zl & Z1 & L & U1 & -> & Lw & ->).
    exists (z :: zl). rewrite Z, Z1. split; auto. split; [cbn; auto|]. split; [congruence|]. split; auto. split; [cbn; lia|]. auto.
Qed.
Lemma each2_add : forall v w i (r : rand) v' w' r', each2 (fun _ x s (r : rand) => Ok (x + s, s, r)) i v w r = Ok (v', w', r') ->
  r' = r /\ v' = map (fun '(x, s) => x + s) (combine v w) /\ (length v <= length w)%nat.
Proof.
  induction v as [|x v IH]; intros w i r v' w' r' H; cbn [each2] in H.
  - injection H as <- <- <-. cbn. repeat split; auto. lia.
  - destruct w as [|d w]; [discriminate|]. cbn [rbind] in H. apply rbind_ok in H as ([[v1 w1] r2] & H2 & H). injection H as <- <- <-.
    destruct (IH _ _ _ _ _ _ H2) as (-> & -> & L). split; auto. split; auto. cbn; lia.
Qed.
(** what the correlated mutation does *)
Lemma es_full_ok vb taul taug taub v ds an r v' ds' an' r' : 0 < pi -> v <> [] -> length ds = length v -> Forall proper (bounds_of vb) -> good r ->
  es_full expo sine cosine pi vb taul taug taub v ds an r = Ok (v', ds', an', r') ->
  length v' = length v /\ length ds' = length ds /\ length an' = length an /\ Forall (fun d => stdev_eps <= d) ds' /\ Forall (fun a => Qabs a <= pi) an' /\ all_inside (bounds_of vb) v' /\
  exists g zd za z rest st, zs r = g :: zd ++ za ++ z ++ rest /\ length zd = length v /\ length za = length an /\ length z = length v /\
    (forall i d q d', nth_error ds i = Some d -> nth_error zd i = Some q -> nth_error ds' i = Some d' -> new_dev taul taug g d q d') /\
    length st = length v /\ norm2 st == norm2 (map (fun '(d, z) => d * z) (combine ds' z)) /\
    nth_error st 0 = nth_error (map (fun '(d, z) => d * z) (combine ds' z)) 0 /\
    (vb = Dummy -> v' = map (fun '(x, s) => x + s) (combine v st)).
Proof.
  intros Pp Nv Ld P G H. unfold es_full in H. apply rbind_ok in H as ([g r1] & H1 & H). apply normal_ok in H1 as (Z1 & U1).
  apply rbind_ok in H as ([[q1 d1] r2] & H2 & H). destruct (each2_second _ _ _ _ _ _ _ _ H2) as (zd & Zd & Lzd & Ud & _ & Lv & Ed).
  apply rbind_ok in H as ([a1 r3] & H3 & H).
  assert (A : exists za, zs r2 = za ++ zs r3 /\ length za = length an /\ us r3 = us r2 /\ length a1 = length an /\ Forall (fun a => Qabs a <= pi) a1).
  { clear -H3 Pp. revert H3. generalize 0%nat as i. revert r2 a1. induction an as [|c an IH]; intros r2 a1 i H; cbn [each] in H.
    - injection H as <- <-. exists []. repeat split; auto.
    - apply rbind_ok in H as ([y r1] & H1 & H). apply rbind_ok in H1 as ([z r0] & H1 & K). apply rbind_ok in K as (a & K1 & K). injection K as <- <-. apply normal_ok in H1 as (Z & U).
      apply rbind_ok in H as ([v1 r4] & H2 & H). injection H as <- <-. destruct (IH _ _ _ H2) as (za & Z1 & L & U1 & L1 & F).
      exists (z :: za). rewrite Z, Z1. split; auto. split; [cbn; auto|]. split; [congruence|]. split; [cbn; auto|]. constructor; auto. apply turn_ok in K1; auto. tauto. }
  destruct A as (za & Za & Lza & Ua & La & Fa).
  apply rbind_ok in H as ([[q2 st0] r4] & H4 & H). destruct (each2_second _ _ _ _ _ _ _ _ H4) as (z & Zz & Lz & Uz & _ & Lst & Est).
  apply rbind_ok in H as ([st used] & H5 & H). apply rbind_ok in H as ([[v1 q3] r5] & H6 & H). destruct (each2_add _ _ _ _ _ _ _ H6) as (-> & Ev & Lvs).
  apply rbind_ok in H as ([v2 r6] & H7 & H). injection H as <- <- <- <-.
  rewrite <- Ld in Ed. rewrite firstn_all, skipn_all, app_nil_r in Ed.
  assert (Ld1 : length d1 = length v) by (rewrite Ed, map_length, combine_length; lia).
  rewrite <- Ld1 in Est. rewrite firstn_all, firstn_all, skipn_all, app_nil_r in Est.
  assert (Lst0 : length st0 = length v) by (rewrite Est, map_length, combine_length; lia).
  assert (Bk : forall k, In k (seq 0 (length v - 1)) -> (k + 1 < length st0)%nat) by (intros k Hk; apply in_seq in Hk; lia).
  destruct (outer_ok _ _ _ _ _ _ Bk H5) as (L5 & N5 & F5 & _).
  assert (Lv1 : length v1 = length v) by (rewrite Ev, map_length, combine_length; lia).
  assert (G4 : good r4) by (unfold good in *; rewrite Uz, Ua, Ud, U1; auto).
  destruct (fold_vec_ok _ _ _ _ _ P G4 H7) as (_ & L7 & I7 & D7).
  split; [lia|]. split; [lia|]. split; auto. split; [|split; auto; split; auto].
  - rewrite Ed. apply Forall_forall. intros d Hd. apply in_map_iff in Hd as ([a b] & <- & _). apply clamp_ok.
  - exists g, zd, za, z, (zs r4), st. split; [rewrite Z1, Zd, Za, Zz; auto|]. split; auto. split; auto. split; auto. split; [|split; [lia|split; [rewrite N5, Est; reflexivity|split; [rewrite F5, Est; auto|intros K; rewrite (D7 K); auto]]]].
    intros i d q d' Hd Hq Hd'. rewrite Ed in Hd'. rewrite nth_error_map in Hd'.
    assert (C : nth_error (combine ds zd) i = Some (d, q)).
    { clear -Hd Hq. revert zd i Hd Hq. induction ds as [|a ds IH]; intros [|b zd] [|i] Hd Hq; try discriminate; cbn in *; [congruence|auto]. }
    rewrite C in Hd'. cbn in Hd'. injection Hd' as <-. apply clamp_new.
Qed.
End Functions.
