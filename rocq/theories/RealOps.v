From Coq Require Import ZArith QArith Qround Qabs List Bool Arith Lia Lqa.
From Verif Require Import Lib Outcome BoundsModel BoundsSpec BoundsProofs RealModel RealSpec RealProofs.
From Coq Require Import List.
Import ListNotations.
Open Scope Q_scope.

(** ** mutations *)
Lemma homogeneous_ok eps p v r v' c r' : 0 <= eps -> good r -> uniform_homogeneous eps p v r = Ok (v', (c, r')) ->
  length v' = length v /\ (forall i x y, nth_error v i = Some x -> nth_error v' i = Some y -> Qabs (y - x) <= eps) /\ (c = false -> v' = v).
Proof.
  intros He G H. unfold uniform_homogeneous in H.
  assert (K := each_inv (fun s => good (snd s)) (fun _ x y => Qabs (y - x) <= eps)
    (fun _ x '(c, r) => let! (b, r) := flip p r in if b then let! (u, r) := uniform r in Ok (x + (2 * eps * u - eps), (true, r)) else Ok (x, (c, r)))).
  destruct (K) with (v := v) (i := O) (a := (false, r)) (v' := v') (a' := (c, r')) as (_ & L & R); auto.
  { intros i x [c0 r0] y [c1 r1] G0 F. cbn [snd] in *. apply rbind_ok in F as ([b r2] & F1 & F). assert (G2 := flip_good _ _ _ _ G0 F1). destruct b.
    - apply rbind_ok in F as ([u r3] & F2 & F). injection F as <- <- <-. destruct (uniform_good _ _ _ G2 F2) as (G3 & U). split; auto. apply Qabs_case; intros; nra.
    - injection F as <- <- <-. split; auto. apply Qabs_case; intros; lra. }
  split; auto. split; [intros i x y; exact (R i x y)|]. clear K R L. intros ->.
  assert (Z : forall v i s v' r', each (fun (_ : nat) x '(c, r) => let! (b, r) := flip p r in if b then let! (u, r) := uniform r in Ok (x + (2 * eps * u - eps), (true, r)) else Ok (x, (c, r))) i v s
     = Ok (v', (false, r')) -> fst s = false /\ v' = v).
  { clear. induction v as [|x v IH]; intros i [c r] v' r' H; cbn [each] in H.
    - injection H as <- -> _. auto.
    - apply rbind_ok in H as ([y [c1 r1]] & H1 & H). apply rbind_ok in H as ([v1 [c2 r2]] & H2 & H). injection H as <- -> ->.
      destruct (IH _ _ _ _ H2) as (E1 & ->). cbn [fst] in E1. subst c1.
      apply rbind_ok in H1 as ([b r4] & F1 & F). destruct b; [apply rbind_ok in F as ([u r3] & F2 & F); injection F as _ F _; discriminate|].
      injection F as -> -> _. auto. }
  apply Z in H. tauto.
Qed.
(** a loop with a flag: when the flag is still false nothing changed *)
Lemma each_flag f : (forall i x c r y r', f i x (c, r) = Ok (y, (false, r')) -> c = false /\ y = x) ->
  forall v i c (r : rand) v' r', each f i v (c, r) = Ok (v', (false, r')) -> c = false /\ v' = v.
Proof.
  intros F. induction v as [|x v IH]; intros i c r v' r' H; cbn [each] in H.
  - injection H as <- -> _. auto.
  - apply rbind_ok in H as ([y [c1 r1]] & H1 & H). apply rbind_ok in H as ([v1 [c2 r2]] & H2 & H). injection H as <- -> ->.
    destruct (IH _ _ _ _ _ H2) as (-> & ->). apply F in H1 as (-> & ->). auto.
Qed.
Lemma uniform_bounded_ok bs eps ps v r v' c r' : Forall not_empty bs -> Forall (fun e => 0 <= e) eps -> good r -> all_inside bs v ->
  uniform_bounded bs eps ps v r = Ok (v', (c, r')) ->
  length v' = length v /\ length v = length bs /\ all_inside bs v' /\
  (forall i x y, nth_error v i = Some x -> nth_error v' i = Some y -> y = x \/ exists e, nth_error eps i = Some e /\ Qabs (y - x) <= e) /\ (c = false -> v' = v).
Proof.
  intros N He G I H. unfold uniform_bounded in H. destruct (Nat.eqb_spec (length v) (length bs)) as [Lb|]; [|discriminate].
  match type of H with each ?g _ _ _ = _ => set (f := g) in * end.
  assert (Q : forall i x a y a', good (snd a) -> f i x a = Ok (y, a') -> good (snd a') /\ (y = x \/ exists e b, nth_error eps i = Some e /\ nth_error bs i = Some b /\
      (inside b x -> inside b y /\ Qabs (y - x) <= e))).
  { intros i x [c0 r0] y [c1 r1] G0 F. cbn [snd] in *. unfold f in F. apply rbind_ok in F as (p & _ & F). apply rbind_ok in F as ([b r2] & F1 & F).
    assert (G2 := flip_good _ _ _ _ G0 F1). destruct b.
    - apply rbind_ok in F as (e & E1 & F). apply of_opt_ok in E1. apply rbind_ok in F as (bd & E2 & F). apply of_opt_ok in E2.
      apply rbind_ok in F as ([u r3] & F2 & F). injection F as <- <- <-. destruct (uniform_good _ _ _ G2 F2) as (G3 & U). split; auto. right. exists e, bd.
      split; auto. split; auto. intros Ix. apply in_range_ok; auto.
      + rewrite Forall_forall in N. apply N. eapply nth_error_In; eauto.
      + rewrite Forall_forall in He. apply He. eapply nth_error_In; eauto.
    - injection F as <- <- <-. auto. }
  destruct (each_inv _ _ _ Q v O (false, r) v' (c, r') G H) as (_ & L & R). cbn [Nat.add] in R.
  split; auto. split; auto. split; [|split].
  - intros i b y Hb Hy. destruct (nth_error v i) as [x|] eqn:Hx; [|apply nth_error_None in Hx; apply nth_error_lt in Hy; lia].
    destruct (R i x y Hx Hy) as [->|(e & b' & E1 & E2 & K)]; [eauto|]. assert (b' = b) by congruence. subst. apply K. eauto.
  - intros i x y Hx Hy. destruct (R i x y Hx Hy) as [->|(e & b & E1 & E2 & K)]; auto. right. exists e. split; auto. apply K. eauto.
  - intros ->. apply (each_flag f) in H; [tauto|]. intros i x c0 r0 y r1 F. unfold f in F. apply rbind_ok in F as (p & _ & F). apply rbind_ok in F as ([b r2] & F1 & F). destruct b.
    + apply rbind_ok in F as (e & E1 & F). apply rbind_ok in F as (bd & E2 & F). apply rbind_ok in F as ([u r3] & F2 & F). injection F as _ F _. discriminate.
    + injection F as -> -> _. auto.
Qed.

Lemma differ_trans k m v v1 v2 : differ_at_most k v v1 -> differ_at_most m v1 v2 -> differ_at_most (k + m) v v2.
Proof.
  intros (L1 & l1 & K1 & D1) (L2 & l2 & K2 & D2). split; [lia|]. exists (l1 ++ l2). rewrite app_length. split; [lia|].
  intros i Hi. rewrite in_app_iff in Hi. rewrite D2, D1; tauto.
Qed.
Lemma differ_upd v i x v' : upd v i x = Some v' -> differ_at_most 1 v v'.
Proof.
  intros H. apply upd_some in H as (Hi & ->). split; [apply set_length|]. exists [i]. split; [auto|]. intros j Hj. rewrite nth_error_set_neq; auto. intros ->. apply Hj. left; auto.
Qed.
Lemma det_loop_ok no : forall bs eps v r v' r', Forall not_empty bs -> Forall (fun e => 0 <= e) eps -> good r -> all_inside bs v ->
  det_loop no bs eps v r = Ok (v', r') -> differ_at_most no v v' /\ all_inside bs v'.
Proof.
  induction no as [|no IH]; intros bs eps v r v' r' N He G I H; cbn [det_loop] in H.
  - injection H as <- <-. split; auto. split; auto. exists []. auto.
  - apply rbind_ok in H as ([i r1] & H1 & H). apply rbind_ok in H as (x & Hx & H). apply of_opt_ok in Hx. apply rbind_ok in H as (e & E1 & H). apply of_opt_ok in E1.
    apply rbind_ok in H as (b & Hb & H). apply of_opt_ok in Hb. apply rbind_ok in H as ([u r2] & H2 & H). apply rbind_ok in H as (v1 & Hu & H). apply of_opt_ok in Hu.
    destruct (random_good _ _ _ _ G H1) as (G1 & _). destruct (uniform_good _ _ _ G1 H2) as (G2 & U).
    assert (In1 : inside b (in_range b e x u)).
    { apply in_range_ok; auto; [rewrite Forall_forall in N; apply N|rewrite Forall_forall in He; apply He|eauto]; eapply nth_error_In; eauto. }
    assert (I1 : all_inside bs v1).
    { apply upd_some in Hu as (Hi & ->). intros j b' y Hb' Hy. rewrite nth_error_set in Hy. destruct (_ && _)%bool eqn:B; [|eauto].
      apply andb_true_iff in B as [B _]. apply Nat.eqb_eq in B. subst j. injection Hy as <-. congruence. }
    destruct (IH _ _ _ _ _ _ N He G2 I1 H) as (D & I2). split; auto. apply (differ_trans 1 no v v1 v'); auto. eapply differ_upd; eauto.
Qed.

Section Fold.
Variables (vb : vbounds) (bs : list bounds).
Definition covers : Prop := forall i b, bound_at vb i = Ok b -> proper b /\ forall b', nth_error bs i = Some b' -> b = b'.
Hypothesis Cv : covers.
Lemma normal_each_ok (sig : nat -> res Q) p v r v' c r' : good r ->
  each (fun i x '(c, r) => let! (b, r) := flip p r in
    if b then let! s := sig i in let! (z, r) := normal r in let! bd := bound_at vb i in
              let! (y, r) := fold_at bd (x + s * z) r in Ok (y, (true, r))
    else Ok (x, (c, r))) 0 v (false, r) = Ok (v', (c, r')) ->
  length v' = length v /\ (forall i x y, nth_error v i = Some x -> nth_error v' i = Some y -> y = x \/ forall b, nth_error bs i = Some b -> inside b y) /\
  (all_inside bs v -> all_inside bs v') /\ (c = false -> v' = v) /\ good r'.
Proof.
  intros G H. match type of H with each ?g _ _ _ = _ => set (f := g) in * end.
  assert (Q : forall i x a y a', good (snd a) -> f i x a = Ok (y, a') -> good (snd a') /\ (y = x \/ forall b, nth_error bs i = Some b -> inside b y)).
  { intros i x [c0 r0] y [c1 r1] G0 F. cbn [snd] in *. unfold f in F. apply rbind_ok in F as ([b r2] & F1 & F). assert (G2 := flip_good _ _ _ _ G0 F1). destruct b.
    - apply rbind_ok in F as (s & _ & F). apply rbind_ok in F as ([z r3] & F2 & F). assert (G3 := normal_good _ _ _ G2 F2). apply rbind_ok in F as (bd & Eb & F).
      apply rbind_ok in F as ([y0 r4] & F3 & F). injection F as <- <- <-. destruct (Cv i bd Eb) as (Pb & Sb).
      destruct (fold_at_inside _ _ _ _ _ Pb G3 F3) as (G4 & I4 & _). split; auto. right. intros b' Hb'. rewrite <- (Sb b' Hb'). auto.
    - injection F as <- <- <-. auto. }
  destruct (each_inv _ _ _ Q v O (false, r) v' (c, r') G H) as (G' & L & R). cbn [Nat.add] in R.
  split; auto. split; auto. split; [|split; [|exact G']].
  - intros I i b y Hb Hy. destruct (nth_error v i) as [x|] eqn:Hx; [|apply nth_error_None in Hx; apply nth_error_lt in Hy; lia].
    destruct (R i x y Hx Hy) as [->|K]; eauto.
  - intros ->. apply (each_flag f) in H; [tauto|]. intros i x c0 r0 y r1 F. unfold f in F. apply rbind_ok in F as ([b r2] & F1 & F). destruct b.
    + apply rbind_ok in F as (s & _ & F). apply rbind_ok in F as ([z r3] & F2 & F). apply rbind_ok in F as (bd & Eb & F). apply rbind_ok in F as ([y0 r4] & F3 & F). injection F as _ F _. discriminate.
    + injection F as -> -> _. auto.
Qed.
End Fold.

(** ** crossovers *)
Lemma div_le a b c : 0 < c -> (a / c <= b <-> a <= b * c).
Proof. intros Hc. split; intros H; [|apply Qle_shift_div_r; auto]. assert (K : a == a / c * c) by (field; lra). rewrite K. nra. Qed.
Lemma le_div a b c : 0 < c -> (b <= a / c <-> b * c <= a).
Proof. intros Hc. split; intros H; [|apply Qle_shift_div_l; auto]. assert (K : a == a / c * c) by (field; lra). rewrite K. nra. Qed.
(** a factor that respects a coordinate *)
Definition factor_ok (b : bounds) (x y f : Q) : Prop := inside b (f * x + (1 - f) * y) /\ inside b ((1 - f) * x + f * y).
Lemma inside_eq b x y : x == y -> inside b x -> inside b y.
Proof. destruct b; cbn; intros; lra. Qed.
Lemma limit_ok b r1 r2 lo hi : inside b r1 -> inside b r2 -> lo <= 0 -> 1 <= hi ->
  fst (limit b r1 r2 (lo, hi)) <= 0 /\ 1 <= snd (limit b r1 r2 (lo, hi)) /\ lo <= fst (limit b r1 r2 (lo, hi)) /\ snd (limit b r1 r2 (lo, hi)) <= hi /\
  forall f, fst (limit b r1 r2 (lo, hi)) <= f -> f <= snd (limit b r1 r2 (lo, hi)) -> factor_ok b r1 r2 f.
Proof.
  intros I1 I2 Hl Hh. unfold limit. destruct (Qeq_bool r1 r2) eqn:E; [apply qeqb_true in E|apply qeqb_false in E].
  - cbn [fst snd]. repeat split; try lra; apply (inside_eq b r1); auto; rewrite <- E; ring.
  - assert (Mn := min_spec r1 r2). assert (Mx := max_spec r1 r2). set (mn := std_min r1 r2) in *. set (mx := std_max r1 r2) in *.
    assert (Ln : 0 < mx - mn) by (destruct (Qlt_le_dec r1 r2), (Qlt_le_dec r2 r1); lra). set (len := mx - mn) in *.
    destruct b as [|bl bu|bl|bu]; cbn [lower upper fst snd inside] in *.
    + repeat split; try lra.
    + assert (M1 := max_spec lo ((bl - mn) / len)). assert (M2 := min_spec hi ((mx - bl) / len)).
      set (l1 := std_max lo ((bl - mn) / len)) in *. set (h1 := std_min hi ((mx - bl) / len)) in *.
      assert (M3 := max_spec l1 ((mx - bu) / len)). assert (M4 := min_spec h1 ((bu - mn) / len)).
      set (l2 := std_max l1 ((mx - bu) / len)) in *. set (h2 := std_min h1 ((bu - mn) / len)) in *.
      assert (A1 : (bl - mn) / len <= 0) by (apply div_le; lra). assert (A2 : 1 <= (mx - bl) / len) by (apply le_div; unfold len; lra).
      assert (A3 : (mx - bu) / len <= 0) by (apply div_le; lra). assert (A4 : 1 <= (bu - mn) / len) by (apply le_div; unfold len; lra).
      split; [lra|]. split; [lra|]. split; [lra|]. split; [lra|]. intros f F1 F2.
      assert (B1 : (bl - mn) / len <= f) by lra. assert (B2 : f <= (mx - bl) / len) by lra. assert (B3 : (mx - bu) / len <= f) by lra. assert (B4 : f <= (bu - mn) / len) by lra.
      apply div_le in B1; auto. apply le_div in B2; auto. apply div_le in B3; auto. apply le_div in B4; auto. unfold len in *.
      unfold factor_ok. cbn [inside]. destruct (Qlt_le_dec r1 r2) as [C|C]; assert (Q1 : mn == r1 /\ mx == r2 \/ mn == r2 /\ mx == r1) by lra; destruct Q1 as [[Q1 Q2]|[Q1 Q2]]; rewrite Q1, Q2 in *; split; split; lra.
    + assert (M1 := max_spec lo ((bl - mn) / len)). assert (M2 := min_spec hi ((mx - bl) / len)).
      set (l1 := std_max lo ((bl - mn) / len)) in *. set (h1 := std_min hi ((mx - bl) / len)) in *.
      assert (A1 : (bl - mn) / len <= 0) by (apply div_le; lra). assert (A2 : 1 <= (mx - bl) / len) by (apply le_div; unfold len; lra).
      split; [lra|]. split; [lra|]. split; [lra|]. split; [lra|]. intros f F1 F2.
      assert (B1 : (bl - mn) / len <= f) by lra. assert (B2 : f <= (mx - bl) / len) by lra.
      apply div_le in B1; auto. apply le_div in B2; auto. unfold len in *.
      unfold factor_ok. cbn [inside]. assert (Q1 : mn == r1 /\ mx == r2 \/ mn == r2 /\ mx == r1) by lra; destruct Q1 as [[Q1 Q2]|[Q1 Q2]]; rewrite Q1, Q2 in *; split; lra.
    + assert (M3 := max_spec lo ((mx - bu) / len)). assert (M4 := min_spec hi ((bu - mn) / len)).
      set (l2 := std_max lo ((mx - bu) / len)) in *. set (h2 := std_min hi ((bu - mn) / len)) in *.
      assert (A3 : (mx - bu) / len <= 0) by (apply div_le; lra). assert (A4 : 1 <= (bu - mn) / len) by (apply le_div; unfold len; lra).
      split; [lra|]. split; [lra|]. split; [lra|]. split; [lra|]. intros f F1 F2.
      assert (B3 : (mx - bu) / len <= f) by lra. assert (B4 : f <= (bu - mn) / len) by lra.
      apply div_le in B3; auto. apply le_div in B4; auto. unfold len in *.
      unfold factor_ok. cbn [inside]. assert (Q1 : mn == r1 /\ mx == r2 \/ mn == r2 /\ mx == r1) by lra; destruct Q1 as [[Q1 Q2]|[Q1 Q2]]; rewrite Q1, Q2 in *; split; lra.
Qed.
Lemma limits_ok vb : forall v w i lo hi lo' hi',
  (forall j b x, bound_at vb (i + j)%nat = Ok b -> nth_error v j = Some x -> inside b x) -> (forall j b x, bound_at vb (i + j)%nat = Ok b -> nth_error w j = Some x -> inside b x) ->
  lo <= 0 -> 1 <= hi -> limits vb i v w (lo, hi) = Ok (lo', hi') ->
  lo <= lo' <= 0 /\ 1 <= hi' <= hi /\
  forall f j b x y, lo' <= f <= hi' -> bound_at vb (i + j)%nat = Ok b -> nth_error v j = Some x -> nth_error w j = Some y -> factor_ok b x y f.
Proof.
  induction v as [|r1 v IH]; intros w i lo hi lo' hi' I1 I2 Hl Hh H; cbn [limits] in H.
  - injection H as <- <-. split; [lra|]. split; [lra|]. intros f [|j]; discriminate.
  - destruct w as [|r2 w]; [discriminate|].
    assert (J1 : forall j b x, bound_at vb (S i + j)%nat = Ok b -> nth_error v j = Some x -> inside b x) by (intros j b x Hb Hx; apply (I1 (S j)); auto; rewrite Nat.add_succ_r; auto).
    assert (J2 : forall j b x, bound_at vb (S i + j)%nat = Ok b -> nth_error w j = Some x -> inside b x) by (intros j b x Hb Hx; apply (I2 (S j)); auto; rewrite Nat.add_succ_r; auto).
    destruct (Qeq_bool r1 r2) eqn:E.
    + destruct (IH _ _ _ _ _ _ J1 J2 Hl Hh H) as (K1 & K2 & K3). split; auto. split; auto. intros f [|j] b x y Hf Hb Hx Hy; cbn in Hx, Hy.
      * injection Hx as <-. injection Hy as <-. rewrite Nat.add_0_r in Hb. apply qeqb_true in E.
        assert (inside b r1) by (apply (I1 O); [rewrite Nat.add_0_r; auto|auto]). split; apply (inside_eq b r1); auto; rewrite <- E; ring.
      * apply (K3 f j b); auto. rewrite Nat.add_succ_r in Hb. auto.
    + apply rbind_ok in H as (b0 & Hb0 & H).
      assert (Q1 : inside b0 r1) by (apply (I1 O); [rewrite Nat.add_0_r; auto|auto]). assert (Q2 : inside b0 r2) by (apply (I2 O); [rewrite Nat.add_0_r; auto|auto]).
      destruct (limit_ok b0 r1 r2 lo hi Q1 Q2 Hl Hh) as (A1 & A2 & A3 & A4 & A5). destruct (limit b0 r1 r2 (lo, hi)) as [lo1 hi1]. cbn [fst snd] in *.
      destruct (IH _ _ _ _ _ _ J1 J2 A1 A2 H) as (K1 & K2 & K3). split; [lra|]. split; [lra|]. intros f [|j] b x y Hf Hb Hx Hy; cbn in Hx, Hy.
      * injection Hx as <-. injection Hy as <-. rewrite Nat.add_0_r in Hb. assert (b = b0) by congruence. subst. apply A5; lra.
      * apply (K3 f j b); auto. rewrite Nat.add_succ_r in Hb. auto.
Qed.
Lemma segment_ok vb alpha v w r v' w' r' : 0 <= alpha -> good r -> segment vb alpha v w r = Ok (v', w', r') ->
  (forall j b x, bound_at vb j = Ok b -> nth_error v j = Some x -> inside b x) -> (forall j b x, bound_at vb j = Ok b -> nth_error w j = Some x -> inside b x) ->
  exists f, - alpha <= f <= 1 + alpha /\ crossed (fun i x y x' y' => x' = f * x + (1 - f) * y /\ y' = (1 - f) * x + f * y /\
     forall b, bound_at vb i = Ok b -> inside b x' /\ inside b y') v w v' w'.
Proof.
  intros Ha G H I1 I2. unfold segment in H. apply rbind_ok in H as ([f r1] & H1 & H).
  assert (F : - alpha <= f <= 1 + alpha /\ forall j b x y, bound_at vb j = Ok b -> nth_error v j = Some x -> nth_error w j = Some y -> factor_ok b x y f).
  { destruct (Qeq_bool alpha 0) eqn:E.
    - apply qeqb_true in E. apply rbind_ok in H1 as ([u r2] & H1 & H2). injection H2 as <- <-. destruct (uniform_good _ _ _ G H1) as (_ & U).
      split; [nra|]. intros j b x y Hb Hx Hy. assert (Ix := I1 j b x Hb Hx). assert (Iy := I2 j b y Hb Hy).
      set (f := - alpha + (1 + 2 * alpha) * u). assert (Ef : 0 <= f <= 1) by (unfold f; nra). clearbody f. unfold factor_ok. destruct b; cbn [inside] in *; repeat split; try nra.
    - apply rbind_ok in H1 as ([lo hi] & H1 & H2). apply rbind_ok in H2 as ([u r2] & H2 & H3). injection H3 as <- <-. destruct (uniform_good _ _ _ G H2) as (_ & U).
      destruct (limits_ok vb v w O (- alpha) (1 + alpha) lo hi) as (K1 & K2 & K3); auto; try lra. split; [nra|]. intros j b x y Hb Hx Hy. apply (K3 _ j b x y); auto. nra. }
  destruct F as (F1 & F2). exists f. split; auto.
  match type of H with each2 ?g _ _ _ _ = _ => set (h := g) in * end.
  assert (Q : forall i x y a x' y' a', True -> h i x y a = Ok (x', y', a') -> True /\ (x' = f * x + (1 - f) * y /\ y' = (1 - f) * x + f * y)).
  { intros i x y a x' y' a' _ F. unfold h, mix in F. injection F as <- <- <-. auto. }
  destruct (each2_inv (fun _ => True) _ h Q v w O r1 v' w' r' Logic.I H) as (_ & L1 & L2 & L3 & R & S).
  split; auto. split; auto. split; auto. split; auto. intros i x y x' y' Hx Hy Hx' Hy'. destruct (R i x y x' y' Hx Hy Hx' Hy') as (-> & ->).
  split; auto. split; auto. intros b Hb. exact (F2 i b x y Hb Hx Hy).
Qed.

Lemma hyper_wide_ok vb alpha i x y s x' y' s' : 0 <= alpha -> good (snd s) -> hyper_wide vb alpha i x y s = Ok (x', y', s') ->
  good (snd s') /\ (fst s' = true <-> fst s = true \/ ~ x == y) /\
  (x == y -> x' = x /\ y' = y) /\
  (forall b, bound_at vb i = Ok b -> inside b x -> inside b y -> inside b x' /\ inside b y') /\
  (forall b, bound_at vb i = Ok b -> inside b x -> inside b y ->
    forall z, z = x' \/ z = y' -> std_min x y - alpha * Qabs (x - y) <= z <= std_max x y + alpha * Qabs (x - y)).
Proof.
  intros Ha G H. unfold hyper_wide in H. destruct (Qeq_bool x y) eqn:E.
  - injection H as <- <- <-. apply qeqb_true in E. split; auto. split; [split; [auto|intros [K|K]; [auto|destruct (K E)]]|]. split; auto. split; [auto|].
    intros b _ _ _ z Hz. assert (Mn := min_spec x y). assert (Mx := max_spec x y). assert (Ab := Qabs_nonneg (x - y)). assert (0 <= alpha * Qabs (x - y)) by nra. destruct Hz; subst; lra.
  - apply qeqb_false in E. apply rbind_ok in H as (b & Hb & H). cbv zeta in H.
    apply rbind_ok in H as ([u1 r1] & H1 & H). apply rbind_ok in H as ([u2 r2] & H2 & H). apply rbind_ok in H as ([c r3] & H3 & H).
    destruct (uniform_good _ _ _ G H1) as (G1 & U1). destruct (uniform_good _ _ _ G1 H2) as (G2 & U2). assert (G3 := flip_good _ _ _ _ G2 H3).
    assert (Mn := min_spec x y). assert (Mx := max_spec x y). set (mn := std_min x y) in *. set (mx := std_max x y) in *.
    assert (Ab : Qabs (x - y) == mx - mn). { apply Qabs_case; intros; lra. }
    set (om := - alpha * mx + (1 + alpha) * mn) in *. set (oM := - alpha * mn + (1 + alpha) * mx) in *.
    assert (O1 : om == mn - alpha * (mx - mn)) by (unfold om; ring). assert (O2 : oM == mx + alpha * (mx - mn)) by (unfold oM; ring).
    set (lo := match lower b with Some m => std_max om m | None => om end) in *. set (hi := match upper b with Some m => std_min oM m | None => oM end) in *.
    assert (D0 : 0 < mx - mn) by lra. assert (D1 : 0 <= alpha * (mx - mn)) by nra.
    assert (B : inside b x -> inside b y -> om <= lo <= mn /\ mx <= hi <= oM /\ forall z, lo <= z <= hi -> inside b z).
    { intros I1 I2. destruct b as [|bl bu|bl|bu]; cbn [lower upper inside] in *; unfold lo, hi;
        repeat match goal with |- context [std_max ?p ?q] => let M := fresh "M" in assert (M := max_spec p q); set (std_max p q) in * end;
        repeat match goal with |- context [std_min ?p ?q] => let M := fresh "M" in assert (M := min_spec p q); set (std_min p q) in * end;
        (split; [lra|split; [lra|intros; auto; lra]]). }
    assert (Hm : (lo + hi) / 2 == (1 # 2) * (lo + hi)) by field. set (md := (lo + hi) / 2) in *.
    set (vm := lo + (md - lo) * u1) in *. set (vM := md + (hi - md) * u2) in *.
    assert (V : inside b x -> inside b y -> lo <= vm <= hi /\ lo <= vM <= hi).
    { intros I1 I2. destruct (B I1 I2) as (B1 & B2 & _). unfold vm, vM. split; split; nra. }
    assert (Z : s' = (true, r3) /\ ((x' = vm /\ y' = vM) \/ (x' = vM /\ y' = vm))). { destruct c; injection H as <- <- <-; auto. }
    destruct Z as (-> & Z). cbn [fst snd]. split; auto. split; [tauto|]. split; [intros; contradiction|]. split.
    + intros b0 Hb0 I1 I2. assert (b0 = b) by congruence. subst b0. destruct (B I1 I2) as (_ & _ & B3). destruct (V I1 I2) as (V1 & V2). destruct Z as [[-> ->]|[-> ->]]; auto.
    + intros b0 Hb0 I1 I2 z Hz. assert (b0 = b) by congruence. subst b0. destruct (B I1 I2) as (B1 & B2 & _). destruct (V I1 I2) as (V1 & V2). rewrite Ab.
      destruct Z as [[-> ->]|[-> ->]], Hz; subst z; lra.
Qed.
Lemma hyper_plain_ok x y s x' y' s' : good (snd s) -> hyper_plain x y s = Ok (x', y', s') ->
  good (snd s') /\ (fst s' = true <-> fst s = true \/ ~ x == y) /\ between x y x' /\ between x y y' /\ x' + y' == x + y.
Proof.
  intros G H. unfold hyper_plain in H. destruct (Qeq_bool x y) eqn:E.
  - injection H as <- <- <-. apply qeqb_true in E. split; auto. split; [split; [auto|intros [K|K]; [auto|destruct (K E)]]|]. unfold between. repeat split; lra.
  - apply qeqb_false in E. apply rbind_ok in H as ([u r1] & H1 & H). destruct (uniform_good _ _ _ G H1) as (G1 & U). unfold mix in H. injection H as <- <- <-. cbn [fst snd].
    split; auto. split; [tauto|]. unfold between. destruct (Qlt_le_dec x y); repeat split; try ring; [left|left|right|right]; split; nra.
Qed.

(** the flag of a loop over two vectors tells whether some pair satisfied [D] *)
Lemma each2_flag (D : nat -> Q -> Q -> rand -> Prop) (f : nat -> Q -> Q -> bool * rand -> res (Q * Q * (bool * rand))) :
  (forall i x y s x' y' s', f i x y s = Ok (x', y', s') -> (fst s' = true <-> fst s = true \/ ~ (x' == x /\ y' == y))) ->
  forall v w i s v' w' s', each2 f i v w s = Ok (v', w', s') ->
  (fst s' = true <-> fst s = true \/ exists j x y x' y', nth_error v j = Some x /\ nth_error w j = Some y /\ nth_error v' j = Some x' /\ nth_error w' j = Some y' /\ ~ (x' == x /\ y' == y)).
Proof.
  intros F. induction v as [|x v IH]; intros w i s v' w' s' H; cbn [each2] in H.
  - injection H as <- <- <-. split; [auto|]. intros [K|([|j] & ? & ? & ? & ? & K & _)]; auto; discriminate.
  - destruct w as [|y w]; [discriminate|]. apply rbind_ok in H as ([[x1 y1] s1] & H1 & H). apply rbind_ok in H as ([[v1 w1] s2] & H2 & H).
    injection H as <- <- <-. rewrite (IH _ _ _ _ _ _ H2), (F _ _ _ _ _ _ _ H1). split.
    + intros [[K|K]|(j & a & b & c & d & K1 & K2 & K3 & K4 & K)]; auto.
      * right. exists O, x, y, x1, y1. cbn. auto.
      * right. exists (S j), a, b, c, d. cbn. auto.
    + intros [K|([|j] & a & b & c & d & K1 & K2 & K3 & K4 & K)]; auto; cbn in K1, K2, K3, K4.
      * injection K1 as <-. injection K2 as <-. injection K3 as <-. injection K4 as <-. auto.
      * right. exists j, a, b, c, d. auto.
Qed.
Lemma each2_flag' (f : nat -> Q -> Q -> bool * rand -> res (Q * Q * (bool * rand))) :
  (forall i x y s x' y' s', f i x y s = Ok (x', y', s') -> (fst s' = true <-> fst s = true \/ ~ x == y)) ->
  forall v w i s v' w' s', each2 f i v w s = Ok (v', w', s') ->
  (fst s' = true <-> fst s = true \/ exists j x y, nth_error v j = Some x /\ nth_error w j = Some y /\ ~ x == y).
Proof.
  intros F. induction v as [|x v IH]; intros w i s v' w' s' H; cbn [each2] in H.
  - injection H as <- <- <-. split; [auto|]. intros [K|([|j] & ? & ? & K & _)]; auto; discriminate.
  - destruct w as [|y w]; [discriminate|]. apply rbind_ok in H as ([[x1 y1] s1] & H1 & H). apply rbind_ok in H as ([[v1 w1] s2] & H2 & H).
    injection H as <- <- <-. rewrite (IH _ _ _ _ _ _ H2), (F _ _ _ _ _ _ _ H1). split.
    + intros [[K|K]|(j & a & b & K1 & K2 & K)]; auto.
      * right. exists O, x, y. cbn. auto.
      * right. exists (S j), a, b. cbn. auto.
    + intros [K|([|j] & a & b & K1 & K2 & K)]; auto; cbn in K1, K2.
      * injection K1 as <-. injection K2 as <-. auto.
      * right. exists j, a, b. auto.
Qed.
Lemma hyper_wide_flag vb alpha i x y s x' y' s' : hyper_wide vb alpha i x y s = Ok (x', y', s') -> (fst s' = true <-> fst s = true \/ ~ x == y).
Proof.
  intros H. unfold hyper_wide in H. destruct (Qeq_bool x y) eqn:E.
  - injection H as <- <- <-. apply qeqb_true in E. tauto.
  - apply qeqb_false in E. apply rbind_ok in H as (b & Hb & H). cbv zeta in H.
    apply rbind_ok in H as ([u1 r1] & H1 & H). apply rbind_ok in H as ([u2 r2] & H2 & H). apply rbind_ok in H as ([c r3] & H3 & H).
    assert (s' = (true, r3)) by (destruct c; congruence). subst. cbn. tauto.
Qed.
Lemma hyper_plain_flag x y s x' y' s' : hyper_plain x y s = Ok (x', y', s') -> (fst s' = true <-> fst s = true \/ ~ x == y).
Proof.
  intros H. unfold hyper_plain in H. destruct (Qeq_bool x y) eqn:E.
  - injection H as <- <- <-. apply qeqb_true in E. tauto.
  - apply qeqb_false in E. apply rbind_ok in H as ([u r1] & H1 & H). unfold mix in H. injection H as _ _ <-. cbn. tauto.
Qed.
Lemma hypercube_flag vb alpha v w r v' w' c r' : hypercube vb alpha v w r = Ok (v', w', (c, r')) ->
  (c = true <-> exists j x y, nth_error v j = Some x /\ nth_error w j = Some y /\ ~ x == y).
Proof.
  unfold hypercube. destruct (qltb alpha 0); [discriminate|]. destruct (Qeq_bool alpha 0); intros H.
  - apply each2_flag' in H; [|intros i; apply hyper_plain_flag]. cbn [fst] in H. rewrite H. intuition discriminate.
  - apply each2_flag' in H; [|apply hyper_wide_flag]. cbn [fst] in H. rewrite H. intuition discriminate.
Qed.
Lemma hypercube_plain_ok vb alpha v w r v' w' c r' : alpha == 0 -> good r -> hypercube vb alpha v w r = Ok (v', w', (c, r')) ->
  crossed (fun i x y x' y' => between x y x' /\ between x y y' /\ x' + y' == x + y) v w v' w'.
Proof.
  intros E G H. unfold hypercube in H. destruct (qltb alpha 0); [discriminate|]. apply qeqb_true in E. rewrite E in H.
  assert (Q : forall i x y (a : bool * rand) x' y' a', good (snd a) -> (fun _ : nat => hyper_plain) i x y a = Ok (x', y', a') -> good (snd a') /\ (between x y x' /\ between x y y' /\ x' + y' == x + y)).
  { intros i x y a x' y' a' Ga F. destruct (hyper_plain_ok _ _ _ _ _ _ Ga F) as (? & ? & ?). auto. }
  destruct (each2_inv (fun s => good (snd s)) (fun _ x y x' y' => between x y x' /\ between x y y' /\ x' + y' == x + y) _ Q v w O (false, r) v' w' (c, r') G H) as (_ & L1 & L2 & L3 & R & S).
  split; auto.
Qed.
Lemma hypercube_wide_ok vb alpha v w r v' w' c r' : 0 < alpha -> good r -> hypercube vb alpha v w r = Ok (v', w', (c, r')) ->
  crossed (fun i x y x' y' => (x == y -> x' = x /\ y' = y) /\
     (forall b, bound_at vb i = Ok b -> inside b x -> inside b y -> inside b x' /\ inside b y' /\
       forall z, z = x' \/ z = y' -> std_min x y - alpha * Qabs (x - y) <= z <= std_max x y + alpha * Qabs (x - y))) v w v' w'.
Proof.
  intros E G H. unfold hypercube in H. destruct (qltb alpha 0); [discriminate|]. destruct (Qeq_bool alpha 0) eqn:E0; [apply qeqb_true in E0; lra|].
  assert (Ha : 0 <= alpha) by lra.
  match type of H with _ => set (R := fun i x y x' y' => (x == y -> x' = x /\ y' = y) /\
     (forall b, bound_at vb i = Ok b -> inside b x -> inside b y -> inside b x' /\ inside b y' /\
       forall z, z = x' \/ z = y' -> std_min x y - alpha * Qabs (x - y) <= z <= std_max x y + alpha * Qabs (x - y))) end.
  assert (Q : forall i x y (a : bool * rand) x' y' a', good (snd a) -> hyper_wide vb alpha i x y a = Ok (x', y', a') -> good (snd a') /\ R i x y x' y').
  { intros i x y a x' y' a' Ga F. destruct (hyper_wide_ok _ _ _ _ _ _ _ _ _ Ha Ga F) as (A1 & A2 & A3 & A4 & A5). split; auto. split; auto.
    intros b Hb I1 I2. destruct (A4 b Hb I1 I2). split; auto. split; auto. eapply A5; eauto. }
  destruct (each2_inv (fun s => good (snd s)) R _ Q v w O (false, r) v' w' (c, r') G H) as (_ & L1 & L2 & L3 & RR & S). split; auto.
Qed.
Lemma ux_ok p v w r v' w' c r' : real_ux p v w r = Ok (v', w', (c, r')) ->
  crossed (fun i x y x' y' => (x' = x /\ y' = y) \/ (x' = y /\ y' = x)) v w v' w' /\
  (c = true <-> exists j x y x' y', nth_error v j = Some x /\ nth_error w j = Some y /\ nth_error v' j = Some x' /\ nth_error w' j = Some y' /\ ~ (x' == x /\ y' == y)).
Proof.
  intros H. unfold real_ux in H. match type of H with each2 ?g _ _ _ _ = _ => set (f := g) in * end. split.
  - assert (Q : forall i x y (a : bool * rand) x' y' a', True -> f i x y a = Ok (x', y', a') -> True /\ ((x' = x /\ y' = y) \/ (x' = y /\ y' = x))).
    { intros i x y [c0 r0] x' y' a' _ F. unfold f in F. apply rbind_ok in F as ([b r1] & F1 & F). destruct (_ && _)%bool; injection F as <- <- <-; auto. }
    destruct (each2_inv (fun _ => True) (fun _ x y x' y' => (x' = x /\ y' = y) \/ (x' = y /\ y' = x)) _ Q v w O (false, r) v' w' (c, r') Logic.I H) as (_ & L1 & L2 & L3 & RR & S). split; auto.
  - apply (each2_flag (fun _ _ _ _ => True)) in H.
    + cbn [fst] in H. rewrite H. intuition discriminate.
    + intros i x y [c0 r0] x' y' s' F. unfold f in F. apply rbind_ok in F as ([b r1] & F1 & F). destruct b, (Qeq_bool x y) eqn:E; cbn [andb negb] in F; injection F as <- <- <-; cbn [fst].
      * split; auto. intros [K|K]; auto. destruct K. split; reflexivity.
      * apply qeqb_false in E. split; auto. intros _. right. intros (K & _). apply E. symmetry. auto.
      * split; auto. intros [K|K]; auto. destruct K. split; reflexivity.
      * split; auto. intros [K|K]; auto. destruct K. split; reflexivity.
Qed.
Section Sbx.
Variable power : Q -> Q -> Q.
Lemma sbx_ok vb eta v w r v' w' r' : (forall i b, bound_at vb i = Ok b -> proper b) -> good r -> sbx power vb eta v w r = Ok (v', w', r') ->
  crossed (fun i x y x' y' => exists b u, bound_at vb i = Ok b /\ 0 <= u < 1 /\ inside b x' /\ inside b y' /\
     let beta := sbx_beta power eta u in
     let x1 := (1 # 2) * ((1 + beta) * x + (1 - beta) * y) in let y1 := (1 # 2) * ((1 - beta) * x + (1 + beta) * y) in
     x1 + y1 == x + y /\ y1 - x1 == beta * (y - x) /\ (inside b x1 -> x' = x1) /\ (inside b y1 -> y' = y1)) v w v' w'.
Proof.
  intros Pb G H. unfold sbx in H. match type of H with each2 ?g _ _ _ _ = _ => set (f := g) in * end.
  match goal with |- crossed ?rr _ _ _ _ => set (R := rr) end.
  assert (FI : forall b x r y r', proper b -> good r -> fix_in b x r = Ok (y, r') -> good r' /\ inside b y /\ (inside b x -> y = x)).
  { intros b x r0 y r1 P Gr F. unfold fix_in in F. destruct (in_bounds b x) eqn:E.
    - injection F as <- <-. apply in_bounds_ok in E. auto.
    - destruct (fold_at_inside _ _ _ _ _ P Gr F) as (A1 & A2 & _). split; auto. split; auto. intros K. apply in_bounds_ok in K. congruence. }
  assert (Q : forall i x y (a : rand) x' y' a', good a -> f i x y a = Ok (x', y', a') -> good a' /\ R i x y x' y').
  { intros i x y a x' y' a' Ga F. unfold f in F. apply rbind_ok in F as ([u r1] & F1 & F). destruct (uniform_good _ _ _ Ga F1) as (G1 & U). cbv zeta in F.
    apply rbind_ok in F as (b & Hb & F). apply rbind_ok in F as ([x1 r2] & F2 & F). apply rbind_ok in F as ([y1 r3] & F3 & F). injection F as <- <- <-.
    destruct (FI _ _ _ _ _ (Pb _ _ Hb) G1 F2) as (G2 & A1 & A2). destruct (FI _ _ _ _ _ (Pb _ _ Hb) G2 F3) as (G3 & B1 & B2).
    split; auto. exists b, u. split; auto. split; auto. split; auto. split; auto. cbv zeta. split; [ring|]. split; [ring|]. auto. }
  destruct (each2_inv good R _ Q v w O r v' w' r' G H) as (_ & L1 & L2 & L3 & RR & S). split; auto.
Qed.
End Sbx.

(** ** totality *)
Definition lenu (r : rand) : nat := length (us r).
Lemma uniform_total r : (1 <= lenu r)%nat -> exists u r', uniform r = Ok (u, r') /\ lenu r = S (lenu r') /\ zs r' = zs r.
Proof. unfold uniform, lenu. destruct r as [[|u t] z]; cbn; intros H; [lia|]. eauto. Qed.
Lemma flip_total p r : (1 <= lenu r)%nat -> exists u r', flip p r = Ok (u, r') /\ lenu r = S (lenu r') /\ zs r' = zs r.
Proof. intros H. destruct (uniform_total r H) as (u & r' & E & L). unfold flip. rewrite E. cbn. eauto. Qed.
Lemma homogeneous_total eps p v r : (2 * length v <= length (us r))%nat -> exists v' s, uniform_homogeneous eps p v r = Ok (v', s).
Proof.
  intros H. destruct (each_total (fun s : bool * rand => lenu (snd s)) (fun _ => True) 2 (fun _ x '(c, r) => let! (b, r) := flip p r in
    if b then let! (u, r) := uniform r in Ok (x + (2 * eps * u - eps), (true, r)) else Ok (x, (c, r)))) with (v := v) (i := O) (a := (false, r)) as (v' & s & E & _); auto; [|exists v', s; exact E].
  intros i x [c r0] _ L. cbn [snd] in *. destruct (flip_total p r0) as (b & r1 & E & L1 & _); [lia|]. rewrite E. cbn. destruct b; [|do 2 eexists; split; [reflexivity|cbn; lia]].
  destruct (uniform_total r1) as (u & r2 & E2 & L2 & _); [lia|]. rewrite E2. cbn. do 2 eexists. split; [reflexivity|]. cbn. lia.
Qed.
Lemma uniform_bounded_total bs eps ps v r : length v = length bs -> (length v <= length eps)%nat -> (length v <= length ps)%nat -> (2 * length v <= length (us r))%nat ->
  exists v' s, uniform_bounded bs eps ps v r = Ok (v', s).
Proof.
  intros Lb Le Lp H. unfold uniform_bounded. rewrite Lb, Nat.eqb_refl.
  match goal with |- exists _ _, each ?g _ _ _ = _ => destruct (each_total (fun s : bool * rand => lenu (snd s)) (fun i => (i < length v)%nat) 2 g) with (v := v) (i := O) (a := (false, r)) as (v' & s & E & _); auto; [|exists v', s; exact E] end.
  intros i x [c r0] Hi L. cbn [snd] in *.
  destruct (nth_error ps i) as [p|] eqn:Ep; [|apply nth_error_None in Ep; lia]. destruct (nth_error eps i) as [e|] eqn:Ee; [|apply nth_error_None in Ee; lia].
  destruct (nth_error bs i) as [b|] eqn:Eb; [|apply nth_error_None in Eb; lia]. cbn.
  destruct (flip_total p r0) as (bb & r1 & E & L1 & _); [lia|]. rewrite E. cbn. destruct bb; [|do 2 eexists; split; [reflexivity|cbn; lia]].
  destruct (uniform_total r1) as (u & r2 & E2 & L2 & _); [lia|]. rewrite E2. cbn. do 2 eexists. split; [reflexivity|]. cbn. lia.
Qed.
Lemma limits_total vb : forall v w i lim, (length v <= length w)%nat -> (forall j, (j < length v)%nat -> exists b, bound_at vb (i + j) = Ok b) -> exists lh, limits vb i v w lim = Ok lh.
Proof.
  induction v as [|x v IH]; intros w i lim L B; cbn [limits]; [eauto|]. destruct w as [|y w]; [cbn in L; lia|]. cbn in L.
  assert (B' : forall j, (j < length v)%nat -> exists b, bound_at vb (S i + j) = Ok b) by (intros j Hj; destruct (B (S j)) as (b & Hb); [cbn; lia|]; exists b; rewrite <- Hb; f_equal; lia).
  destruct (Qeq_bool x y); [apply IH; auto; lia|]. destruct (B O) as (b & Hb); [cbn; lia|]. rewrite Nat.add_0_r in Hb. rewrite Hb. cbn. apply IH; auto; lia.
Qed.
Lemma segment_total vb alpha v w r : (length v <= length w)%nat -> (forall j, (j < length v)%nat -> exists b, bound_at vb j = Ok b) -> (1 <= length (us r))%nat -> exists o, segment vb alpha v w r = Ok o.
Proof.
  intros L B H. unfold segment. destruct (uniform_total r H) as (u & r' & E & _).
  assert (T : forall f r, exists o, each2 (fun (_ : nat) r1 r2 (r : rand) => Ok (mix f r1 r2, r)) 0 v w r = Ok o).
  { intros f r0. destruct (each2_total (fun _ : rand => 0%nat) (fun _ => True) 0 (fun (_ : nat) r1 r2 (r : rand) => Ok (mix f r1 r2, r))) with (v := v) (w := w) (i := O) (a := r0) as (a1 & a2 & a3 & K & _); auto; [|eauto].
    intros. unfold mix. do 3 eexists. split; [reflexivity|lia]. }
  destruct (Qeq_bool alpha 0).
  - rewrite E. cbn [rbind]. apply T.
  - destruct (limits_total vb v w O (- alpha, 1 + alpha) L B) as ([lo hi] & K). rewrite K. cbn [rbind]. rewrite E. cbn [rbind]. apply T.
Qed.
Lemma hypercube_total vb alpha v w r : 0 <= alpha -> (length v <= length w)%nat -> (forall j, (j < length v)%nat -> exists b, bound_at vb j = Ok b) -> (3 * length v <= length (us r))%nat ->
  exists o, hypercube vb alpha v w r = Ok o.
Proof.
  intros Ha L B H. unfold hypercube. destruct (qltb alpha 0) eqn:E; [apply qltb_lt in E; lra|]. destruct (Qeq_bool alpha 0).
  - destruct (each2_total (fun s : bool * rand => lenu (snd s)) (fun _ => True) 3 (fun _ : nat => hyper_plain)) with (v := v) (w := w) (i := O) (a := (false, r)) as (a1 & a2 & a3 & K & _); auto; [|eauto].
    intros i x y s _ Ls. unfold hyper_plain. destruct (Qeq_bool x y); [do 3 eexists; split; [reflexivity|lia]|]. destruct (uniform_total (snd s)) as (u & r1 & E1 & L1 & _); [lia|].
    rewrite E1. cbn [rbind]. unfold mix. do 3 eexists. split; [reflexivity|]. cbn. lia.
  - destruct (each2_total (fun s : bool * rand => lenu (snd s)) (fun i => exists b, bound_at vb i = Ok b) 3 (hyper_wide vb alpha)) with (v := v) (w := w) (i := O) (a := (false, r)) as (a1 & a2 & a3 & K & _); auto; [|eauto].
    intros i x y s (b & Hb) Ls. unfold hyper_wide. destruct (Qeq_bool x y); [do 3 eexists; split; [reflexivity|lia]|]. rewrite Hb. cbn [rbind].
    destruct (uniform_total (snd s)) as (u & r1 & E1 & L1 & _); [lia|]. rewrite E1. cbn [rbind]. destruct (uniform_total r1) as (u2 & r2 & E2 & L2 & _); [lia|]. rewrite E2. cbn [rbind].
    destruct (flip_total (1 # 2) r2) as (c & r3 & E3 & L3 & _); [lia|]. rewrite E3. cbn [rbind]. destruct c; do 3 eexists; (split; [reflexivity|cbn; lia]).
Qed.
Lemma ux_total p v w r : (length v <= length w)%nat -> (length v <= length (us r))%nat -> exists o, real_ux p v w r = Ok o.
Proof.
  intros L H. unfold real_ux.
  match goal with |- exists _, each2 ?g _ _ _ _ = _ => destruct (each2_total (fun s : bool * rand => lenu (snd s)) (fun _ => True) 1 g) with (v := v) (w := w) (i := O) (a := (false, r)) as (a1 & a2 & a3 & K & _); auto end.
  - intros i x y [c0 r0] _ Ls. cbn [snd] in *. destruct (flip_total p r0) as (c & r3 & E3 & L3 & _); [lia|]. rewrite E3. cbn [rbind]. destruct (_ && _)%bool; do 3 eexists; (split; [reflexivity|cbn; lia]).
  - cbn [snd]. unfold lenu. lia.
  - eexists. exact K.
Qed.
Lemma det_loop_total no : forall bs eps v r, (0 < length v)%nat -> length v = length bs -> (length v <= length eps)%nat -> good r -> (2 * no <= length (us r))%nat -> exists o, det_loop no bs eps v r = Ok o.
Proof.
  induction no as [|no IH]; intros bs eps v r Hv Lb Le G H; cbn [det_loop]; [eauto|].
  unfold random. destruct (uniform_total r) as (u & r1 & E1 & L1 & _); [unfold lenu; lia|].
  assert (K : exists i, random (length v) r = Ok (i, r1)) by (unfold random; rewrite E1; cbn; eauto). destruct K as (i & K). assert (K' := K). unfold random in K. rewrite K. cbn [rbind].
  destruct (random_good _ _ _ _ G K') as (G1 & Hi). specialize (Hi Hv).
  destruct (nth_error v i) as [x|] eqn:Ex; [|apply nth_error_None in Ex; lia]. destruct (nth_error eps i) as [e|] eqn:Ee; [|apply nth_error_None in Ee; lia].
  destruct (nth_error bs i) as [b|] eqn:Eb; [|apply nth_error_None in Eb; lia]. cbn [of_opt rbind].
  unfold lenu in *. destruct (uniform_total r1) as (u2 & r2 & E2 & L2 & _); [unfold lenu; lia|]. rewrite E2. cbn [rbind].
  rewrite upd_set by (eapply nth_error_lt; eauto). cbn [of_opt rbind]. apply IH; rewrite ?set_length; auto; [|unfold lenu in *; lia]. eapply uniform_good; eauto.
Qed.
