(** The exact children of the SBX crossover and moves of the polynomial mutation *)
From Coq Require Import List Arith Bool Lia Reals Lra.
From Verif Require Import Lib Outcome DtlzModel DtlzSpec DtlzProofs DtlzMore DtlzOps.
From Coq Require Import List.
Import ListNotations.
Open Scope R_scope.

Lemma root_power eta v : 0 <= eta -> 0 < v -> Rpower (Rpower v (1 / (eta + 1))) (eta + 1) = v.
Proof. intros E V. rewrite Rpower_mult. replace (1 / (eta + 1) * (eta + 1)) with 1 by (field; lra). apply Rpower_1. auto. Qed.
Lemma power_root eta v : 0 <= eta -> 0 < v -> Rpower (Rpower v (eta + 1)) (1 / (eta + 1)) = v.
Proof. intros E V. rewrite Rpower_mult. replace ((eta + 1) * (1 / (eta + 1))) with 1 by (field; lra). apply Rpower_1. auto. Qed.
Lemma betaq_exact eta beta rand : 0 <= eta -> 1 <= beta -> 0 <= rand < 1 -> spread_factor eta beta rand (betaq eta (2 - c_pow beta (- (eta + 1))) rand).
Proof.
  intros Eta B Rn. assert (Rg := betaq_range eta beta rand Eta B Rn). rewrite pow_pos in * by lra. unfold spread_factor. split; [exact Rg|].
  set (q := Rpower beta (- (eta + 1))) in *. assert (Qp : 0 < q) by apply exp_pos.
  assert (Q1 : q <= 1).
  { assert (P1 : 1 <= Rpower beta (eta + 1)) by (apply Rle_trans with (Rpower beta 0); [rewrite Rpower_O; lra|apply Rle_Rpower; lra]).
    unfold q. rewrite Rpower_Ropp. replace 1 with (/ 1) at 2 by lra. apply Rinv_le_contravar; lra. }
  assert (X : 1 / (2 - q) * (2 - q) = 1) by (field; lra).
  unfold betaq. destruct (Rle_dec rand (1 / (2 - q))) as [L|L]; (split; [|split]).
  - intros ->. rewrite Rmult_0_l. unfold c_pow. destruct (Req_EM_T 0 0); [auto|contradiction].
  - intros R0 _. assert (0 < rand * (2 - q)) by (apply Rmult_lt_0_compat; lra). rewrite pow_pos by auto. split; [apply exp_pos|]. apply root_power; auto.
  - intros H. exfalso. nra.
  - intros ->. exfalso. apply L. unfold Rdiv. rewrite Rmult_1_l. left. apply Rinv_0_lt_compat. lra.
  - intros R0 H. exfalso. nra.
  - intros H. assert (D : 0 < 2 - rand * (2 - q)) by nra. assert (D' : 0 < 1 / (2 - rand * (2 - q))) by (unfold Rdiv; rewrite Rmult_1_l; apply Rinv_0_lt_compat; auto).
    rewrite pow_pos by auto. split; [apply exp_pos|]. rewrite Rpower_Ropp, root_power by auto. field. lra.
Qed.
Lemma sbx_low_exact eta lo a b y1 y2 rand : 0 <= eta -> lo <= y1 < y2 -> y1 + y2 = a + b -> y2 - y1 = Rabs (a - b) -> 0 <= rand < 1 ->
  low_child eta lo a b rand (sbx_low eta y1 y2 lo rand).
Proof.
  intros Eta Y Sm D Rn. unfold low_child, sbx_low. set (beta := 1 + 2 * (y1 - lo) / (y2 - y1)).
  assert (Eb : beta * (y2 - y1) = (y2 - y1) + 2 * (y1 - lo)) by (unfold beta; field; lra).
  assert (B : 1 <= beta) by nra. exists beta, (betaq eta (2 - c_pow beta (- (eta + 1))) rand). rewrite <- Sm, <- D. split; [rewrite Eb; lra|]. split; [apply betaq_exact; auto|lra].
Qed.
Lemma sbx_high_exact eta hi a b y1 y2 rand : 0 <= eta -> y1 < y2 <= hi -> y1 + y2 = a + b -> y2 - y1 = Rabs (a - b) -> 0 <= rand < 1 ->
  high_child eta hi a b rand (sbx_high eta y1 y2 hi rand).
Proof.
  intros Eta Y Sm D Rn. unfold high_child, sbx_high. set (beta := 1 + 2 * (hi - y2) / (y2 - y1)).
  assert (Eb : beta * (y2 - y1) = (y2 - y1) + 2 * (hi - y2)) by (unfold beta; field; lra).
  assert (B : 1 <= beta) by nra. exists beta, (betaq eta (2 - c_pow beta (- (eta + 1))) rand). rewrite <- Sm, <- D. split; [rewrite Eb; lra|]. split; [apply betaq_exact; auto|lra].
Qed.
Lemma sbx_children eta : 0 <= eta -> forall bs x y us coins ch x' y' us' coins',
  Forall2 within bs x -> Forall2 within bs y -> (forall u, In u us -> 0 <= u < 1) ->
  sbx eta (map Some bs) x y us coins = Ok (ch, x', y', us', coins') ->
  forall i lo hi a b a' b', nth_error bs i = Some (lo, hi) -> nth_error x i = Some a -> nth_error y i = Some b -> nth_error x' i = Some a' -> nth_error y' i = Some b' ->
  / 10 ^ 14 < Rabs (a - b) ->
  exists u flip, nth_error us (differing x y i) = Some u /\ nth_error coins (differing x y i) = Some flip /\
    low_child eta lo a b u (if flip then b' else a') /\ high_child eta hi a b u (if flip then a' else b').
Proof.
  intros Eta bs. induction bs as [|[lo hi] bs IH]; intros x y us coins ch x' y' us' coins' Wx Wy U E.
  - intros i lo hi a b a' b' H. destruct i; discriminate.
  - inversion Wx as [|? a ? xs [A1 A2] Wx']; subst. inversion Wy as [|? b ? ys [B1 B2] Wy']; subst. cbn [fst snd] in *.
    cbn [sbx map] in E. assert (Ep := eps_pos). unfold differing. fold eps in *. destruct (Rlt_dec eps (Rabs (a - b))) as [D|D].
    + destruct (if Rlt_dec a b then (a, b) else (b, a)) as [y1 y2] eqn:Ey.
      assert (Y : lo <= y1 /\ y1 < y2 /\ y2 <= hi /\ y1 + y2 = a + b /\ y2 - y1 = Rabs (a - b)).
      { destruct (Rlt_dec a b); injection Ey as <- <-; [rewrite Rabs_left by lra; lra|]. assert (a <> b) by (intros ->; rewrite Rminus_diag_eq, Rabs_R0 in D; auto; lra). rewrite Rabs_pos_eq by lra. lra. }
      destruct Y as (Y1 & Y2 & Y3 & Y4 & Y5).
      destruct us as [|rand us0]; [discriminate|]. destruct coins as [|flip coins0]; [discriminate|].
      destruct (sbx eta (map Some bs) xs ys us0 coins0) as [ [[[[ch0 l1] l2] us1] coins1] | | | ] eqn:Er; try discriminate. cbn [rbind] in E.
      assert (U0 := U rand (or_introl eq_refl)).
      assert (L1 := sbx_low_range eta y1 y2 lo rand Eta (conj Y1 Y2) U0). assert (H1 := sbx_high_range eta y1 y2 hi rand Eta (conj Y2 Y3) U0).
      assert (Lx := sbx_low_exact eta lo a b y1 y2 rand Eta (conj Y1 Y2) Y4 Y5 U0). assert (Hx := sbx_high_exact eta hi a b y1 y2 rand Eta (conj Y2 Y3) Y4 Y5 U0).
      rewrite !truncate_id in E by lra.
      assert (X : x' = (if flip then sbx_high eta y1 y2 hi rand else sbx_low eta y1 y2 lo rand) :: l1 /\ y' = (if flip then sbx_low eta y1 y2 lo rand else sbx_high eta y1 y2 hi rand) :: l2).
      { destruct flip; injection E as <- <- <- _ _; auto. }
      destruct X as (-> & ->). intros [|i] lo0 hi0 a0 b0 a' b' K1 K2 K3 K4 K5 K6; cbn in K1, K2, K3, K4, K5.
      * injection K1 as <- <-. injection K2 as <-. injection K3 as <-. injection K4 as <-. injection K5 as <-. exists rand, flip. cbn. destruct flip; auto.
      * destruct (IH xs ys us0 coins0 ch0 l1 l2 us1 coins1 Wx' Wy' (fun u H => U u (or_intror H)) Er i lo0 hi0 a0 b0 a' b' K1 K2 K3 K4 K5 K6) as (u & fl & P1 & P2 & P3).
        exists u, fl. cbn [combine firstn filter fst snd]. destruct (Rlt_dec eps (Rabs (a - b))); [|contradiction]. cbn [length nth_error]. auto.
    + destruct (sbx eta (map Some bs) xs ys us coins) as [ [[[[ch0 l1] l2] us1] coins1] | | | ] eqn:Er; cbn [tl rbind] in E; rewrite Er in E; try discriminate. cbn [rbind] in E.
      injection E as <- <- <- <- <-. intros [|i] lo0 hi0 a0 b0 a' b' K1 K2 K3 K4 K5 K6; cbn in K1, K2, K3, K4, K5.
      * injection K2 as <-. injection K3 as <-. contradiction.
      * destruct (IH xs ys us coins ch0 l1 l2 us1 coins1 Wx' Wy' U Er i lo0 hi0 a0 b0 a' b' K1 K2 K3 K4 K5 K6) as (u & fl & P1 & P2 & P3).
        exists u, fl. cbn [combine firstn filter fst snd]. destruct (Rlt_dec eps (Rabs (a - b))); [contradiction|]. auto.
Qed.

Lemma c_pow_mono x y p : 0 <= p -> 0 < x <= y -> c_pow x p <= c_pow y p.
Proof. intros P H. rewrite !pow_pos by lra. apply Rpower_le; auto. Qed.
Lemma poly_move_exact eta y lo hi rnd : lo < hi -> lo <= y <= hi -> 0 <= rnd < 1 -> 0 <= eta ->
  exists dm d, dm * (hi - lo) = Rmin (y - lo) (hi - y) /\ poly_shift eta dm rnd d /\ poly_move eta y lo hi rnd = y + d * (hi - lo).
Proof.
  intros LH Y Rn Eta. unfold poly_move.
  set (dm := if Rlt_dec (hi - y) (y - lo) then (hi - y) / (hi - lo) else (y - lo) / (hi - lo)).
  assert (Dm : dm * (hi - lo) = Rmin (y - lo) (hi - y)).
  { unfold dm, Rmin. destruct (Rlt_dec (hi - y) (y - lo)), (Rle_dec (y - lo) (hi - y)); try (exfalso; lra); field; lra. }
  assert (D0 : 0 <= dm <= / 2).
  { assert (0 <= Rmin (y - lo) (hi - y)) by (apply Rmin_glb; lra). assert (H1 := Rmin_l (y - lo) (hi - y)). assert (H2 := Rmin_r (y - lo) (hi - y)). split; nra. }
  set (xp := c_pow (1 - dm) (eta + 1)). assert (Xp : xp = Rpower (1 - dm) (eta + 1)) by (apply pow_pos; lra).
  assert (XY : 0 < xp <= 1).
  { split; [rewrite Xp; apply exp_pos|]. apply c_pow_01; lra. }
  assert (Ip : 0 < 1 / (eta + 1)) by (unfold Rdiv; rewrite Rmult_1_l; apply Rinv_0_lt_compat; lra).
  assert (Xr : Rpower xp (1 / (eta + 1)) = 1 - dm) by (rewrite Xp; apply power_root; lra).
  assert (V : forall v, xp <= v <= 1 -> 1 - dm <= c_pow v (1 / (eta + 1)) <= 1 /\ Rpower (c_pow v (1 / (eta + 1))) (eta + 1) = v).
  { intros v Hv. split; [split|].
    - rewrite <- Xr, <- (pow_pos xp) by lra. apply c_pow_mono; lra.
    - apply c_pow_01; lra.
    - rewrite pow_pos by lra. apply root_power; lra. }
  exists dm. destruct (Rle_dec rnd (/ 2)) as [L|L].
  - destruct (V (2 * rnd + (1 - 2 * rnd) * xp)) as [[V1 V2] V3]; [split; nra|]. set (w := c_pow (2 * rnd + (1 - 2 * rnd) * xp) (1 / (eta + 1))) in *.
    exists (w - 1). destruct (Rlt_dec dm (w - 1)); [exfalso; lra|]. destruct (Rlt_dec (w - 1) (- dm)); [exfalso; lra|]. split; auto. split; [|lra].
    split; [intros _|intros; lra]. split; [lra|]. replace (1 + (w - 1)) with w by ring. rewrite <- Xp. exact V3.
  - destruct (V (2 * (1 - rnd) + 2 * (rnd - / 2) * xp)) as [[V1 V2] V3]; [split; nra|]. set (w := c_pow (2 * (1 - rnd) + 2 * (rnd - / 2) * xp) (1 / (eta + 1))) in *.
    exists (1 - w). destruct (Rlt_dec dm (1 - w)); [exfalso; lra|]. destruct (Rlt_dec (1 - w) (- dm)); [exfalso; lra|]. split; auto. split; [|lra].
    split; [intros; lra|intros _]. split; [lra|]. replace (1 - (1 - w)) with w by ring. rewrite V3, <- Xp. lra.
Qed.
Lemma poly_exact eta : 0 <= eta -> forall bs x coins us ch x' coins' us',
  Forall2 within bs x -> (forall b, In b bs -> fst b < snd b) -> (forall u, In u us -> 0 <= u < 1) ->
  poly eta (map Some bs) x coins us = Ok (ch, x', coins', us') ->
  forall i lo hi v v', nth_error bs i = Some (lo, hi) -> nth_error x i = Some v -> nth_error x' i = Some v' -> nth_error coins i = Some true ->
  exists u dm d, number coins us i = Some u /\ dm * (hi - lo) = Rmin (v - lo) (hi - v) /\ poly_shift eta dm u d /\ v' = v + d * (hi - lo).
Proof.
  intros Eta bs. induction bs as [|[lo hi] bs IH]; intros x coins us ch x' coins' us' W LH U E.
  - intros i lo hi v v' H. destruct i; discriminate.
  - inversion W as [|? y ? xs Wy W']; subst. cbn [poly map] in E. destruct coins as [|c coins0]; [discriminate|].
    destruct c.
    + destruct us as [|rnd us0]; [discriminate|]. destruct (poly eta (map Some bs) xs coins0 us0) as [ [[[ch0 l] cs] us1] | | | ] eqn:Er; try discriminate. cbn [rbind] in E. injection E as <- <- <- <-.
      destruct Wy as [Y1 Y2]. cbn [fst snd] in *. assert (Lh := LH (lo, hi) (or_introl eq_refl)). cbn in Lh. assert (Ur := U rnd (or_introl eq_refl)).
      destruct (poly_move_range eta y lo hi rnd Lh) as (R1 & _); try lra.
      intros [|i] lo0 hi0 v v' K1 K2 K3 K4.
      * cbn in K1, K2, K3. injection K1 as <- <-. injection K2 as <-. injection K3 as <-.
        assert (In1 : lo <= poly_move eta y lo hi rnd <= hi).
        { assert (M1 := Rmin_l (y - lo) (hi - y)). assert (M2 := Rmin_r (y - lo) (hi - y)). revert R1; unfold Rabs; destruct (Rcase_abs _); intros; lra. }
        rewrite truncate_id by auto. destruct (poly_move_exact eta y lo hi rnd Lh (conj Y1 Y2) Ur Eta) as (dm & d & P). exists rnd, dm, d. split; auto.
      * apply (IH xs coins0 us0 ch0 l cs us1 W' (fun b H => LH b (or_intror H)) (fun u H => U u (or_intror H)) Er i lo0 hi0 v v' K1 K2 K3 K4).
    + cbn [tl] in E. destruct (poly eta (map Some bs) xs coins0 us) as [ [[[ch0 l] cs] us1] | | | ] eqn:Er; try discriminate. cbn [rbind] in E. injection E as <- <- <- <-.
      intros [|i] lo0 hi0 v v' K1 K2 K3 K4; [discriminate|].
      apply (IH xs coins0 us ch0 l cs us1 W' (fun b H => LH b (or_intror H)) U Er i lo0 hi0 v v' K1 K2 K3 K4).
Qed.
