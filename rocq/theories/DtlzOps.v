(** The SBX crossover and the polynomial mutation *)
From Coq Require Import List Arith Bool Lia Reals Lra.
From Verif Require Import Lib Outcome DtlzModel DtlzSpec DtlzProofs DtlzMore.
From Coq Require Import List.
Import ListNotations.
Open Scope R_scope.

Lemma pow_pos x y : 0 < x -> c_pow x y = Rpower x y.
Proof. intros H. unfold c_pow. destruct (Req_EM_T x 0); [lra|auto]. Qed.
Lemma Rpower_le x y p : 0 <= p -> 0 < x <= y -> Rpower x p <= Rpower y p.
Proof. intros P H. unfold Rpower. destruct (Req_dec x y) as [->|N]; [lra|]. assert (ln x < ln y) by (apply ln_increasing; lra). destruct (Req_dec p 0) as [->|Np]; [rewrite !Rmult_0_l; lra|]. left. apply exp_increasing. nra. Qed.
Lemma betaq_range eta beta rand : 0 <= eta -> 1 <= beta -> 0 <= rand < 1 -> 0 <= betaq eta (2 - c_pow beta (- (eta + 1))) rand <= beta.
Proof.
  intros Eta B Rn. rewrite pow_pos by lra. set (q := Rpower beta (- (eta + 1))).
  assert (Qp : 0 < q) by apply exp_pos.
  assert (Q1 : q <= 1).
  { assert (P1 : 1 <= Rpower beta (eta + 1)) by (apply Rle_trans with (Rpower beta 0); [rewrite Rpower_O; lra|apply Rle_Rpower; lra]).
    unfold q. rewrite Rpower_Ropp. replace 1 with (/ 1) at 2 by lra. apply Rinv_le_contravar; lra. }
  assert (Ip : 0 < 1 / (eta + 1)) by (unfold Rdiv; rewrite Rmult_1_l; apply Rinv_0_lt_compat; lra).
  unfold betaq. destruct (Rle_dec rand (1 / (2 - q))) as [L|L].
  - assert (0 <= rand * (2 - q) <= 1).
    { split; [apply Rmult_le_pos; lra|]. assert (1 / (2 - q) * (2 - q) = 1) by (field; lra). nra. }
    destruct (c_pow_01 (rand * (2 - q)) (1 / (eta + 1)) Ip H). lra.
  - assert (D : q < 2 - rand * (2 - q)) by nra.
    rewrite pow_pos by (unfold Rdiv; rewrite Rmult_1_l; apply Rinv_0_lt_compat; lra). split; [left; apply exp_pos|].
    assert (E : beta = Rpower (/ q) (1 / (eta + 1))).
    { unfold q. rewrite Rpower_Ropp, Rinv_inv, Rpower_mult. replace ((eta + 1) * (1 / (eta + 1))) with 1 by (field; lra). rewrite Rpower_1; lra. }
    apply Rle_trans with (Rpower (/ q) (1 / (eta + 1))); [|lra]. apply Rpower_le; [lra|]. unfold Rdiv. rewrite Rmult_1_l. split; [apply Rinv_0_lt_compat; lra|]. apply Rinv_le_contravar; lra.
Qed.
Lemma sbx_low_range eta y1 y2 lo rand : 0 <= eta -> lo <= y1 < y2 -> 0 <= rand < 1 -> lo <= sbx_low eta y1 y2 lo rand <= (y1 + y2) / 2.
Proof.
  intros Eta Y Rn. unfold sbx_low. set (beta := 1 + 2 * (y1 - lo) / (y2 - y1)).
  assert (Eb : beta * (y2 - y1) = (y2 - y1) + 2 * (y1 - lo)) by (unfold beta; field; lra).
  assert (B : 1 <= beta) by nra. destruct (betaq_range eta beta rand Eta B Rn) as [B1 B2]. set (bq := betaq _ _ _) in *. nra.
Qed.
Lemma sbx_high_range eta y1 y2 hi rand : 0 <= eta -> y1 < y2 <= hi -> 0 <= rand < 1 -> (y1 + y2) / 2 <= sbx_high eta y1 y2 hi rand <= hi.
Proof.
  intros Eta Y Rn. unfold sbx_high. set (beta := 1 + 2 * (hi - y2) / (y2 - y1)).
  assert (Eb : beta * (y2 - y1) = (y2 - y1) + 2 * (hi - y2)) by (unfold beta; field; lra).
  assert (B : 1 <= beta) by nra. destruct (betaq_range eta beta rand Eta B Rn) as [B1 B2]. set (bq := betaq _ _ _) in *. nra.
Qed.
Lemma truncate_id lo hi v : lo <= v <= hi -> truncate lo hi v = v.
Proof. intros H. unfold truncate. destruct (Rlt_dec v lo); [lra|]. destruct (Rlt_dec hi v); [lra|auto]. Qed.
Lemma truncate_in lo hi v : lo <= hi -> lo <= truncate lo hi v <= hi.
Proof. intros H. unfold truncate. destruct (Rlt_dec v lo); [lra|]. destruct (Rlt_dec hi v); lra. Qed.

Lemma eps_pos : 0 < eps.
Proof. unfold eps. apply Rinv_0_lt_compat. apply pow_lt. lra. Qed.
Lemma sbx_spec eta : 0 <= eta -> forall bs x y us coins ch x' y' us' coins',
  Forall2 within bs x -> Forall2 within bs y -> (forall u, In u us -> 0 <= u < 1) ->
  sbx eta (map Some bs) x y us coins = Ok (ch, x', y', us', coins') ->
  length x' = length bs /\ length y' = length bs /\
  (forall i lo hi a b a' b', nth_error bs i = Some (lo, hi) -> nth_error x i = Some a -> nth_error y i = Some b -> nth_error x' i = Some a' -> nth_error y' i = Some b' -> blended lo hi a b a' b') /\
  (ch = true <-> exists i a b, nth_error x i = Some a /\ nth_error y i = Some b /\ / 10 ^ 14 < Rabs (a - b)).
Proof.
  intros Eta bs. induction bs as [|[lo hi] bs IH]; intros x y us coins ch x' y' us' coins' Wx Wy U E.
  - inversion Wx; subst. inversion Wy; subst. cbn in E. injection E as <- <- <- <- <-. split; [auto|]. split; [auto|]. split; [|split].
    + intros i lo hi a b a' b' H. destruct i; discriminate.
    + discriminate.
    + intros (i & a & b & H & _). destruct i; discriminate.
  - inversion Wx as [|? a ? xs [A1 A2] Wx']; subst. inversion Wy as [|? b ? ys [B1 B2] Wy']; subst. cbn [fst snd] in *.
    cbn [sbx map] in E. assert (Ep := eps_pos). fold eps in *. destruct (Rlt_dec eps (Rabs (a - b))) as [D|D].
    + destruct (if Rlt_dec a b then (a, b) else (b, a)) as [y1 y2] eqn:Ey.
      assert (Y : lo <= y1 /\ y1 < y2 /\ y2 <= hi /\ y1 + y2 = a + b).
      { destruct (Rlt_dec a b); injection Ey as <- <-; [lra|]. assert (a <> b) by (intros ->; rewrite Rminus_diag_eq, Rabs_R0 in D; auto; lra). lra. }
      destruct us as [|rand us0]; [discriminate|]. destruct coins as [|flip coins0]; [discriminate|].
      destruct (sbx eta (map Some bs) xs ys us0 coins0) as [ [[[[ch0 l1] l2] us1] coins1] | | | ] eqn:Er; try discriminate. cbn [rbind] in E.
      assert (U0 := U rand (or_introl eq_refl)).
      destruct (sbx_low_range eta y1 y2 lo rand Eta) as [L1 L2]; [lra|auto|]. destruct (sbx_high_range eta y1 y2 hi rand Eta) as [H1 H2]; [lra|auto|].
      rewrite !truncate_id in E by lra.
      destruct (IH xs ys us0 coins0 ch0 l1 l2 us1 coins1 Wx' Wy' (fun u H => U u (or_intror H)) Er) as (Q1 & Q2 & Q3 & Q4).
      assert (X : ch = true /\ ((x' = sbx_low eta y1 y2 lo rand :: l1 /\ y' = sbx_high eta y1 y2 hi rand :: l2) \/ (x' = sbx_high eta y1 y2 hi rand :: l1 /\ y' = sbx_low eta y1 y2 lo rand :: l2))).
      { destruct flip; injection E as <- <- <- _ _; auto. }
      destruct X as (-> & X). split; [|split; [|split]].
      * destruct X as [(-> & ->)|(-> & ->)]; cbn; auto.
      * destruct X as [(-> & ->)|(-> & ->)]; cbn; auto.
      * intros [|i] lo0 hi0 a0 b0 a' b' K1 K2 K3 K4 K5; cbn in K1, K2, K3.
        -- injection K1 as <- <-. injection K2 as <-. injection K3 as <-. unfold blended. fold eps. split; [intros; lra|]. intros _.
           destruct X as [(-> & ->)|(-> & ->)]; cbn in K4, K5; injection K4 as <-; injection K5 as <-; [left|right]; lra.
        -- apply (Q3 i lo0 hi0 a0 b0); auto; destruct X as [(-> & ->)|(-> & ->)]; auto.
      * split; auto. intros _. exists 0%nat, a, b. auto.
    + destruct (sbx eta (map Some bs) xs ys us coins) as [ [[[[ch0 l1] l2] us1] coins1] | | | ] eqn:Er; cbn [tl rbind] in E; rewrite Er in E; try discriminate. cbn [rbind] in E.
      injection E as <- <- <- <- <-.
      destruct (IH xs ys us coins ch0 l1 l2 us1 coins1 Wx' Wy' U Er) as (Q1 & Q2 & Q3 & Q4). split; [cbn; auto|]. split; [cbn; auto|]. split.
      * intros [|i] lo0 hi0 a0 b0 a' b' K1 K2 K3 K4 K5; cbn in K1, K2, K3, K4, K5; [|apply (Q3 i lo0 hi0 a0 b0); auto].
        injection K1 as <- <-. injection K2 as <-. injection K3 as <-. injection K4 as <-. injection K5 as <-. unfold blended. fold eps. split; auto. intros; lra.
      * rewrite Q4. split; intros (i & a0 & b0 & K); [exists (S i), a0, b0; auto|]. destruct i as [|i]; [|exists i, a0, b0; auto].
        cbn in K. destruct K as (K1 & K2 & K3). injection K1 as <-. injection K2 as <-. lra.
Qed.
Lemma sbx_works eta : forall bs x y us coins, length x = length bs -> length y = length bs -> (length x <= length us)%nat -> (length x <= length coins)%nat ->
  exists ch x' y' us' coins', sbx eta (map Some bs) x y us coins = Ok (ch, x', y', us', coins').
Proof.
  induction bs as [|[lo hi] bs IH]; intros [|a x] [|b y] us coins Lx Ly U C; try discriminate; cbn [sbx map].
  - eauto 10.
  - cbn [length] in *. destruct (Rlt_dec eps (Rabs (a - b))).
    + destruct (if Rlt_dec a b then (a, b) else (b, a)) as [y1 y2]. destruct us as [|u us]; [cbn in U; lia|]. destruct coins as [|c coins]; [cbn in C; lia|].
      cbn [length] in *. destruct (IH x y us coins) as (ch & x' & y' & us' & coins' & E); try lia. rewrite E. cbn [rbind]. destruct c; eauto 10.
    + cbn [tl]. destruct (IH x y us coins) as (ch & x' & y' & us' & coins' & E); try lia. rewrite E. cbn [rbind]. eauto 10.
Qed.
Lemma sbx_unbounded eta : forall n x y us coins, length x = n -> length y = n -> (exists i a b, nth_error x i = Some a /\ nth_error y i = Some b /\ eps < Rabs (a - b)) ->
  sbx eta (repeat None n) x y us coins = Throw.
Proof.
  induction n as [|n IH]; intros x y us coins Lx Ly (i & a & b & Ha & Hb & D).
  - destruct x; [destruct i; discriminate|discriminate].
  - destruct x as [|a0 x]; [discriminate|]. destruct y as [|b0 y]; [discriminate|]. cbn [sbx repeat]. destruct (Rlt_dec eps (Rabs (a0 - b0))) as [D0|D0].
    + destruct (if Rlt_dec a0 b0 then (a0, b0) else (b0, a0)). auto.
    + cbn [tl]. rewrite IH; auto. destruct i as [|i]; cbn in Ha, Hb; [injection Ha as <-; injection Hb as <-; contradiction|]. eauto 10.
Qed.

(** *** the mutation *)
Lemma poly_move_range eta y lo hi rnd : lo < hi -> lo <= y <= hi -> 0 <= rnd <= 1 -> 0 <= eta ->
  Rabs (poly_move eta y lo hi rnd - y) <= Rmin (y - lo) (hi - y) /\ (rnd <= / 2 -> poly_move eta y lo hi rnd <= y) /\ (/ 2 <= rnd -> y <= poly_move eta y lo hi rnd).
Proof.
  intros LH Y Rn Eta. unfold poly_move.
  set (dm := if Rlt_dec (hi - y) (y - lo) then (hi - y) / (hi - lo) else (y - lo) / (hi - lo)).
  assert (Dm : dm * (hi - lo) = Rmin (y - lo) (hi - y)).
  { unfold dm, Rmin. destruct (Rlt_dec (hi - y) (y - lo)), (Rle_dec (y - lo) (hi - y)); try (exfalso; lra); field; lra. }
  assert (D0 : 0 <= dm <= 1).
  { assert (0 <= Rmin (y - lo) (hi - y)) by (apply Rmin_glb; lra). assert (H1 := Rmin_l (y - lo) (hi - y)). split; nra. }
  assert (XY : 0 <= c_pow (1 - dm) (eta + 1) <= 1) by (apply c_pow_01; lra). set (xp := c_pow (1 - dm) (eta + 1)) in *.
  assert (Ip : 0 < 1 / (eta + 1)) by (unfold Rdiv; rewrite Rmult_1_l; apply Rinv_0_lt_compat; lra).
  assert (One : c_pow 1 (1 / (eta + 1)) = 1). { rewrite pow_pos by lra. unfold Rpower. rewrite ln_1, Rmult_0_r, exp_0. auto. }
  set (dq0 := if Rle_dec rnd (/ 2) then _ else _).
  assert (S0 : (rnd <= / 2 -> dq0 <= 0) /\ (/ 2 <= rnd -> 0 <= dq0)).
  { unfold dq0. destruct (Rle_dec rnd (/ 2)) as [L|L].
    - split; intros; [|assert (rnd = / 2) by lra; subst rnd].
      + assert (H1 : 0 <= 2 * rnd + (1 - 2 * rnd) * xp <= 1) by (split; nra). destruct (c_pow_01 _ _ Ip H1). lra.
      + replace (2 * / 2 + (1 - 2 * / 2) * xp) with 1 by lra. rewrite One. lra.
    - split; intros; [lra|]. assert (H1 : 0 <= 2 * (1 - rnd) + 2 * (rnd - / 2) * xp <= 1) by (split; nra). destruct (c_pow_01 _ _ Ip H1). lra. }
  set (dq := if Rlt_dec dm dq0 then dm else if Rlt_dec dq0 (- dm) then - dm else dq0).
  assert (Dq : - dm <= dq <= dm /\ (rnd <= / 2 -> dq <= 0) /\ (/ 2 <= rnd -> 0 <= dq)).
  { unfold dq. destruct S0 as [S1 S2]. destruct (Rlt_dec dm dq0); [split; [lra|split; intros H; [specialize (S1 H)|]; lra]|].
    destruct (Rlt_dec dq0 (- dm)); [split; [lra|split; intros H; [|specialize (S2 H)]; lra]|]. split; [lra|auto]. }
  clearbody dq. clear dq0 S0. destruct Dq as (D1 & D2 & D3). split; [|split].
  - rewrite <- Dm. replace (y + dq * (hi - lo) - y) with (dq * (hi - lo)) by ring. apply Rabs_le. split; nra.
  - intros H. specialize (D2 H). nra.
  - intros H. specialize (D3 H). nra.
Qed.
Lemma poly_spec eta : 0 <= eta -> forall bs x coins us ch x' coins' us',
  Forall2 within bs x -> (forall b, In b bs -> fst b < snd b) -> (forall u, In u us -> 0 <= u < 1) ->
  poly eta (map Some bs) x coins us = Ok (ch, x', coins', us') ->
  length x' = length x /\ (length x <= length coins)%nat /\ (ch = true <-> In true (firstn (length x) coins)) /\
  (forall i lo hi v v', nth_error bs i = Some (lo, hi) -> nth_error x i = Some v -> nth_error x' i = Some v' ->
     (nth_error coins i = Some false -> v' = v) /\
     (nth_error coins i = Some true -> Rabs (v' - v) <= Rmin (v - lo) (hi - v) /\
        exists u, number coins us i = Some u /\ (u <= / 2 -> v' <= v) /\ (/ 2 <= u -> v <= v'))).
Proof.
  intros Eta bs. induction bs as [|[lo hi] bs IH]; intros x coins us ch x' coins' us' W LH U E.
  - inversion W; subst. cbn in E. injection E as <- <- <- <-. repeat split; auto; try (cbn; lia); try discriminate; intros; try contradiction; destruct i; discriminate.
  - inversion W as [|? y ? xs Wy W']; subst. cbn [poly map] in E. destruct coins as [|c coins0]; [discriminate|].
    destruct c.
    + destruct us as [|rnd us0]; [discriminate|]. destruct (poly eta (map Some bs) xs coins0 us0) as [ [[[ch0 l] cs] us1] | | | ] eqn:Er; try discriminate. cbn [rbind] in E. injection E as <- <- <- <-.
      destruct (IH xs coins0 us0 ch0 l cs us1 W' (fun b H => LH b (or_intror H)) (fun u H => U u (or_intror H)) Er) as (Q1 & Q2 & Q3 & Q4).
      destruct Wy as [Y1 Y2]. cbn [fst snd] in *. assert (Lh := LH (lo, hi) (or_introl eq_refl)). cbn in Lh. assert (Ur := U rnd (or_introl eq_refl)).
      destruct (poly_move_range eta y lo hi rnd Lh) as (R1 & R2 & R3); try lra.
      split; [cbn; lia|]. split; [cbn; lia|]. split; [split; auto; intros _; left; auto|].
      intros [|i] lo0 hi0 v v' K1 K2 K3.
      * cbn in K1, K2, K3. injection K1 as <- <-. injection K2 as <-. injection K3 as <-.
        assert (In1 : lo <= poly_move eta y lo hi rnd <= hi).
        { assert (M1 := Rmin_l (y - lo) (hi - y)). assert (M2 := Rmin_r (y - lo) (hi - y)). apply Rabs_le_inv in R1 || (revert R1; unfold Rabs; destruct (Rcase_abs _); intros); lra. }
        rewrite truncate_id by auto. split; [discriminate|]. intros _. split; auto. exists rnd. auto.
      * destruct (Q4 i lo0 hi0 v v' K1 K2 K3) as [P1 P2]. split; auto.
    + cbn [tl] in E. destruct (poly eta (map Some bs) xs coins0 us) as [ [[[ch0 l] cs] us1] | | | ] eqn:Er; try discriminate. cbn [rbind] in E. injection E as <- <- <- <-.
      destruct (IH xs coins0 us ch0 l cs us1 W' (fun b H => LH b (or_intror H)) U Er) as (Q1 & Q2 & Q3 & Q4).
      split; [cbn; lia|]. split; [cbn; lia|]. split; [rewrite Q3; cbn [length firstn]; split; intros H; [right; auto|destruct H; [discriminate|auto]]|].
      intros [|i] lo0 hi0 v v' K1 K2 K3.
      * cbn in K1, K2, K3. injection K1 as <- <-. injection K2 as <-. injection K3 as <-. split; [auto|discriminate].
      * destruct (Q4 i lo0 hi0 v v' K1 K2 K3) as [P1 P2]. split; auto.
Qed.
Lemma poly_works eta : forall bs x coins us, length x = length bs -> (length x <= length coins)%nat -> (length x <= length us)%nat ->
  exists ch x' coins' us', poly eta (map Some bs) x coins us = Ok (ch, x', coins', us').
Proof.
  induction bs as [|[lo hi] bs IH]; intros [|y x] coins us L C U; try discriminate; cbn [poly map].
  - eauto 10.
  - cbn [length] in *. destruct coins as [|[|] coins]; [cbn in C; lia| |]; cbn [length] in *.
    + destruct us as [|u us]; [cbn in U; lia|]. cbn [length] in *. destruct (IH x coins us) as (ch & x' & c' & u' & E); try lia. rewrite E. cbn [rbind]. eauto 10.
    + cbn [tl]. destruct (IH x coins us) as (ch & x' & c' & u' & E); try lia. rewrite E. cbn [rbind]. eauto 10.
Qed.
