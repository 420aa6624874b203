(** Proofs about the two-objective archive: one offer, and sequences of offers. *)
From Coq Require Import Bool Arith QArith Lqa Lia Permutation.
From Verif Require Import Lib Outcome BoundsModel BoundsProofs StairModel StairSpec StairProofs StairFit.
From Coq Require Import List.
Import ListNotations.
Close Scope Q_scope.
Open Scope nat_scope.

Section P.
Context {G : Type}.
Variable mv : Q.
Notation pt := (pt G).
Notation member := (member G).
Notation pts := (map (@mpt G)).
Notation contrib := (contrib mv).
Implicit Types (s : list pt) (l : list member).

Lemma stairs_le s i j a b : staircase s -> i <= j -> nth_error s i = Some a -> nth_error s j = Some b -> (py a <= py b)%Q /\ (px b <= px a)%Q.
Proof.
  intros H L Hi Hj. destruct (Nat.eq_dec i j) as [->|N].
  - replace b with a by congruence. split; lra.
  - destruct (H i j a b) as [X Y]; auto; [lia|]. split; lra.
Qed.

Lemma contrib_contributes s i : staircase s -> i < length s -> contributes mv s i (contrib s i).
Proof.
  intros St L. split; auto. destruct (Nat.eqb_spec i 0) as [->|N0]; [reflexivity|]. cbn [orb].
  destruct (Nat.eqb_spec (S i) (length s)) as [X|X]; [apply contrib_end; lia|].
  destruct i as [|p]; [lia|]. cbn [StairFit.contrib].
  destruct (nth_error_in_some s p) as [a Ea]; [lia|]. destruct (nth_error_in_some s (S p)) as [e Ee]; [lia|].
  destruct (nth_error_in_some s (S (S p))) as [n En]; [lia|]. rewrite Ea, Ee, En.
  destruct (St p (S p) a e) as [P1 P2]; auto. destruct (St (S p) (S (S p)) e n) as [P3 P4]; auto.
  exists (px e), (px a), (py e), (py n). split; [auto|]. split; [auto|]. split; [reflexivity|].
  intros x y. split.
  - intros [(e' & Ee' & [R1 R2]) O]. replace e' with e in * by congruence. split; split; auto.
    + destruct (Qlt_le_dec x (px a)) as [Y|Y]; auto. exfalso.
      assert (p = S p) by (apply (O p a Ea); split; lra). lia.
    + destruct (Qlt_le_dec y (py n)) as [Y|Y]; auto. exfalso.
      assert (S (S p) = S p) by (apply (O _ n En); split; lra). lia.
  - intros [[H1 H2] [H3 H4]]. split; [exists e; repeat split; auto|].
    intros j b Eb [R1 R2]. destruct (Nat.lt_trichotomy j (S p)) as [Y|[Y|Y]]; auto; exfalso.
    + destruct (stairs_le s j p b a St); auto; [lia|]. lra.
    + destruct (stairs_le s (S (S p)) j n b St); auto; try lia. lra.
Qed.

Lemma contributes_unique s i q r : contributes mv s i q -> contributes mv s i r -> (q == r)%Q.
Proof.
  intros [_ H] [_ K]. destruct ((i =? 0) || (S i =? length s)); [subst; reflexivity|].
  destruct H as (x1 & x2 & y1 & y2 & X & Y & -> & H). destruct K as (u1 & u2 & w1 & w2 & U & W & -> & K).
  assert (E : forall x y, (x1 <= x < x2 /\ y1 <= y < y2 <-> u1 <= x < u2 /\ w1 <= y < w2)%Q) by (intros; rewrite <- H, <- K; tauto).
  clear H K. pose proof (proj1 (E x1 y1) ltac:(lra)). pose proof (proj2 (E u1 w1) ltac:(lra)).
  assert (x1 == u1)%Q by lra. assert (y1 == w1)%Q by lra.
  assert (x2 == u2)%Q.
  { destruct (Q_dec x2 u2) as [[Z|Z]|Z]; auto.
    - pose proof (proj2 (E x2 y1) ltac:(lra)). lra.
    - pose proof (proj1 (E u2 y1) ltac:(lra)). lra. }
  assert (y2 == w2)%Q.
  { destruct (Q_dec y2 w2) as [[Z|Z]|Z]; auto.
    - pose proof (proj2 (E x1 y2) ltac:(lra)). lra.
    - pose proof (proj1 (E x1 w2) ltac:(lra)). lra. }
  assert (F : (x2 - x1 == u2 - u1)%Q) by lra. assert (F' : (y2 - y1 == w2 - w1)%Q) by lra. rewrite F, F'. reflexivity.
Qed.
Lemma least_contrib s i : staircase s -> i < length s -> (forall j, (contrib s i <= contrib s j)%Q) -> contributes_least mv s i.
Proof.
  intros St L H. exists (contrib s i). split; [apply contrib_contributes; auto|].
  intros j r C. assert (j < length s) by apply C.
  rewrite (contributes_unique s j r (contrib s j) C (contrib_contributes s j St ltac:(auto))). auto.
Qed.

(** ** the three contributions the filter looks at *)
Lemma nth_at {X} (A B : list X) j : nth_error (A ++ B) (length A + j) = nth_error B j.
Proof. rewrite nth_error_app2 by lia. f_equal. lia. Qed.
Lemma nth_at0 {X} (A B : list X) : nth_error (A ++ B) (length A) = nth_error B 0.
Proof. rewrite <- (Nat.add_0_r (length A)) at 1. apply nth_at. Qed.

Lemma tmp_here (U W : list member) v : U <> [] -> W <> [] ->
  exists t, computeTmp mv (U ++ W) (length U) v Here = Ok t /\ (t == contrib (pts U ++ v :: pts W) (length U))%Q.
Proof.
  intros HU HW. destruct (last_split U) as [->|(U' & p & ->)]; [tauto|]. destruct W as [|c W]; [tauto|].
  unfold computeTmp. rewrite !app_length. cbn [length].
  destruct (Nat.eqb_spec (length U' + 1) 0); [lia|]. destruct (Nat.eqb_spec (length U' + 1) (length U' + 1 + S (length W))); [lia|]. cbn [orb].
  rewrite <- !app_assoc. cbn [app]. rewrite nth_at. cbn [nth_error of_opt rbind]. replace (length U' + 1 - 1) with (length U') by lia.
  rewrite nth_at0. cbn [nth_error of_opt rbind]. eexists. split; [reflexivity|].
  rewrite Nat.add_1_r. cbn [StairFit.contrib]. rewrite map_app, <- app_assoc. cbn [map app].
  replace (length U') with (length (pts U')) by apply map_length.
  rewrite nth_at0. replace (S (length (pts U'))) with (length (pts U') + 1) by lia. rewrite nth_at.
  replace (S (length (pts U') + 1)) with (length (pts U') + 2) by lia. rewrite nth_at. cbn [nth_error]. ring.
Qed.
Lemma tmp_before (U W : list member) v : U <> [] ->
  exists t, computeTmp mv (U ++ W) (length U - 1) v Before = Ok t /\ (t == contrib (pts U ++ v :: pts W) (length U - 1))%Q.
Proof.
  intros HU. destruct (last_split U) as [->|(U' & p & ->)]; [tauto|].
  unfold computeTmp. rewrite !app_length. cbn [length]. replace (length U' + 1 - 1) with (length U') by lia.
  destruct (Nat.eqb_spec (length U') 0) as [E|E]; [rewrite E; cbn; eexists; split; [reflexivity|]; reflexivity|].
  destruct (Nat.eqb_spec (length U') (length U' + 1 + length W)); [lia|]. cbn [orb].
  destruct (last_split U') as [->|(U'' & o & ->)]; [cbn in E; lia|].
  rewrite <- !app_assoc. cbn [app]. rewrite app_length. cbn [length]. replace (length U'' + 1 - 1) with (length U'') by lia.
  rewrite nth_at, nth_at0. cbn [nth_error of_opt rbind]. eexists. split; [reflexivity|].
  rewrite Nat.add_1_r. cbn [StairFit.contrib]. rewrite map_app. cbn [map]. rewrite <- app_assoc. cbn [app].
  replace (length U'') with (length (pts U'')) by apply map_length.
  rewrite nth_at0. replace (S (length (pts U''))) with (length (pts U'') + 1) by lia. rewrite nth_at.
  replace (S (length (pts U'') + 1)) with (length (pts U'') + 2) by lia. rewrite nth_at. cbn [nth_error]. ring.
Qed.
Lemma tmp_after (U W : list member) v : U <> [] -> 2 <= length W ->
  exists t, computeTmp mv (U ++ W) (length U) v After = Ok t /\ (t == contrib (pts U ++ v :: pts W) (S (length U)))%Q.
Proof.
  intros HU HW. destruct W as [|c [|n W]]; cbn in HW; try lia.
  unfold computeTmp. rewrite !app_length. cbn [length].
  destruct (Nat.eqb_spec (length U) 0) as [E|E]; [destruct U; [tauto|discriminate]|].
  destruct (Nat.eqb_spec (length U) (length U + S (S (length W)))); [lia|]. cbn [orb].
  rewrite nth_at0. replace (S (length U)) with (length U + 1) by lia. rewrite nth_at. cbn [nth_error of_opt rbind].
  eexists. split; [reflexivity|]. rewrite Nat.add_1_r. cbn [StairFit.contrib map]. 
  replace (length U) with (length (pts U)) by apply map_length.
  rewrite nth_at0. replace (S (length (pts U))) with (length (pts U) + 1) by lia. rewrite nth_at.
  replace (S (length (pts U) + 1)) with (length (pts U) + 2) by lia. rewrite nth_at. cbn [nth_error]. ring.
Qed.
Lemma tmp_after_ub (U W : list member) v : U <> [] -> length W = 1 ->
  computeTmp mv (U ++ W) (length U) v After = UB.
Proof.
  intros HU HW. destruct W as [|c [|n W]]; cbn in HW; try lia.
  unfold computeTmp. rewrite !app_length. cbn [length].
  destruct (Nat.eqb_spec (length U) 0) as [E|E]; [destruct U; [tauto|discriminate]|].
  destruct (Nat.eqb_spec (length U) (length U + 1)); [lia|]. cbn [orb].
  rewrite nth_at0. replace (S (length U)) with (length U + 1) by lia. rewrite nth_at. reflexivity.
Qed.

(** every contribution before the insertion is matched after it by one that is no larger, and
    not that of the new point *)
Lemma contrib_mid (A B : list pt) v j : staircase (A ++ v :: B) ->
  j <> length A - 1 -> j <> length A ->
  exists j', j' <> length A /\ contrib (A ++ v :: B) j' = contrib (A ++ B) j.
Proof.
  intros St N1 N2. destruct (Nat.lt_trichotomy j (length A)) as [X|[X|X]]; [|lia|].
  - exists j. split; [lia|]. apply contrib_left. lia.
  - exists (S j). split; [lia|]. change (v :: B) with ([v] ++ B). rewrite app_assoc.
    replace (S j) with (length (A ++ [v]) + S (j - length A - 1)) by (rewrite app_length; cbn; lia).
    replace j with (length A + S (j - length A - 1)) at 2 by lia. apply contrib_right.
Qed.
Lemma contrib_shrinks (A B : list pt) v j : staircase (A ++ v :: B) -> A <> [] -> B <> [] -> 
  exists j', j' <> length A /\ (contrib (A ++ v :: B) j' <= contrib (A ++ B) j)%Q.
Proof.
  intros St HA HB.
  destruct (Nat.eq_dec j (length A - 1)) as [->|N1]; [|destruct (Nat.eq_dec j (length A)) as [->|N2]].
  - assert (LA : length A <> 0) by (destruct A; [tauto|discriminate]). exists (length A - 1). split; [lia|].
    destruct (last_split A) as [->|(A' & p & ->)]; [tauto|]. destruct B as [|c B]; [tauto|].
    rewrite app_length. cbn [length]. replace (length A' + 1 - 1) with (length A') by lia.
    destruct (last_split A') as [->|(A'' & o & ->)]; [cbn; lra|].
    rewrite <- !app_assoc in *. cbn [app] in *. rewrite app_length. cbn [length]. rewrite Nat.add_1_r. cbn [StairFit.contrib].
    rewrite !nth_at0. replace (S (length A'')) with (length A'' + 1) by lia. rewrite !nth_at.
    replace (S (length A'' + 1)) with (length A'' + 2) by lia. rewrite !nth_at. cbn [nth_error].
    apply staircase_app in St as (_ & St & _). apply staircase_cons in St as [S1 St]. apply staircase_cons in St as [S2 St].
    apply staircase_cons in St as [S3 St]. destruct (S1 p) as [_ D1]; [left; auto|]. destruct (S3 c) as [D2 _]; [left; auto|]. nra.
  - destruct B as [|c [|n B]]; [tauto| |].
    + exists (S (length A)). split; [lia|]. rewrite !contrib_end by (rewrite app_length; cbn; lia). lra.
    + exists (S (length A)). split; [lia|].
      destruct (last_split A) as [->|(A' & p & ->)]; [tauto|]. rewrite app_length. cbn [length]. rewrite Nat.add_1_r. cbn [StairFit.contrib].
      rewrite <- !app_assoc in *. cbn [app] in *.
      rewrite nth_at0. replace (S (length A')) with (length A' + 1) by lia. rewrite !nth_at.
      replace (S (length A' + 1)) with (length A' + 2) by lia. rewrite !nth_at.
      replace (S (length A' + 2)) with (length A' + 3) by lia. rewrite !nth_at. cbn [nth_error].
      apply staircase_app in St as (_ & St & _). apply staircase_cons in St as [S1 St]. apply staircase_cons in St as [S2 St].
      apply staircase_cons in St as [S3 St]. destruct (S1 v) as [_ D1]; [left; auto|]. destruct (S3 n) as [D2 _]; [left; auto|]. nra.
  - destruct (contrib_mid A B v j St N1 N2) as (j' & N & E). exists j'. rewrite E. split; auto. lra.
Qed.

Lemma put_ok' (U D W : list member) (v : member) : right mv (U ++ D ++ W) -> room U D W (mpt v) ->
  exists l', put mv (U ++ W) (length U) v = Ok l' /\ pts l' = pts U ++ mpt v :: pts W /\ right mv l'.
Proof.
  intros R Rm. unfold put. rewrite (set_insert_room U D W v Rm). unfold moved. rewrite Nat.leb_refl.
  exact (put_right mv U D W v R).
Qed.

Lemma without_mid {X} (A B : list X) v : firstn (length A) (A ++ v :: B) ++ skipn (S (length A)) (A ++ v :: B) = A ++ B.
Proof.
  replace (S (length A)) with (length (A ++ [v])) by (rewrite app_length; cbn; lia).
  change (v :: B) with ([v] ++ B). rewrite app_assoc at 2. rewrite skipn_app, Nat.sub_diag, skipn_all. cbn [skipn app].
  rewrite firstn_app, Nat.sub_diag, firstn_all. cbn [firstn]. rewrite app_nil_r. reflexivity.
Qed.

Theorem offer_ok m l (v : member) : 2 <= m -> right mv l -> staircase (pts l) -> length l <= m ->
  (exists l' r, offer m mv l v = Ok (l', r) /\ offered m mv (pts l) (mpt v) (pts l') r /\ right mv l' /\ staircase (pts l') /\ length l' <= m) \/
  (offer m mv l v = UB /\ length l = m /\ (forall e, In e (pts l) -> ~ covers e (mpt v) /\ ~ covers (mpt v) e) /\
   (next_to_last (pts l) (mpt v) \/
    exists before after, pts l = before ++ after /\ staircase (before ++ mpt v :: after) /\
      forall i q, contributes mv (before ++ mpt v :: after) i q -> (mv <= q)%Q)).
Proof.
  intros Hm R St L. destruct l as [|e0 l0] eqn:El.
  { left. exists [(mpt v, Some mv)], true. cbn. split; [reflexivity|]. split; [|split; [|split; [|lia]]].
    - right. split; [intros e []|]. exists [], [], []. cbn. split; [auto|]. split; [intros e []|]. split; [intros e []|].
      split; [apply staircase_cons; split; [intros b []|apply staircase_nil]|]. left. repeat split; auto; lia.
    - intros k e E. destruct k as [|k]; [injection E as <-; reflexivity|destruct k; discriminate].
    - apply staircase_cons; split; [intros b []|apply staircase_nil]. }
  rewrite <- El in *. assert (N : l <> []) by (rewrite El; discriminate).
  assert (Eo : offer m mv l v = (let! t := insert_test l (mpt v) in
      match t with
      | None => Ok (l, false)
      | Some (l1, h) =>
          if length l1 <? m then
            let (l2, at_) := set_insert l1 v in
            if 2 <? length l2 then
              match moved h at_ with
              | 0 => UB
              | S h1 => let! l3 := computeFitness mv l2 h1 in Ok (l3, true)
              end
            else Ok (all_max mv l2, true)
          else filter_ m mv l1 h v
      end)) by (rewrite El; reflexivity).
  rewrite Eo. clear Eo El e0 l0.
  destruct (insert_test_ok l (mpt v) N St) as [(-> & Cov)|(U & D & W & -> & -> & Rm & Ncov)].
  { left. exists l, false. cbn [rbind]. split; [reflexivity|]. split; [left; auto|auto]. }
  cbn [rbind]. pose proof (room_stairs U D W (mpt v) St Rm) as Si.
  assert (Len : length (pts U ++ mpt v :: pts W) = S (length (U ++ W))).
  { rewrite !app_length. cbn [length]. rewrite !map_length. lia. }
  destruct Rm as (R1 & R2 & R3) eqn:ERm. clear ERm.
  assert (Rm' : room U D W (mpt v)) by (split; auto).
  assert (Off : forall new r,
     ((length (pts U ++ mpt v :: pts W) <= m /\ new = pts U ++ mpt v :: pts W /\ r = true) \/
      (length (pts U ++ mpt v :: pts W) = S m /\ pts D = [] /\
       exists i, contributes_least mv (pts U ++ mpt v :: pts W) i /\
                 new = without (pts U ++ mpt v :: pts W) i /\ (r = false <-> i = length (pts U)))) ->
     offered m mv (pts (U ++ D ++ W)) (mpt v) new r).
  { intros new r H. right. split; [exact Ncov|]. exists (pts U), (pts W), (pts D). split; [rewrite !map_app; auto|].
    split; [|split; [|split; [exact Si|exact H]]].
    - intros e I. apply pts_in in I as (e' & I & <-). auto.
    - intros e I [C1 C2]. apply in_app_or in I as [I|I]; apply pts_in in I as (e' & I & <-).
      + destruct (R1 e' I). lra.
      + destruct (R3 e' I). lra. }
  assert (LL : length (U ++ D ++ W) = length (U ++ W) + length D) by (rewrite !app_length; lia).
  destruct (Nat.ltb_spec (length (U ++ W)) m) as [Lt|Ge].
  - left. rewrite (set_insert_room U D W v Rm').
    assert (L2 : length (U ++ v :: W) = S (length (U ++ W))) by (rewrite !app_length; cbn; lia).
    destruct (Nat.ltb_spec 2 (length (U ++ v :: W))) as [X|X].
    + unfold moved. rewrite Nat.leb_refl. destruct (put_right mv U D W v R) as (l' & E & P & R'). rewrite E. cbn [rbind].
      exists l', true. split; [reflexivity|]. rewrite P. split; [apply Off; left; repeat split; auto; lia|].
      split; [auto|]. split; [auto|]. rewrite <- (map_length (@mpt G) l'), P. lia.
    + exists (all_max mv (U ++ v :: W)), true. split; [reflexivity|].
      assert (P : forall l, pts (all_max mv l) = pts l) by (induction l as [|e l IH]; cbn; congruence).
      assert (Lm : length (all_max mv (U ++ v :: W)) = length (U ++ v :: W)) by (rewrite <- (map_length (@mpt G)), P, map_length; auto).
      rewrite P, (map_app _ U (v :: W)). cbn [map]. split; [apply Off; left; repeat split; auto; lia|].
      split; [|split; [auto|lia]].
      intros k e E. assert (F : snd e = Some mv).
      { clear -E. revert k E. generalize (U ++ v :: W). induction l as [|x l IH]; intros k E; [destruct k; discriminate|].
        destruct k as [|k]; [injection E as <-; reflexivity|]. cbn in E. eauto. }
      rewrite F. f_equal. symmetry. destruct k as [|k]; [reflexivity|]. apply contrib_end. rewrite P, map_length. lia.
  - assert (ED : D = []) by (destruct D; auto; cbn [length] in LL; lia). subst D. cbn [app length map] in *.
    assert (Lm : length (U ++ W) = m) by lia.
    destruct (put_ok' U [] W v R Rm') as (l1 & E1 & P1 & R1'). 
    assert (L1 : length l1 = S m) by (rewrite <- (map_length (@mpt G)), P1; lia).
    pose proof (filterbis_one mv (S (length l1)) m l1 R1' L1 ltac:(lia)) as FB.
    assert (HU : length (pts U) = length U) by apply map_length.
    assert (Big : (forall j, (mv <= contrib (pts l1) j)%Q) -> exists before after, pts (U ++ W) = before ++ after /\
       staircase (before ++ mpt v :: after) /\ forall i q, contributes mv (before ++ mpt v :: after) i q -> (mv <= q)%Q).
    { intros H. exists (pts U), (pts W). split; [apply map_app|]. split; [auto|]. intros i q C. rewrite P1 in H.
      rewrite (contributes_unique _ _ _ _ C (contrib_contributes _ i Si (proj1 C))). auto. }
    assert (Inc : forall e, In e (pts (U ++ W)) -> ~ covers e (mpt v) /\ ~ covers (mpt v) e).
    { intros e I. split; auto. intros [C1 C2]. apply pts_in in I as (e' & I & <-). apply in_app_or in I as [I|I].
      - destruct (R1 e' I). lra.
      - destruct (R3 e' I). lra. }
    (* taking the point *)
    assert (Add : (exists j, j <> length U /\ (contrib (pts l1) j < contrib (pts l1) (length U))%Q) \/ contrib (pts l1) (length U) = mv ->
      let add := let! l1 := put mv (U ++ W) (length U) v in let! l2 := filterbis (S (length l1)) m mv l1 mv None in Ok (l2, true) in
      (exists l' r, add = Ok (l', r) /\ offered m mv (pts (U ++ W)) (mpt v) (pts l') r /\ right mv l' /\ staircase (pts l') /\ length l' <= m) \/
      (add = UB /\ forall j, (mv <= contrib (pts l1) j)%Q)).
    { intros Hj. cbn zeta. rewrite E1. cbn [rbind]. destruct FB as [(d & l' & -> & D1 & D2 & D3 & D4 & D5 & D6 & D7)|[-> Hmv]]; cbn [rbind]; [left|right; auto].
      exists l', true. split; [reflexivity|]. rewrite D5. split; [|split; [auto|split; [|lia]]].
      - apply Off. right. split; [lia|]. split; [auto|]. exists d. rewrite P1 in *. rewrite HU. split; [apply least_contrib; auto; lia|].
        split; [auto|]. split; [discriminate|]. intros ->. exfalso. destruct Hj as [(j & Nj & Hj)|Hj].
        + specialize (D4 j). lra.
        + rewrite Hj in D3. lra.
      - rewrite P1. unfold without. assert (Sp := Si). rewrite <- (firstn_skipn d (pts U ++ mpt v :: pts W)) in Sp.
        apply staircase_app in Sp as (A1 & A2 & A3).
        assert (Sk : exists x, skipn d (pts U ++ mpt v :: pts W) = x :: skipn (S d) (pts U ++ mpt v :: pts W)).
        { destruct (nth_error_in_some (pts U ++ mpt v :: pts W) d) as [x Ex]; [lia|]. exists x.
          clear -Ex. revert d Ex. induction (pts U ++ mpt v :: pts W) as [|y s IH]; intros d Ex; [destruct d; discriminate|].
          destruct d as [|d]; [injection Ex as ->; reflexivity|]. cbn [nth_error] in Ex. exact (IH d Ex). }
        destruct Sk as [x Sk]. rewrite Sk in A2, A3. apply staircase_cons in A2 as [A2 A4].
        apply staircase_app. split; [auto|]. split; [auto|]. intros a b I J. apply A3; auto. right. auto. }
    unfold filter_. set (add := let! _ := _ in _) in *. 
    destruct (Nat.eqb_spec (length U) 0) as [U0|U0]; cbn [orb].
    { destruct Add as [A|[A B]]; [right; rewrite U0; reflexivity|left; exact A|].
      right. split; [exact A|]. split; [auto|]. split; [auto|]. right. auto. }
    destruct (Nat.eqb_spec (length U) (length (U ++ W))) as [W0|W0].
    { destruct Add as [A|[A B]].
      - right. rewrite P1. apply contrib_end. rewrite app_length. cbn [length]. rewrite !map_length. rewrite app_length in W0. lia.
      - left; exact A.
      - right. split; [exact A|]. split; [auto|]. split; [auto|]. right. auto. }
    assert (NU : U <> []) by (intros ->; apply U0; reflexivity).
    assert (NW : W <> []) by (intros ->; apply W0; rewrite app_nil_r; reflexivity).
    destruct (tmp_here U W (mpt v) NU NW) as (t & -> & Et). cbn [rbind].
    destruct (tmp_before U W (mpt v) NU) as (pr & -> & Ep). cbn [rbind].
    destruct (Nat.le_gt_cases 2 (length W)) as [W2|W1].
    2:{ right. rewrite tmp_after_ub; [|auto|destruct W as [|w [|w' W]]; [tauto|reflexivity|cbn in W1; lia]].
        cbn [rbind]. split; [reflexivity|]. split; [auto|]. split; [auto|]. left.
        destruct W as [|w [|w' W]]; [tauto| |cbn in W1; lia]. exists (pts U), (mpt w). rewrite map_app. split; [reflexivity|].
        split; [destruct U; [tauto|discriminate]|]. split.
        - intros e I. apply pts_in in I as (e' & I & <-). apply R1; auto.
        - apply R3. left. auto. }
    destruct (tmp_after U W (mpt v) NU W2) as (sc & -> & Es). cbn [rbind].
    rewrite <- P1 in Et, Ep, Es.
    destruct (qltb sc t || qltb pr t) eqn:Q.
    { apply orb_true_iff in Q. rewrite !qltb_lt in Q. destruct Add as [A|[A B]].
      - left. destruct Q as [Q|Q]; [exists (S (length U))|exists (length U - 1)]; (split; [lia|]); lra.
      - left; exact A.
      - right. split; [exact A|]. split; [auto|]. split; [auto|]. right. auto. }
    apply orb_false_iff in Q as [Q1 Q2]. apply qltb_ge in Q1, Q2.
    destruct (scan_right mv (U ++ W) R) as (mn & itd & -> & Le & All & C). cbn [rbind].
    destruct (Qle_bool t mn) eqn:QL.
    + apply Qle_bool_iff in QL. left. exists (U ++ W), false. split; [reflexivity|].
      split; [|split; [auto|split; [auto|lia]]]. apply Off. right. split; [lia|]. split; [auto|]. exists (length U).
      rewrite P1 in *. split; [|split; [|split; auto]].
      * apply least_contrib; auto; [rewrite Len, app_length; lia|]. intros j.
        destruct (Nat.eq_dec j (length U)) as [->|J1]; [lra|]. destruct (Nat.eq_dec j (S (length U))) as [->|J2]; [lra|].
        destruct (Nat.eq_dec j (length U - 1)) as [->|J3]; [lra|].
        enough (exists j', contrib (pts U ++ mpt v :: pts W) j = contrib (pts (U ++ W)) j') as [j' ->] by (specialize (All j'); lra).
        rewrite map_app. destruct (Nat.lt_ge_cases j (length U)).
        -- exists j. apply contrib_left. lia.
        -- exists (length (pts U) + S (j - length U - 2)). change (mpt v :: pts W) with ([mpt v] ++ pts W). rewrite app_assoc.
           replace j with (length (pts U ++ [mpt v]) + S (j - length U - 2)) at 1 by (rewrite app_length; cbn; lia). apply contrib_right.
      * unfold without. rewrite <- HU, map_app. symmetry. apply without_mid.
    + assert (Qt : (mn < t)%Q). { destruct (Qlt_le_dec mn t) as [X|X]; auto. apply Qle_bool_iff in X. congruence. }
      destruct Add as [A|[A B]].
      * left. rewrite P1 in *. destruct C as [[-> ->]|[C (d & -> & Ld & Ed)]].
        -- exists 0. split; [lia|]. change (contrib (pts U ++ mpt v :: pts W) 0) with mv. lra.
        -- rewrite map_app in Ed. destruct (contrib_shrinks (pts U) (pts W) (mpt v) d Si) as (j' & J1 & J2).
           { destruct U; [tauto|discriminate]. } { destruct W; [tauto|discriminate]. }
           exists j'. rewrite <- Ed in J2. split; [lia|]. lra.
      * left; exact A.
      * right. split; [exact A|]. split; [auto|]. split; [auto|]. right. auto.
Qed.
End P.
