(** Proofs for C208-C212. *)
From Coq Require Import Arith ZArith QArith Qround Qabs Bool Lia Lqa Permutation.
From Verif Require Import Lib Outcome BoundsModel BoundsSpec BoundsProofs UgenModel RtiModel RtiSpec.
From Coq Require Import List.
Import ListNotations.
Close Scope Q_scope.
Open Scope Z_scope.

Lemma inj_le a b : a <= b -> (inject_Z a <= inject_Z b)%Q. Proof. intro H. now rewrite <- Zle_Qle. Qed.
Lemma inj_lt a b : a < b -> (inject_Z a < inject_Z b)%Q. Proof. intro H. now rewrite <- Zlt_Qlt. Qed.

Lemma allowed_in b z : in_bounds (real_bounds b) (inject_Z z) = true <-> allowed b z.
Proof.
  rewrite in_bounds_ok. destruct b; cbn [real_bounds inside allowed]; rewrite <- ?Zle_Qle; tauto.
Qed.

Lemma qtrunc_Z z : qtrunc (inject_Z z) = z.
Proof. unfold qtrunc. destruct (Qle_bool 0 _); [apply Qfloor_Z|apply Qceiling_Z]. Qed.

Lemma qtrunc_ge a y : (inject_Z a <= y)%Q -> a <= qtrunc y.
Proof.
  intro H. unfold qtrunc. destruct (Qle_bool 0 y).
  - rewrite <- (Qfloor_Z a). now apply Qfloor_resp_le.
  - rewrite <- (Qceiling_Z a). now apply Qceiling_resp_le.
Qed.
Lemma qtrunc_le a y : (y <= inject_Z a)%Q -> qtrunc y <= a.
Proof.
  intro H. unfold qtrunc. destruct (Qle_bool 0 y).
  - rewrite <- (Qfloor_Z a). now apply Qfloor_resp_le.
  - rewrite <- (Qceiling_Z a). now apply Qceiling_resp_le.
Qed.
Lemma qtrunc_allowed b y : inside (real_bounds b) y -> allowed b (qtrunc y).
Proof.
  destruct b; cbn [real_bounds inside allowed]; intro H; auto.
  - split; [apply qtrunc_ge|apply qtrunc_le]; apply H.
  - now apply qtrunc_ge.
  - now apply qtrunc_le.
Qed.

(** rounding *)
Lemma qround_half x : (inject_Z (qround x) - (1 # 2) <= x /\ x <= inject_Z (qround x) + (1 # 2))%Q.
Proof.
  unfold qround. destruct (Qle_bool 0 x) eqn:E.
  - pose proof (Qfloor_le (x + (1 # 2))). pose proof (Qlt_floor (x + (1 # 2))).
    rewrite inject_Z_plus in H0. change (inject_Z 1) with 1%Q in H0. split; lra.
  - pose proof (Qle_ceiling (x - (1 # 2))). pose proof (Qceiling_lt (x - (1 # 2))).
    assert (K : (inject_Z (Qceiling (x - (1 # 2)) - 1) == inject_Z (Qceiling (x - (1 # 2))) - 1)%Q)
      by (unfold Z.sub; rewrite inject_Z_plus; reflexivity).
    rewrite K in H0. split; lra.
Qed.
Lemma qround_Z z : qround (inject_Z z) = z.
Proof.
  destruct (qround_half (inject_Z z)) as [A B].
  destruct (Z.lt_trichotomy (qround (inject_Z z)) z) as [L|[L|L]]; [|easy|].
  - assert (H : qround (inject_Z z) + 1 <= z) by lia. apply inj_le in H. rewrite inject_Z_plus in H. change (inject_Z 1) with 1%Q in H. lra.
  - assert (H : z + 1 <= qround (inject_Z z)) by lia. apply inj_le in H. rewrite inject_Z_plus in H. change (inject_Z 1) with 1%Q in H. lra.
Qed.

Lemma round_unique x r : (inject_Z r - (1 # 2) < x /\ x < inject_Z r + (1 # 2))%Q -> qround x = r.
Proof.
  intros R. destruct (qround_half x) as [X Y]. destruct (Z.lt_trichotomy (qround x) r) as [G|[G|G]]; [|easy|].
  - assert (G' : qround x + 1 <= r) by lia. apply inj_le in G'. rewrite inject_Z_plus in G'. change (inject_Z 1) with 1%Q in G'. lra.
  - assert (G' : r + 1 <= qround x) by lia. apply inj_le in G'. rewrite inject_Z_plus in G'. change (inject_Z 1) with 1%Q in G'. lra.
Qed.

Lemma is_int_range z : is_int z = true <-> int_range z.
Proof. unfold is_int, int_range, int_min, int_max. rewrite andb_true_iff, !Z.leb_le. lia. Qed.

Definition draw_for (b : int_bounds) (u : Q) : Prop := match b with Both mn mx => (0 <= u /\ u < inject_Z mx - inject_Z mn)%Q | _ => True end.

Lemma proper_not_empty b : proper_bounds b -> not_empty (real_bounds b).
Proof. destruct b; cbn [real_bounds not_empty proper_bounds]; auto. intros (_ & _ & H). apply inj_le. lia. Qed.

Lemma far_or r : (Qabs r <= 1000000000 \/ 1000000000 < Qabs r)%Q.
Proof. destruct (Qlt_le_dec 1000000000 (Qabs r)); auto. Qed.

Lemma fold_inside b r u y : proper_bounds b -> draw_for b u -> fold (fun x => x) (real_bounds b) r u = Ok y -> inside (real_bounds b) y.
Proof.
  destruct b as [|mn mx|mn|mx]; cbn [proper_bounds draw_for]; intros P D F.
  - exact I.
  - destruct P as (_ & _ & P). apply inj_lt in P. cbn [real_bounds inside]. destruct (far_or r) as [H|H].
    + destruct (fold_exact (inject_Z mn) (inject_Z mx) r u y P H F) as (B & _). exact B.
    + destruct (fold_far (inject_Z mn) (inject_Z mx) r u y P H (proj1 D) (proj2 D) F) as (B & C). split; [exact B|exact C].
  - cbn [real_bounds fold inside] in *. destruct (qltb r (inject_Z mn)) eqn:E; inversion F; subst.
    + apply qltb_lt in E. lra.
    + now apply qltb_ge in E.
  - cbn [real_bounds fold inside] in *. destruct (qltb (inject_Z mx) r) eqn:E; inversion F; subst.
    + apply qltb_lt in E. lra.
    + now apply qltb_ge in E.
Qed.

Lemma atom_allowed b w x u z : proper_bounds b -> draw_for b u -> atom b w x u = Ok z -> allowed b z /\ int_range z.
Proof.
  intros P D. unfold atom. destruct (in_bounds _ _) eqn:E; cbn [rbind].
  - rewrite qtrunc_Z. destruct (is_int _) eqn:I; [|easy]. intro H. inversion H. subst. split; [now apply allowed_in|now apply is_int_range].
  - destruct w.
    + destruct (fold _ _ _ _) eqn:F; cbn [rbind]; try easy. destruct (is_int _) eqn:I; [|easy]. intro H. inversion H. subst.
      split; [apply qtrunc_allowed; eapply fold_inside; eauto|now apply is_int_range].
    + cbn [rbind]. destruct (is_int _) eqn:I; [|easy]. intro H. inversion H. subst. split; [|now apply is_int_range].
      apply qtrunc_allowed. destruct (truncate_ok (real_bounds b) (inject_Z (qround x)) (proper_not_empty b P)) as [[A _] _]. exact A.
Qed.

Lemma atom_integer b w z u : allowed b z -> int_range z -> atom b w (inject_Z z) u = Ok z.
Proof.
  intros A I. unfold atom. rewrite qround_Z. apply allowed_in in A. rewrite A. cbn [rbind]. rewrite qtrunc_Z. apply is_int_range in I. now rewrite I.
Qed.

(** a value whose rounding is allowed is only rounded *)
Lemma atom_rounded b w x u : allowed b (qround x) -> int_range (qround x) -> atom b w x u = Ok (qround x).
Proof.
  intros A I. unfold atom. apply allowed_in in A. rewrite A. cbn [rbind]. rewrite qtrunc_Z. apply is_int_range in I. now rewrite I.
Qed.

Lemma abs_le a b c : (a - b <= c - b -> b - a <= c - b -> Qabs (b - a) <= c - b)%Q.
Proof. intros. apply Qabs_Qle_condition. split; lra. Qed.

Lemma round_nearest x z : (Qabs (x - inject_Z (qround x)) <= Qabs (x - inject_Z z))%Q.
Proof.
  destruct (qround_half x) as [A B].
  assert (C : (Qabs (x - inject_Z (qround x)) <= 1 # 2)%Q) by (apply Qabs_Qle_condition; split; lra).
  destruct (Z.lt_trichotomy (qround x) z) as [L|[L|L]].
  - assert (H : qround x + 1 <= z) by lia. apply inj_le in H. rewrite inject_Z_plus in H. change (inject_Z 1) with 1%Q in H.
    pose proof (Qle_Qabs (- (x - inject_Z z))) as K. rewrite Qabs_opp in K. lra.
  - rewrite L. lra.
  - assert (H : z + 1 <= qround x) by lia. apply inj_le in H. rewrite inject_Z_plus in H. change (inject_Z 1) with 1%Q in H.
    pose proof (Qle_Qabs (x - inject_Z z)) as K. lra.
Qed.

Lemma below_nearest x m z : qround x < m -> m <= z -> (Qabs (x - inject_Z m) <= Qabs (x - inject_Z z))%Q.
Proof.
  intros H L. destruct (qround_half x) as [A B]. assert (K : qround x + 1 <= m) by lia. apply inj_le in K, L.
  rewrite inject_Z_plus in K. change (inject_Z 1) with 1%Q in K. rewrite !Qabs_neg; lra.
Qed.
Lemma above_nearest x m z : m < qround x -> z <= m -> (Qabs (x - inject_Z m) <= Qabs (x - inject_Z z))%Q.
Proof.
  intros H L. destruct (qround_half x) as [A B]. assert (K : m + 1 <= qround x) by lia. apply inj_le in K, L.
  rewrite inject_Z_plus in K. change (inject_Z 1) with 1%Q in K. rewrite !Qabs_pos; lra.
Qed.

Lemma truncate_Z b r : truncate (real_bounds b) (inject_Z r) = inject_Z r \/
  exists m, truncate (real_bounds b) (inject_Z r) = inject_Z m /\ ((r < m /\ forall z, allowed b z -> m <= z) \/ (m < r /\ forall z, allowed b z -> z <= m)).
Proof.
  destruct b as [|mn mx|mn|mx]; cbn [real_bounds truncate allowed]; auto.
  - destruct (qltb (inject_Z r) _) eqn:E; [|destruct (qltb (inject_Z mx) _) eqn:E'; [|left; reflexivity]]; right.
    + exists mn. split; [easy|]. left. apply qltb_lt in E. rewrite <- Zlt_Qlt in E. split; [easy|]. lia.
    + exists mx. split; [easy|]. right. apply qltb_lt in E'. rewrite <- Zlt_Qlt in E'. split; [easy|]. lia.
  - destruct (qltb _ _) eqn:E; [|left; reflexivity]. right. exists mn. split; [easy|]. left. apply qltb_lt in E. rewrite <- Zlt_Qlt in E. split; [easy|]. lia.
  - destruct (qltb _ _) eqn:E; [|left; reflexivity]. right. exists mx. split; [easy|]. right. apply qltb_lt in E. rewrite <- Zlt_Qlt in E. split; [easy|]. lia.
Qed.

Lemma atom_truncate_nearest b x u z : atom b Truncate x u = Ok z -> forall z', allowed b z' -> (Qabs (x - inject_Z z) <= Qabs (x - inject_Z z'))%Q.
Proof.
  intros H z' A. unfold atom in H. destruct (in_bounds _ _) eqn:E; cbn [rbind] in H.
  - rewrite qtrunc_Z in H. destruct (is_int _); inversion H; subst. apply round_nearest.
  - destruct (truncate_Z b (qround x)) as [T|(m & T & [(L & M)|(L & M)])]; rewrite T, qtrunc_Z in H; destruct (is_int _); inversion H; subst.
    + apply round_nearest.
    + apply below_nearest; auto.
    + apply above_nearest; auto.
Qed.

Lemma atom_interval_total mn mx w x u : proper_bounds (Both mn mx) -> draw_for (Both mn mx) u -> exists z, atom (Both mn mx) w x u = Ok z.
Proof.
  intros P D. unfold atom.
  assert (K : forall y, inside (real_bounds (Both mn mx)) y -> is_int (qtrunc y) = true).
  { intros y I. apply qtrunc_allowed in I. cbn [allowed] in I. apply is_int_range. destruct P as (A & B & _). unfold int_range in *. lia. }
  destruct (in_bounds _ _) eqn:E; cbn [rbind].
  - rewrite K; [eauto|]. now apply in_bounds_ok.
  - destruct w.
    + assert (T : exists y, fold (fun x => x) (real_bounds (Both mn mx)) (inject_Z (qround x)) u = Ok y).
      { destruct (far_or (inject_Z (qround x))) as [H|H].
        - destruct P as (A & B & L). unfold int_range in *. apply fold_total; [now apply inj_lt|exact H|].
          assert (D2 : (2 <= 2 * (inject_Z mx - inject_Z mn))%Q).
          { assert (L' : mn + 1 <= mx) by lia. apply inj_le in L'. rewrite inject_Z_plus in L'. change (inject_Z 1) with 1%Q in L'. lra. }
          assert (M1 : (Qabs (inject_Z mn) <= 2147483648)%Q).
          { apply Qabs_Qle_condition. split; [apply (inj_le (-2147483648) mn)|apply (inj_le mn 2147483648)]; lia. }
          assert (M2 : (Qabs (inject_Z mx) <= 2147483648)%Q).
          { apply Qabs_Qle_condition. split; [apply (inj_le (-2147483648) mx)|apply (inj_le mx 2147483648)]; lia. }
          apply Qlt_shift_div_r; [lra|].
          assert (M3 : (inject_Z long_max + 1 == 9223372036854775808)%Q) by reflexivity. rewrite M3. nra.
        - cbn [real_bounds fold]. unfold fold_interval.
          assert (Hg : qltb 1000000000 (inject_Z (qround x)) || qltb 1000000000 (- inject_Z (qround x)) = true).
          { apply orb_true_iff. rewrite !qltb_lt. destruct (Qlt_le_dec 1000000000 (inject_Z (qround x))); auto. right.
            destruct (Qlt_le_dec 1000000000 (- inject_Z (qround x))); auto. exfalso. apply (Qlt_not_le _ _ H). apply Qabs_Qle_condition. lra. }
          rewrite Hg. eauto. }
      destruct T as (y & T). rewrite T. cbn [rbind]. rewrite K; [eauto|]. eapply fold_inside; eauto.
    + cbn [rbind]. rewrite K; [eauto|]. destruct (truncate_ok (real_bounds (Both mn mx)) (inject_Z (qround x)) (proper_not_empty _ P)) as [[A _] _]. exact A.
Qed.

Lemma qtrunc_comp x y : (x == y)%Q -> qtrunc x = qtrunc y.
Proof. intro H. unfold qtrunc. rewrite H. destruct (Qle_bool 0 y); [now apply Qfloor_comp|now apply Qceiling_comp]. Qed.

Lemma mirror_integer mn mx r y : mirror_image (inject_Z mn) (inject_Z mx) (inject_Z r) y -> (y == inject_Z (qtrunc y))%Q.
Proof.
  intros (k & H).
  assert (E : exists m, (y == inject_Z m)%Q).
  { destruct H as [H|H]; [exists (r + k * (2 * (mx - mn)))|exists (2 * mn - r + k * (2 * (mx - mn)))]; rewrite H;
      unfold Z.sub; rewrite ?inject_Z_plus, ?inject_Z_mult, ?inject_Z_plus, ?inject_Z_mult, ?inject_Z_opp; change (inject_Z 2) with 2%Q; ring. }
  destruct E as (m & E). rewrite (qtrunc_comp _ _ E), qtrunc_Z. exact E.
Qed.

Lemma atom_folds mn mx x u z : proper_bounds (Both mn mx) -> (Qabs (inject_Z (qround x)) <= 1000000000)%Q -> atom (Both mn mx) Folds x u = Ok z ->
  mn <= z <= mx /\ mirror_image (inject_Z mn) (inject_Z mx) (inject_Z (qround x)) (inject_Z z).
Proof.
  intros P B H. pose proof P as (_ & _ & L). apply inj_lt in L. unfold atom in H. destruct (in_bounds _ _) eqn:E; cbn [rbind] in H.
  - rewrite qtrunc_Z in H. destruct (is_int _); inversion H; subst. split; [now apply (allowed_in (Both mn mx))|apply mirror_refl].
  - destruct (fold _ _ _ _) as [y| | |] eqn:F; cbn [rbind] in H; try easy.
    destruct (fold_exact (inject_Z mn) (inject_Z mx) (inject_Z (qround x)) u y L B F) as (I & M & _).
    destruct (is_int _); inversion H; subst. split; [now apply (qtrunc_allowed (Both mn mx))|].
    pose proof (mirror_integer _ _ _ _ M) as Y. destruct M as (k & M). exists k. rewrite <- Y. exact M.
Qed.

(** vectors *)
Lemma write_length b w real : forall sol us i s, write b w real sol us i = Ok s -> length s = length sol /\ (length real <= length sol)%nat.
Proof.
  induction real as [|x real IH]; intros sol us i s H; cbn [write] in H.
  - inversion H. subst. split; [easy|]. cbn. lia.
  - destruct sol as [|v sol]; [easy|]. destruct (atom b w x (us i)) eqn:E; cbn [rbind] in H; try easy.
    destruct (write b w real sol us (S i)) eqn:F; cbn [rbind] in H; try easy. inversion H. subst.
    apply IH in F. cbn [length]. lia.
Qed.

Lemma write_nth b w real : forall sol us i s, write b w real sol us i = Ok s ->
  (forall k x, nth_error real k = Some x -> exists z, nth_error s k = Some z /\ atom b w x (us (i + k)%nat) = Ok z) /\
  (forall k, (length real <= k)%nat -> nth_error s k = nth_error sol k).
Proof.
  induction real as [|x real IH]; intros sol us i s H; cbn [write] in H.
  - inversion H. subst. split; [intros [|k] y K; easy|easy].
  - destruct sol as [|v sol]; [easy|]. destruct (atom b w x (us i)) eqn:E; cbn [rbind] in H; try easy.
    destruct (write b w real sol us (S i)) eqn:F; cbn [rbind] in H; try easy. inversion H. subst.
    destruct (IH _ _ _ _ F) as (A & B). split.
    + intros [|k] y K; cbn [nth_error] in K |- *.
      * inversion K. subst. rewrite Nat.add_0_r. eauto.
      * rewrite Nat.add_succ_r. apply (A k y K).
    + intros [|k] K; cbn [length] in K; [lia|]. cbn [nth_error]. apply B. lia.
Qed.

Lemma write_total b w real : forall sol us i, (length real <= length sol)%nat -> (forall x k, In x real -> exists z, atom b w x (us k) = Ok z) ->
  exists s, write b w real sol us i = Ok s.
Proof.
  induction real as [|x real IH]; intros sol us i L T; cbn [write]; [eauto|].
  destruct sol as [|v sol]; [cbn in L; lia|]. destruct (T x i) as (z & ->); [now left|]. cbn [rbind].
  destruct (IH sol us (S i)) as (s & ->); [cbn in L; lia|intros; apply T; now right|]. cbn [rbind]. eauto.
Qed.

Lemma write_beyond b w real : forall sol us i, (length sol < length real)%nat -> forall s, write b w real sol us i <> Ok s.
Proof. intros sol us i L s H. apply write_length in H. lia. Qed.

Lemma draws_draw b us k : draws_for b us -> draw_for b (us k).
Proof. destruct b; cbn; auto. Qed.

Lemma write_allowed b w real sol us i s : proper_bounds b -> draws_for b us -> Forall (allowed b) sol -> write b w real sol us i = Ok s -> Forall (allowed b) s.
Proof.
  intros P D A H. destruct (write_nth _ _ _ _ _ _ _ H) as (B & C). apply Forall_forall. intros z Hz. apply In_nth_error in Hz as (k & K).
  destruct (nth_error real k) as [x|] eqn:E.
  - destruct (B k x E) as (z' & K' & T). rewrite K in K'. inversion K'. subst. eapply atom_allowed; eauto. now apply draws_draw.
  - apply nth_error_None in E. rewrite (C k E) in K. rewrite Forall_forall in A. apply A. now apply nth_error_In in K.
Qed.

Lemma asserted_ok b sol : asserted b sol = true <-> Forall (allowed b) sol.
Proof.
  unfold asserted. rewrite forallb_forall, Forall_forall. split; intros H x Hx; apply allowed_in; auto.
Qed.

Lemma resized_length l n : length (resized l n) = n.
Proof. unfold resized. rewrite app_length, firstn_length, repeat_length. lia. Qed.

(** archives *)
Lemma pushed_ok {X} (a : list X) ks : forall l, pushed a ks = Ok l -> map Some l = map (nth_error a) ks.
Proof.
  induction ks as [|k r IH]; intros l H; cbn [pushed] in H; [now inversion H|].
  destruct (nth_error a k) eqn:E; cbn [of_opt rbind] in H; [|easy]. destruct (pushed a r) eqn:F; cbn [rbind] in H; try easy.
  inversion H. subst. cbn [map]. rewrite E. f_equal. now apply IH.
Qed.
Lemma pushed_total {X} (a : list X) ks : Forall (fun k => k < length a)%nat ks -> exists l, pushed a ks = Ok l.
Proof.
  induction 1 as [|k r H _ (l & IH)]; cbn [pushed]; [eauto|]. apply nth_error_Some in H.
  destruct (nth_error a k) eqn:E; [|easy]. cbn [of_opt rbind]. rewrite IH. cbn [rbind]. eauto.
Qed.
Lemma pushed_seq {X} (a : list X) : pushed a (seq 0 (length a)) = Ok a.
Proof.
  assert (G : forall pre l : list X, pushed (pre ++ l) (seq (length pre) (length l)) = Ok l).
  { intros pre l. revert pre. induction l as [|x l IH]; intro pre; [easy|]. cbn [length seq pushed].
    rewrite nth_error_app2, Nat.sub_diag by lia. cbn [nth_error of_opt rbind].
    specialize (IH (pre ++ [x])). rewrite <- app_assoc in IH. cbn [app] in IH. rewrite app_length in IH. cbn [length] in IH.
    replace (length pre + 1)%nat with (S (length pre)) in IH by lia. rewrite IH. reflexivity. }
  apply (G (@nil X) a).
Qed.

(** finite parameters *)
Lemma finite_vec_ok v : finite_vec v = true <-> ~ In NotFinite v.
Proof.
  induction v as [|[q|] r IH]; cbn [finite_vec isfinite negb]; [easy| |].
  - rewrite IH. split; [intros H [K|K]; [easy|auto]|intros H K; apply H; now right].
  - split; [easy|intro H; exfalso; apply H; now left].
Qed.
Lemma finite_mat_ok m : finite_mat m = true <-> forall v, In v m -> ~ In NotFinite v.
Proof.
  induction m as [|v r IH]; cbn [finite_mat]; [easy|]. destruct (finite_vec v) eqn:E; cbn [negb].
  - rewrite IH. apply finite_vec_ok in E. split; [intros H w [<-|K]; auto|intros H w K; apply H; now right].
  - split; [easy|]. intro H. exfalso. assert (finite_vec v = true) by (apply finite_vec_ok, H; now left). congruence.
Qed.
