(** Whole steps and runs of the CMA evolution strategy: the path of the step size, invariances, histories and the breeder. *)
From Coq Require Import List Arith ZArith Bool Reals Lia Lra Psatz.
From Verif Require Import Lib Outcome BreedModel CmaModel CmaSpec CmaProofs CmaState CmaMore.
From Coq Require Import List.
Import ListNotations.
Open Scope nat_scope.

Lemma reset_factor q n : 1 <= n -> (15 / 10 + 10 * sqrt (2 / INR n) < q / INR n)%R -> (0 < sqrt ((1 + Rmax 0 (ln (q / INR n))) * INR n / q) < 1)%R /\ (0 < q)%R.
Proof.
  intros Hn H. apply INR_1 in Hn. pose proof (sqrt_pos (2 / INR n)) as Hs. set (r := (q / INR n)%R) in *. assert (Eq : q = (r * INR n)%R) by (unfold r; field; lra).
  assert (Hr : (15 / 10 < r)%R) by lra. assert (Hq : (0 < q)%R) by (rewrite Eq; apply Rmult_lt_0_compat; lra).
  assert (E : ((1 + Rmax 0 (ln r)) * INR n / q = (1 + ln r) / r)%R). { assert (Hl : (0 <= ln r)%R) by (rewrite <- ln_1; apply Rlt_le, ln_increasing; lra). rewrite Rmax_right by auto. rewrite Eq. field. lra. }
  rewrite E. assert (Hl : (0 < ln r)%R) by (rewrite <- ln_1; apply ln_increasing; lra). pose proof (ln_below r ltac:(lra) ltac:(lra)) as Hb.
  split; auto. split; [apply sqrt_lt_R0, Rdiv_lt_0_compat; lra|]. rewrite <- sqrt_1 at 2. apply sqrt_lt_1_alt. split; [apply Rlt_le, Rdiv_lt_0_compat; lra|].
  apply Rmult_lt_reg_r with r; [lra|]. unfold Rdiv. rewrite Rmult_assoc, Rinv_l by lra. lra.
Qed.
Lemma path_ok stuck p s pop best worst s' : 1 <= p_n p -> eigen_system (p_n p) (sym (s_C s)) (fun i => s_d s i * s_d s i)%R (s_B s) ->
  (forall k, k < p_n p -> s_d s k <> 0%R) -> reestimate stuck p s pop best worst = Ok s' ->
  exists (Q : mat) (w : vec) (f : R), symmetric Q /\ (forall i j, i < p_n p -> j < p_n p -> sum_over (p_n p) (fun k => Q i k * Q k j)%R = sym (s_C s) i j) /\
    (forall i, i < p_n p -> sum_over (p_n p) (fun j => Q i j * w j)%R = (sqrt (p_mueff p) * (s_mean s' i - s_mean s i) / s_sigma s)%R) /\
    (forall i, s_ps s' i = (f * ((1 - p_ccumsig p) * s_ps s i + sqrt (p_ccumsig p * (2 - p_ccumsig p)) * w i))%R) /\ (0 < f <= 1)%R /\ (s_gen s < 3 -> f = 1%R).
Proof.
  intros Hn He Hd E. unfold reestimate in E. destruct (negb _); [discriminate|]. destruct (_ || _); [discriminate|].
  set (n := p_n p) in *. set (hist := set (s_hist s) (s_gen s mod 3) best) in *. set (mean := recombined p pop) in *.
  set (BDz := fun i => (sqrt (p_mueff p) * (mean i - s_mean s i) / s_sigma s)%R) in *.
  set (tmp := fun i => (sum_to n (fun j => s_B s j i * BDz j) / s_d s i)%R) in *.
  set (w := fun i => sum_to n (fun j => s_B s i j * tmp j)%R).
  set (ps := fun i => ((1 - p_ccumsig p) * s_ps s i + sqrt (p_ccumsig p * (2 - p_ccumsig p)) * sum_to n (fun j => s_B s i j * tmp j))%R) in *.
  set (psxps := sum_to n (fun i => (ps i * ps i)%R)) in *.
  set (reset := (3 <=? s_gen s) && (if Rlt_dec (15 / 10 + 10 * sqrt (2 / INR n)) (psxps / INR n) then true else false) && worsens (s_gen s) hist best worst) in *.
  set (tfac := sqrt ((1 + Rmax 0 (ln (psxps / INR n))) * INR n / psxps)) in *.
  cbv zeta in E. injection E as <-. cbn [s_ps s_mean treat].
  exists (root n (s_d s) (s_B s)), w, (if reset then tfac else 1%R). split; [apply root_symmetric|]. split; [intros; apply root_square; auto|]. split; [|split; [|split]].
  - intros i Hi. rewrite sum_over_to. unfold w, tmp. rewrite (root_solves n (s_d s) (s_B s) BDz i (proj1 He) Hd Hi). reflexivity.
  - assert (Ep : forall i, ps i = ((1 - p_ccumsig p) * s_ps s i + sqrt (p_ccumsig p * (2 - p_ccumsig p)) * w i)%R) by (intros; reflexivity).
    intros i. change ((if reset then (fun i => (ps i * tfac)%R) else ps) i = ((if reset then tfac else 1) * ((1 - p_ccumsig p) * s_ps s i + sqrt (p_ccumsig p * (2 - p_ccumsig p)) * w i))%R).
    clearbody tfac reset ps w. destruct reset; rewrite Ep; ring.
  - destruct reset eqn:Er; [|lra]. unfold reset in Er. apply andb_prop in Er. destruct Er as [Er _]. apply andb_prop in Er. destruct Er as [_ Er].
    destruct (Rlt_dec _ _) as [Hlt|]; [|discriminate]. destruct (reset_factor _ _ Hn Hlt) as [Hf _]. fold tfac in Hf. lra.
  - intros Hg. destruct reset eqn:Er; auto. unfold reset in Er. destruct (Nat.leb_spec 3 (s_gen s)); [lia|discriminate].
Qed.

(** ** the step size follows the length of its path *)
Lemma scaled_sum n f t : sum_to n (fun i => f i * t * (f i * t))%R = (sum_to n (fun i => f i * f i) * (t * t))%R.
Proof. rewrite (Rmult_comm (sum_to n _)), <- sum_to_scale. apply sum_to_ext. intros; ring. Qed.
Lemma step_ok p s pop best worst s' : 1 <= p_n p -> (0 < p_damp p)%R -> (0 < s_sigma s)%R -> best <> worst -> (forall i, i < p_n p -> p_min p i = 0%R) ->
  reestimate (fun _ _ => false) p s pop best worst = Ok s' ->
  s_sigma s' = (s_sigma s * exp ((sqrt (sum_over (p_n p) (fun i => s_ps s' i * s_ps s' i)) / chi (p_n p) - 1) / p_damp p))%R.
Proof.
  intros Hn Hd Hs Hb Hm E. unfold reestimate in E. destruct (negb _); [discriminate|]. destruct (_ || _); [discriminate|].
  cbv zeta in E. match type of E with Ok (State (s_C (treat _ _ ?s1 _ _)) _ _ _ _ _ _ _ _) = _ => set (s2 := s1) in * end.
  apply (f_equal (fun r => match r with Ok a => a | _ => s end)) in E. cbv beta iota in E. rewrite <- E.
  assert (Ep : s_ps (treat (fun _ _ => false) p s2 best worst) = s_ps s2) by reflexivity. cbn [s_sigma s_ps]. rewrite Ep. clear E Ep. rewrite calm_treat; auto.
  - rewrite sum_over_to. unfold s2. cbn [s_sigma s_ps].
    set (ps := fun i => ((1 - p_ccumsig p) * s_ps s i + sqrt (p_ccumsig p * (2 - p_ccumsig p)) * sum_to (p_n p) (fun j => s_B s i j * (sum_to (p_n p) (fun j0 => s_B s j0 j * (sqrt (p_mueff p) * (recombined p pop j0 - s_mean s j0) / s_sigma s)) / s_d s j)))%R).
    destruct (_ && worsens _ _ _ _); [|reflexivity]. do 6 f_equal. symmetry. apply (scaled_sum (p_n p) ps).
  - intros i Hi. rewrite (Hm i Hi). apply Rmult_le_pos; [|apply sqrt_pos]. unfold s2. cbn [s_sigma]. apply Rmult_le_pos; [lra|apply Rlt_le, exp_pos].
Qed.
Lemma step_sign c x d sigma : (0 < sigma)%R -> (0 < d)%R -> (0 < c)%R -> (sigma < sigma * exp ((x / c - 1) / d) <-> c < x)%R /\ (sigma * exp ((x / c - 1) / d) < sigma <-> x < c)%R.
Proof.
  intros Hs Hd Hc. assert (Ei : forall y, ((y - 1) / d > 0 <-> 1 < y)%R).
  { intros y. split; intros H; [|apply Rdiv_lt_0_compat; lra]. assert (0 < (y - 1) / d * d)%R by (apply Rmult_lt_0_compat; auto). unfold Rdiv in H0. rewrite Rmult_assoc, Rinv_l in H0 by lra. lra. }
  assert (Ej : forall y, ((y - 1) / d < 0 <-> y < 1)%R).
  { intros y. split; intros H. - assert (0 < - ((y - 1) / d) * d)%R by (apply Rmult_lt_0_compat; lra). replace (- ((y - 1) / d) * d)%R with (1 - y)%R in H0 by (field; lra). lra.
    - assert (0 < (1 - y) / d)%R by (apply Rdiv_lt_0_compat; lra). replace ((1 - y) / d)%R with (- ((y - 1) / d))%R in H0 by (field; lra). lra. }
  assert (Ex : (1 < x / c <-> c < x)%R). { split; intros H. - apply Rmult_lt_compat_r with (r := c) in H; auto. unfold Rdiv in H. rewrite Rmult_assoc, Rinv_l in H by lra. lra.
    - apply Rmult_lt_reg_r with c; auto. unfold Rdiv. rewrite Rmult_assoc, Rinv_l by lra. lra. }
  assert (Ey : (x / c < 1 <-> x < c)%R). { split; intros H. - apply Rmult_lt_compat_r with (r := c) in H; auto. unfold Rdiv in H. rewrite Rmult_assoc, Rinv_l in H by lra. lra.
    - apply Rmult_lt_reg_r with c; auto. unfold Rdiv. rewrite Rmult_assoc, Rinv_l by lra. lra. }
  set (e := ((x / c - 1) / d)%R) in *. assert (Hp : forall a b, (a < b)%R -> (exp a < exp b)%R) by (intros; apply exp_increasing; auto). split.
  - rewrite <- Ex, <- Ei. fold e. split; intros H.
    + destruct (Rle_lt_dec e 0) as [Hle|]; [|lra]. assert (exp e <= exp 0)%R. { destruct Hle as [Hlt| ->]; [apply Rlt_le, Hp; auto|lra]. } rewrite exp_0 in H0. nra.
    + apply Hp in H. rewrite exp_0 in H. nra.
  - rewrite <- Ey, <- Ej. fold e. split; intros H.
    + destruct (Rle_lt_dec 0 e) as [Hle|]; [|lra]. assert (exp 0 <= exp e)%R. { destruct Hle as [Hlt| <-]; [apply Rlt_le, Hp; auto|lra]. } rewrite exp_0 in H0. nra.
    + apply Hp in H. rewrite exp_0 in H. nra.
Qed.

(** ** the steps of the learning, one by one *)
Definition l_BDz (p : params) (s : state) (pop : list (list R)) : vec := fun i => (sqrt (p_mueff p) * (recombined p pop i - s_mean s i) / s_sigma s)%R.
Definition l_tmp p s pop : vec := fun i => (sum_to (p_n p) (fun j => s_B s j i * l_BDz p s pop j) / s_d s i)%R.
Definition l_ps p s pop : vec := fun i => ((1 - p_ccumsig p) * s_ps s i + sqrt (p_ccumsig p * (2 - p_ccumsig p)) * sum_to (p_n p) (fun j => s_B s i j * l_tmp p s pop j))%R.
Definition l_len p s pop : R := sum_to (p_n p) (fun i => (l_ps p s pop i * l_ps p s pop i)%R).
Definition l_pc p s pop : vec := fun i => ((1 - p_ccumcov p) * s_pc s i + (if hsig_of p (s_gen s) (l_len p s pop) then 1 else 0) * sqrt (p_ccumcov p * (2 - p_ccumcov p)) * l_BDz p s pop i)%R.
Definition l_hist s best : list R := set (s_hist s) (s_gen s mod 3) best.
Definition l_reset p s pop best worst : bool := (3 <=? s_gen s) && (if Rlt_dec (15 / 10 + 10 * sqrt (2 / INR (p_n p))) (l_len p s pop / INR (p_n p)) then true else false) && worsens (s_gen s) (l_hist s best) best worst.
Definition l_tfac p s pop : R := sqrt ((1 + Rmax 0 (ln (l_len p s pop / INR (p_n p)))) * INR (p_n p) / l_len p s pop).
Definition l_next p s pop best worst : state :=
  State (if Req_EM_T (p_ccov p) 0 then s_C s else updated p (s_C s) (l_pc p s pop) (s_mean s) (s_sigma s) (hsig_of p (s_gen s) (l_len p s pop)) pop) (s_B s) (s_d s) (l_pc p s pop)
    (if l_reset p s pop best worst then fun i => (l_ps p s pop i * l_tfac p s pop)%R else l_ps p s pop) (recombined p pop)
    (s_sigma s * exp ((sqrt (if l_reset p s pop best worst then (l_len p s pop * (l_tfac p s pop * l_tfac p s pop))%R else l_len p s pop) / chi (p_n p) - 1) / p_damp p))%R (s_gen s) (l_hist s best).
Definition bump (s' : state) : state := State (s_C s') (s_B s') (s_d s') (s_pc s') (s_ps s') (s_mean s') (s_sigma s') (S (s_gen s')) (s_hist s').
Lemma reestimate_eq stuck p s pop best worst : reestimate stuck p s pop best worst =
  if negb (length pop =? p_mu p) then Throw else if (length (p_weights p) <? length pop) || existsb (fun x => length x <? p_n p) pop then UB else Ok (bump (treat stuck p (l_next p s pop best worst) best worst)).
Proof. reflexivity. Qed.

(** ** invariance under translations *)
Definition moved (n : nat) (t : vec) (s s' : state) : Prop :=
  (forall i, i < n -> s_mean s' i = (s_mean s i + t i)%R) /\ (forall i j, i < n -> j < n -> s_C s' i j = s_C s i j) /\ (forall i j, i < n -> j < n -> s_B s' i j = s_B s i j) /\
  (forall i, i < n -> s_d s' i = s_d s i) /\ (forall i, i < n -> s_pc s' i = s_pc s i) /\ (forall i, i < n -> s_ps s' i = s_ps s i) /\
  s_sigma s' = s_sigma s /\ s_gen s' = s_gen s /\ s_hist s' = s_hist s.
Definition moved_parent (n : nat) (t : vec) (x x' : list R) : Prop := n <= length x' /\ forall i, i < n -> nth i x' 0%R = (nth i x 0 + t i)%R.
Lemma moved_treat p t s s' best worst : 1 <= p_n p -> moved (p_n p) t s s' -> moved (p_n p) t (treat (fun _ _ => false) p s best worst) (treat (fun _ _ => false) p s' best worst).
Proof.
  intros Hn (H1 & H2 & H3 & H4 & H5 & H6 & H7 & H8 & H9). unfold treat, moved. cbn [s_mean s_C s_B s_d s_pc s_ps s_sigma s_gen s_hist].
  split; [auto|]. split; [intros i j Hi Hj; rewrite !andb_false_r; auto|]. split; [auto|]. split; [auto|]. split; [auto|]. split; [auto|]. split; [|auto].
  rewrite !calm_axes by auto. rewrite !existsb_const. assert (Et : too_narrow p (s_C s') (s_sigma s') = too_narrow p (s_C s) (s_sigma s)).
  { unfold too_narrow. rewrite H7. assert (G : forall l, (forall i, In i l -> i < p_n p) -> existsb (fun i => if Rlt_dec (s_sigma s * sqrt (s_C s' i i)) (p_min p i) then true else false) l = existsb (fun i => if Rlt_dec (s_sigma s * sqrt (s_C s i i)) (p_min p i) then true else false) l).
    { induction l as [|a l IH]; intros Hl; cbn [existsb]; auto. rewrite (H2 a a) by (apply Hl; left; auto). rewrite IH by (intros; apply Hl; right; auto). reflexivity. }
    apply G. intros i Hi. apply in_seq in Hi. lia. }
  rewrite Et, H7. reflexivity.
Qed.
Lemma Forall2_nth' {A B} (P : A -> B -> Prop) l l' a b : Forall2 P l l' -> forall i, i < length l -> P (nth i l a) (nth i l' b).
Proof. induction 1 as [|x y l l' H HF IH]; intros i Hi; cbn in Hi; [lia|]. destruct i as [|i]; cbn; auto. apply IH. lia. Qed.
Lemma moved_mean p t pop pop' i : fine p -> length pop = p_mu p -> Forall2 (moved_parent (p_n p) t) pop pop' -> i < p_n p -> recombined p pop' i = (recombined p pop i + t i)%R.
Proof.
  intros (_ & Hw & Ha & _) Hl H Hi. unfold recombined. assert (El : length pop' = length pop) by (clear -H; induction H; cbn; auto). rewrite El.
  assert (E1 : sum_to (length pop) (fun j => nth j (p_weights p) 0%R) = 1%R) by (rewrite Hl, <- Hw; destruct Ha as [_ Ht]; rewrite <- vsum_total in Ht; exact Ht).
  transitivity (sum_to (length pop) (fun j => nth j (p_weights p) 0 * at_ (nth j pop []) i + t i * nth j (p_weights p) 0)%R).
  - apply sum_to_ext. intros j Hj. pose proof (Forall2_nth' _ _ _ [] [] H j Hj) as [_ Hm]. unfold at_. rewrite Hm by auto. ring.
  - rewrite sum_to_plus, sum_to_scale, E1. ring.
Qed.
Lemma translation_ok p t s s' pop pop' best worst s1 : fine p -> moved (p_n p) t s s' -> Forall2 (moved_parent (p_n p) t) pop pop' ->
  reestimate (fun _ _ => false) p s pop best worst = Ok s1 -> exists s1', reestimate (fun _ _ => false) p s' pop' best worst = Ok s1' /\ moved (p_n p) t s1 s1'.
Proof.
  intros Hf Hm Hp E. assert (Hn : 1 <= p_n p) by (destruct Hf; auto). destruct (reestimate_mean _ _ _ _ _ _ _ E) as (Hl & Hlw & _).
  assert (El : length pop' = length pop) by (clear -Hp; induction Hp; cbn; auto).
  assert (Hx : existsb (fun x => length x <? p_n p) pop' = false).
  { clear -Hp. induction Hp as [|x x' l l' [Hx _] _ IH]; cbn [existsb]; auto. rewrite IH. destruct (Nat.ltb_spec (length x') (p_n p)); [lia|reflexivity]. }
  pose proof (fun i Hi => moved_mean p t pop pop' i Hf Hl Hp Hi) as Hr. pose proof Hm as (H1 & H2 & H3 & H4 & H5 & H6 & H7 & H8 & H9).
  rewrite reestimate_eq in E |- *. destruct (negb _); [discriminate|]. destruct (_ || _); [discriminate|].
  rewrite El, Hl, Nat.eqb_refl. cbn [negb]. assert (Hw : (length (p_weights p) <? p_mu p) = false) by (apply Nat.ltb_ge; lia). rewrite Hw, Hx. cbn [orb].
  set (n := p_n p) in *.
  assert (HB : forall i, i < n -> l_BDz p s' pop' i = l_BDz p s pop i) by (intros i Hi; unfold l_BDz; rewrite (Hr i Hi), (H1 i Hi), H7; f_equal; ring).
  assert (HT : forall i, i < n -> l_tmp p s' pop' i = l_tmp p s pop i).
  { intros i Hi. unfold l_tmp. rewrite (H4 i Hi). f_equal. apply sum_to_ext. intros j Hj. rewrite (H3 j i Hj Hi), (HB j Hj). reflexivity. }
  assert (HP : forall i, i < n -> l_ps p s' pop' i = l_ps p s pop i).
  { intros i Hi. unfold l_ps. rewrite (H6 i Hi). f_equal. f_equal. apply sum_to_ext. intros j Hj. rewrite (H3 i j Hi Hj), (HT j Hj). reflexivity. }
  assert (HX : l_len p s' pop' = l_len p s pop) by (apply sum_to_ext; intros i Hi; rewrite (HP i Hi); reflexivity).
  assert (HC : forall i, i < n -> l_pc p s' pop' i = l_pc p s pop i) by (intros i Hi; unfold l_pc; rewrite (H5 i Hi), (HB i Hi), HX, H8; reflexivity).
  assert (HH : l_hist s' best = l_hist s best) by (unfold l_hist; rewrite H8, H9; reflexivity).
  assert (HR : l_reset p s' pop' best worst = l_reset p s pop best worst) by (unfold l_reset; rewrite HX, HH, H8; reflexivity).
  assert (HF : l_tfac p s' pop' = l_tfac p s pop) by (unfold l_tfac; rewrite HX; reflexivity).
  assert (HM : moved n t (l_next p s pop best worst) (l_next p s' pop' best worst)).
  { unfold moved, l_next. cbn [s_mean s_C s_B s_d s_pc s_ps s_sigma s_gen s_hist]. split; [|split; [|split; [|split; [|split; [|split; [|split; [|split]]]]]]].
    - exact Hr.
    - intros i j Hi Hj. destruct (Req_EM_T _ _); [apply H2; auto|]. unfold updated. rewrite (H2 i j Hi Hj), (HC i Hi), (HC j Hj), HX, H7, H8. f_equal. apply sum_to_ext. intros k Hk.
      pose proof (Forall2_nth' _ _ _ [] [] Hp k ltac:(lia)) as [_ Hq]. unfold at_. rewrite (Hq i Hi), (Hq j Hj), (H1 i Hi), (H1 j Hj). f_equal. f_equal. f_equal; [|ring]. f_equal. ring.
    - exact H3.
    - exact H4.
    - exact HC.
    - intros i Hi. rewrite HR, HF. destruct (l_reset p s pop best worst); rewrite (HP i Hi); reflexivity.
    - rewrite HR, HF, HX, H7. reflexivity.
    - exact H8.
    - exact HH. }
  eexists. split; [reflexivity|]. apply (f_equal (fun r => match r with Ok a => a | _ => s end)) in E. cbv beta iota in E. rewrite <- E.
  pose proof (moved_treat p t _ _ best worst Hn HM) as (G1 & G2 & G3 & G4 & G5 & G6 & G7 & G8 & G9).
  unfold moved, bump. cbn [s_mean s_C s_B s_d s_pc s_ps s_sigma s_gen s_hist]. repeat (split; [assumption|]). split; [rewrite G8; reflexivity|assumption].
Qed.

(** ** only the order of the fitnesses counts *)
Definition relabel (g : R -> R) (s : state) : state := State (s_C s) (s_B s) (s_d s) (s_pc s) (s_ps s) (s_mean s) (s_sigma s) (s_gen s) (map g (s_hist s)).
Lemma map_set {A B} (f : A -> B) l i x : map f (set l i x) = set (map f l) i (f x).
Proof. revert i. induction l as [|a l IH]; intros [|i]; cbn; auto. rewrite IH. reflexivity. Qed.
Lemma monotone_eq g a b : strictly_monotone g -> g a = g b -> a = b.
Proof. intros [H|H] E; destruct (Rtotal_order a b) as [Hlt|[He|Hgt]]; auto; [apply H in Hlt|apply H in Hgt|apply H in Hlt|apply H in Hgt]; lra. Qed.
Lemma dec_iff a b c d : (a < b <-> c < d)%R -> (if Rlt_dec a b then true else false) = (if Rlt_dec c d then true else false).
Proof. intros H. destruct (Rlt_dec a b) as [h|h], (Rlt_dec c d) as [h'|h']; auto; exfalso; tauto. Qed.
Lemma worsens_relabel g gen hist best worst : strictly_monotone g -> length hist = 3 -> worsens gen (map g hist) (g best) (g worst) = worsens gen hist best worst.
Proof.
  intros Hg Hl. unfold worsens. destruct (Req_EM_T best worst) as [E|E]; destruct (Req_EM_T (g best) (g worst)) as [E'|E']; auto; [congruence|apply (monotone_eq g) in E'; auto; contradiction|].
  assert (Hh : forall k, nth (k mod 3) (map g hist) 0%R = g (nth (k mod 3) hist 0%R)).
  { intros k. pose proof (Nat.mod_upper_bound k 3 ltac:(lia)). rewrite (nth_indep (map g hist) 0%R (g 0%R)) by (rewrite map_length; lia). apply map_nth. }
  rewrite !Hh. set (a := nth (gen mod 3) hist 0%R). set (b := nth ((gen - 1) mod 3) hist 0%R). set (c := nth ((gen - 2) mod 3) hist 0%R).
  assert (G : forall x y, (if Rlt_dec ((if Rlt_dec (g best) (g worst) then (-1) else 1) * g x) ((if Rlt_dec (g best) (g worst) then (-1) else 1) * g y) then true else false)
     = (if Rlt_dec ((if Rlt_dec best worst then (-1) else 1) * x) ((if Rlt_dec best worst then (-1) else 1) * y) then true else false)).
  { intros x y. apply dec_iff. assert (N : forall u v, (-1 * u < -1 * v <-> v < u)%R) by (intros; split; lra). assert (O1 : forall u v, (1 * u < 1 * v <-> u < v)%R) by (intros; split; lra).
    destruct Hg as [Hg|Hg].
    - assert (Hi : forall u v, (g u < g v <-> u < v)%R). { intros u v. split; [|apply Hg]. intros Hlt. destruct (Rtotal_order u v) as [|[->|Hgt]]; auto; [lra|apply Hg in Hgt; lra]. }
      destruct (Rlt_dec (g best) (g worst)) as [h|h], (Rlt_dec best worst) as [h'|h']; rewrite Hi in h; try contradiction; rewrite ?N, ?O1; apply Hi.
    - assert (Hi : forall u v, (g u < g v <-> v < u)%R). { intros u v. split; [|apply Hg]. intros Hlt. destruct (Rtotal_order u v) as [Hl'|[->|Hgt]]; auto; [apply Hg in Hl'; lra|lra]. }
      destruct (Rlt_dec (g best) (g worst)) as [h|h], (Rlt_dec best worst) as [h'|h']; rewrite Hi in h; try (exfalso; lra); rewrite ?N, ?O1; apply Hi. }
  rewrite !G. reflexivity.
Qed.
Lemma relabel_ok stuck p g s pop best worst s1 : strictly_monotone g -> length (s_hist s) = 3 -> reestimate stuck p s pop best worst = Ok s1 ->
  reestimate stuck p (relabel g s) pop (g best) (g worst) = Ok (relabel g s1).
Proof.
  intros Hg Hl E. rewrite reestimate_eq in E |- *. destruct (negb _); [discriminate|]. destruct (_ || _); [discriminate|].
  apply (f_equal (fun r => match r with Ok a => a | _ => s end)) in E. cbv beta iota in E. rewrite <- E. f_equal.
  assert (HR : l_reset p (relabel g s) pop (g best) (g worst) = l_reset p s pop best worst).
  { unfold l_reset. change (l_len p (relabel g s) pop) with (l_len p s pop). change (s_gen (relabel g s)) with (s_gen s). f_equal.
    unfold l_hist. cbn [relabel s_hist s_gen]. rewrite <- map_set. apply worsens_relabel; auto. rewrite set_length; auto. }
  assert (HN : l_next p (relabel g s) pop (g best) (g worst) = relabel g (l_next p s pop best worst)).
  { unfold l_next. rewrite HR. unfold relabel at 1 2 3 4 5 6 7 8 9 10 11 12 13 14. unfold l_hist. cbn [s_hist s_gen]. unfold relabel. cbn [s_hist s_gen]. rewrite <- map_set. reflexivity. }
  rewrite HN. unfold treat, bump, relabel. cbn [s_C s_B s_d s_pc s_ps s_mean s_sigma s_gen s_hist].
  destruct (Req_EM_T best worst) as [Eb|Eb]; destruct (Req_EM_T (g best) (g worst)) as [E'|E']; try congruence; try (apply (monotone_eq g) in E'; auto; contradiction); reflexivity.
Qed.

(** ** histories *)
Inductive action := Learn (pop : list (list R)) (best worst : R) | Decompose (max_tries max_iters : nat).
Fixpoint history stuck eig (p : params) (l : list action) (s : state) (good : R) : res (state * R) :=
  match l with
  | [] => Ok (s, good)
  | Learn pop b w :: r => let! s := reestimate stuck p s pop b w in history stuck eig p r s good
  | Decompose t m :: r => let '(_, s, good) := update_eigen eig p t m s good in history stuck eig p r s good
  end.
Lemma update_ok eig p t m s good b s' good' : eig_correct eig -> eig_honest eig -> 1 <= p_n p -> (0 < good)%R -> positive_definite (p_n p) (sym (s_C s)) ->
  update_eigen eig p t m s good = (b, s', good') ->
  (0 < good')%R /\ positive_definite (p_n p) (sym (s_C s')) /\ unchanged s s' /\ (exists k, (0 <= k)%R /\ forall i j, sym (s_C s') i j = (sym (s_C s) i j + identity i j * k)%R) /\
  (b = true -> eigen_system (p_n p) (sym (s_C s')) (fun i => s_d s' i * s_d s' i)%R (s_B s') /\ (forall i, (i < p_n p)%nat -> 0 < s_d s' i)%R /\
    (forall i j, (i < p_n p)%nat -> (j < p_n p)%nat -> s_d s' i * s_d s' i <= (/ epsilon + 1) * (s_d s' j * s_d s' j))%R).
Proof. intros Hc Hh Hn Hg HP E. unfold update_eigen in E. eapply tries_ok; eauto. Qed.
Lemma history_ok stuck eig p : eig_correct eig -> eig_honest eig -> fine p -> forall l s good s' good', (0 < good)%R -> (0 < s_sigma s)%R -> positive_definite (p_n p) (sym (s_C s)) ->
  history stuck eig p l s good = Ok (s', good') -> (0 < good')%R /\ (0 < s_sigma s')%R /\ positive_definite (p_n p) (sym (s_C s')).
Proof.
  intros Hc Hh Hf. induction l as [|a l IH]; intros s good s' good' Hg Hs HP E; cbn [history] in E; [injection E as <- <-; auto|]. destruct a as [pop b w|t m].
  - apply rbind_ok in E. destruct E as (s1 & E1 & E2). destruct (reestimate_ok _ _ _ _ _ _ _ Hf Hs HP E1) as [H1 H2]. eapply IH; [| | |exact E2]; auto.
  - destruct (update_eigen eig p t m s good) as [[b s1] g1] eqn:Eu. assert (Hn : 1 <= p_n p) by (destruct Hf; auto).
    destruct (update_ok _ _ _ _ _ _ _ _ _ Hc Hh Hn Hg HP Eu) as (H1 & H2 & (_ & _ & _ & H3 & _) & _). eapply IH; [| | |exact E]; auto. rewrite H3. auto.
Qed.

(** ** the breeder *)
Lemma samples_ok F p s : forall k zs l zs', samples F p s k zs = Ok (l, zs') -> length l = k /\ length zs = k * p_n p + length zs' /\
  Forall (fun x => fit x = None /\ length (geno x) = p_n p) l /\
  forall j x, nth_error l j = Some x -> forall i, i < p_n p -> nth i (geno x) 0%R = (s_mean s i + s_sigma s * sum_over (p_n p) (fun a => s_B s i a * s_d s a * nth (j * p_n p + a) zs 0))%R.
Proof.
  induction k as [|k IH]; intros zs l zs' E; cbn [samples] in E.
  - injection E as <- <-. repeat split; auto. intros [|j] x Ex; discriminate.
  - apply rbind_ok in E. destruct E as ([v z1] & E1 & E). apply rbind_ok in E. destruct E as ([l1 z2] & E2 & E). injection E as <- <-.
    destruct (sample_ok _ _ _ _ _ E1) as (Hz & Hlz & Hlv & Hv). destruct (IH _ _ _ E2) as (H1 & H2 & H3 & H4).
    assert (Hlen : length zs = p_n p + length z1) by (rewrite Hz, app_length, firstn_length; lia).
    split; [cbn; lia|]. split; [cbn; lia|]. split; [constructor; auto|]. intros [|j] x Ex i Hi; cbn in Ex.
    + injection Ex as <-. cbn [geno]. rewrite (Hv i Hi). f_equal. 
    + rewrite (H4 j x Ex i Hi). f_equal. f_equal. rewrite !sum_over_to. apply sum_to_ext. intros a Ha. f_equal.
      rewrite Hz at 1. rewrite app_nth2 by (rewrite firstn_length; lia). f_equal. rewrite firstn_length. cbn. lia.
Qed.
