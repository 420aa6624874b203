(** Proofs for linear scaling, sharing, one objective and the niche penalties. *)
From Coq Require Import List Arith Lia Bool ZArith QArith Qabs Lqa Qminmax Permutation Sorted.
From Verif Require Import Outcome Lib OrderSpec OrderLemmas BoundsModel BoundsProofs EvalSpec EvalNk SelectModel SelectSpec SelectProofs DivProofs DivNear RankSpec WorthModel WorthSpec WorthNd.
From Coq Require Import List.
Import ListNotations.
Close Scope Q_scope.
Local Notation qsum := EvalSpec.qsum.

(** ** linear scaling *)
Lemma best_is fs best : In best fs -> (forall f, In f fs -> f <= best)%Q -> exists b, best_fitness qltb fs = Some b /\ (b == best)%Q /\ In b fs.
Proof.
  intros Hi Hb. destruct fs as [|f r]; [destruct Hi|]. cbn [best_fitness]. eexists. split; [reflexivity|].
  assert (G : forall r m, let b := fold_left (fun m x => if qltb m x then x else m) r m in In b (m :: r) /\ forall x, In x (m :: r) -> (x <= b)%Q).
  { clear. induction r as [|a r IH]; intros m; cbn [fold_left].
    - split; [left; reflexivity|]. intros x [->|[]]. lra.
    - destruct (IH (if qltb m a then a else m)) as [I1 I2]. split.
      + destruct I1 as [I1|I1]; [rewrite <- I1; destruct (qltb m a); [right; left; reflexivity|left; reflexivity]|right; right; exact I1].
      + intros x [->|[->|Hx]]; [| |apply I2; right; exact Hx].
        * assert (Y := I2 _ (or_introl eq_refl)). destruct (qltb x a) eqn:E; [apply qltb_lt in E|]; lra.
        * assert (Y := I2 _ (or_introl eq_refl)). destruct (qltb m x) eqn:E; [|apply qltb_ge in E]; lra. }
  destruct (G r f) as [G1 G2]. cbv zeta in *. split; [|exact G1]. apply Qle_antisym; [apply Hb; exact G1|apply G2; exact Hi].
Qed.
Lemma fold_qsum fs : forall s, (fold_left Qplus fs s == s + qsum fs (fun f => f))%Q.
Proof. induction fs as [|f fs IH]; intros s; cbn [fold_left]; [cbn; lra|]. rewrite IH, qsum_cons. lra. Qed.
Lemma qn_pos (n : nat) : 0 < n -> (0 < inject_Z (Z.of_nat n))%Q.
Proof. intros H. unfold Qlt. cbn. lia. Qed.
Lemma sum_below fs best : (forall f, In f fs -> f <= best)%Q -> (qsum fs (fun f => f) <= inject_Z (Z.of_nat (length fs)) * best)%Q /\ ((exists f, In f fs /\ f < best)%Q -> (qsum fs (fun f => f) < inject_Z (Z.of_nat (length fs)) * best)%Q).
Proof.
  induction fs as [|f fs IH]; intros H; [split; [change (0 <= 0 * best)%Q; lra|intros (f & [] & _)]|]. destruct IH as [I1 I2]; [intros; apply H; right; auto|]. cbn [length]. rewrite Nat2Z.inj_succ, <- Z.add_1_r, inject_Z_plus. rewrite qsum_cons.
  assert (X := H f (or_introl eq_refl)). assert (E : ((inject_Z (Z.of_nat (length fs)) + inject_Z 1) * best == inject_Z (Z.of_nat (length fs)) * best + best)%Q) by (change (inject_Z 1) with 1%Q; ring). rewrite E.
  split; [lra|]. intros (g & [->|Hg] & Lg); [lra|]. assert (Y := I2 (ex_intro _ g (conj Hg Lg))). lra.
Qed.
Lemma mean_below fs best : (forall f, In f fs -> f <= best)%Q -> (exists f, In f fs /\ f < best)%Q -> (mean fs < best)%Q.
Proof.
  intros H E. assert (P : 0 < length fs) by (destruct E as (f & Hf & _); destruct fs; [destruct Hf|cbn; lia]). unfold mean. apply Qlt_shift_div_r; [apply qn_pos; exact P|].
  destruct (sum_below fs best H) as [_ X]. rewrite Qmult_comm. auto.
Qed.
Lemma scaling_ok pressure fs best : In best fs -> (forall f, In f fs -> f <= best)%Q -> (exists f, In f fs /\ f < best)%Q ->
  exists ws, linear_scaling qltb pressure fs = Ok (map Some ws) /\ Forall2 (fun f w => w == Qmax 0 (on_the_line pressure (length fs) (mean fs) best f))%Q fs ws.
Proof.
  intros Hi Hb Hl. assert (M := mean_below fs best Hb Hl). destruct (best_is fs best Hi Hb) as (b & Eb & Vb & _).
  assert (P : 0 < length fs) by (destruct fs; [destruct Hi|cbn; lia]). assert (Pn := qn_pos _ P).
  unfold linear_scaling. rewrite Eb. cbn [of_opt rbind]. set (n := qn (length fs)). set (average := (fold_left Qplus fs 0 / n)%Q).
  assert (Ea : (average == mean fs)%Q). { unfold average, mean, n, qn. rewrite fold_qsum. setoid_replace (0 + qsum fs (fun f => f))%Q with (qsum fs (fun f => f)) by lra. reflexivity. }
  assert (Pn' : (0 < n)%Q) by exact Pn. set (denom := (n * (b - average))%Q). assert (Pd : (0 < denom)%Q). { unfold denom. assert (0 < b - average)%Q by lra. nra. }
  assert (Nd : Qeq_bool denom 0 = false). { destruct (Qeq_bool denom 0) eqn:E; auto. apply Qeq_bool_eq in E. lra. } rewrite Nd.
  set (w := fun f => let v := ((pressure - 1) / denom * f + (b - pressure * average) / denom)%Q in if qltb v 0 then 0%Q else v).
  exists (map w fs). split; [rewrite map_map; reflexivity|].
  assert (W : forall f, (w f == Qmax 0 (on_the_line pressure (length fs) (mean fs) best f))%Q).
  { intros f. assert (V : ((pressure - 1) / denom * f + (b - pressure * average) / denom == on_the_line pressure (length fs) (mean fs) best f)%Q).
    { unfold on_the_line. change (inject_Z (Z.of_nat (length fs))) with n. rewrite <- Ea, <- Vb. unfold denom. field. split; lra. }
    unfold w. cbv zeta. destruct (qltb _ 0) eqn:E.
    - apply qltb_lt in E. rewrite V in E. rewrite Q.max_l; lra.
    - apply qltb_ge in E. rewrite V in E. rewrite Q.max_r; lra. }
  clearbody w. clear - W. revert W. generalize (on_the_line pressure (length fs) (mean fs) best). intros g W. induction fs; cbn; constructor; auto.
Qed.
Lemma scaling_equal pressure fs f0 : fs <> [] -> (forall f, In f fs -> f == f0)%Q -> linear_scaling qltb pressure fs = Ok (repeat None (length fs)).
Proof.
  intros Ne H. assert (P : 0 < length fs) by (destruct fs; [congruence|cbn; lia]). assert (Pn := qn_pos _ P).
  destruct (best_is fs (hd 0%Q fs)) as (b & Eb & _ & Ib).
  { destruct fs; [congruence|left; reflexivity]. } { intros f Hf. rewrite (H f Hf). destruct fs as [|x r]; [congruence|]. cbn. rewrite (H x (or_introl eq_refl)). lra. }
  assert (Vb := H b Ib). unfold linear_scaling. rewrite Eb. cbn [of_opt rbind]. set (n := qn (length fs)). set (denom := (n * (b - fold_left Qplus fs 0 / n))%Q).
  assert (S : (qsum fs (fun f => f) == n * f0)%Q).
  { unfold n, qn. clear - H. induction fs as [|f fs IH]; [change (0 == 0 * f0)%Q; lra|]. rewrite qsum_cons. cbn [length]. rewrite Nat2Z.inj_succ, <- Z.add_1_r, inject_Z_plus, (H f (or_introl eq_refl)), IH by (intros; apply H; right; auto). change (inject_Z 1) with 1%Q. ring. }
  assert (E : (denom == 0)%Q). { unfold denom. rewrite fold_qsum, S, Vb. field. unfold n, qn. lra. }
  rewrite (proj2 (Qeq_bool_iff _ _) E). f_equal. clear. induction fs; cbn; congruence.
Qed.
Lemma line_sum pressure fs best : 0 < length fs -> (mean fs < best)%Q -> (qsum fs (on_the_line pressure (length fs) (mean fs) best) == 1)%Q.
Proof.
  intros P M. assert (Pn := qn_pos _ P). set (n := inject_Z (Z.of_nat (length fs))) in *. set (g := ((pressure - 1) / (best - mean fs) / n)%Q).
  assert (G : forall l, (qsum l (on_the_line pressure (length fs) (mean fs) best) == inject_Z (Z.of_nat (length l)) * (1 / n - g * mean fs) + g * qsum l (fun f => f))%Q).
  { induction l as [|f l IH]; [change (0 == 0 * (1 / n - g * mean fs) + g * 0)%Q; ring|]. rewrite !qsum_cons, IH. cbn [length]. rewrite Nat2Z.inj_succ, <- Z.add_1_r, inject_Z_plus. change (inject_Z 1) with 1%Q.
    assert (X : (on_the_line pressure (length fs) (mean fs) best f == 1 / n - g * mean fs + g * f)%Q) by (unfold on_the_line, g; fold n; field; split; lra). rewrite X. ring. }
  rewrite G. fold n. assert (X : (qsum fs (fun f => f) == n * mean fs)%Q) by (unfold mean; fold n; field; lra). rewrite X. field. lra.
Qed.

(** ** sharing *)
Section Sharing.
Context {A : Type}.
Variables (fit : A -> Q) (dist : A -> A -> Q) (niche : Q).
Hypothesis Hsym : forall x y, (dist x y == dist y x)%Q.
Hypothesis Hpos : (0 < niche)%Q.
Definition sim (pop : list A) (i : nat) (x : A) (j : nat) : Q := if j =? i then 1%Q else match nth_error pop j with Some y => triangle niche (dist x y) | None => 0%Q end.
Lemma similarity_ok pop i j x : nth_error pop i = Some x -> j < length pop -> exists s, similarity dist niche pop i j = Ok s /\ (s == sim pop i x j)%Q.
Proof.
  intros Hx Hj. unfold similarity, sim. rewrite (Nat.eqb_sym j i). destruct (Nat.eqb_spec i j) as [->|N]; [exists 1%Q; split; reflexivity|].
  destruct (nth_error pop j) as [y|] eqn:Hy; [|apply nth_error_None in Hy; lia].
  assert (T : forall d d', (d == d')%Q -> ((if qltb niche d then 0 else 1 - d / niche) == triangle niche d')%Q).
  { intros d d' E. unfold triangle. destruct (qltb niche d) eqn:Q1, (Qlt_le_dec niche d') as [L|L]; [reflexivity|apply qltb_lt in Q1; lra|apply qltb_ge in Q1; lra|]. rewrite E. reflexivity. }
  destruct (Nat.lt_ge_cases i j) as [L|L].
  - rewrite Nat.max_r, Nat.min_l by lia. rewrite Hx, Hy. cbn [of_opt rbind]. eexists. split; [reflexivity|]. apply T. apply Hsym.
  - rewrite Nat.max_l, Nat.min_r by lia. rewrite Hx, Hy. cbn [of_opt rbind]. eexists. split; [reflexivity|]. apply T. reflexivity.
Qed.
Lemma sim_sum_ok pop i x : nth_error pop i = Some x -> forall js s, (forall j, In j js -> j < length pop) -> exists t, sim_sum dist niche pop i js s = Ok t /\ (t == s + qsum js (sim pop i x))%Q.
Proof.
  intros Hx. induction js as [|j js IH]; intros s H; cbn [sim_sum]; [exists s; split; [reflexivity|cbn; lra]|].
  destruct (similarity_ok pop i j x Hx) as (a & Ea & Va); [apply H; left; reflexivity|]. rewrite Ea. cbn [rbind]. destruct (IH (s + a)%Q) as (t & Et & Vt); [intros; apply H; right; auto|].
  exists t. split; [exact Et|]. rewrite Vt, qsum_cons, Va. lra.
Qed.
Lemma shared_ok pop : forall is, (forall i, In i is -> i < length pop) -> exists ws, shared fit dist niche pop is = Ok ws /\ length ws = length is /\
  forall k i x, nth_error is k = Some i -> nth_error pop i = Some x -> exists w, nth_error ws k = Some w /\ (w == fit x / niche_count dist niche pop i x)%Q.
Proof.
  induction is as [|i is IH]; intros H; cbn [shared].
  - exists []. split; [reflexivity|]. split; [reflexivity|]. intros [|k]; discriminate.
  - destruct (nth_error pop i) as [x|] eqn:Hx; [|apply nth_error_None in Hx; specialize (H i (or_introl eq_refl)); lia].
    destruct (sim_sum_ok pop i x Hx (seq 0 (length pop)) 0%Q) as (t & Et & Vt); [intros j Hj; apply in_seq in Hj; lia|]. rewrite Et. cbn [of_opt rbind].
    destruct IH as (ws & Ew & Lw & W); [intros; apply H; right; auto|]. rewrite Ew. cbn [rbind]. eexists. split; [reflexivity|]. split; [cbn; lia|].
    intros [|k] i' x' Hk Hx'; cbn in Hk.
    + injection Hk as <-. assert (x' = x) as -> by congruence. exists (fit x / t)%Q. split; [reflexivity|]. assert (X : (t == niche_count dist niche pop i x)%Q) by (rewrite Vt; unfold niche_count; setoid_replace (0 + qsum (seq 0 (length pop)) (sim pop i x))%Q with (qsum (seq 0 (length pop)) (sim pop i x)) by lra; reflexivity). rewrite X. reflexivity.
    + cbn [nth_error]. eauto.
Qed.
Lemma sharing_ok pop : 1 < length pop -> exists ws, sharing fit dist niche pop = Ok ws /\ length ws = length pop /\
  forall i x, nth_error pop i = Some x -> exists w, nth_error ws i = Some w /\ (w == fit x / niche_count dist niche pop i x)%Q.
Proof.
  intros L. unfold sharing. rewrite (proj2 (Nat.leb_gt _ _)) by lia. destruct (shared_ok pop (seq 0 (length pop))) as (ws & E & Lw & W); [intros i Hi; apply in_seq in Hi; lia|].
  exists ws. split; [exact E|]. split; [rewrite Lw, seq_length; reflexivity|]. intros i x Hx. apply (W i i x); auto. assert (H := nth_error_lt _ _ _ Hx). rewrite nth_error_seq' by auto. f_equal.
Qed.
Lemma niche_count_alone pop i x : i < length pop -> (forall j y, j <> i -> nth_error pop j = Some y -> niche < dist x y)%Q -> (niche_count dist niche pop i x == 1)%Q.
Proof.
  intros Hi H. unfold niche_count.
  assert (G : forall js, NoDup js -> (forall j, In j js -> j < length pop) -> (qsum js (sim pop i x) == if existsb (Nat.eqb i) js then 1 else 0)%Q).
  { induction js as [|j js IH]; intros ND Hj; [reflexivity|]. inversion ND as [|? ? N1 N2]; subst. rewrite qsum_cons, IH by (auto; intros; apply Hj; right; auto). cbn [existsb]. unfold sim. rewrite (Nat.eqb_sym j i).
    destruct (Nat.eqb_spec i j) as [->|N]; cbn [orb].
    - assert (X : existsb (Nat.eqb j) js = false). { destruct (existsb (Nat.eqb j) js) eqn:E; auto. apply existsb_exists in E as (y & Hy & E). apply Nat.eqb_eq in E. subst. contradiction. } rewrite X. lra.
    - assert (Z : ((match nth_error pop j with Some y => triangle niche (dist x y) | None => 0 end) == 0)%Q).
      { destruct (nth_error pop j) as [y|] eqn:Ey; [|reflexivity]. unfold triangle. destruct (Qlt_le_dec niche (dist x y)) as [L|L]; [reflexivity|]. assert (X := H j y (not_eq_sym N) Ey). lra. }
      rewrite Z. lra. }
  change (qsum (seq 0 (length pop)) (sim pop i x) == 1)%Q. rewrite G; [|apply seq_NoDup|intros j Hj; apply in_seq in Hj; lia].
  assert (X : existsb (Nat.eqb i) (seq 0 (length pop)) = true) by (apply existsb_exists; exists i; split; [apply in_seq; lia|apply Nat.eqb_refl]). rewrite X. reflexivity.
Qed.
Lemma triangle_nonneg d : (0 <= triangle niche d)%Q \/ (d < 0)%Q.
Proof. unfold triangle. destruct (Qlt_le_dec niche d) as [L|L]; [left; lra|]. destruct (Qlt_le_dec d 0) as [N|N]; [auto|left]. assert (d / niche <= 1)%Q by (apply Qle_shift_div_r; lra). lra. Qed.
Lemma niche_count_more pop i x : i < length pop -> (forall y, 0 <= dist x y)%Q -> (1 <= niche_count dist niche pop i x)%Q.
Proof.
  intros Hi H. unfold niche_count.
  assert (P : forall j, (0 <= sim pop i x j)%Q). { intros j. unfold sim. destruct (j =? i); [lra|]. destruct (nth_error pop j) as [y|]; [|lra]. destruct (triangle_nonneg (dist x y)) as [X|X]; [exact X|]. specialize (H y). lra. }
  assert (G : forall js, (0 <= qsum js (sim pop i x))%Q /\ (In i js -> 1 <= qsum js (sim pop i x))%Q).
  { induction js as [|j js [I1 I2]]; [cbn; split; [lra|intros []]|]. rewrite qsum_cons. assert (X := P j). split; [lra|]. intros [->|Hj]; [|specialize (I2 Hj); lra].
    assert (Y : sim pop i x i = 1%Q) by (unfold sim; rewrite Nat.eqb_refl; reflexivity). rewrite Y. lra. }
  apply (proj2 (G (seq 0 (length pop)))). apply in_seq. lia.
Qed.
End Sharing.

(** ** one objective *)
Lemma one_ok sort (Hsort : std_sort_ok sort) {F} (ltf : F -> F -> bool) (SWO : strict_weak_order ltf) fs nofit value :
  exists ranks, ranking_of ltf fs ranks /\ nd_one sort ltf fs nofit value = Ok (map (fun r => qn (length fs - r)) ranks).
Proof.
  unfold nd_one. set (n := length fs). set (ptrs := sort nat _ _).
  destruct (Hsort nat (fun a b => ltf (nth b fs nofit) (nth a fs nofit)) (seq 0 n)) as [P S].
  { apply (swo_preimage (fun i => nth i fs nofit) (fun a b => ltf b a)). apply swo_flip. exact SWO. }
  fold ptrs in P, S. clearbody ptrs. destruct (inverse_perm ptrs n P) as (ranks & Lr & Pr & Hr).
  destruct (assign_worths_spec (fun i => qn (n - i)) ptrs 0 (resized 0%Q value n)) as (w & E & Lw & Hk & _).
  { eapply Permutation_NoDup; [exact P|apply seq_NoDup]. } { intros p Hp. rewrite resized_length. apply (Permutation_in _ (Permutation_sym P)), in_seq in Hp. lia. }
  exists ranks. split.
  - split; [exact Pr|]. intros i j a b ri rj Ha Hb Hri Hrj Lab. assert (Hi := nth_error_lt _ _ _ Ha). assert (Hj := nth_error_lt _ _ _ Hb).
    assert (Pi := proj2 (Hr ri i) (conj Hri Hi)). assert (Pj := proj2 (Hr rj j) (conj Hrj Hj)).
    destruct (Nat.lt_trichotomy ri rj) as [L|[L|L]]; [|subst; assert (i = j) as -> by congruence; assert (a = b) as -> by congruence; rewrite (swo_irrefl _ SWO) in Lab; discriminate|exact L].
    assert (X := StronglySorted_nth _ _ _ _ _ _ S L Pi Pj). cbv beta in X. rewrite (List.nth_error_nth _ _ nofit Ha), (List.nth_error_nth _ _ nofit Hb) in X. congruence.
  - rewrite E. cbn [of_opt]. f_equal. rewrite resized_length in Lw. apply nth_error_ext. intros p. rewrite nth_error_map. destruct (Nat.lt_ge_cases p n) as [Hp|Hp].
    + destruct (nth_error ranks p) as [r|] eqn:Er; [|apply nth_error_None in Er; lia]. cbn [option_map]. apply (Hk r p). apply Hr. auto.
    + rewrite !nth_error_ge by lia. reflexivity.
Qed.

(** ** the penalty of NSGA-I *)
Section NicheI.
Variable vs : list (list Q).
Lemma square_ok v w : (square_dist v w == sq_dist v w)%Q.
Proof.
  unfold square_dist, sq_dist. assert (G : forall l s, (fold_left (fun s p => s + (fst p - snd p) * (fst p - snd p)) l s == s + qsum l (fun p => (fst p - snd p) * (fst p - snd p)))%Q).
  { induction l as [|p l IH]; intros s; cbn [fold_left]; [cbn; lra|]. rewrite IH, qsum_cons. lra. }
  rewrite G. lra.
Qed.
Lemma sqr (a : Q) : (0 <= a * a)%Q.
Proof. destruct a as [a b]. unfold Qle, Qmult. cbn. nia. Qed.
Lemma square_nonneg v w : (0 <= sq_dist v w)%Q.
Proof. unfold sq_dist. induction (combine v w) as [|p l IH]; [cbn; lra|]. rewrite qsum_cons. assert (X := sqr (fst p - snd p)). lra. Qed.
Variable size : Q.
Hypothesis Hsize : (0 < size)%Q.
Definition pull (v w : list Q) : Q := let d := sq_dist v w in if Qlt_le_dec d size then (1 - (d / size) * (d / size))%Q else 0%Q.
Lemma pull_nonneg v w : (0 <= pull v w)%Q.
Proof.
  unfold pull. cbv zeta. destruct (Qlt_le_dec (sq_dist v w) size) as [L|L]; [|lra]. assert (N := square_nonneg v w). set (d := sq_dist v w) in *.
  assert (X : (0 <= d / size)%Q) by (apply Qle_shift_div_l; lra). assert (Y : (d / size <= 1)%Q) by (apply Qle_shift_div_r; lra). nra.
Qed.
Lemma nicheI_ok fr : NoDup fr -> exists nc, niche_I vs size fr = Ok nc /\ length nc = length fr /\
  forall a i, nth_error fr a = Some i -> exists c, nth_error nc a = Some c /\ (c == crowd size vs fr i)%Q.
Proof.
  intros ND. unfold niche_I. eexists. split; [reflexivity|]. rewrite map_length, seq_length. split; [reflexivity|]. intros a i Ha. assert (La := nth_error_lt _ _ _ Ha).
  rewrite nth_error_map, nth_error_seq' by auto. cbn [option_map]. eexists. split; [reflexivity|].
  assert (G : forall l s, (fold_left (fun s j => if (0 + a =? j)%nat then s else let dist := square_dist (nth (nth (0 + a)%nat fr 0%nat) vs []) (nth (nth j fr 0%nat) vs []) in if qltb dist size then s + (1 - (dist / size) * (dist / size)) else s) l s
     == s + qsum l (fun j => if (j =? a)%nat then 0 else pull (nth i vs []) (nth (nth j fr 0%nat) vs [])))%Q).
  { induction l as [|j l IH]; intros s; cbn [fold_left]; [cbn; lra|]. rewrite IH, qsum_cons. rewrite (Nat.eqb_sym j a). cbn [Nat.add]. destruct (a =? j); [lra|]. cbv zeta.
    rewrite (List.nth_error_nth _ _ 0 Ha). set (v := nth i vs []). set (w := nth (nth j fr 0) vs []). assert (E := square_ok v w). unfold pull. cbv zeta.
    destruct (qltb (square_dist v w) size) eqn:Q1, (Qlt_le_dec (sq_dist v w) size) as [L|L]; [rewrite E; lra|apply qltb_lt in Q1; lra|apply qltb_ge in Q1; lra|lra]. }
  rewrite G. unfold crowd. clear G.
  assert (M : fr = map (fun j => nth j fr 0) (seq 0 (length fr))). { symmetry. clear. induction fr as [|x fr IH]; cbn; [reflexivity|]. f_equal. rewrite <- seq_shift, map_map. exact IH. }
  set (g := fun j : nat => if j =? i then 0%Q else let d := sq_dist (nth i vs []) (nth j vs []) in if Qlt_le_dec d size then (1 - d / size * (d / size))%Q else 0%Q).
  assert (Mg : qsum fr g = qsum (seq 0 (length fr)) (fun k => g (nth k fr 0))) by (rewrite <- (qsum_map (fun k => nth k fr 0) g); f_equal; exact M). change (0 + qsum (seq 0 (length fr)) (fun j => if (j =? a)%nat then 0 else pull (nth i vs []) (nth (nth j fr 0%nat) vs [])) == qsum fr g)%Q. rewrite Mg. unfold g. setoid_replace (0 + qsum (seq 0 (length fr)) (fun j => if (j =? a)%nat then 0 else pull (nth i vs []) (nth (nth j fr 0%nat) vs [])))%Q with (qsum (seq 0 (length fr)) (fun j => if (j =? a)%nat then 0 else pull (nth i vs []) (nth (nth j fr 0%nat) vs [])))%Q by lra.
  apply qsum_ext. intros j Hj. apply in_seq in Hj.
  assert (Ej : (nth j fr 0 =? i) = (j =? a)).
  { destruct (Nat.eqb_spec j a) as [->|N]; [rewrite (List.nth_error_nth _ _ 0 Ha); apply Nat.eqb_refl|]. apply Nat.eqb_neq. intros C. apply N. apply (NoDup_nth_error_inj fr j a i ND); [rewrite <- C; apply nth_error_nth'; lia|exact Ha]. }
  rewrite Ej. destruct (j =? a); [reflexivity|]. unfold pull. reflexivity.
Qed.
Lemma crowd_nonneg fr i : (0 <= crowd size vs fr i)%Q.
Proof.
  unfold crowd. induction fr as [|j fr IH]; [cbn; lra|]. rewrite qsum_cons. assert (X := pull_nonneg (nth i vs []) (nth j vs [])). unfold pull in X. cbv zeta in *. destruct (j =? i); lra.
Qed.
Lemma nicheI_good n : good_niche n (niche_I vs size).
Proof.
  intros fr Ne ND _. destruct (nicheI_ok fr ND) as (nc & E & L & H). exists nc. split; [exact E|]. split; [exact L|]. apply Forall_forall. intros c Hc. apply In_nth_error in Hc as (a & Ha).
  destruct (nth_error fr a) as [i|] eqn:Ei; [|apply nth_error_None in Ei; apply nth_error_lt in Ha; lia]. destruct (H a i Ei) as (c' & Hc' & V). assert (c' = c) as -> by congruence. rewrite V. apply crowd_nonneg.
Qed.
End NicheI.

(** ** the penalty of NSGA-II *)
Section NicheII.
Variable vs : list (list Q).
Variable sort : forall X : Type, (X -> X -> bool) -> list X -> list X.
Hypothesis Hsort : std_sort_ok sort.
Variable fr : list nat.
Notation n := (length fr).
Hypothesis Two : 2 <= n.
Notation x o i := (nth o (nth (nth i fr 0) vs []) 0%Q).
Notation perf o := (sort (Q * nat)%type (fun a b => qltb (fst a) (fst b)) (map (fun i => (x o i, i)) (seq 0 n))).
Lemma perf_ok o : Permutation (map snd (perf o)) (seq 0 n) /\ (forall p, In p (perf o) -> fst p = x o (snd p)) /\ StronglySorted (fun a b => (fst a <= fst b)%Q) (perf o).
Proof.
  destruct (Hsort _ (fun a b : Q * nat => qltb (fst a) (fst b)) (map (fun i => (x o i, i)) (seq 0 n))) as [P S].
  { apply (swo_preimage fst qltb). apply qltb_swo. }
  split; [|split].
  - rewrite <- P, map_map. cbn. rewrite map_id. reflexivity.
  - intros p Hp. apply (Permutation_in _ (Permutation_sym P)) in Hp. apply in_map_iff in Hp as (i & <- & _). reflexivity.
  - clear P. induction S as [|a l S IH H]; constructor; auto. eapply Forall_impl; [|exact H]. cbn. intros b Hb. apply qltb_ge in Hb. exact Hb.
Qed.
Lemma gaps_ok (pf : list (Q * nat)) : NoDup (map snd pf) -> length pf = n -> (forall p, In p pf -> snd p < n) ->
  let nc := gaps pf (repeat 0%Q n) in length nc = n /\ forall k p, nth_error pf k = Some p -> (k = 0 \/ k = n - 1 -> nth_error nc (snd p) = Some 0%Q).
Proof.
  intros ND L Lt. unfold gaps. rewrite L.
  assert (G : forall js nc, length nc = n -> (forall j, In j js -> 1 <= j < n - 1) ->
    let nc' := fold_left (fun nc i => set nc (snd (performance pf i)) (Qminus (fst (performance pf (i + 1))) (fst (performance pf (i - 1))))) js nc in
    length nc' = n /\ forall k p, nth_error pf k = Some p -> k = 0 \/ k = n - 1 -> nth_error nc' (snd p) = nth_error nc (snd p)).
  { induction js as [|j js IH]; intros nc Ln Hj; cbn [fold_left]; cbv zeta; [auto|].
    destruct (IH (set nc (snd (performance pf j)) (fst (performance pf (j + 1)) - fst (performance pf (j - 1)))%Q)) as [I1 I2]; [rewrite set_length; exact Ln|intros; apply Hj; right; auto|]. cbv zeta in I1, I2.
    split; [exact I1|]. intros k p Hk E. rewrite (I2 k p Hk E). apply nth_error_set_neq. intros C. assert (Bj := Hj j (or_introl eq_refl)).
    unfold performance in C. assert (Hpj : nth_error pf j = Some (nth j pf (0%Q, 0))) by (apply nth_error_nth'; lia).
    assert (k = j). { apply (NoDup_nth_error_inj (map snd pf) k j (snd p) ND); rewrite nth_error_map; [rewrite Hk; reflexivity|rewrite Hpj; cbn [option_map]; f_equal; congruence]. } lia. }
  destruct (G (seq 1 (n - 2)) (repeat 0%Q n)) as [G1 G2]; [apply repeat_length|intros j Hj; apply in_seq in Hj; lia|]. cbv zeta in *. split; [exact G1|]. intros k p Hk E. rewrite (G2 k p Hk E).
  assert (X := Lt p (nth_error_In _ _ Hk)). revert X. generalize (snd p). intros q. clear. revert q. generalize (length fr). induction n as [|m IH]; intros [|q] X; cbn; try lia; [reflexivity|apply IH; lia].
Qed.
Lemma objective_ok o count : length count = n -> exists count', niche_objective vs sort fr o count = Ok count' /\ length count' = n /\
  forall i c, nth_error count i = Some c -> exists c', nth_error count' i = Some c' /\
  (((exists p, nth_error (perf o) 0 = Some p /\ snd p = i) \/ (exists p, nth_error (perf o) (n - 1) = Some p /\ snd p = i)) -> (c' == c)%Q) /\
  (~ ((exists p, nth_error (perf o) 0 = Some p /\ snd p = i) \/ (exists p, nth_error (perf o) (n - 1) = Some p /\ snd p = i)) -> (c + 1 <= c')%Q).
Proof.
  intros Lc. destruct (perf_ok o) as (P & V & S). unfold niche_objective. cbv zeta. set (pf := perf o) in *. clearbody pf.
  assert (ND : NoDup (map snd pf)) by (eapply Permutation_NoDup; [apply Permutation_sym; exact P|apply seq_NoDup]).
  assert (Lp : length pf = n) by (rewrite <- (map_length snd), (Permutation_length P), seq_length; reflexivity).
  assert (Lt : forall p, In p pf -> snd p < n). { intros p Hp. apply (in_map snd) in Hp. apply (Permutation_in _ P), in_seq in Hp. lia. }
  destruct (gaps_ok pf ND Lp Lt) as [Lg Zg]. cbv zeta in *. set (nc := gaps pf (repeat 0%Q n)) in *. clearbody nc.
  destruct (max_element_ok nc) as (m & Em & Im & Hm); [destruct nc; cbn in *; [lia|discriminate]|]. rewrite Em. cbn [rbind].
  destruct pf as [|p0 r] eqn:Ep; [cbn in Lp; lia|]. rewrite <- Ep in *.
  assert (H0 : nth_error pf 0 = Some p0) by (rewrite Ep; reflexivity).
  assert (Hl : nth_error pf (n - 1) = Some (last pf p0)).
  { clear - Lp Two. rewrite <- Lp. assert (pf <> []) by (destruct pf; cbn in *; [lia|discriminate]). destruct (exists_last H) as (l & a & ->). rewrite app_length, last_last. cbn. rewrite nth_error_app2 by lia. replace (length l + 1 - 1 - length l) with 0 by lia. reflexivity. }
  set (pl := last pf p0) in *.
  assert (Nd : snd p0 <> snd pl). { intros C. assert (0 = n - 1); [|lia]. apply (NoDup_nth_error_inj (map snd pf) 0 (n - 1) (snd p0) ND); rewrite nth_error_map; [rewrite H0; reflexivity|rewrite Hl; cbn; congruence]. }
  assert (Z0 := Zg 0 p0 H0 (or_introl eq_refl)). assert (Zl := Zg (n - 1) pl Hl (or_intror eq_refl)).
  assert (B0 : snd p0 < n) by (apply Lt; eapply nth_error_In; eauto). assert (Bl : snd pl < n) by (apply Lt; eapply nth_error_In; eauto).
  eexists. split; [reflexivity|]. rewrite map_length, seq_length. split; [reflexivity|]. intros i c Hc. assert (Hi : i < n) by (apply nth_error_lt in Hc; lia).
  rewrite nth_error_map, nth_error_seq' by auto. cbn [option_map Nat.add]. eexists. split; [reflexivity|]. rewrite (List.nth_error_nth _ _ 0%Q Hc).
  assert (Final : nth i (more (more nc (snd p0) (m + 1)%Q) (snd pl) (m + 1)%Q) 0%Q = if i =? snd pl then (0 + (m + 1))%Q else if i =? snd p0 then (0 + (m + 1))%Q else nth i nc 0%Q).
  { unfold more. destruct (Nat.eqb_spec i (snd pl)) as [E|E].
    - rewrite E. apply nth_error_nth. rewrite nth_error_set_eq by (rewrite set_length; lia). do 2 f_equal. apply nth_error_nth. rewrite nth_error_set_neq by auto. exact Zl.
    - rewrite (nth_set _ (snd pl)). replace (i =? snd pl) with false by (symmetry; apply Nat.eqb_neq; exact E). cbn [andb]. rewrite (nth_set _ (snd p0)). destruct (Nat.eqb_spec i (snd p0)) as [E0|E0]; cbn [andb]; [|reflexivity].
      rewrite (proj2 (Nat.ltb_lt _ _)) by lia. f_equal. apply nth_error_nth. exact Z0. }
  rewrite Final. split.
  - intros [(p & Hp & <-)|(p & Hp & <-)].
    + assert (p = p0) as -> by congruence. rewrite Nat.eqb_refl. destruct (snd p0 =? snd pl); lra.
    + assert (p = pl) as -> by congruence. rewrite Nat.eqb_refl. lra.
  - intros N. destruct (Nat.eqb_spec i (snd pl)) as [E|_]; [exfalso; apply N; right; exists pl; split; [exact Hl|congruence]|].
    destruct (Nat.eqb_spec i (snd p0)) as [E|_]; [exfalso; apply N; left; exists p0; split; [exact H0|congruence]|].
    assert (X : In (nth i nc 0%Q) nc) by (apply nth_In; lia). apply Hm in X. lra.
Qed.
Notation ends o i := ((exists p, nth_error (perf o) 0 = Some p /\ snd p = i) \/ (exists p, nth_error (perf o) (n - 1) = Some p /\ snd p = i)).
Lemma ends_dec o i : ends o i \/ ~ ends o i.
Proof.
  assert (D : forall k, (exists p, nth_error (perf o) k = Some p /\ snd p = i) \/ ~ (exists p, nth_error (perf o) k = Some p /\ snd p = i)).
  { intros k. destruct (nth_error (perf o) k) as [p|]; [|right; intros (p & H & _); discriminate]. destruct (Nat.eq_dec (snd p) i) as [E|E]; [left; eauto|right; intros (p' & H & H')]. congruence. }
  destruct (D 0), (D (n - 1)); tauto.
Qed.
Lemma objectives_ok : forall os count, length count = n -> exists count', niche_objectives vs sort fr os count = Ok count' /\ length count' = n /\
  forall i c, nth_error count i = Some c -> exists c', nth_error count' i = Some c' /\ (c <= c')%Q /\
  ((forall o, In o os -> ends o i) -> (c' == c)%Q) /\ ((exists o, In o os /\ ~ ends o i) -> (c + 1 <= c')%Q).
Proof.
  induction os as [|o os IH]; intros count Lc; cbn [niche_objectives].
  - exists count. split; [reflexivity|]. split; [exact Lc|]. intros i c Hc. exists c. split; [exact Hc|]. split; [lra|]. split; [intros _; lra|intros (o & [] & _)].
  - destruct (objective_ok o count Lc) as (c1 & E1 & L1 & H1). rewrite E1. cbn [rbind]. destruct (IH c1 L1) as (c2 & E2 & L2 & H2). exists c2. split; [exact E2|]. split; [exact L2|].
    intros i c Hc. destruct (H1 i c Hc) as (d & Hd & D1 & D2). destruct (H2 i d Hd) as (e & He & Q0 & Q1 & Q2). exists e. split; [exact He|].
    destruct (ends_dec o i) as [En|En].
    + specialize (D1 En). split; [lra|]. split; [intros H; rewrite Q1 by (intros; apply H; right; auto); exact D1|].
      intros (o' & [->|Ho] & N); [contradiction|]. assert (X := Q2 (ex_intro _ o' (conj Ho N))). lra.
    + specialize (D2 En). split; [lra|]. split; [intros H; exfalso; apply En, H; left; reflexivity|]. intros _. lra.
Qed.
Lemma extreme_ends o a i : NoDup fr -> nth_error fr a = Some i -> extreme vs fr o i -> ends o a.
Proof.
  intros ND Ha Ex. destruct (perf_ok o) as (P & V & S). assert (La := nth_error_lt _ _ _ Ha). set (pf := perf o) in *. clearbody pf.
  assert (Lp : length pf = n) by (rewrite <- (map_length snd), (Permutation_length P), seq_length; reflexivity).
  assert (Hin : In a (map snd pf)) by (apply (Permutation_in _ (Permutation_sym P)), in_seq; lia). apply in_map_iff in Hin as (p & Ep & Hp). assert (Vp := V p Hp). apply In_nth_error in Hp as (k & Hk).
  assert (Fa : nth a fr 0 = i) by (apply nth_error_nth; exact Ha). assert (Lk := nth_error_lt _ _ _ Hk).
  assert (Other : forall k' q, k' <> k -> nth_error pf k' = Some q -> In (nth (snd q) fr 0) fr /\ nth (snd q) fr 0 <> i).
  { intros k' q N Hq. assert (Lq : snd q < n). { apply nth_error_In, (in_map snd), (Permutation_in _ P), in_seq in Hq. lia. } split; [apply nth_In; exact Lq|]. intros C.
    assert (Eq : snd q = a). { apply (NoDup_nth_error_inj fr (snd q) a i ND); [rewrite <- C; apply nth_error_nth'; exact Lq|exact Ha]. }
    apply N. assert (NDs : NoDup (map snd pf)) by (eapply Permutation_NoDup; [apply Permutation_sym; exact P|apply seq_NoDup]).
    apply (NoDup_nth_error_inj (map snd pf) k' k a NDs); rewrite nth_error_map; [rewrite Hq|rewrite Hk]; cbn; congruence. }
  destruct Ex as [Ex|Ex].
  - left. exists p. split; [|exact Ep]. destruct k as [|k]; [exact Hk|]. exfalso. destruct (nth_error pf 0) as [q|] eqn:Hq; [|apply nth_error_None in Hq; lia].
    assert (X := StronglySorted_nth _ _ 0 (Datatypes.S k) q p S (Nat.lt_0_succ k) Hq Hk). cbv beta in X. destruct (Other 0 q ltac:(lia) Hq) as [I1 I2]. assert (Y := Ex _ I1 I2). cbv beta in Y. rewrite (V q (nth_error_In _ _ Hq)), Vp, Ep, Fa in X. lra.
  - right. exists p. split; [|exact Ep]. destruct (Nat.eq_dec k (n - 1)) as [->|N]; [exact Hk|]. exfalso. destruct (nth_error pf (n - 1)) as [q|] eqn:Hq; [|apply nth_error_None in Hq; lia].
    assert (X := StronglySorted_nth _ _ k (n - 1) p q S ltac:(lia) Hk Hq). cbv beta in X. destruct (Other (n - 1) q ltac:(lia) Hq) as [I1 I2]. assert (Y := Ex _ I1 I2). cbv beta in Y. rewrite (V q (nth_error_In _ _ Hq)), Vp, Ep, Fa in X. lra.
Qed.
Lemma inside_ends o a i : nth_error fr a = Some i -> inside vs fr o i -> ~ ends o a.
Proof.
  intros Ha [(j & Hj & Lj) (k & Hk & Lk)]. destruct (perf_ok o) as (P & V & S). set (pf := perf o) in *. clearbody pf.
  assert (Lp : length pf = n) by (rewrite <- (map_length snd), (Permutation_length P), seq_length; reflexivity).
  assert (Fa : nth a fr 0 = i) by (apply nth_error_nth; exact Ha).
  assert (At : forall j, In j fr -> exists k q, nth_error pf k = Some q /\ nth (snd q) fr 0 = j).
  { intros j' Hj'. apply In_nth_error in Hj' as (b & Hb). assert (Lb := nth_error_lt _ _ _ Hb). assert (Hin : In b (map snd pf)) by (apply (Permutation_in _ (Permutation_sym P)), in_seq; lia). apply in_map_iff in Hin as (q & Eq & Hq). apply In_nth_error in Hq as (k' & Hq). exists k', q. split; [exact Hq|]. rewrite Eq. apply nth_error_nth. exact Hb. }
  intros [(p & Hp & Ep)|(p & Hp & Ep)].
  - destruct (At j Hj) as (k' & q & Hq & Eq). destruct (Nat.eq_dec k' 0) as [->|N].
    + assert (q = p) as -> by congruence. rewrite Ep, Fa in Eq. subst j. lra.
    + assert (X := StronglySorted_nth _ _ 0 k' p q S ltac:(lia) Hp Hq). cbv beta in X. rewrite (V p (nth_error_In _ _ Hp)), (V q (nth_error_In _ _ Hq)), Ep, Fa, Eq in X. lra.
  - destruct (At k Hk) as (k' & q & Hq & Eq). assert (Lq := nth_error_lt _ _ _ Hq). destruct (Nat.eq_dec k' (n - 1)) as [->|N].
    + assert (q = p) as -> by congruence. rewrite Ep, Fa in Eq. subst k. lra.
    + assert (X := StronglySorted_nth _ _ k' (n - 1) q p S ltac:(lia) Hq Hp). cbv beta in X. rewrite (V p (nth_error_In _ _ Hp)), (V q (nth_error_In _ _ Hq)), Ep, Fa, Eq in X. lra.
Qed.
Lemma nicheII_ok m : NoDup fr -> exists nc, niche_II vs sort m fr = Ok nc /\ length nc = n /\ Forall (fun c => 0 <= c)%Q nc /\
  forall a i, nth_error fr a = Some i -> exists c, nth_error nc a = Some c /\
  ((forall o, o < m -> extreme vs fr o i) -> (c == 0)%Q) /\ ((exists o, o < m /\ inside vs fr o i) -> (1 <= c)%Q).
Proof.
  intros ND. unfold niche_II. destruct (objectives_ok (seq 0 m) (repeat 0%Q n)) as (nc & E & L & H); [apply repeat_length|]. exists nc. split; [exact E|]. split; [exact L|].
  assert (Z : forall a, a < n -> nth_error (repeat 0%Q n) a = Some 0%Q). { generalize (length fr). induction n as [|k IH]; intros [|a] Ha; cbn; try lia; [reflexivity|apply IH; lia]. }
  split.
  - apply Forall_forall. intros c Hc. apply In_nth_error in Hc as (a & Ha). assert (La := nth_error_lt _ _ _ Ha). destruct (H a 0%Q (Z a ltac:(lia))) as (c' & Hc' & B & _). assert (c' = c) as -> by congruence. exact B.
  - intros a i Ha. destruct (H a 0%Q (Z a (nth_error_lt _ _ _ Ha))) as (c & Hc & _ & C1 & C2). exists c. split; [exact Hc|]. split.
    + intros X. apply C1. intros o Ho. apply in_seq in Ho. apply (extreme_ends o a i ND Ha). apply X. lia.
    + intros (o & Ho & X). assert (Y : (0 + 1 <= c)%Q); [|lra]. apply C2. exists o. split; [apply in_seq; lia|]. apply (inside_ends o a i Ha X).
Qed.
End NicheII.
