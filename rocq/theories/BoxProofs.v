(** Proofs about the epsilon hyperbox archive. *)
From Coq Require Import Bool Arith ZArith QArith Qround Qabs Lqa Lia Permutation.
From Verif Require Import Lib Outcome BoundsModel BoundsProofs ParetoModel ParetoSpec ParetoProofs BoxModel BoxSpec.
From Coq Require Import List.
Import ListNotations.
Close Scope Q_scope.
Open Scope nat_scope.

Section P.
Context {G : Type}.
Variable obj : G -> list Q.
Variable tol : Q.
Variable dirs : list bool.
Variable eps : list Q.
Notation sized v := (length (obj v) = length dirs).

(** ** bounds *)
(** [x] is no better than [i], no worse than [n] *)
Definition nb (d : bool) (x y : Q) : Prop := if d then (y <= x)%Q else (x <= y)%Q.
Lemma bett_false d x y : bett d x y = false <-> nb d x y.
Proof. destruct d; cbn; apply qltb_ge. Qed.
Lemma bett_true d x y : bett d x y = true -> nb d y x.
Proof. destruct d; cbn; intros H; apply qltb_lt in H; lra. Qed.
Lemma nb_trans d x y z : nb d x y -> nb d y z -> nb d x z.
Proof. destruct d; cbn; lra. Qed.
Lemma nb_refl d x : nb d x x.
Proof. destruct d; cbn; lra. Qed.
Lemma nb_better d x y : nb d x y <-> ~ better d x y.
Proof. destruct d; cbn; split; intros; try lra. Qed.

Fixpoint within (ds : list bool) (bs : list (Q * Q)) (v : list Q) : Prop :=
  match ds, bs, v with
  | [], [], [] => True
  | d :: ds', (i, n) :: bs', x :: v' => nb d x i /\ nb d n x /\ within ds' bs' v'
  | _, _, _ => False
  end.
Fixpoint ordered (ds : list bool) (bs : list (Q * Q)) : Prop :=
  match ds, bs with
  | [], [] => True
  | d :: ds', (i, n) :: bs' => nb d n i /\ ordered ds' bs'
  | _, _ => False
  end.
Fixpoint above (ds : list bool) (bs : list (Q * Q)) (v : list Q) : Prop :=
  match ds, bs, v with
  | [], [], [] => True
  | d :: ds', (i, n) :: bs', x :: v' => nb d x i /\ above ds' bs' v'
  | _, _, _ => False
  end.
Lemma within_length ds : forall bs v, within ds bs v -> length bs = length ds /\ length v = length ds.
Proof. induction ds as [|d ds IH]; intros [|[i n] bs] [|x v]; cbn; try tauto. intros (_ & _ & H). destruct (IH _ _ H). lia. Qed.
Lemma within_ordered ds : forall bs v, within ds bs v -> ordered ds bs.
Proof. induction ds as [|d ds IH]; intros [|[i n] bs] [|x v]; cbn; try tauto. intros (A & B & H). split; [eapply nb_trans; eauto|eauto]. Qed.

Lemma within_at ds : forall bs v k d i n x, within ds bs v -> nth_error ds k = Some d -> nth_error bs k = Some (i, n) -> nth_error v k = Some x ->
  nb d x i /\ nb d n x.
Proof.
  induction ds as [|d0 ds IH]; intros [|[i0 n0] bs] [|x0 v] k d i n x W Ed Eb Ex; cbn in W; try tauto; [destruct k; discriminate|].
  destruct W as (W1 & W2 & W3). destruct k as [|k]; cbn in Ed, Eb, Ex; [|eauto]. injection Ed as <-. injection Eb as <- <-. injection Ex as <-. auto.
Qed.

Lemma ideal_loop_ok ds : forall bs v r, length v = length ds -> ordered ds bs -> exists bs' r',
  ideal_loop ds bs v r = Ok (bs', r') /\ (r' = r \/ r' = 1%Z) /\ (r' <> 1%Z -> bs' = bs) /\ above ds bs' v /\ ordered ds bs' /\
  (forall w, within ds bs w -> within ds bs' w).
Proof.
  induction ds as [|d ds IH]; intros [|[i n] bs] [|x v] r L O; cbn in L, O; try discriminate; try tauto; cbn.
  - exists [], r. repeat split; auto.
  - destruct O as [O1 O2]. destruct (bett d x i) eqn:B.
    + destruct (IH bs v 1%Z) as (bs' & r' & E & R & K & Ab & Od & W); [lia|auto|]. rewrite E. cbn [rbind].
      exists ((x, n) :: bs'), r'. split; [auto|]. split; [right; tauto|]. split; [intros; tauto|]. apply bett_true in B.
      split; [split; auto using nb_refl|]. split; [split; auto; eapply nb_trans; eauto|].
      intros [|y w]; cbn; [tauto|]. intros (H1 & H2 & H3). split; [|auto]. eapply nb_trans; eauto.
    + destruct (IH bs v r) as (bs' & r' & E & R & K & Ab & Od & W); [lia|auto|]. rewrite E. cbn [rbind].
      exists ((i, n) :: bs'), r'. split; [auto|]. split; [auto|]. split; [intros X; rewrite (K X); auto|]. apply bett_false in B.
      split; [split; auto|]. split; [split; auto|]. intros [|y w]; cbn; [tauto|]. intros (H1 & H2 & H3). auto.
Qed.
Lemma nadir_loop_one ds : forall bs v, above ds bs v -> ordered ds bs -> exists bs',
  nadir_loop ds bs v 1 = Ok (bs', 1%Z) /\ within ds bs' v /\ (forall w, within ds bs w -> within ds bs' w).
Proof.
  induction ds as [|d ds IH]; intros [|[i n] bs] [|x v] A O; cbn in A, O; try tauto; cbn.
  - exists []. auto.
  - destruct A as [A1 A2], O as [O1 O2]. destruct (IH bs v A2 O2) as (bs' & E & W & K). rewrite E. cbn [rbind].
    destruct (bett d n x) eqn:B.
    + exists ((i, x) :: bs'). split; [auto|]. apply bett_true in B. split; [auto using nb_refl|].
      intros [|y w]; cbn; [tauto|]. intros (H1 & H2 & H3). split; [auto|]. split; [|auto]. eapply nb_trans; eauto.
    + exists ((i, n) :: bs'). split; [auto|]. apply bett_false in B. split; [auto|].
      intros [|y w]; cbn; [tauto|]. intros (H1 & H2 & H3). auto.
Qed.
Lemma nadir_loop_other ds : forall bs v r, r <> 1%Z -> above ds bs v -> ordered ds bs -> exists r',
  nadir_loop ds bs v r = Ok (bs, r') /\ ((r' = r /\ (within ds bs v \/ r = (-1)%Z)) \/ r' = (-1)%Z).
Proof.
  induction ds as [|d ds IH]; intros [|[i n] bs] [|x v] r N A O; cbn in A, O; try tauto; cbn.
  - exists r. split; auto.
  - destruct A as [A1 A2], O as [O1 O2]. destruct (bett d n x) eqn:B.
    + destruct (Z.eqb_spec r 1); [lia|]. destruct (IH bs v (-1)%Z) as (r' & E & H); auto; [lia|]. rewrite E. cbn [rbind].
      exists r'. split; auto. right. tauto.
    + destruct (IH bs v r N A2 O2) as (r' & E & H). rewrite E. cbn [rbind]. exists r'. split; auto. apply bett_false in B.
      destruct H as [[-> [H|H]]|H]; [left; tauto|right; auto|right; auto].
Qed.

(** what holds of the bounds and the scale of an archive with members *)
Definition first_scale : list (option Q * Q) := map (fun _ => (Some 1%Q, 0%Q)) dirs.
Record fine (l : list G) (bs : list (Q * Q)) (sc : list (option Q * Q)) : Prop := Fine {
  fine_ord : ordered dirs bs;
  fine_in : forall a, In a l -> within dirs bs (obj a);
  fine_scale : sc = scale_of bs \/ sc = first_scale }.

Lemma changeBounds_ok (st : box G) v : sized v -> fine (mem st) (bnd st) (scale st) ->
  exists st' r, changeBounds obj dirs st v = Ok (st', r) /\ mem st' = mem st /\
  ((r = (-1)%Z /\ st' = st) \/
   ((r = 0%Z \/ r = 1%Z) /\ within dirs (bnd st') (obj v) /\ fine (mem st') (bnd st') (scale st') /\ (r = 0%Z -> st' = st))).
Proof.
  intros L [O W S]. unfold changeBounds.
  destruct (ideal_loop_ok dirs (bnd st) (obj v) 0 L O) as (bs1 & r1 & -> & R & K & Ab & Od & W1). cbn [rbind].
  destruct (Z.eq_dec r1 1) as [->|N].
  - destruct (nadir_loop_one dirs bs1 (obj v) Ab Od) as (bs2 & -> & W2 & K2). cbn [rbind Z.eqb Pos.eqb].
    eexists. exists 1%Z. split; [reflexivity|]. split; [reflexivity|]. right. split; [auto|]. split; [auto|]. split; [|lia].
    split; cbn; auto. eapply within_ordered; eauto.
  - assert (r1 = 0%Z) as -> by tauto. specialize (K N). subst bs1.
    destruct (nadir_loop_other dirs (bnd st) (obj v) 0 N Ab Od) as (r' & -> & H). cbn [rbind].
    assert (E : forall z, z <> 1%Z -> Box (mem st) (bnd st) (if Z.eqb z 1 then scale_of (bnd st) else scale st) = st).
    { intros z Hz. destruct (Z.eqb_spec z 1); [lia|]. destruct st; reflexivity. }
    exists st. destruct H as [[-> [H|H]]|H]; [|lia|].
    + exists 0%Z. rewrite E by lia. split; [reflexivity|]. split; [auto|]. right. split; [auto|]. split; [auto|]. split; [split; auto|auto].
    + exists (-1)%Z. rewrite H, E by lia. split; [reflexivity|]. split; [auto|]. left. auto.
Qed.

(** ** recalculation *)
Lemma widen_ok ds : forall bs v, length v = length ds -> ordered ds bs -> exists bs',
  widen ds bs v = Ok bs' /\ within ds bs' v /\ (forall w, within ds bs w -> within ds bs' w) /\
  (forall k i n, nth_error bs' k = Some (i, n) ->
     exists i0 n0 x, nth_error bs k = Some (i0, n0) /\ nth_error v k = Some x /\ (i = i0 \/ i = x) /\ (n = n0 \/ n = x)).
Proof.
  induction ds as [|d ds IH]; intros [|[i n] bs] [|x v] L O; cbn in L, O; try discriminate; try tauto; cbn.
  - exists []. repeat split; auto. intros [|k]; discriminate.
  - destruct O as [O1 O2]. destruct (IH bs v) as (bs' & E & W & K & H); [lia|auto|]. rewrite E. cbn [rbind].
    destruct (bett d x i) eqn:B; [|destruct (bett d n x) eqn:B2].
    + apply bett_true in B. exists ((x, n) :: bs'). split; [auto|]. split; [split; [apply nb_refl|split; auto; eapply nb_trans; eauto]|]. split.
      * intros [|y w]; cbn; [tauto|]. intros (H1 & H2 & H3). split; [eapply nb_trans; eauto|auto].
      * intros [|k] i' n' Ek; cbn in Ek |- *; [injection Ek as <- <-; eauto 10|eauto].
    + apply bett_false in B. apply bett_true in B2. exists ((i, x) :: bs'). split; [auto|]. split; [auto using nb_refl|]. split.
      * intros [|y w]; cbn; [tauto|]. intros (H1 & H2 & H3). split; [auto|]. split; [eapply nb_trans; eauto|auto].
      * intros [|k] i' n' Ek; cbn in Ek |- *; [injection Ek as <- <-; eauto 10|eauto].
    + apply bett_false in B, B2. exists ((i, n) :: bs'). split; [auto|]. split; [auto|]. split.
      * intros [|y w]; cbn; [tauto|]. intros (H1 & H2 & H3). auto.
      * intros [|k] i' n' Ek; cbn in Ek |- *; [injection Ek as <- <-; eauto 10|eauto].
Qed.
Definition attained (l : list G) (bs : list (Q * Q)) : Prop := forall k i n, nth_error bs k = Some (i, n) ->
  (exists a, In a l /\ nth_error (obj a) k = Some i) /\ (exists a, In a l /\ nth_error (obj a) k = Some n).
Lemma widen_all_ok l : forall bs seen, all_sized obj dirs l -> ordered dirs bs -> attained seen bs ->
  exists bs', widen_all obj dirs bs l = Ok bs' /\ ordered dirs bs' /\ attained (seen ++ l) bs' /\
  (forall w, within dirs bs w -> within dirs bs' w) /\ (forall a, In a l -> within dirs bs' (obj a)).
Proof.
  induction l as [|a l IH]; intros bs seen Sz O At; cbn [widen_all].
  - exists bs. rewrite app_nil_r. split; [auto|]. split; [auto|]. split; [auto|]. split; [auto|]. intros a [].
  - destruct (widen_ok dirs bs (obj a)) as (bs1 & -> & W1 & K1 & H1); [apply Sz; left; auto|auto|]. cbn [rbind].
    destruct (IH bs1 (seen ++ [a])) as (bs' & E & O' & At' & K & W).
    { intros b I. apply Sz. right. auto. } { eapply within_ordered; eauto. }
    { intros k i n E. destruct (H1 k i n E) as (i0 & n0 & x & E0 & Ex & Hi & Hn). destruct (At k i0 n0 E0) as [(u & Iu & Eu) (w & Iw & Ew)]. split.
      - destruct Hi as [->| ->]; [exists u; split; [apply in_or_app; auto|auto]|exists a; split; [apply in_or_app; right; left; auto|auto]].
      - destruct Hn as [->| ->]; [exists w; split; [apply in_or_app; auto|auto]|exists a; split; [apply in_or_app; right; left; auto|auto]]. }
    exists bs'. rewrite <- app_assoc in At'. split; [auto|]. split; [auto|]. split; [auto|]. split; [auto|].
    intros b [<-|I]; auto.
Qed.
Lemma point_ok a : sized a -> within dirs (point (obj a)) (obj a) /\ attained [a] (point (obj a)).
Proof.
  intros L. split.
  - revert L. generalize (obj a) dirs. induction l as [|x l IH]; intros [|d ds] L; cbn in *; try discriminate; auto using nb_refl.
  - intros k i n E. unfold point in E. rewrite nth_error_map' in E. destruct (nth_error (obj a) k) as [x|] eqn:Ex; [|discriminate].
    cbn in E. injection E as <- <-. split; exists a; split; auto; left; auto.
Qed.
Lemma recalculate_ok l : l <> [] -> all_sized obj dirs l -> exists bs,
  recalculateBounds obj dirs l = Ok (Box l bs (scale_of bs)) /\ fine l bs (scale_of bs) /\ attained l bs.
Proof.
  intros N Sz. destruct l as [|a l]; [tauto|]. cbn [recalculateBounds].
  destruct (point_ok a) as [W A]; [apply Sz; left; auto|].
  destruct (widen_all_ok l (point (obj a)) [a]) as (bs & -> & O & At & K & W').
  { intros b I. apply Sz. right. auto. } { eapply within_ordered; eauto. } { auto. }
  cbn [rbind]. exists bs. split; [auto|]. split; [|exact At]. split; auto. intros b [<-|I]; auto.
Qed.
Lemma deleting_ok (st : box G) v : mem st <> [] -> all_sized obj dirs (mem st) -> fine (mem st) (bnd st) (scale st) ->
  exists st', changeBoundsByDeleting obj dirs st v = Ok st' /\ mem st' = mem st /\ fine (mem st') (bnd st') (scale st').
Proof.
  intros N Sz F. unfold changeBoundsByDeleting. destruct (on_bound dirs (bnd st) (obj v)); [|eauto].
  destruct (recalculate_ok (mem st) N Sz) as (bs & -> & F' & _). eexists. split; [reflexivity|]. auto.
Qed.

(** ** corners *)
Lemma scale1_cases i n :
  ((i == n)%Q /\ scale1 (i, n) = (None, i)) \/ exists k mn, scale1 (i, n) = (Some k, mn) /\ (0 < k)%Q /\ ~ (i == n)%Q.
Proof.
  unfold scale1. cbn [fst snd]. destruct (qltb n i) eqn:A.
  - apply qltb_lt in A. destruct (qltb i n) eqn:B; [apply qltb_lt in B; lra|]. right.
    destruct (Qeq_bool (i - n) 0) eqn:E; [apply Qeq_bool_iff in E; lra|]. eexists. exists n. split; [reflexivity|].
    split; [apply Qlt_shift_div_l; lra|lra].
  - apply qltb_ge in A. destruct (qltb i n) eqn:B.
    + apply qltb_lt in B. right.
      destruct (Qeq_bool (n - i) 0) eqn:E; [apply Qeq_bool_iff in E; lra|]. eexists. exists i. split; [reflexivity|].
      split; [apply Qlt_shift_div_l; lra|lra].
    + apply qltb_ge in B. left. split; [lra|]. destruct (Qeq_bool (i - i) 0) eqn:E; [reflexivity|]. apply Qeq_bool_neq in E. exfalso. apply E. lra.
Qed.
Lemma hyperbox_total ds : forall es bs v, length es = length ds -> within ds bs v ->
  exists c, hyperbox ds es (scale_of bs) v = Ok c /\ length c = length ds.
Proof.
  induction ds as [|d ds IH]; intros [|e es] [|[i n] bs] [|x v] L W; cbn in L, W; try discriminate; try tauto.
  - exists []. auto.
  - destruct W as (W1 & W2 & W). destruct (IH es bs v) as (c & E & Lc); [lia|auto|]. unfold scale_of in *. cbn [map hyperbox].
    destruct (scale1_cases i n) as [[S1 ->]|(k & mn & -> & _)]; cbn [rbind].
    + destruct (Qeq_bool x i) eqn:Q; cbn [rbind]; [rewrite E; cbn [rbind]|].
      * eexists. split; [reflexivity|]. cbn. lia.
      * exfalso. apply Qeq_bool_neq in Q. apply Q. destruct d; cbn in W1, W2; lra.
    + rewrite E. cbn [rbind]. eexists. split; [reflexivity|]. cbn. lia.
Qed.
Lemma hyperbox_first ds : forall es v, length es = length ds -> length v = length ds ->
  exists c, hyperbox ds es (map (fun _ => (Some 1%Q, 0%Q)) ds) v = Ok c /\ length c = length ds.
Proof.
  induction ds as [|d ds IH]; intros [|e es] [|x v] L W; cbn in L, W; try discriminate; try tauto.
  - exists []. auto.
  - destruct (IH es v) as (c & E & Lc); [lia|lia|]. cbn [map hyperbox rbind]. rewrite E. cbn [rbind]. eexists. split; [reflexivity|]. cbn. lia.
Qed.
Hypothesis Heps : length eps = length dirs.
Lemma corner_total bs sc v : sc = scale_of bs \/ sc = first_scale -> within dirs bs v ->
  exists c, hyperbox dirs eps sc v = Ok c /\ length c = length dirs.
Proof.
  intros [->| ->] W; [apply hyperbox_total; auto|]. apply hyperbox_first; auto. exact (proj2 (within_length _ _ _ W)).
Qed.
Lemma hyperbox_length ds : forall es sc v c, hyperbox ds es sc v = Ok c -> length c = length ds.
Proof.
  induction ds as [|d ds IH]; intros es sc v c H; cbn in H; [injection H as <-; auto|].
  destruct es as [|e es]; [discriminate|]. destruct sc as [|[k mn] sc]; [discriminate|]. destruct v as [|x v]; [discriminate|].
  apply rbind_ok in H as (r & _ & H). apply rbind_ok in H as (rs & H1 & H). injection H as <-. cbn. f_equal. eauto.
Qed.
Lemma sq_dist_total : forall v c, length v = length c -> same_corner c c = true -> exists q, sq_dist v c = Ok q.
Proof.
  induction v as [|x v IH]; intros [|[z|] c] L H; cbn in *; try discriminate; eauto.
  apply andb_true_iff in H as [_ H]. destruct (IH c) as [q ->]; [lia|auto|]. cbn. eauto.
Qed.
Lemma same_corner_refl : forall c c', length c = length c' -> same_corner c c' = true -> same_corner c c = true.
Proof.
  induction c as [|[z|] c IH]; intros [|[z'|] c'] L H; cbn in *; try discriminate; auto.
  apply andb_true_iff in H as [_ H]. rewrite Z.eqb_refl. cbn. apply (IH c'); auto.
Qed.

(** ** the loop *)
Definition apart (sc : list (option Q * Q)) (corner : list (option Z)) (a : G) : Prop :=
  exists c, hyperbox dirs eps sc (obj a) = Ok c /\ corner_dom tol dirs c corner = false /\
            corner_dom tol dirs corner c = false /\ same_corner corner c = false.
Lemma fill_perm (rest : list G) : Permutation (fill rest) rest.
Proof.
  destruct rest as [|a rest]; [auto|]. unfold fill. rewrite (app_removelast_last a (l := a :: rest)) at 3 by discriminate.
  apply Permutation_cons_append.
Qed.

Lemma scan_ok bs sc change v corner : forall fuel kept todo r,
  length todo <= fuel -> sized v -> length corner = length dirs -> hyperbox dirs eps sc (obj v) = Ok corner ->
  all_sized obj dirs (kept ++ todo) -> fine (kept ++ todo) bs sc -> Forall (apart sc corner) kept ->
  exists st nonstop r', scan obj tol dirs eps fuel bs sc change v corner kept todo r = Ok (st, nonstop, r') /\
  some_of (mem st) (kept ++ todo) /\
  (nonstop = true -> Forall (apart sc corner) (mem st) /\ (r = true \/ mem st <> kept ++ todo -> r' = true)) /\
  (nonstop = false -> mem st <> [] /\ fine (mem st) (bnd st) (scale st)).
Proof.
  induction fuel as [|fuel IH]; intros kept todo r L Sv Lc Hc Sz F Ap.
  { destruct todo as [|a todo]; [|cbn in L; lia]. cbn. eexists. exists true, r. split; [reflexivity|]. rewrite app_nil_r in *. cbn.
    split; [exists []; rewrite app_nil_r; auto|]. split; [|discriminate]. intros _. split; auto. tauto. }
  destruct todo as [|a rest].
  { cbn. eexists. exists true, r. split; [reflexivity|]. rewrite app_nil_r in *. cbn.
    split; [exists []; rewrite app_nil_r; auto|]. split; [|discriminate]. intros _. split; auto. tauto. }
  cbn [length] in L.
  assert (Fa : within dirs bs (obj a)) by (apply (fine_in _ _ _ F), in_or_app; right; left; auto).
  destruct (corner_total bs sc (obj a) (fine_scale _ _ _ F) Fa) as (c & Ec & Lca).
  assert (Pf : Permutation (kept ++ a :: rest) ((kept ++ fill rest) ++ [a])).
  { rewrite <- app_assoc. apply Permutation_app_head. eapply Permutation_trans; [apply Permutation_cons_append|].
    apply Permutation_app_tail, Permutation_sym, fill_perm. }
  assert (If : forall b, In b (kept ++ fill rest) -> In b (kept ++ a :: rest)).
  { intros b I. apply (Permutation_in _ (Permutation_sym Pf)), in_or_app. auto. }
  assert (Lf : length (kept ++ fill rest) < length (kept ++ a :: rest)).
  { rewrite (Permutation_length Pf), !app_length. cbn [length]. lia. }
  assert (Drop : exists st nonstop r', scan obj tol dirs eps fuel bs sc change v corner kept (fill rest) true = Ok (st, nonstop, r') /\
     some_of (mem st) (kept ++ a :: rest) /\
     (nonstop = true -> Forall (apart sc corner) (mem st) /\ (r = true \/ mem st <> kept ++ a :: rest -> r' = true)) /\
     (nonstop = false -> mem st <> [] /\ fine (mem st) (bnd st) (scale st))).
  { destruct (IH kept (fill rest) true) as (st & ns & r' & E & S1 & A1 & B1); auto.
    - rewrite (Permutation_length (fill_perm rest)). lia.
    - intros b I. apply Sz, If; auto.
    - destruct F as [F1 F2 F3]. split; auto.
    - exists st, ns, r'. split; [auto|]. split; [|split; auto].
      + destruct S1 as [g Hg]. exists (g ++ [a]). eapply Permutation_trans; [exact Pf|]. rewrite app_assoc. apply Permutation_app_tail. auto.
      + intros Hn. destruct (A1 Hn) as [X Y]. split; auto. }
  set (st0 := Box (kept ++ a :: rest) bs sc).
  assert (N0 : mem st0 <> []) by (cbn; destruct kept; discriminate).
  assert (Whole : some_of (mem st0) (kept ++ a :: rest)) by (exists []; rewrite app_nil_r; auto).
  cbn [scan]. fold st0. rewrite Ec. cbn [rbind].
  destruct (corner_dom tol dirs c corner) eqn:C1; [exact Drop|].
  destruct (corner_dom tol dirs corner c) eqn:C2.
  { assert (X : exists st', (if Z.eqb change 1 then changeBoundsByDeleting obj dirs st0 v else Ok st0) = Ok st' /\ mem st' = mem st0 /\
       fine (mem st') (bnd st') (scale st')).
    { destruct (Z.eqb change 1); [apply deleting_ok; auto|]. exists st0. auto. }
    destruct X as (st' & -> & M & F'). cbn [rbind]. exists st', false, r. split; [reflexivity|]. rewrite M in *. split; [exact Whole|].
    split; [discriminate|]. intros _. split; auto. }
  destruct (same_corner corner c) eqn:C3.
  - destruct (pareto tol dirs (obj a) (obj v)); [exact Drop|].
    destruct (pareto tol dirs (obj v) (obj a)).
    + destruct (deleting_ok st0 v N0 Sz F) as (st' & -> & M & F'). cbn [rbind]. exists st', false, r. split; [reflexivity|].
      rewrite M in *. split; [exact Whole|]. split; [discriminate|]. intros _. split; auto.
    + pose proof (same_corner_refl corner c ltac:(lia) C3) as Rc.
      destruct (sq_dist_total (obj v) corner ltac:(lia) Rc) as [d1 ->]. cbn [rbind].
      destruct (sq_dist_total (obj a) corner) as [d2 ->]; [rewrite (Sz a); [auto|apply in_or_app; right; left; auto]|auto|]. cbn [rbind].
      destruct (Qle_bool d1 d2); [exact Drop|]. exists st0, false, true. split; [reflexivity|]. split; [exact Whole|]. split; [discriminate|].
      intros _. split; auto.
  - destruct (IH (kept ++ [a]) rest r) as (st & ns & r' & E & S1 & A1 & B1); auto.
    + lia.
    + rewrite <- app_assoc. exact Sz.
    + rewrite <- app_assoc. exact F.
    + apply Forall_app. split; auto. constructor; auto. exists c. auto.
    + rewrite <- app_assoc in *. exists st, ns, r'. split; [auto|]. split; [auto|]. split; auto.
Qed.

(** ** one offer *)
Definition inv (st : box G) : Prop :=
  all_sized obj dirs (mem st) /\
  match mem st with [] => scale st = first_scale | _ => fine (mem st) (bnd st) (scale st) end.
Lemma inv_empty : inv (empty_box dirs).
Proof. split; [intros a []|reflexivity]. Qed.

Lemma offer_cases st v : inv st -> sized v -> exists st' r, offer obj tol dirs eps st v = Ok (st', r) /\ inv st' /\ mem st' <> [] /\
  ((mem st = [] /\ mem st' = [v] /\ r = true /\ attained (mem st') (bnd st')) \/
   (mem st <> [] /\ exists st1 change, changeBounds obj dirs st v = Ok (st1, change) /\ 
    ((change = (-1)%Z /\ st' = st /\ r = false) \/
     ((change = 0%Z \/ change = 1%Z) /\ within dirs (bnd st1) (obj v) /\ fine (mem st) (bnd st1) (scale st1) /\
      exists corner, hyperbox dirs eps (scale st1) (obj v) = Ok corner /\
      ((some_of (mem st') (mem st)) \/
       (r = true /\ exists kept, mem st' = kept ++ [v] /\ some_of kept (mem st) /\ Forall (apart (scale st1) corner) kept /\
        attained (mem st') (bnd st'))))))).
Proof.
  intros [Sz I] L. unfold offer. destruct (mem st) as [|m0 ms] eqn:M.
  - eexists. exists true. split; [reflexivity|]. destruct (point_ok v L) as [W A]. split; [|split; [discriminate|left; auto]].
    split; cbn; [intros b [<-|[]]; auto|]. split; auto; [eapply within_ordered; eauto|intros b [<-|[]]; auto].
  - rewrite <- M in *. assert (N : mem st <> []) by (rewrite M; discriminate). clear M m0 ms.
    destruct (changeBounds_ok st v L I) as (st1 & ch & E & M1 & H). rewrite E. cbn [rbind].
    destruct H as [[-> ->]|(Hch & W & F & _)].
    { cbn. exists st, false. split; [reflexivity|]. split; [split; auto; destruct (mem st); [tauto|auto]|]. split; [auto|]. right. split; [auto|].
      exists st, (-1)%Z. split; auto. }
    replace (ch <? 0)%Z with false by (symmetry; apply Z.ltb_ge; lia).
    destruct (corner_total (bnd st1) (scale st1) (obj v) (fine_scale _ _ _ F) W) as (corner & Ec & Lc). rewrite Ec. cbn [rbind].
    rewrite M1 in F.
    destruct (scan_ok (bnd st1) (scale st1) ch v corner (length (mem st1)) [] (mem st1) false) as (st2 & ns & r' & -> & So & A & B); auto.
    { cbn [app]. rewrite M1. auto. } { cbn [app]. rewrite M1. auto. }
    cbn [rbind]. cbn [app] in So. rewrite M1 in So.
    assert (Sz2 : all_sized obj dirs (mem st2)).
    { intros b J. apply Sz. destruct So as [g Hg]. apply (Permutation_in _ (Permutation_sym Hg)), in_or_app. auto. }
    destruct ns.
    + destruct (recalculate_ok (mem st2 ++ [v])) as (bs & -> & F' & At).
      { destruct (mem st2); discriminate. } { intros b J. apply in_app_or in J as [J|[<-|[]]]; auto. }
      cbn [rbind]. eexists. exists true. split; [reflexivity|]. cbn [mem bnd scale]. split.
      { split; cbn [mem bnd scale].
        - intros b J. apply in_app_or in J as [J|[<-|[]]]; auto.
        - destruct (mem st2 ++ [v]) eqn:Z; [destruct (mem st2); discriminate|]. exact F'. }
      split; [destruct (mem st2); discriminate|]. right. split; [auto|]. exists st1, ch. split; [reflexivity|]. right.
      split; [auto|]. split; [auto|]. split; [auto|]. exists corner. split; [auto|]. right. split; [auto|]. exists (mem st2).
      split; [auto|]. split; [auto|]. split; [apply A; auto|auto].
    + destruct (B eq_refl) as [N2 F2]. exists st2, r'. split; [reflexivity|]. split.
      { split; auto. destruct (mem st2); [tauto|auto]. }
      split; [auto|]. right. split; [auto|]. exists st1, ch. split; [reflexivity|]. right.
      split; [auto|]. split; [auto|]. split; [auto|]. exists corner. split; [auto|]. left. auto.
Qed.
End P.
